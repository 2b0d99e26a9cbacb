(** C87: the sequential backend on the caller's arrays (leading dimensions, offsets, buffer lengths). *)
From Coq Require Import List Arith ZArith QArith Bool Lia Permutation.
Require Import Verif.Base Verif.AlgModel Verif.AlgSpec Verif.AlgProofs6 Verif.AlgSim Verif.DlaModel Verif.DlaSim Verif.ColModel Verif.ColSpec Verif.ColEx Verif.SfModel Verif.SfSpec
  Verif.SfProofs5 Verif.SfEx.
Import ListNotations.
Local Open Scope nat_scope.

(** the solver on arrays / on columns, and their initial states; H has leading dimension ldh, V1 is N x (nev + nex) *)
Local Notation arrK fo lib qe td cf N ldh := (cmK fo qe td (flatD fo lib N ldh (c_nev cf + c_nex cf)) (c_nev cf) (c_nex cf)).
Local Notation arrS lib cf N l0 H V1 := (mk_cm l0 (flat_state lib N (c_nev cf) (c_nex cf) H V1)).
Local Notation colK fo lib qe td cf N := (cmK fo qe td (colD fo (col_blas fo lib N) false (c_nev cf + c_nex cf)) (c_nev cf) (c_nex cf)).
Local Notation colS fo lib cf N ldh l0 H V1 :=
  (mk_cm l0 (seq_state (col_blas fo lib N) (c_nev cf) (c_nex cf) (window lib N ldh H) (columns N (c_nev cf + c_nex cf) V1))).

Theorem C87_arrays_hold_the_column_run : forall (F T : Type) (fo : fops F) (lib : flib F T) qe td (cf : conf F) N ldh, 1 <= N -> N <= ldh ->
  forall H V1, (N - 1) * ldh + N <= length H -> length V1 = N * (c_nev cf + c_nex cf) -> forall l0 fsort si ritzv resid,
  same_run lib N ldh H (solve fo (arrK fo lib qe td cf N ldh) fsort si cf (arrS lib cf N l0 H V1) ritzv resid)
                       (solve fo (colK fo lib qe td cf N) fsort si cf (colS fo lib cf N ldh l0 H V1) ritzv resid).
Proof. exact (fun F T fo lib qe td cf N ldh N1 NL H V1 HL HV => flat_solve fo lib qe td cf N ldh N1 NL H V1 HL HV). Qed.
Print Assumptions C87_arrays_hold_the_column_run.

(** every call of the solver's interface, from every related pair of states *)
Theorem C87_every_call : forall (F T : Type) (fo : fops F) (lib : flib F T) qe td (cf : conf F) N ldh, 1 <= N -> N <= ldh ->
  forall H, (N - 1) * ldh + N <= length H ->
  kernel_rel (arrK fo lib qe td cf N ldh) (colK fo lib qe td cf N) (cmR (flat_rel lib N ldh (c_nev cf + c_nex cf) H)).
Proof. exact (fun F T fo lib qe td cf N ldh N1 NL H HL => flat_every_call fo lib qe td cf N ldh N1 NL H HL). Qed.
Print Assumptions C87_every_call.

Theorem C87_no_access_outside_the_arrays : forall (F T : Type) (fo : fops F) (lib : flib F T) qe td (cf : conf F) N ldh, 1 <= N -> N <= ldh ->
  forall H V1, (N - 1) * ldh + N <= length H -> length V1 = N * (c_nev cf + c_nex cf) -> forall l0 sort_idx,
  (forall keys, Permutation (sort_idx keys) (seq 0 (length keys))) -> forall fsort ritzv resid,
  let K := arrK fo lib qe td cf N ldh in let k := arrS lib cf N l0 H V1 in let n := c_nev cf + c_nex cf in
  let m := Nat.min n (Nat.min (c_N cf / 2) (c_lanczositer cf)) in
  c_nex cf <= c_nev cf -> conf_ok cf -> (forall l, length (fsort l) = length l) ->
  n <= length ritzv -> n <= length resid -> 2 <= c_N cf -> 1 <= c_lanczositer cf ->
  (c_approx cf = false -> 1 <= c_numlanczos cf <= n /\ forall k u Th Ta rv k',
     k_lanczos2 K m (c_numlanczos cf) k = Ok (u, Th, Ta, rv, k') -> start_ok fo (fsort Th) Th Ta (c_N cf) (c_numlanczos cf) m n) ->
  (exists o, solve fo K fsort sort_idx cf k ritzv resid = Ok o) \/
  (solve fo K fsort sort_idx cf k ritzv resid = UB /\ degree_overflow fo K sort_idx fsort cf k ritzv resid).
Proof. exact (fun F T fo lib qe td cf N ldh N1 NL H V1 HL HV l0 si HP fs rv rs => flat_safe fo lib qe td cf N ldh N1 NL H V1 HL HV l0 si HP fs rv rs). Qed.
Print Assumptions C87_no_access_outside_the_arrays.

(** more extra vectors than wanted pairs: the copies C2 and B2 are too short *)
Theorem C87_copies_overrun_when_nex_exceeds_nev : forall (F T : Type) (fo : fops F) (lib : flib F T) qe td (cf : conf F) N ldh, 1 <= N -> N <= ldh ->
  forall H V1, (N - 1) * ldh + N <= length H -> length V1 = N * (c_nev cf + c_nex cf) -> forall l0 fsort si k0 ritzv resid,
  let K := arrK fo lib qe td cf N ldh in let k := arrS lib cf N l0 H V1 in
  c_nev cf < c_nex cf -> (if c_symcheck cf then k_sym K k else Ok (true, k)) = Ok (true, k0) -> solve fo K fsort si cf k ritzv resid = UB.
Proof. exact (fun F T fo lib qe td cf N ldh N1 NL H V1 HL HV l0 => flat_small fo lib qe td cf N ldh N1 NL H V1 HL HV l0). Qed.
Print Assumptions C87_copies_overrun_when_nex_exceeds_nev.

(** the answers depend on the N x N matrix only, not on how it is embedded in the array *)
Theorem C87_padding_has_no_influence : forall (F T : Type) (fo : fops F) (lib : flib F T) qe td (cf : conf F) N ldh ldh' (H H' V1 : list T),
  1 <= N -> N <= ldh -> N <= ldh' ->
  (N - 1) * ldh + N <= length H -> (N - 1) * ldh' + N <= length H' -> length V1 = N * (c_nev cf + c_nex cf) ->
  (forall i j, i < N -> j < N -> nth_error H (i + j * ldh) = nth_error H' (i + j * ldh')) ->
  forall l0 fsort si ritzv resid,
  let run ld h := solve fo (arrK fo lib qe td cf N ld) fsort si cf (arrS lib cf N l0 h V1) ritzv resid in
  match run ldh H, run ldh' H' with
  | Ok a, Ok b => o_ritz a = o_ritz b /\ o_res a = o_res b /\ f_C (cm_dla (o_k a)) = f_C (cm_dla (o_k b)) /\
      forall i j, i < N -> j < N -> nth_error (f_H (cm_dla (o_k a))) (i + j * ldh) = nth_error (f_H (cm_dla (o_k b))) (i + j * ldh')
  | UB, UB => True | Fuel, Fuel => True | _, _ => False end.
Proof. exact (@flat_padding). Qed.
Print Assumptions C87_padding_has_no_influence.

(** diag(1, 2, 3) with leading dimension 5 and foreign elements between the columns; Householder QR *)
Example C87_example : exists o s, solve qf (flatQ qhh 5 2 0) qfs qsort (fconf 2 0 true) (flat0 2 0 H5 V21) rv0 rs0 = Ok o /\ o_exit o = Some s /\
  ss_locked s = 2 /\ o_ritz o = [1; 2]%Q /\ f_C (cm_dla (o_k o)) = [1; 0; 0;  0; 1; 0]%Q /\ f_H (cm_dla (o_k o)) = H5.
Proof. exact flat_run. Qed.
Example C87_example_hypotheses : (3 - 1) * 5 + 3 <= length H5 /\ length V21 = 3 * (2 + 0) /\ conf_ok (fconf 2 0 true) /\
  (forall i j, i < 3 -> j < 3 -> nth_error H5 (i + j * 5) = nth_error H4 (i + j * 4)).
Proof.
  split; [cbn; lia|]. split; [reflexivity|]. split; [repeat split; cbn; lia|].
  intros [|[|[|i]]] [|[|[|j]]] Hi Hj; try lia; reflexivity.
Qed.
(** leading dimension 4, array ending with the matrix, Cholesky QR *)
Example C87_example_cholesky : exists o s, solve qf (flatQ qchol 4 1 1) qfs qsort (fconf 1 1 true) (flat0 1 1 H4 V21) rv0 rs0 = Ok o /\ o_exit o = Some s /\
  ss_locked s = 1 /\ o_ritz o = [1; 2]%Q /\ f_C (cm_dla (o_k o)) = [1; 0; 0;  0; 1; 0]%Q /\ f_H (cm_dla (o_k o)) = H4.
Proof. exact flat_run4. Qed.
(** one wanted pair, two extra vectors: undefined behaviour already in initVecs *)
Example C87_example_overrun : (exists k0, k_sym (flatQ qhh 5 1 2) (flat0 1 2 H5 [1; 0; 0; 0; 1; 0; 0; 0; 1]%Q) = Ok (true, k0)) /\
  solve qf (flatQ qhh 5 1 2) qfs qsort (fconf 1 2 true) (flat0 1 2 H5 [1; 0; 0; 0; 1; 0; 0; 0; 1]%Q) [1; 2; 3]%Q [0; 0; 0]%Q = UB.
Proof. split; [eexists; vm_compute; reflexivity|vm_compute; reflexivity]. Qed.
(** leading dimension 6 with an array made for 4: the run leaves the array *)
Example C87_example_short_array :
  solve qf (flatQ qhh 6 2 0) qfs qsort (fconf 2 0 true) (flat0 2 0 H4 V21) rv0 rs0 = UB.
Proof. vm_compute. reflexivity. Qed.
