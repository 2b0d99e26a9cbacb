(** C88: the in-place sequential backend on the caller's arrays (leading dimensions, offsets, exchanged pointers). *)
From Coq Require Import List Arith ZArith QArith Bool Lia Permutation.
Require Import Verif.Base Verif.AlgModel Verif.AlgSpec Verif.AlgProofs6 Verif.AlgSim Verif.DlaModel Verif.DlaSim Verif.ColModel Verif.ColSpec Verif.ColEx Verif.SfModel Verif.SfSpec
  Verif.SfEx Verif.SiModel Verif.SiSpec Verif.SiProofs3 Verif.SiEx.
Import ListNotations.
Local Open Scope nat_scope.

(** the solver on arrays / on columns, and their initial states; H has leading dimension ldh, V1 is N x (nev + nex) *)
Local Notation arrK fo lib qe td cf N ldh := (cmK fo qe td (iflatD fo lib N ldh (c_nev cf + c_nex cf)) (c_nev cf) (c_nex cf)).
Local Notation arrS lib cf N l0 H V1 := (mk_cm l0 (iflat_state lib N (c_nev cf) (c_nex cf) H V1)).
Local Notation colK fo lib qe td cf N := (cmK fo qe td (inplD fo (col_blas fo lib N) (c_nev cf + c_nex cf)) (c_nev cf) (c_nex cf)).
Local Notation colS fo lib cf N ldh l0 H V1 :=
  (mk_cm l0 (inpl_state (col_blas fo lib N) (c_nev cf) (c_nex cf) (window lib N ldh H) (columns N (c_nev cf + c_nex cf) V1))).

Theorem C88_arrays_hold_the_column_run : forall (F T : Type) (fo : fops F) (lib : flib F T) qe td (cf : conf F) N ldh, 1 <= N -> N <= ldh ->
  forall H V1, (N - 1) * ldh + N <= length H -> length V1 = N * (c_nev cf + c_nex cf) -> forall l0 fsort si ritzv resid,
  same_run_i lib N ldh H (solve fo (arrK fo lib qe td cf N ldh) fsort si cf (arrS lib cf N l0 H V1) ritzv resid)
                         (solve fo (colK fo lib qe td cf N) fsort si cf (colS fo lib cf N ldh l0 H V1) ritzv resid).
Proof. exact (fun F T fo lib qe td cf N ldh N1 NL H V1 HL HV => iflat_solve fo lib qe td cf N ldh N1 NL H V1 HL HV). Qed.
Print Assumptions C88_arrays_hold_the_column_run.

(** every call of the solver's interface, from every related pair of states *)
Theorem C88_every_call : forall (F T : Type) (fo : fops F) (lib : flib F T) qe td (cf : conf F) N ldh, 1 <= N -> N <= ldh ->
  forall H, (N - 1) * ldh + N <= length H ->
  kernel_rel (arrK fo lib qe td cf N ldh) (colK fo lib qe td cf N) (cmR (iflat_rel lib N ldh (c_nev cf + c_nex cf) H)).
Proof. exact (fun F T fo lib qe td cf N ldh N1 NL H HL => iflat_every_call fo lib qe td cf N ldh N1 NL H HL). Qed.
Print Assumptions C88_every_call.

(** no relation between nev and nex is needed *)
Theorem C88_no_access_outside_the_arrays : forall (F T : Type) (fo : fops F) (lib : flib F T) qe td (cf : conf F) N ldh, 1 <= N -> N <= ldh ->
  forall H V1, (N - 1) * ldh + N <= length H -> length V1 = N * (c_nev cf + c_nex cf) -> forall l0 sort_idx,
  (forall keys, Permutation (sort_idx keys) (seq 0 (length keys))) -> forall fsort ritzv resid,
  let K := arrK fo lib qe td cf N ldh in let k := arrS lib cf N l0 H V1 in let n := c_nev cf + c_nex cf in
  let m := Nat.min n (Nat.min (c_N cf / 2) (c_lanczositer cf)) in
  conf_ok cf -> (forall l, length (fsort l) = length l) ->
  n <= length ritzv -> n <= length resid -> 2 <= c_N cf -> 1 <= c_lanczositer cf ->
  (c_approx cf = false -> 1 <= c_numlanczos cf <= n /\ forall k u Th Ta rv k',
     k_lanczos2 K m (c_numlanczos cf) k = Ok (u, Th, Ta, rv, k') -> start_ok fo (fsort Th) Th Ta (c_N cf) (c_numlanczos cf) m n) ->
  (exists o, solve fo K fsort sort_idx cf k ritzv resid = Ok o) \/
  (solve fo K fsort sort_idx cf k ritzv resid = UB /\ degree_overflow fo K sort_idx fsort cf k ritzv resid).
Proof. exact (fun F T fo lib qe td cf N ldh N1 NL H V1 HL HV l0 si HP fs rv rs => iflat_safe fo lib qe td cf N ldh N1 NL H V1 HL HV l0 si HP fs rv rs). Qed.
Print Assumptions C88_no_access_outside_the_arrays.

(** the caller's array is the one with the vectors after an even number of iterations, the other one after an odd number *)
Theorem C88_array_by_parity : forall (F T : Type) (fo : fops F) (lib : flib F T) qe td (cf : conf F) N ldh, 1 <= N -> N <= ldh ->
  forall H V1, (N - 1) * ldh + N <= length H -> length V1 = N * (c_nev cf + c_nex cf) -> forall l0 sort_idx,
  (forall keys, Permutation (sort_idx keys) (seq 0 (length keys))) -> forall fsort ritzv resid o s, conf_ok cf ->
  solve fo (arrK fo lib qe td cf N ldh) fsort sort_idx cf (arrS lib cf N l0 H V1) ritzv resid = Ok o -> o_exit o = Some s ->
  (Nat.even (ss_iter s) = true -> user_array (cm_dla (o_k o)) = g_V1 (cm_dla (o_k o))) /\
  (Nat.even (ss_iter s) = false -> user_array (cm_dla (o_k o)) = g_V2 (cm_dla (o_k o))).
Proof. exact (fun F T fo lib qe td cf N ldh N1 NL H V1 HL HV l0 si HP => iflat_parity fo lib qe td cf N ldh N1 NL H V1 HL HV l0 si HP). Qed.
Print Assumptions C88_array_by_parity.

(** converged after one iteration: the array passed by the caller contains the residual vectors, here zeros *)
Theorem C88_array_holds_the_vectors_refuted : exists o s,
  solve qf (iflatQ qhh 5 2 0) qfs qsort (fconf 2 0 true) (iflat0 2 0 H5 V21) rv0 rs0 = Ok o /\ o_exit o = Some s /\
  ss_iter s = 1 /\ ss_locked s = 2 /\ o_ritz o = [1; 2]%Q /\ g_V1 (cm_dla (o_k o)) = [1; 0; 0;  0; 1; 0]%Q /\ user_array (cm_dla (o_k o)) = [0; 0; 0;  0; 0; 0]%Q.
Proof. exact iflat_run_odd. Qed.
Print Assumptions C88_array_holds_the_vectors_refuted.

(** the answers depend on the N x N matrix only, not on how it is embedded in the array *)
Theorem C88_padding_has_no_influence : forall (F T : Type) (fo : fops F) (lib : flib F T) qe td (cf : conf F) N ldh ldh' (H H' V1 : list T),
  1 <= N -> N <= ldh -> N <= ldh' ->
  (N - 1) * ldh + N <= length H -> (N - 1) * ldh' + N <= length H' -> length V1 = N * (c_nev cf + c_nex cf) ->
  (forall i j, i < N -> j < N -> nth_error H (i + j * ldh) = nth_error H' (i + j * ldh')) ->
  forall l0 fsort si ritzv resid,
  let run ld h := solve fo (arrK fo lib qe td cf N ld) fsort si cf (arrS lib cf N l0 h V1) ritzv resid in
  match run ldh H, run ldh' H' with
  | Ok a, Ok b => o_ritz a = o_ritz b /\ o_res a = o_res b /\ user_array (cm_dla (o_k a)) = user_array (cm_dla (o_k b)) /\
      g_V1 (cm_dla (o_k a)) = g_V1 (cm_dla (o_k b)) /\
      forall i j, i < N -> j < N -> nth_error (g_H (cm_dla (o_k a))) (i + j * ldh) = nth_error (g_H (cm_dla (o_k b))) (i + j * ldh')
  | UB, UB => True | Fuel, Fuel => True | _, _ => False end.
Proof. exact (@iflat_padding). Qed.
Print Assumptions C88_padding_has_no_influence.

(** diag(1, 2, 3) with leading dimension 5 and foreign elements between the columns; two iterations *)
Example C88_example : exists o s, solve qf (iflatQ qhh 5 2 0) qfs qsort (fconf 2 0 true) (iflat0 2 0 H5 V23) rv0 rs0 = Ok o /\ o_exit o = Some s /\
  ss_iter s = 2 /\ ss_locked s = 2 /\ user_array (cm_dla (o_k o)) = g_V1 (cm_dla (o_k o)) /\ skipn 3 (user_array (cm_dla (o_k o))) = [0; 1; 0]%Q /\ g_H (cm_dla (o_k o)) = H5.
Proof. exact iflat_run_even. Qed.
Example C88_example_hypotheses : (3 - 1) * 5 + 3 <= length H5 /\ length V23 = 3 * (2 + 0) /\ conf_ok (fconf 2 0 true) /\
  (forall i j, i < 3 -> j < 3 -> nth_error H5 (i + j * 5) = nth_error H4 (i + j * 4)).
Proof.
  split; [cbn; lia|]. split; [reflexivity|]. split; [repeat split; cbn; lia|].
  intros [|[|[|i]]] [|[|[|j]]] Hi Hj; try lia; reflexivity.
Qed.
(** leading dimension 4, array ending with the matrix, Cholesky QR *)
Example C88_example_cholesky : exists o s, solve qf (iflatQ qchol 4 1 1) qfs qsort (fconf 1 1 true) (iflat0 1 1 H4 V21) rv0 rs0 = Ok o /\ o_exit o = Some s /\
  ss_locked s = 1 /\ o_ritz o = [1; 2]%Q /\ g_V1 (cm_dla (o_k o)) = [1; 0; 0;  0; 1; 0]%Q /\ g_H (cm_dla (o_k o)) = H4.
Proof. exact iflat_run4. Qed.
(** one wanted pair, two extra vectors: no overrun (compare C87_example_overrun) *)
Example C88_example_more_extra : exists o, solve qf (iflatQ qhh 5 1 2) qfs qsort (fconf 1 2 true) (iflat0 1 2 H5 [1; 0; 0; 0; 1; 0; 0; 0; 1]%Q) [1; 2; 3]%Q [0; 0; 0]%Q = Ok o.
Proof. eexists. vm_compute. reflexivity. Qed.
(** leading dimension 6 with an array made for 4: the run leaves the array *)
Example C88_example_short_array :
  solve qf (iflatQ qhh 6 2 0) qfs qsort (fconf 2 0 true) (iflat0 2 0 H4 V21) rv0 rs0 = UB.
Proof. vm_compute. reflexivity. Qed.
