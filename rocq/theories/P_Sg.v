(** C90: the single-GPU backend on the caller's arrays and the arrays on the device. *)
From Coq Require Import List Arith ZArith QArith Bool Lia Permutation.
Require Import Verif.Base Verif.AlgModel Verif.AlgSpec Verif.AlgProofs6 Verif.AlgSim Verif.DlaModel Verif.DlaSim Verif.ColModel Verif.ColSpec Verif.ColEx Verif.GpuModel Verif.SfModel Verif.SfSpec
  Verif.SfEx Verif.SiModel Verif.SgModel Verif.SgSpec Verif.SgProofs3 Verif.SgEx.
Import ListNotations.
Local Open Scope nat_scope.

(** the solver on arrays / on columns; f is any solver object, fresh or used, and [gpu_columns] the same object as columns *)
Local Notation arrK fo lib qe td cf N ldh := (cmK fo qe td (gflatD fo lib N ldh (c_nev cf + c_nex cf)) (c_nev cf) (c_nex cf)).
Local Notation colK fo lib qe td cf N := (cmK fo qe td (gpuD fo (col_blas fo lib N) (c_nev cf + c_nex cf)) (c_nev cf) (c_nex cf)).

Theorem C90_arrays_hold_the_column_run : forall (F T : Type) (fo : fops F) (lib : flib F T) qe td (cf : conf F) N ldh, 1 <= N -> N <= ldh ->
  forall f, gflat_sizes N ldh (c_nev cf + c_nex cf) f -> forall l0 fsort si ritzv resid,
  same_run_g N (u_H f) (solve fo (arrK fo lib qe td cf N ldh) fsort si cf (mk_cm l0 f) ritzv resid)
    (solve fo (colK fo lib qe td cf N) fsort si cf (mk_cm l0 (gpu_columns lib N ldh (c_nev cf + c_nex cf) f)) ritzv resid).
Proof. exact (fun F T fo lib qe td cf N ldh N1 NL f HS => gflat_solve fo lib qe td cf N ldh N1 NL f HS). Qed.
Print Assumptions C90_arrays_hold_the_column_run.

(** what the constructor makes of the caller's two arrays is such an object *)
Theorem C90_new_objects : forall (F T : Type) (fo : fops F) (lib : flib F T) N ldh nev nex (H V1 : list T),
  (N - 1) * ldh + N <= length H -> length V1 = N * (nev + nex) -> gflat_sizes N ldh (nev + nex) (gflat_state fo lib N nev nex H V1).
Proof. exact (@new_sizes). Qed.
Print Assumptions C90_new_objects.

(** every call of the solver's interface, from every related pair of states *)
Theorem C90_every_call : forall (F T : Type) (fo : fops F) (lib : flib F T) qe td (cf : conf F) N ldh, 1 <= N -> N <= ldh ->
  forall H, (N - 1) * ldh + N <= length H ->
  kernel_rel (arrK fo lib qe td cf N ldh) (colK fo lib qe td cf N) (cmR (gflat_rel lib N ldh (c_nev cf + c_nex cf) H)).
Proof. exact (fun F T fo lib qe td cf N ldh N1 NL H HL => gflat_every_call fo lib qe td cf N ldh N1 NL H HL). Qed.
Print Assumptions C90_every_call.

(** neither on the host nor on the device *)
Theorem C90_no_access_outside_the_arrays : forall (F T : Type) (fo : fops F) (lib : flib F T) qe td (cf : conf F) N ldh, 1 <= N -> N <= ldh ->
  forall f, gflat_sizes N ldh (c_nev cf + c_nex cf) f -> forall l0 sort_idx,
  (forall keys, Permutation (sort_idx keys) (seq 0 (length keys))) -> forall fsort ritzv resid,
  let K := arrK fo lib qe td cf N ldh in let n := c_nev cf + c_nex cf in
  let m := Nat.min n (Nat.min (c_N cf / 2) (c_lanczositer cf)) in
  conf_ok cf -> (forall l, length (fsort l) = length l) ->
  n <= length ritzv -> n <= length resid -> 2 <= c_N cf -> 1 <= c_lanczositer cf ->
  (c_approx cf = false -> 1 <= c_numlanczos cf <= n /\ forall k u Th Ta rv k',
     k_lanczos2 K m (c_numlanczos cf) k = Ok (u, Th, Ta, rv, k') -> start_ok fo (fsort Th) Th Ta (c_N cf) (c_numlanczos cf) m n) ->
  (exists o, solve fo K fsort sort_idx cf (mk_cm l0 f) ritzv resid = Ok o) \/
  (solve fo K fsort sort_idx cf (mk_cm l0 f) ritzv resid = UB /\ degree_overflow fo K sort_idx fsort cf (mk_cm l0 f) ritzv resid).
Proof. exact (fun F T fo lib qe td cf N ldh N1 NL f HS l0 si HP fs rv rs => gflat_safe fo lib qe td cf N ldh N1 NL f HS l0 si HP fs rv rs). Qed.
Print Assumptions C90_no_access_outside_the_arrays.

(** after a solve: the matrix array of the caller is untouched, the vector array of the caller has the vectors of the device, and
    the object meets the hypotheses of these theorems again *)
Theorem C90_host_arrays_after_a_solve : forall (F T : Type) (fo : fops F) (lib : flib F T) qe td (cf : conf F) N ldh, 1 <= N -> N <= ldh ->
  forall f, gflat_sizes N ldh (c_nev cf + c_nex cf) f -> forall l0 sort_idx,
  (forall keys, Permutation (sort_idx keys) (seq 0 (length keys))) -> forall fsort ritzv resid o,
  solve fo (arrK fo lib qe td cf N ldh) fsort sort_idx cf (mk_cm l0 f) ritzv resid = Ok o ->
  let f' := cm_dla (o_k o) in
  u_H f' = u_H f /\ gflat_sizes N ldh (c_nev cf + c_nex cf) f' /\ (o_exit o <> None -> u_V f' = SiModel.g_V1 (u_d f')).
Proof. exact (fun F T fo lib qe td cf N ldh N1 NL f HS l0 si HP => gflat_after fo lib qe td cf N ldh N1 NL f HS l0 si HP). Qed.
Print Assumptions C90_host_arrays_after_a_solve.

(** padding, leading dimension, the caller's vectors, and on the device the matrix, the work matrix, the values and the residuals
    left by earlier solves have no influence *)
Theorem C90_only_matrix_and_device_vectors_matter : forall (F T : Type) (fo : fops F) (lib : flib F T) qe td (cf : conf F) sort_idx,
  (forall keys, Permutation (sort_idx keys) (seq 0 (length keys))) -> forall fsort N ldh ldh' l0 (f f' : gfs (F := F) (T := T)),
  let n := c_nev cf + c_nex cf in
  1 <= N -> N <= ldh -> N <= ldh' -> gflat_sizes N ldh n f -> gflat_sizes N ldh' n f' ->
  (forall i j, i < N -> j < N -> nth_error (u_H f) (i + j * ldh) = nth_error (u_H f') (i + j * ldh')) ->
  SiModel.g_V1 (u_d f) = SiModel.g_V1 (u_d f') -> g_V2 (u_d f) = g_V2 (u_d f') -> g_sw (u_d f) = g_sw (u_d f') ->
  forall ritzv resid o,
  let run ld g := solve fo (arrK fo lib qe td cf N ld) fsort sort_idx cf (mk_cm l0 g) ritzv resid in
  run ldh f = Ok o -> exists o', run ldh' f' = Ok o' /\ o_ritz o' = o_ritz o /\ o_res o' = o_res o /\
    (o_exit o <> None -> u_V (cm_dla (o_k o')) = u_V (cm_dla (o_k o))).
Proof. exact (@gflat_only_matrix). Qed.
Print Assumptions C90_only_matrix_and_device_vectors_matter.

(** exact eigenvectors in the caller's array, approximate mode, a new object: they are not uploaded, and zeros are written over them *)
Theorem C90_vectors_of_the_caller_used_refuted : exists o,
  solve qf (gflatQ qhh 5 2 0) qfs qsort (fconf 2 0 true) (mk_cm 0 (gflat_state qf (qlib 0) 3 2 0 H5 [1; 0; 0;  0; 1; 0]%Q)) rv0 rs0 = Ok o /\
  o_ritz o = [0; 0]%Q /\ u_V (cm_dla (o_k o)) = repeat 0%Q 6.
Proof. exact gflat_fresh. Qed.
Print Assumptions C90_vectors_of_the_caller_used_refuted.

(** diag(1, 2, 3) with leading dimension 5 and foreign elements between the columns, on an object used before *)
Example C90_example : exists o s, solve qf (gflatQ qhh 5 2 0) qfs qsort (fconf 2 0 true) (mk_cm 0 (used H5)) rv0 rs0 = Ok o /\ o_exit o = Some s /\
  ss_locked s = 2 /\ o_ritz o = [1; 2]%Q /\ u_V (cm_dla (o_k o)) = [1; 0; 0;  0; 1; 0]%Q /\ u_H (cm_dla (o_k o)) = H5 /\ SiModel.g_V1 (u_d (cm_dla (o_k o))) = [1; 0; 0;  0; 1; 0]%Q.
Proof. exact gflat_run. Qed.
Example C90_example_hypotheses : gflat_sizes 3 5 2 (used H5) /\ gflat_sizes 3 4 2 (used H4) /\ gflat_sizes 3 5 2 (gflat_state qf (qlib 0) 3 2 0 H5 V21) /\ conf_ok (fconf 2 0 true) /\
  (forall i j, i < 3 -> j < 3 -> nth_error H5 (i + j * 5) = nth_error H4 (i + j * 4)).
Proof.
  split; [repeat split; cbn; lia|]. split; [repeat split; cbn; lia|]. split; [repeat split; cbn; lia|]. split; [repeat split; cbn; lia|].
  intros [|[|[|i]]] [|[|[|j]]] Hi Hj; try lia; reflexivity.
Qed.
(** leading dimension 4, array ending with the matrix, Cholesky QR *)
Example C90_example_cholesky : exists o s, solve qf (gflatQ qchol 4 1 1) qfs qsort (fconf 1 1 true) (mk_cm 0 (used H4)) rv0 rs0 = Ok o /\ o_exit o = Some s /\
  ss_locked s = 1 /\ o_ritz o = [1; 2]%Q /\ u_V (cm_dla (o_k o)) = [1; 0; 0;  0; 1; 0]%Q /\ u_H (cm_dla (o_k o)) = H4.
Proof. exact gflat_run4. Qed.
(** leading dimension 6 with an array made for 4: the copy to the device leaves the caller's array *)
Example C90_example_short_array : solve qf (gflatQ qhh 6 2 0) qfs qsort (fconf 2 0 true) (mk_cm 0 (used H4)) rv0 rs0 = UB.
Proof. vm_compute. reflexivity. Qed.
