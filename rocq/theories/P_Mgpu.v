(** Properties C62-C64: the multi-GPU backend. *)
From Coq Require Import List Arith ZArith QArith Bool Lia Permutation.
Require Import Verif.Base Verif.AlgModel Verif.AlgSpec Verif.AlgProofs1 Verif.AlgProofs2 Verif.AlgProofs3 Verif.DlaModel Verif.ColModel Verif.ColSpec
  Verif.ColProofs1 Verif.ColEx Verif.GpuEx Verif.MgpuModel Verif.MgpuSpec Verif.MgpuProofs2 Verif.MgpuProofs3 Verif.CawModel Verif.CawSpec Verif.CawProofs Verif.CawProofs2 Verif.MgpuEx.
Import ListNotations.
Local Open Scope nat_scope.

Notation mgpuK fo bl loc scal qe td cf := (cmK fo qe td (mgpuD fo bl loc scal (c_nev cf + c_nex cf)) (c_nev cf) (c_nex cf)).
Notation mpiK fo bl qe td cf := (cmK fo qe td (colD fo bl true (c_nev cf + c_nex cf)) (c_nev cf) (c_nex cf)).
Notation cawK fo bl scal qe td cf := (cmK fo qe td (cawD fo bl scal (c_nev cf) (c_nex cf)) (c_nev cf) (c_nex cf)).

(** C62: g is any object of the multi-GPU backend, fresh or used; its device blocks hold anything *)
Theorem C62_mgpu_same_as_cpu : forall (F V M G T : Type) (fo : fops F) (bl : blas F V M G T) loc qe td (cf : conf F) sort_idx,
  (forall keys, Permutation (sort_idx keys) (seq 0 (length keys))) -> forall fsort,
  beta_zero fo bl -> no_late_failure bl (c_nev cf + c_nex cf) ->
  forall g ritzv resid, mgpu_sizes (c_nev cf + c_nex cf) (cm_dla g) ->
  rel_res (fun a b => o_ritz a = o_ritz b /\ o_res a = o_res b /\ m_C (cm_dla (o_k a)) = cs_C (cm_dla (o_k b)) /\
      (o_exit a = None <-> o_exit b = None) /\ m_H (cm_dla (o_k a)) = m_H (cm_dla g) /\ mgpu_sizes (c_nev cf + c_nex cf) (cm_dla (o_k a)))
    (solve fo (mgpuK fo bl loc false qe td cf) fsort sort_idx cf g ritzv resid)
    (solve fo (mpiK fo bl qe td cf) fsort sort_idx cf (mk_cm (cm_locked g) (host (cm_dla g))) ritzv resid).
Proof. exact (fun F V M G T fo bl loc qe td cf => mgpu_same fo bl loc qe td cf). Qed.
Print Assumptions C62_mgpu_same_as_cpu.

Theorem C62_mgpu_locked_pairs_immutable : forall (F V M G T : Type) (fo : fops F) (bl : blas F V M G T) loc qe td (cf : conf F) sort_idx,
  (forall keys, Permutation (sort_idx keys) (seq 0 (length keys))) -> forall fsort,
  beta_zero fo bl -> no_late_failure bl (c_nev cf + c_nex cf) ->
  forall g, mgpu_sizes (c_nev cf + c_nex cf) (cm_dla g) -> conf_ok cf -> forall k0 ritzv resid ub s0 s t,
  let K := mgpuK fo bl loc false qe td cf in
  (if c_symcheck cf then k_sym K g else Ok (true, g)) = Ok (true, k0) ->
  solve_init fo K fsort cf k0 ritzv resid = Ok (ub, s0) ->
  reach fo K sort_idx cf ub s0 s -> reach fo K sort_idx cf ub s t ->
  length (fst (ss_ritz s)) = ss_locked s /\ length (fst (ss_res s)) = ss_locked s /\ ss_locked s <= ss_locked t /\
  firstn (ss_locked s) (fst (ss_ritz t)) = fst (ss_ritz s) /\
  firstn (ss_locked s) (fst (ss_res t)) = fst (ss_res s) /\
  firstn (ss_locked s) (m_C (cm_dla (ss_k t))) = firstn (ss_locked s) (m_C (cm_dla (ss_k s))).
Proof. exact (fun F V M G T fo bl loc qe td cf => mgpu_locked fo bl loc qe td cf). Qed.
Print Assumptions C62_mgpu_locked_pairs_immutable.

Theorem C62_mgpu_buffers_large_enough : forall (F V M G T : Type) (fo : fops F) (bl : blas F V M G T) loc qe td (cf : conf F) sort_idx,
  (forall keys, Permutation (sort_idx keys) (seq 0 (length keys))) -> forall fsort,
  beta_zero fo bl -> no_late_failure bl (c_nev cf + c_nex cf) ->
  forall g ritzv resid, let n := c_nev cf + c_nex cf in
  mgpu_sizes n (cm_dla g) -> conf_ok cf -> (forall l, length (fsort l) = length l) ->
  n <= length ritzv -> n <= length resid -> 2 <= c_N cf -> 1 <= c_lanczositer cf -> c_approx cf = true ->
  (exists o, solve fo (mgpuK fo bl loc false qe td cf) fsort sort_idx cf g ritzv resid = Ok o) \/
  (solve fo (mgpuK fo bl loc false qe td cf) fsort sort_idx cf g ritzv resid = UB /\
     degree_overflow fo (mpiK fo bl qe td cf) sort_idx fsort cf (mk_cm (cm_locked g) (host (cm_dla g))) ritzv resid).
Proof. exact (fun F V M G T fo bl loc qe td cf => mgpu_safe fo bl loc qe td cf). Qed.
Print Assumptions C62_mgpu_buffers_large_enough.

(** junk in every device block and another matrix on the device; three iterations with Cholesky QR; host and device end up different *)
Example C62_example : beta_zero qf mB /\ no_late_failure mB 2 /\ mgpu_sizes 2 (cm_dla mgpu_used) /\ exists k0 ub s0 s1 s2 s3 o,
  k_sym (mgpuQ false mB qcholon) mgpu_used = Ok (true, k0) /\ solve_init qf (mgpuQ false mB qcholon) qfs (qconf 2 0) k0 rv0 rs0 = Ok (ub, s0) /\
  iterate qf (mgpuQ false mB qcholon) qsort (qconf 2 0) ub s0 = Ok s1 /\ iterate qf (mgpuQ false mB qcholon) qsort (qconf 2 0) ub s1 = Ok s2 /\
  iterate qf (mgpuQ false mB qcholon) qsort (qconf 2 0) ub s2 = Ok s3 /\ ss_locked s1 = 1 /\ ss_locked s2 = 1 /\ ss_locked s3 = 2 /\
  solve qf (mgpuQ false mB qcholon) qfs qsort (qconf 2 0) mgpu_used rv0 rs0 = Ok o /\ o_exit o = Some s3 /\ nth_error (o_ritz o) 1 = Some 2%Q /\
  m_C (cm_dla (o_k o)) <> m_dC (cm_dla (o_k o)).
Proof. exact (conj mB_beta (conj (mB_no_late 2) (conj (conj eq_refl (conj eq_refl (conj eq_refl (conj eq_refl (conj eq_refl eq_refl))))) mgpu_run))). Qed.

(** C63: the same with ScaLAPACK.  diag(1, 2, 3), Cholesky QR fails and the solver falls back to Householder QR: the value
    returned first is below 1/2; the CPU backend and the build without ScaLAPACK return at least 1 *)
Theorem C63_scalapack_build_same_as_cpu_refuted : exists o oc v vc,
  solve qf (mgpuQ true failB qcholon) qfs qsort (qconf 2 0) mgpu_new rv0 rs0 = Ok o /\ o_exit o <> None /\
  solve qf (cpuQ failB qcholon) qfs qsort (qconf 2 0) (mk_cm 0 (host (cm_dla mgpu_new))) rv0 rs0 = Ok oc /\
  nth_error (o_ritz o) 0 = Some v /\ nth_error (o_ritz oc) 0 = Some vc /\ qlt v (1 # 2) = true /\ qlt vc 1 = false /\
  solve qf (mgpuQ false failB qcholon) qfs qsort (qconf 2 0) mgpu_new rv0 rs0 <> UB.
Proof. exact scal_stale. Qed.
Print Assumptions C63_scalapack_build_same_as_cpu_refuted.

(** with Cholesky QR disabled no fresh object ever returns a result: the flag that tells whether C was uploaded is read unset *)
Theorem C63_scalapack_build_fresh_object_undefined : forall (F V M G T : Type) (fo : fops F) (bl : blas F V M G T) loc qe td (cf : conf F) sort_idx fsort
  l (zH H : M) V1 ritzv resid o, ~ chol_on qe -> 1 <= c_nev cf -> 1 <= c_maxiter cf ->
  solve fo (mgpuK fo bl loc true qe td cf) fsort sort_idx cf (mk_cm l (mgpu_state bl (c_nev cf + c_nex cf) zH H V1)) ritzv resid = Ok o -> o_exit o = None.
Proof. exact (fun F V M G T fo bl loc qe td cf si fs l zH H V1 rv rs o HC => scal_fresh_no_result fo bl loc qe td cf si fs (mk_cm l (mgpu_state bl _ zH H V1)) rv rs o HC eq_refl). Qed.
Print Assumptions C63_scalapack_build_fresh_object_undefined.

Example C63_example : ~ chol_on qhh /\ solve qf (mgpuQ true mB qhh) qfs qsort (qconf 2 0) mgpu_new rv0 rs0 = UB.
Proof. split; [discriminate|exact scal_fresh_ub]. Qed.

(** C64: CUDA_AWARE.  If Cholesky QR is enabled, a QR step is defined only when some factorisation failed ... *)
Theorem C64_cuda_aware_cholesky_qr_undefined : forall (F V M G T : Type) (fo : fops F) (bl : blas F V M G T) scal qe nev nex l c s s',
  chol_on qe -> cm_qr fo qe (cawD fo bl scal nev nex) l c s = Ok s' ->
  exists cs (sh : bool), fst (b_potrf bl (if sh then b_dshift bl (b_syherk bl cs) else b_syherk bl cs)) <> 0%Z.
Proof. exact (fun F V M G T fo bl scal qe nev nex => caw_qr_failed fo bl scal qe nev nex). Qed.
Print Assumptions C64_cuda_aware_cholesky_qr_undefined.

(** ... so if the factorisations succeed no solve returns a result *)
Theorem C64_cuda_aware_cholesky_solve_undefined : forall (F V M G T : Type) (fo : fops F) (bl : blas F V M G T) scal qe td (cf : conf F) fsort sort_idx g ritzv resid o,
  chol_on qe -> 1 <= c_nev cf -> 1 <= c_maxiter cf -> (forall a, fst (b_potrf bl a) = 0%Z) ->
  solve fo (cawK fo bl scal qe td cf) fsort sort_idx cf g ritzv resid = Ok o -> o_exit o = None.
Proof. exact (fun F V M G T fo bl scal qe td cf fs si g rv rs o => caw_no_result fo bl scal qe td (c_nev cf) (c_nex cf) cf fs si g rv rs o). Qed.
Print Assumptions C64_cuda_aware_cholesky_solve_undefined.

(** the result depends neither on the vectors the caller passes (U, U') nor, without ScaLAPACK, on the Householder QR:
    h may be any function *)
Theorem C64_cuda_aware_ignores_start_vectors_and_qr : forall (F V M G T : Type) (fo : fops F) (bl : blas F V M G T) scal qe td (cf : conf F) sort_idx,
  (forall keys, Permutation (sort_idx keys) (seq 0 (length keys))) -> forall fsort h, scal = false \/ h = b_hh bl ->
  forall l (H hm hm' : M) (U U' dC dB dC2 dB2 : list V) b r ritzv resid o,
  length U = c_nev cf + c_nex cf -> length U' = c_nev cf + c_nex cf ->
  solve fo (cawK fo bl scal qe td cf) fsort sort_idx cf (mk_cm l (mk_wst H U (mk_cst hm dC dB dC2 dB2 b) r)) ritzv resid = Ok o ->
  exists o', solve fo (cawK fo (swap_hh bl h) scal qe td cf) fsort sort_idx cf (mk_cm l (mk_wst H U' (mk_cst hm' dC dB dC2 dB2 b) r)) ritzv resid = Ok o' /\
    o_ritz o' = o_ritz o /\ o_res o' = o_res o /\
    (o_exit o <> None -> firstn (c_nev cf) (w_C (cm_dla (o_k o'))) = firstn (c_nev cf) (w_C (cm_dla (o_k o)))).
Proof. exact (fun F V M G T fo bl scal qe td cf => caw_ignores fo bl scal qe td cf). Qed.
Print Assumptions C64_cuda_aware_ignores_start_vectors_and_qr.

(** two pairs reported converged, the first vector has norm below 1/10 *)
Theorem C64_cuda_aware_vectors_normalised_refuted : exists o o' s s' x x',
  solve qf (cawQ false mB qhh) qfs qsort (qconf 2 0) (caw_used exact2) rv0 rs0 = Ok o /\ o_exit o = Some s /\ ss_locked s = 2 /\
  solve qf (cawQ true mB qhh) qfs qsort (qconf 2 0) (caw_used exact2) rv0 rs0 = Ok o' /\ o_exit o' = Some s' /\ ss_locked s' = 2 /\
  nth_error (w_C (cm_dla (o_k o))) 0 = Some x /\ nth_error (w_C (cm_dla (o_k o'))) 0 = Some x' /\ qlt (vnrm x) (1 # 10) = true /\ vnrm x' = 1%Q.
Proof. exact caw_unnormalised. Qed.
Print Assumptions C64_cuda_aware_vectors_normalised_refuted.

Example C64_example : chol_on qcholon /\ (forall a, fst (b_potrf mB a) = 0%Z) /\
  solve qf (cawQ false mB qcholon) qfs qsort (qconf 2 0) (caw_used exact2) rv0 rs0 = UB /\
  exists o s, solve qf (cawQ false mB qhh) qfs qsort (qconf 2 0) (caw_used exact2) rv0 rs0 = Ok o /\ o_exit o = Some s /\ ss_locked s = 2 /\
  nth_error (o_ritz o) 1 = Some 2%Q.
Proof. exact (conj eq_refl (conj (fun _ => eq_refl) (conj caw_chol_ub caw_ex))). Qed.

(** the one build that works: ScaLAPACK, Cholesky QR disabled.  Values, residuals and the first nev vectors are those of the CPU
    backend; beyond nev the array of the caller holds what the last orthogonalisation left *)
Theorem C64_cuda_aware_scalapack_householder_same_as_cpu : forall (F V M G T : Type) (fo : fops F) (bl : blas F V M G T) qe td (cf : conf F) sort_idx,
  (forall keys, Permutation (sort_idx keys) (seq 0 (length keys))) -> conf_ok cf -> beta_zero fo bl -> ~ chol_on qe ->
  forall fsort ritzv resid s t, caw_same_problem (c_nev cf + c_nex cf) (c_approx cf) s t ->
  rel_res (fun a b => o_ritz a = o_ritz b /\ o_res a = o_res b /\ (o_exit a = None <-> o_exit b = None) /\
      (o_exit a <> None -> firstn (c_nev cf) (w_C (cm_dla (o_k a))) = firstn (c_nev cf) (cs_C (cm_dla (o_k b)))))
    (solve fo (cawK fo bl true qe td cf) fsort sort_idx cf s ritzv resid)
    (solve fo (mpiK fo bl qe td cf) fsort sort_idx cf t ritzv resid).
Proof. exact (fun F V M G T fo bl qe td cf => caw_as_mpi fo bl qe td cf). Qed.
Print Assumptions C64_cuda_aware_scalapack_householder_same_as_cpu.

(** the array of the caller holds other vectors than the device; two iterations *)
Example C64_example_householder : ~ chol_on qhh /\ beta_zero qf mB /\ conf_ok (qconf 2 0) /\
  caw_same_problem 2 true (caw_used exact2) (mk_cm 5 (mk_cst H3 W3 (rev junk) junk (rev junk) false)) /\
  exists o s, solve qf (cawQ true mB qhh) qfs qsort (qconf 2 0) (caw_used exact2) rv0 rs0 = Ok o /\ o_exit o = Some s /\ ss_locked s = 2 /\ ss_iter s = 2.
Proof.
  split; [discriminate|]. split; [exact mB_beta|]. split; [exact (q_conf_ok 2 0 (le_S _ _ (le_n 1)))|]. split; [repeat split|].
  do 2 eexists. split; [vm_compute; reflexivity|]. split; [vm_compute; reflexivity|]. split; vm_compute; reflexivity.
Qed.
