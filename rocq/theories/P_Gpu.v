(** Properties C52-C55: the single-GPU backend, and Lanczos runs with several start vectors. *)
From Coq Require Import List Arith ZArith QArith Bool Lia Permutation.
Require Import Verif.Base Verif.AlgModel Verif.AlgSpec Verif.AlgProofs1 Verif.AlgProofs3 Verif.DlaModel Verif.ColModel Verif.ColSpec
  Verif.ColProofs1 Verif.ColEx Verif.LanczosSteps Verif.LanczosVec Verif.GpuModel Verif.GpuSpec Verif.GpuProofs1 Verif.GpuProofs3 Verif.GpuEx.
Import ListNotations.
Local Open Scope nat_scope.

Notation gpuK fo bl qe td cf := (cmK fo qe td (gpuD fo bl (c_nev cf + c_nex cf)) (c_nev cf) (c_nex cf)).

(** C52: g is any solver object on the GPU backend, fresh or used *)
Theorem C52_gpu_results_ascending_and_paired : forall (F V M G T : Type) (fo : fops F) (bl : blas F V M G T) qe td (cf : conf F) sort_idx,
  (forall keys, Permutation (sort_idx keys) (seq 0 (length keys))) ->
  forall fsort (P : F -> Prop) g, order_on fo P -> gpu_sizes (c_nev cf + c_nex cf) (cm_dla g) -> conf_ok cf -> 1 <= c_maxiter cf ->
  no_late_shift bl (c_nev cf + c_nex cf) -> forall ritzv resid o s,
  solve fo (gpuK fo bl qe td cf) fsort sort_idx cf g ritzv resid = Ok o -> o_exit o = Some s -> Forall P (o_ritz o) ->
  let V1 := g_V1 (cm_dla (o_k o)) in
  fsorted_upto fo (c_nev cf) (c_nev cf) (o_ritz o) /\ c_nev cf <= length (o_ritz o) /\ length V1 = c_nev cf + c_nex cf /\
  forall i v x, i < c_nev cf -> nth_error (o_ritz o) i = Some v -> nth_error V1 i = Some x -> ritz_pair_inpl fo bl (g_H (cm_dla g)) v x.
Proof. exact (fun F V M G T fo bl qe td cf => w_sorted fo bl qe td cf). Qed.
Print Assumptions C52_gpu_results_ascending_and_paired.

Theorem C52_gpu_residuals_paired_when_locked_in_order : forall (F V M G T : Type) (fo : fops F) (bl : blas F V M G T) qe td (cf : conf F) sort_idx,
  (forall keys, Permutation (sort_idx keys) (seq 0 (length keys))) ->
  forall fsort g, gpu_sizes (c_nev cf + c_nex cf) (cm_dla g) -> conf_ok cf -> 1 <= c_maxiter cf ->
  no_late_shift bl (c_nev cf + c_nex cf) -> forall ritzv resid o s,
  solve fo (gpuK fo bl qe td cf) fsort sort_idx cf g ritzv resid = Ok o -> o_exit o = Some s ->
  fsorted_upto fo (c_nev cf) (c_nev cf) (whole (ss_ritz s)) ->
  forall i v x r, i < c_nev cf -> nth_error (o_ritz o) i = Some v -> nth_error (g_V1 (cm_dla (o_k o))) i = Some x ->
  nth_error (o_res o) i = Some r -> ritz_pair_inpl fo bl (g_H (cm_dla g)) v x /\ ritz_resid fo bl (g_H (cm_dla g)) v x r.
Proof. exact (fun F V M G T fo bl qe td cf => w_residuals fo bl qe td cf). Qed.
Print Assumptions C52_gpu_residuals_paired_when_locked_in_order.

(** the caller's matrix is untouched; after a run host and device hold the same vectors; a rejected matrix leaves everything as it was *)
Theorem C52_gpu_host_data : forall (F V M G T : Type) (fo : fops F) (bl : blas F V M G T) qe td (cf : conf F) sort_idx,
  (forall keys, Permutation (sort_idx keys) (seq 0 (length keys))) ->
  forall fsort g ritzv resid o, gpu_sizes (c_nev cf + c_nex cf) (cm_dla g) ->
  solve fo (gpuK fo bl qe td cf) fsort sort_idx cf g ritzv resid = Ok o ->
  g_H (cm_dla (o_k o)) = g_H (cm_dla g) /\ gpu_sizes (c_nev cf + c_nex cf) (cm_dla (o_k o)) /\
  (o_exit o <> None -> g_V1 (cm_dla (o_k o)) = is_V1 (g_dev (cm_dla (o_k o)))) /\
  (o_exit o = None -> o_k o = g).
Proof. exact (fun F V M G T fo bl qe td cf => w_matrix fo bl qe td cf). Qed.
Print Assumptions C52_gpu_host_data.

(** a run of two iterations (the first locks one pair) whose final sort exchanges the pairs *)
Example C52_example : gpu_sizes 2 (cm_dla gpu_used) /\ no_late_shift inpB 2 /\ exists k0 ub s0 s1 s2 o,
  k_sym (gpuQ 2 0) gpu_used = Ok (true, k0) /\ solve_init qf (gpuQ 2 0) qfs (qconf 2 0) k0 rv0 rs0 = Ok (ub, s0) /\
  iterate qf (gpuQ 2 0) qsort (qconf 2 0) ub s0 = Ok s1 /\ iterate qf (gpuQ 2 0) qsort (qconf 2 0) ub s1 = Ok s2 /\
  ss_locked s1 = 1 /\ ss_locked s2 = 2 /\
  solve qf (gpuQ 2 0) qfs qsort (qconf 2 0) gpu_used rv0 rs0 = Ok o /\ o_exit o = Some s2 /\
  (exists v x, nth_error (o_ritz o) 0 = Some v /\ nth_error (g_V1 (cm_dla (o_k o))) 0 = Some x /\ qlt (defect v x) (1 # 100) = true /\ qlt (9 # 10) (vnrm x) = true).
Proof. exact (conj (conj eq_refl (conj eq_refl (conj eq_refl eq_refl))) (conj (inpB_no_late_shift 2) gpu_run)). Qed.

(** C53 *)
Theorem C53_gpu_locked_pairs_immutable : forall (F V M G T : Type) (fo : fops F) (bl : blas F V M G T) qe td (cf : conf F) sort_idx,
  (forall keys, Permutation (sort_idx keys) (seq 0 (length keys))) ->
  forall fsort g, gpu_sizes (c_nev cf + c_nex cf) (cm_dla g) -> conf_ok cf -> no_late_shift bl (c_nev cf + c_nex cf) ->
  forall k0 ritzv resid ub s0 s t, let K := gpuK fo bl qe td cf in
  (if c_symcheck cf then k_sym K g else Ok (true, g)) = Ok (true, k0) ->
  solve_init fo K fsort cf k0 ritzv resid = Ok (ub, s0) ->
  reach fo K sort_idx cf ub s0 s -> reach fo K sort_idx cf ub s t ->
  length (fst (ss_ritz s)) = ss_locked s /\ length (fst (ss_res s)) = ss_locked s /\ ss_locked s <= ss_locked t /\
  firstn (ss_locked s) (fst (ss_ritz t)) = fst (ss_ritz s) /\
  firstn (ss_locked s) (fst (ss_res t)) = fst (ss_res s) /\
  firstn (ss_locked s) (is_V1 (g_dev (cm_dla (ss_k t)))) = firstn (ss_locked s) (is_V1 (g_dev (cm_dla (ss_k s)))).
Proof. exact (fun F V M G T fo bl qe td cf => w_locked fo bl qe td cf). Qed.
Print Assumptions C53_gpu_locked_pairs_immutable.

Theorem C53_gpu_buffers_large_enough : forall (F V M G T : Type) (fo : fops F) (bl : blas F V M G T) qe td (cf : conf F) sort_idx,
  (forall keys, Permutation (sort_idx keys) (seq 0 (length keys))) ->
  forall fsort g ritzv resid, let n := c_nev cf + c_nex cf in
  gpu_sizes n (cm_dla g) -> conf_ok cf -> (forall l, length (fsort l) = length l) ->
  n <= length ritzv -> n <= length resid -> 2 <= c_N cf -> 1 <= c_lanczositer cf -> c_approx cf = true ->
  (exists o, solve fo (gpuK fo bl qe td cf) fsort sort_idx cf g ritzv resid = Ok o) \/
  (solve fo (gpuK fo bl qe td cf) fsort sort_idx cf g ritzv resid = UB /\ degree_overflow fo (gpuK fo bl qe td cf) sort_idx fsort cf g ritzv resid).
Proof. exact (fun F V M G T fo bl qe td cf => w_safe fo bl qe td cf). Qed.
Print Assumptions C53_gpu_buffers_large_enough.

(** the second factorisation fails: the in-place backend reports it, the GPU backend reports success with the same columns *)
Theorem C53_gpu_late_failure_reported_refuted : exists i s j t,
  d_chol2 (inplD qf lateB 2) 1 (mk_ist H3 exact2 exact2 false) = Ok (i, s) /\ i <> 0%Z /\
  d_chol2 (gpuD qf lateB 2) 1 (mk_gst H3 exact2 (mk_ist H3 exact2 exact2 false) [0; 0]%Q) = Ok (j, t) /\ j = 0%Z /\ is_V1 (g_dev t) = is_V1 s.
Proof. exact late_unreported. Qed.
Print Assumptions C53_gpu_late_failure_reported_refuted.

(** C54: the two objects differ in the caller's vectors (U, U'), in the matrix left on the device and in the values left there *)
Theorem C54_gpu_result_independent : forall (F V M G T : Type) (fo : fops F) (bl : blas F V M G T) qe td (cf : conf F) sort_idx,
  (forall keys, Permutation (sort_idx keys) (seq 0 (length keys))) ->
  forall fsort l (H h h' : M) (U U' W W' : list V) sw r r' ritzv resid o,
  let g := mk_cm l (mk_gst H U (mk_ist h W W' sw) r) in let g' := mk_cm l (mk_gst H U' (mk_ist h' W W' sw) r') in
  gpu_sizes (c_nev cf + c_nex cf) (cm_dla g) -> gpu_sizes (c_nev cf + c_nex cf) (cm_dla g') ->
  solve fo (gpuK fo bl qe td cf) fsort sort_idx cf g ritzv resid = Ok o ->
  exists o', solve fo (gpuK fo bl qe td cf) fsort sort_idx cf g' ritzv resid = Ok o' /\ o_ritz o' = o_ritz o /\ o_res o' = o_res o /\
    (o_exit o <> None -> g_V1 (cm_dla (o_k o')) = g_V1 (cm_dla (o_k o))).
Proof. exact (fun F V M G T fo bl qe td cf => w_ignores fo bl qe td cf). Qed.
Print Assumptions C54_gpu_result_independent.

(** approximate eigenvectors given to a fresh object: Seq uses them, the GPU backend starts from zero vectors *)
Theorem C54_gpu_start_vectors_used_refuted : exists oc og,
  solve qf (seqQ 2 0) qfs qsort (qconf 2 0) (mk_cm 0 (seq_state seqB 2 0 H3 exact2)) rv0 rs0 = Ok oc /\
  solve qf (gpuQ 2 0) qfs qsort (qconf 2 0) gpu_fresh rv0 rs0 = Ok og /\
  c_approx (qconf 2 0) = true /\ o_ritz oc = [1; 2]%Q /\ o_ritz og = [0; 0]%Q /\ g_V1 (cm_dla (o_k og)) = [[0; 0; 0]; [0; 0; 0]]%Q.
Proof. exact start_ignored. Qed.
Print Assumptions C54_gpu_start_vectors_used_refuted.

(** C55: on the CPU, run i of a multi-vector Lanczos call is the recurrence started from column i alone *)
Theorem C55_lanczos_runs_are_separate : forall (F V M G T : Type) (fo : fops F) (bl : blas F V M G T) (H : M) Mn nv (C : list V) d e b C',
  1 <= Mn -> mlanczos fo bl H Mn nv C = Ok (d, e, b, C') -> (nv <> None -> Mn <= length C) ->
  forall i x, i < match nv with None => 1 | Some m => m end -> nth_error C i = Some x ->
  let run := lanczos_steps fo bl H Mn None (b_scal bl (b_inj bl (f_div fo (f_one fo) (b_nrm2 bl x))) x) in
  (forall k, k < Mn -> nth_error d (k + Mn * i) = option_map fst (nth_error run k)) /\
  (forall k, k < Mn - 1 -> nth_error e (k + Mn * i) = option_map snd (nth_error run k)) /\
  nth_error e (Mn - 1 + Mn * i) = Some (f_zero fo) /\
  nth_error b i = option_map snd (nth_error run (Mn - 1)).
Proof. exact (fun F V M G T fo bl => mlanczos_runs fo bl). Qed.
Print Assumptions C55_lanczos_runs_are_separate.

(** with one vector the GPU backend computes what the CPU computes *)
Theorem C55_gpu_single_vector : forall (F V M G T : Type) (fo : fops F) (bl : blas F V M G T) (H : M) Mn nv (C : list V),
  (forall x, b_mulN bl H x = b_mulH bl H x) -> nv = None \/ nv = Some 1 -> 1 <= length C -> (nv <> None -> Mn <= length C) ->
  g_lanczos fo bl H Mn nv C = mlanczos fo bl H Mn nv C.
Proof. exact (fun F V M G T fo bl => g_lanczos_one fo bl). Qed.
Print Assumptions C55_gpu_single_vector.

(** with two it does not: every vector is updated with the coefficient of the first *)
Theorem C55_gpu_several_vectors_refuted : exists d e b C d1 e1 b1 C1,
  g_lanczos qf inpB H3 2 (Some 2) pair3 = Ok (d, e, b, C) /\ mlanczos qf inpB H3 2 (Some 2) pair3 = Ok (d1, e1, b1, C1) /\
  (forall x, b_mulN inpB H3 x = b_mulH inpB H3 x) /\
  nth_error d 3 = Some (14 # 9)%Q /\ nth_error d1 3 = Some (33 # 20)%Q /\ nth_error e 2 = Some (3 # 2)%Q /\ nth_error e1 2 = Some (5 # 4)%Q.
Proof. exact batch_wrong. Qed.
Print Assumptions C55_gpu_several_vectors_refuted.

Example C55_example : exists d e b C', mlanczos qf inpB H3 2 (Some 2) pair3 = Ok (d, e, b, C') /\
  nth_error d (1 + 2 * 1) = Some (33 # 20)%Q /\ map fst (lanczos_steps qf inpB H3 2 None [0; 1 # 2; 1 # 2]%Q) = [5 # 4; 33 # 20]%Q.
Proof. do 4 eexists. repeat (split; [vm_compute; reflexivity|]). vm_compute. reflexivity. Qed.
