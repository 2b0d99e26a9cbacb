(** Property C69: results do not depend on when the GPU runs what was enqueued. *)
From Coq Require Import List Arith ZArith QArith Bool Lia Permutation.
Require Import Verif.Base Verif.AlgModel Verif.AlgSpec Verif.AlgProofs1 Verif.DlaModel Verif.ColModel Verif.ColSpec Verif.ColEx Verif.GpuModel Verif.GpuSpec
  Verif.GpuEx Verif.AsyncModel Verif.AsyncSpec Verif.AsyncProofs Verif.AsyncSolve Verif.AsyncMgpu Verif.AsyncFinal Verif.AsyncEx.
Import ListNotations.
Local Open Scope nat_scope.

Notation asyncK fo bl trace gshift sch qe td cf :=
  (cmK fo qe td (asyncD fo bl (c_nev cf + c_nex cf) trace gshift sch) (c_nev cf) (c_nex cf)).
Notation gpuK fo bl qe td cf := (cmK fo qe td (gpuD fo bl (c_nev cf + c_nex cf)) (c_nev cf) (c_nex cf)).

(** any program over mutually ordered streams in which memory is accessed from outside only after a wait computes, under
    every schedule of the device, what program order computes (undefined exactly when program order is) *)
Theorem C69_program_order : forall (D : Type) (U : stream -> Prop), one_line U -> forall (sch : nat -> list nat) (A : Type) (p : prog D A) d0 a d1,
  uses U p -> guarded true p ->
  (exists t c, exec sch p 0 (mk_cfg d0 []) = Ok (a, (t, c)) /\ finished c = Ok d1) <-> in_order p d0 = Ok (a, d1).
Proof. exact (fun D U HU sch A p d0 a d1 => exec_in_order U HU sch p d0 a d1). Qed.
Print Assumptions C69_program_order.
Example C69_program_order_example : one_line two /\
  let p := Dev (Blk 0) (fun d => Ok (d + 1)%Z) (Dev Legacy (fun d => Ok (d * 2)%Z) (Get (Blk 0) (fun d => Ok d) (fun x => Dev (Blk 0) (fun d => Ok (d - x)%Z) (Ret x)))) in
  uses two p /\ guarded true p /\ in_order p 3%Z = Ok (8%Z, 0%Z) /\
  exists t c, exec odd_ p 0 (mk_cfg 3%Z []) = Ok (8%Z, (t, c)) /\ length (c_queue c) = 1.
Proof.
  split; [exact two_line|]. cbn zeta. split; [repeat split; (now left) || (now right)|]. split; [cbn; auto|]. split; [reflexivity|].
  do 2 eexists. split; reflexivity.
Qed.

(** with one stream that is not ordered with the others this is false *)
Theorem C69_nonblocking_stream_refuted : let p := Dev (NonBlk 1) (fun _ : Z => Ok 7%Z) (Get Legacy (fun d => Ok d) Ret) in
  in_order p 0%Z = Ok (7%Z, 7%Z) /\ (exists t c, exec lazy p 0 (mk_cfg 0%Z []) = Ok (0%Z, (t, c))) /\
  exists t c, exec eager p 0 (mk_cfg 0%Z []) = Ok (7%Z, (t, c)).
Proof. exact stream_race. Qed.
Print Assumptions C69_nonblocking_stream_refuted.

(** a whole solve on the single-GPU backend.  [s]: the object, possibly with operations of earlier calls still waiting; [g]: what
    it is when they have run *)
Theorem C69_async_solve : forall (F V M G T : Type) (fo : fops F) (bl : blas F V M G T) trace gshift,
  (forall A, b_dshift bl A = gshift A (trace A)) -> forall sch qe td (cf : conf F) fsort si s g ritzv resid o,
  cm_locked s = cm_locked g -> stands_for (cm_dla s) (cm_dla g) ->
  solve fo (gpuK fo bl qe td cf) fsort si cf g ritzv resid = Ok o ->
  exists o', solve fo (asyncK fo bl trace gshift sch qe td cf) fsort si cf s ritzv resid = Ok o' /\
    o_ritz o' = o_ritz o /\ o_res o' = o_res o /\ (o_exit o' = None <-> o_exit o = None) /\
    h_V1 (t_obj (cm_dla (o_k o'))) = g_V1 (cm_dla (o_k o)) /\ h_H (t_obj (cm_dla (o_k o'))) = g_H (cm_dla (o_k o)) /\
    cm_locked (o_k o') = cm_locked (o_k o) /\ stands_for (cm_dla (o_k o')) (cm_dla (o_k o)).
Proof. exact (fun F V M G T fo bl trace gshift H sch qe td cf => async_solve fo bl (c_nev cf + c_nex cf) trace gshift H sch qe td cf). Qed.
Print Assumptions C69_async_solve.
Example C69_async_solve_example sch : stands_for (cm_dla async_used) (cm_dla gpu_used) /\ length (c_queue (t_cfg (cm_dla async_used))) = 2 /\
  exists o o', solve qf (gpuQ 2 0) qfs qsort (qconf 2 0) gpu_used rv0 rs0 = Ok o /\ o_exit o <> None /\
  solve qf (asyncQ sch 2 0) qfs qsort (qconf 2 0) async_used rv0 rs0 = Ok o' /\
  o_ritz o' = o_ritz o /\ h_V1 (t_obj (cm_dla (o_k o'))) = g_V1 (cm_dla (o_k o)).
Proof. exact (conj used_stands (conj eq_refl (async_run sch))). Qed.

(** the values, residuals and vectors are the same for all schedules *)
Theorem C69_schedules_agree : forall (F V M G T : Type) (fo : fops F) (bl : blas F V M G T) trace gshift,
  (forall A, b_dshift bl A = gshift A (trace A)) -> forall qe td (cf : conf F) sort_idx,
  (forall keys, Permutation (sort_idx keys) (seq 0 (length keys))) ->
  forall fsort s g ritzv resid, let n := c_nev cf + c_nex cf in
  cm_locked s = cm_locked g -> stands_for (cm_dla s) (cm_dla g) ->
  gpu_sizes n (cm_dla g) -> conf_ok cf -> (forall l, length (fsort l) = length l) ->
  n <= length ritzv -> n <= length resid -> 2 <= c_N cf -> 1 <= c_lanczositer cf -> c_approx cf = true ->
  degree_overflow fo (gpuK fo bl qe td cf) sort_idx fsort cf g ritzv resid \/
  exists values residuals vectors, forall sch, exists o, solve fo (asyncK fo bl trace gshift sch qe td cf) fsort sort_idx cf s ritzv resid = Ok o /\
    o_ritz o = values /\ o_res o = residuals /\ h_V1 (t_obj (cm_dla (o_k o))) = vectors /\ h_H (t_obj (cm_dla (o_k o))) = h_H (t_obj (cm_dla s)).
Proof. exact (fun F V M G T fo bl trace gshift H qe td cf si HP => schedules_agree fo bl trace gshift H qe td cf si HP). Qed.
Print Assumptions C69_schedules_agree.

(** and they are ascending and paired *)
Theorem C69_async_results_ascending_and_paired : forall (F V M G T : Type) (fo : fops F) (bl : blas F V M G T) trace gshift,
  (forall A, b_dshift bl A = gshift A (trace A)) -> forall qe td (cf : conf F) sort_idx,
  (forall keys, Permutation (sort_idx keys) (seq 0 (length keys))) ->
  forall fsort (P : F -> Prop) s g, let n := c_nev cf + c_nex cf in
  order_on fo P -> cm_locked s = cm_locked g -> stands_for (cm_dla s) (cm_dla g) ->
  gpu_sizes n (cm_dla g) -> conf_ok cf -> 1 <= c_maxiter cf -> no_late_shift bl n ->
  (forall l, length (fsort l) = length l) -> 2 <= c_N cf -> 1 <= c_lanczositer cf -> c_approx cf = true ->
  forall ritzv resid, n <= length ritzv -> n <= length resid ->
  ~ degree_overflow fo (gpuK fo bl qe td cf) sort_idx fsort cf g ritzv resid ->
  forall sch, exists o, solve fo (asyncK fo bl trace gshift sch qe td cf) fsort sort_idx cf s ritzv resid = Ok o /\
  (o_exit o <> None -> Forall P (o_ritz o) ->
   let V1 := h_V1 (t_obj (cm_dla (o_k o))) in
   fsorted_upto fo (c_nev cf) (c_nev cf) (o_ritz o) /\ c_nev cf <= length (o_ritz o) /\ length V1 = n /\
   forall i v x, i < c_nev cf -> nth_error (o_ritz o) i = Some v -> nth_error V1 i = Some x -> ritz_pair_inpl fo bl (h_H (t_obj (cm_dla s))) v x).
Proof. exact (fun F V M G T fo bl trace gshift H qe td cf si HP => async_sorted fo bl trace gshift H qe td cf si HP). Qed.
Print Assumptions C69_async_results_ascending_and_paired.

(** one product of the multi-GPU backend: staged through the host, with NCCL, and with MPI after a synchronisation *)
Theorem C69_multi_gpu_product : forall (B : Type) (prod sum : B -> B) (sch : nat -> list nat) (b : B),
  (exists t c, exec sch (hemm_staged prod sum) 0 (mk_cfg b []) = Ok (sum (prod b), (t, c)) /\ finished c = Ok (sum (prod b))) /\
  (exists t c, exec sch (hemm_nccl prod sum) 0 (mk_cfg b []) = Ok (tt, (t, c)) /\ finished c = Ok (sum (prod b))) /\
  (exists t c, exec sch (hemm_mpi_sync prod sum) 0 (mk_cfg b []) = Ok (tt, (t, c)) /\ finished c = Ok (sum (prod b))).
Proof. exact (fun B prod sum sch b => conj (staged_ok prod sum sch b) (conj (nccl_ok prod sum sch b) (mpi_sync_ok prod sum sch b))). Qed.
Print Assumptions C69_multi_gpu_product.

(** as the code is with CUDA-aware MPI: the sum is taken before the product unless the device is fast enough *)
Theorem C69_cuda_aware_mpi_depends_on_timing : forall (B : Type) (prod sum : B -> B) (sch : nat -> list nat) (b : B),
  exists t c, exec sch (hemm_mpi prod sum) 0 (mk_cfg b []) = Ok (tt, (t, c)) /\
  finished c = Ok (if existsb (Nat.eqb 0) (sch 1) then sum (prod b) else prod (sum b)).
Proof. exact (fun B => mpi_when). Qed.
Print Assumptions C69_cuda_aware_mpi_depends_on_timing.
Theorem C69_cuda_aware_mpi_refuted : exists t c,
  exec lazy (hemm_mpi (fun _ => 6%Z) (fun x => (x + 5)%Z)) 0 (mk_cfg 0%Z []) = Ok (tt, (t, c)) /\ finished c = Ok 6%Z /\
  exists t' c', exec eager (hemm_mpi (fun _ => 6%Z) (fun x => (x + 5)%Z)) 0 (mk_cfg 0%Z []) = Ok (tt, (t', c')) /\ finished c' = Ok 11%Z.
Proof. exact mpi_race. Qed.
Print Assumptions C69_cuda_aware_mpi_refuted.
