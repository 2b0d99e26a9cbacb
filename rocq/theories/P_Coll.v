(** The collectives of mpi_wrapper.hpp. *)
From Coq Require Import List Arith ZArith Lia.
Require Import Verif.CollModel Verif.CollSpec Verif.CollProofs.
Import ListNotations.
Local Open Scope Z_scope.

Theorem C79_sums_are_complete : forall R (o : arith R) nccl aware t dim bufs, addition (zero o) (add o) -> fits nccl aware t dim ->
  (forall b, In b bufs -> parts t * dim <= Z.of_nat (length b)) ->
  exists bufs', site_sum o nccl aware t dim bufs = Done bufs' /\ summed (zero o) (add o) (Z.to_nat (parts t * dim)) bufs bufs'.
Proof. exact @site_sum_ok. Qed.
Print Assumptions C79_sums_are_complete.

Theorem C79_broadcasts_are_complete : forall R nccl aware t dim root (bufs : list (list R)), fits nccl aware t dim ->
  0 <= root < Z.of_nat (length bufs) -> (forall b, In b bufs -> parts t * dim <= Z.of_nat (length b)) ->
  exists bufs', site_bcast nccl aware t dim root bufs = Done bufs' /\ broadcast (Z.to_nat (parts t * dim)) (Z.to_nat root) bufs bufs'.
Proof. exact @site_bcast_ok. Qed.
Print Assumptions C79_broadcasts_are_complete.

(** one complex number per process, two components left alone *)
Example C79_example :
  fits true true SDComplex 1 /\ addition 0 Z.add /\
  site_sum zarith true true SDComplex 1 [[1; 2; 9]; [3; 4; 8]; [5; 6; 7]] = Done [[9; 12; 9]; [9; 12; 8]; [9; 12; 7]] /\
  site_bcast true false SComplex 1 2 [[1; 2; 9]; [3; 4; 8]; [5; 6; 7]] = Done [[5; 6; 9]; [5; 6; 8]; [5; 6; 7]].
Proof.
  split; [split; cbn; lia|]. split; [repeat split; intros; lia|]. split; vm_compute; reflexivity.
Qed.

Theorem C79_backends_agree : forall R (o : arith R) t count bufs, 0 <= count -> parts t * count < 2 ^ 31 ->
  AllReduce o true NCCL_BACKEND true t MPI_SUM count bufs = AllReduce o true MPI_BACKEND true t MPI_SUM count bufs.
Proof. exact (fun R o t count bufs H0 H => backends_agree_sum o true t count bufs H0 H eq_refl). Qed.
Print Assumptions C79_backends_agree.

Theorem C79_backends_agree_real : forall R (o : arith R) t p count bufs, parts t = 1 -> 0 <= count < 2 ^ 31 ->
  AllReduce o true NCCL_BACKEND true t p count bufs = AllReduce o true MPI_BACKEND true t p count bufs.
Proof. exact (fun R o t p count bufs P H => backends_agree_real o true t p count bufs P H eq_refl). Qed.
Print Assumptions C79_backends_agree_real.

Theorem C79_complex_product_refuted : forall t, parts t = 2 ->
  AllReduce zarith true NCCL_BACKEND true t MPI_PROD 1 [[0; 1]; [0; 1]] = Done [[0; 1]; [0; 1]] /\
  AllReduce zarith true MPI_BACKEND true t MPI_PROD 1 [[0; 1]; [0; 1]] = Done [[-1; 0]; [-1; 0]] /\
  cprod Z.sub Z.add Z.mul (0, 1) (0, 1) = (-1, 0).
Proof. exact product_differs. Qed.
Print Assumptions C79_complex_product_refuted.

Theorem C79_unregistered_communicator : forall R (o : arith R) t p count bufs, is_int (parts t * count) = true ->
  AllReduce o true NCCL_BACKEND false t p count bufs = Throw.
Proof. exact @unregistered. Qed.
Print Assumptions C79_unregistered_communicator.

Theorem C79_large_sums_truncated_refuted : forall R (o : arith R) nccl aware t q r bufs, addition (zero o) (add o) -> 0 < q ->
  fits nccl aware t r -> (forall b, In b bufs -> parts t * (q * 2 ^ 32 + r) <= Z.of_nat (length b)) ->
  exists bufs', site_sum o nccl aware t (q * 2 ^ 32 + r) bufs = Done bufs' /\
    summed (zero o) (add o) (Z.to_nat (parts t * r)) bufs bufs'.
Proof. exact @large_sum_wrapped. Qed.
Print Assumptions C79_large_sums_truncated_refuted.

Theorem C79_large_sums_lost_refuted : forall nccl aware, exists bufs,
  (forall b, In b bufs -> 2 ^ 32 <= Z.of_nat (length b)) /\ site_sum zarith nccl aware SDouble (2 ^ 32) bufs = Done bufs /\
  ~ summed 0 Z.add (Z.to_nat (2 ^ 32)) bufs bufs.
Proof. exact ones_lost. Qed.
Print Assumptions C79_large_sums_lost_refuted.

Theorem C79_large_sums_abort_refuted : forall R (o : arith R) nccl t dim bufs, 2 ^ 31 <= dim < 2 ^ 32 ->
  site_sum o nccl false t dim bufs = Abort.
Proof. exact @large_sum_aborts. Qed.
Print Assumptions C79_large_sums_abort_refuted.

Theorem C79_nccl_complex_overflow_refuted : forall R (o : arith R) t dim bufs, parts t = 2 -> 2 ^ 30 <= dim < 2 ^ 31 ->
  site_sum o true true t dim bufs = Undef.
Proof. exact @nccl_complex_overflow. Qed.
Print Assumptions C79_nccl_complex_overflow_refuted.
