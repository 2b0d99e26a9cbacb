(** Property C39: the upper bound returned by the Lanczos routines. *)
From Coq Require Import List Arith ZArith QArith.
Require Import Verif.Base Verif.AlgModel Verif.DlaModel Verif.LanczosSpec Verif.LanczosProofs Verif.ColModel Verif.ColEx.
Import ListNotations.
Local Open Scope nat_scope.

(** For any backend: u is the largest of max(|first Ritz value|, |last Ritz value|) + |beta| over all runs; if the
    eigensolver returns the Ritz values in ascending order, u dominates every one of them in absolute value. *)
Theorem C39_bound_of_all_runs : forall F D (fo : fops F) (td : tridiag F) (L : dla F D), ordered fo -> forall M nv s d e b x,
  0 < M -> 0 < nv -> d_mlanczos L M (Some nv) (cm_dla s) = Ok (d, e, b, x) ->
  nv * M <= length d -> nv * M <= length e -> nv <= length b ->
  exists u theta tau rv, cm_lanczos2 fo td L M nv s = Ok (u, theta, tau, rv, mk_cm (cm_locked s) x) /\
    (forall i k, i < nv -> k < M -> nth_error theta (i * M + k) = Some (ritz td d e M i k)) /\ length theta = nv * M /\
    (forall i, i < nv -> exists v beta, nth_error b i = Some beta /\ is_run_bound fo (ritz td d e M i 0) (ritz td d e M i (M - 1)) beta v /\ le fo v u) /\
    (exists i beta, i < nv /\ nth_error b i = Some beta /\ is_run_bound fo (ritz td d e M i 0) (ritz td d e M i (M - 1)) beta u) /\
    ((forall i k, i < nv -> k < M -> le fo (ritz td d e M i 0) (ritz td d e M i k) /\ le fo (ritz td d e M i k) (ritz td d e M i (M - 1))) ->
     Forall (fun t => le fo (f_abs fo t) u) theta).
Proof. exact @lanczos2_bound. Qed.
Print Assumptions C39_bound_of_all_runs.

Theorem C39_bound_of_single_run : forall F D (fo : fops F) (td : tridiag F) (L : dla F D), ordered fo -> forall M s d e b x,
  0 < M -> d_mlanczos L M None (cm_dla s) = Ok (d, e, b, x) -> 0 < length b ->
  exists u beta, cm_lanczos1 fo td L M s = Ok (u, mk_cm (cm_locked s) x) /\ nth_error b 0 = Some beta /\
    is_run_bound fo (td_val td d e 0) (td_val td d e (M - 1)) beta u /\
    ((forall k, k < M -> le fo (td_val td d e 0) (td_val td d e k) /\ le fo (td_val td d e k) (td_val td d e (M - 1))) ->
     forall k, k < M -> le fo (f_abs fo (td_val td d e k)) u).
Proof. exact @lanczos1_bound. Qed.
Print Assumptions C39_bound_of_single_run.

(** The value is not an upper bound of the spectrum: 3 is an eigenvalue, the bound is smaller. *)
Theorem C39_bounds_the_spectrum_refuted : exists u s',
  cm_lanczos1 qf td1 (colD qf seqB true 2) 1 (mk_cm 0 (mpi_state seqB 1 1 H3 [[1; 0; 0]; [0; 1; 0]]%Q)) = Ok (u, s') /\
  b_mulN seqB H3 [0; 0; 1]%Q = b_scal seqB 3%Q [0; 0; 1]%Q /\ (u < 3)%Q.
Proof. exact bound_too_small. Qed.
Print Assumptions C39_bounds_the_spectrum_refuted.

(** two runs of one step on diag(1, 2, 3) in the toy arithmetic: Ritz values 1 and 5/4, last betas 0 and 5/4, bound 5/2 *)
Example C39_example : ordered qf /\
  d_mlanczos (colD qf seqB true 2) 1 (Some 2) (mpi_state seqB 1 1 H3 [[1; 0; 0]; [0; 1 # 2; 1 # 2]]%Q) =
    Ok ([1; 5 # 4], [0; 0], [0; 5 # 4], mpi_state seqB 1 1 H3 [[1; 0; 0]; [0; 1 # 2; 1 # 2]])%Q /\
  exists x, cm_lanczos2 qf td1 (colD qf seqB true 2) 1 2 (mk_cm 0 (mpi_state seqB 1 1 H3 [[1; 0; 0]; [0; 1 # 2; 1 # 2]]%Q)) =
    Ok (5 # 2, [1; 5 # 4], [1; 1], [1], mk_cm 0 x)%Q.
Proof. split; [exact qf_ordered|]. split; [vm_compute; reflexivity|]. eexists. vm_compute. reflexivity. Qed.
