(** Property C83: what the in-place, single-GPU and multi-GPU backends return in exact arithmetic. *)
From Coq Require Import Permutation ZArith.
From mathcomp Require Import all_ssreflect all_algebra all_real_closed.
Require Import Verif.Base Verif.AlgModel Verif.AlgSpec Verif.DlaModel Verif.ColModel Verif.ColSpec Verif.GpuModel Verif.GpuSpec Verif.MgpuModel Verif.MgpuSpec
  Verif.ExactSpec Verif.ExactEx Verif.OrthSpec Verif.OrthEx Verif.LapackSpec Verif.BackSpec Verif.BackSpec2 Verif.BackSolve Verif.BackEx.
Import Verif.ExactSpec Verif.OrthSpec Verif.ColSpec.
Set Implicit Arguments. Unset Strict Implicit. Unset Printing Implicit Defensive.
Import Order.TTheory GRing.Theory Num.Theory.
Local Open Scope ring_scope.

Notation inplK fo bl qe td cf := (cmK fo qe td (inplD fo bl (Nat.add (c_nev cf) (c_nex cf))) (c_nev cf) (c_nex cf)).
Notation gpuK fo bl qe td cf := (cmK fo qe td (gpuD fo bl (Nat.add (c_nev cf) (c_nex cf))) (c_nev cf) (c_nex cf)).
Notation mgpuK fo bl loc qe td cf := (cmK fo qe td (mgpuD fo bl loc false (Nat.add (c_nev cf) (c_nex cf))) (c_nev cf) (c_nex cf)).
(** the same, undefined when the shifted Cholesky QR meets a second factorisation that fails *)
Notation inplN fo bl qe td cf := (cmK fo qe td (stop_late (late_ist bl (Nat.add (c_nev cf) (c_nex cf))) (inplD fo bl (Nat.add (c_nev cf) (c_nex cf)))) (c_nev cf) (c_nex cf)).
Notation gpuN fo bl qe td cf := (cmK fo qe td (stop_late (late_gst bl (Nat.add (c_nev cf) (c_nex cf))) (gpuD fo bl (Nat.add (c_nev cf) (c_nex cf)))) (c_nev cf) (c_nex cf)).

Theorem C83_inplace_answer : forall (R : rcfType) (C : fieldType) (inj : {rmorphism R -> C}) (cj : {rmorphism C -> C}) (N : nat) (G : Type)
  (fo : fops R) (bl : blas R 'cV[C]_N 'M[C]_N G C) qe td (cf : conf R) sort_idx (H : 'M[C]_N) fsort ritzv resid (e : {rmorphism C -> R[i]}), let n := Nat.add (c_nev cf) (c_nex cf) in
  (forall keys, Permutation (sort_idx keys) (List.seq 0 (length keys))) ->
  exact_fops fo -> exact_mv inj cj bl -> exact_qr cj bl n -> exact_rr inj cj (gram_swapped bl) H n -> hermitian cj H ->
  conf_ok cf -> le 1 (c_maxiter cf) -> in_complex inj cj e -> exact_vec inj cj bl ->
  forall l0 (V1 : list 'cV[C]_N) o s, length V1 = n -> let k := mk_cm l0 (inpl_state bl (c_nev cf) (c_nex cf) H V1) in
  solve fo (inplK fo bl qe td cf) fsort sort_idx cf k ritzv resid = Ok o -> o_exit o = Some s ->
  (chol_disabled qe \/ no_late_failure bl n \/ solve fo (inplN fo bl qe td cf) fsort sort_idx cf k ritzv resid = Ok o) ->
  eigen_answer inj cj H (c_nev cf) n (o_ritz o) (is_V1 (cm_dla (o_k o))) (o_res o).
Proof. exact inpl_answer. Qed.
Print Assumptions C83_inplace_answer.

(** whatever was on the host and on the device before *)
Theorem C83_gpu_answer : forall (R : rcfType) (C : fieldType) (inj : {rmorphism R -> C}) (cj : {rmorphism C -> C}) (N : nat) (G : Type)
  (fo : fops R) (bl : blas R 'cV[C]_N 'M[C]_N G C) qe td (cf : conf R) sort_idx (H : 'M[C]_N) fsort ritzv resid (e : {rmorphism C -> R[i]}), let n := Nat.add (c_nev cf) (c_nex cf) in
  (forall keys, Permutation (sort_idx keys) (List.seq 0 (length keys))) ->
  exact_fops fo -> exact_mv inj cj bl -> exact_qr cj bl n -> exact_rr inj cj (gram_swapped bl) H n -> hermitian cj H ->
  conf_ok cf -> le 1 (c_maxiter cf) -> in_complex inj cj e -> exact_vec inj cj bl ->
  forall g o s, g_H (cm_dla g) = H -> gpu_sizes n (cm_dla g) ->
  solve fo (gpuK fo bl qe td cf) fsort sort_idx cf g ritzv resid = Ok o -> o_exit o = Some s ->
  (chol_disabled qe \/ no_late_failure bl n \/ solve fo (gpuN fo bl qe td cf) fsort sort_idx cf g ritzv resid = Ok o) ->
  eigen_answer inj cj H (c_nev cf) n (o_ritz o) (g_V1 (cm_dla (o_k o))) (o_res o).
Proof. exact gpu_answer. Qed.
Print Assumptions C83_gpu_answer.

Theorem C83_mgpu_answer : forall (R : rcfType) (C : fieldType) (inj : {rmorphism R -> C}) (cj : {rmorphism C -> C}) (N : nat) (G : Type)
  (fo : fops R) (bl : blas R 'cV[C]_N 'M[C]_N G C) loc qe td (cf : conf R) sort_idx (H : 'M[C]_N) fsort ritzv resid (e : {rmorphism C -> R[i]}), let n := Nat.add (c_nev cf) (c_nex cf) in
  (forall keys, Permutation (sort_idx keys) (List.seq 0 (length keys))) ->
  exact_fops fo -> exact_mv inj cj bl -> exact_qr cj bl n -> exact_rr inj cj bl H n -> hermitian cj H ->
  conf_ok cf -> le 1 (c_maxiter cf) -> keeps_ascending sort_idx -> ordered_rr cj bl H n -> in_complex inj cj e -> exact_vec inj cj bl -> no_late_failure bl n ->
  forall g o s, m_H (cm_dla g) = H -> mgpu_sizes n (cm_dla g) ->
  solve fo (mgpuK fo bl loc qe td cf) fsort sort_idx cf g ritzv resid = Ok o -> o_exit o = Some s ->
  [/\ size (m_C (cm_dla (o_k o))) = n, orthonormal cj (m_C (cm_dla (o_k o))),
      spectral_pairs inj cj H (c_nev cf) (o_ritz o) (o_res o) (m_C (cm_dla (o_k o))),
      counts_ok inj H (c_nev cf) (o_ritz o) (o_res o) & sums_ok inj H (c_nev cf) (o_ritz o)].
Proof. exact mgpu_answer. Qed.
Print Assumptions C83_mgpu_answer.

(** the hypotheses are met, for every Hermitian matrix over the complex numbers of any real closed field *)
Example C83_example_oracles : forall (R : rcfType) N n (H : 'M[complex_numClosedFieldType R]_N), (n <= N)%N -> hermitian (cc R) H ->
  exact_fops (ex_fops R) /\ exact_mv (rc R) (cc R) (xblas R N) /\ exact_qr (cc R) (xblas R N) n /\
  exact_rr (rc R) (cc R) (gram_swapped (xblas R N)) H n /\ exact_rr (rc R) (cc R) (xblas R N) H n /\
  exact_vec (rc R) (cc R) (xblas R N) /\ in_complex (rc R) (cc R) (ci R) /\ no_late_failure (xblas R N) n /\
  ordered_rr (cc R) (xblas R N) H n /\ (forall keys, Permutation (@x_sort R keys) (List.seq 0 (length keys))) /\ keeps_ascending (@x_sort R).
Proof.
exact (fun R N n H hn HH => conj (ex_fops_exact R) (conj (x_mv R N) (conj (x_qr R hn) (conj (@y_rr R N H n HH) (conj (x_rr n HH) (conj (x_vec R N) (conj (x_complex R)
  (conj (@y_nl R N n hn) (conj (@x_ordered R N H n HH) (conj (@x_sort_perm R) (@x_sort_keeps R))))))))))).
Qed.
(** and runs return, with any settings of the QR selection, from any start block and any old contents of the device *)
Example C83_example_runs : forall (R : rcfType) N nev nex (H : 'M[complex_numClosedFieldType R]_N) qe td tol deg sort_idx fsort ritzv resid,
  (forall keys, Permutation (sort_idx keys) (List.seq 0 (length keys))) -> (forall l, length (fsort l) = length l) ->
  le 2 N -> le 1 nev -> le 1 deg -> le (Nat.add nev nex) (length ritzv) -> le (Nat.add nev nex) (length resid) ->
  let cf := mk_conf R N nev nex tol deg 36 2 25 25 4 false true false in let n := Nat.add nev nex in let fo := ex_fops R in let bl := xblas R N in
  conf_ok cf /\
  (forall V1, length V1 = n -> exists o s, solve fo (inplK fo bl qe td cf) fsort sort_idx cf (mk_cm 0 (inpl_state bl nev nex H V1)) ritzv resid = Ok o /\ o_exit o = Some s) /\
  (forall g, gpu_sizes n (cm_dla g) -> exists o s, solve fo (gpuK fo bl qe td cf) fsort sort_idx cf g ritzv resid = Ok o /\ o_exit o = Some s) /\
  (forall loc g, (n <= N)%N -> mgpu_sizes n (cm_dla g) -> exists o s, solve fo (mgpuK fo bl loc qe td cf) fsort sort_idx cf g ritzv resid = Ok o /\ o_exit o = Some s).
Proof.
move=> R N nev nex H qe td tol deg si fsort ritzv resid Hp Hf h1 h2 h4 hr hs cf n fo bl.
split; first exact: y_conf.
split; first exact: y_inpl.
split; first exact: y_gpu.
exact: y_mgpu.
Qed.
