(** Properties C49-C51 and C65: orthonormality of the returned vectors and distance of the returned values from the spectrum, in exact arithmetic. *)
From Coq Require Import Permutation ZArith.
From mathcomp Require Import all_ssreflect all_algebra all_real_closed.
Require Import Verif.Base Verif.AlgModel Verif.AlgSpec Verif.DlaModel Verif.ColModel Verif.ColSpec Verif.ExactSpec Verif.ExactEx Verif.OrthSpec Verif.OrthSolve Verif.OrthEx Verif.KyFan Verif.OrthMpi.
Set Implicit Arguments. Unset Strict Implicit. Unset Printing Implicit Defensive.
Import Order.TTheory GRing.Theory Num.Theory.
Local Open Scope ring_scope.

(** ChaseMpi on the backends; [stopK]: Seq, undefined when the shifted Cholesky QR meets a second factorisation that fails *)
Notation seqK fo bl qe td cf := (cmK fo qe td (colD fo bl false (Nat.add (c_nev cf) (c_nex cf))) (c_nev cf) (c_nex cf)).
Notation mpiK fo bl qe td cf := (cmK fo qe td (colD fo bl true (Nat.add (c_nev cf) (c_nex cf))) (c_nev cf) (c_nex cf)).
Notation stopK fo bl qe td cf := (cmK fo qe td (stop_late (late_failure bl (Nat.add (c_nev cf) (c_nex cf))) (colD fo bl false (Nat.add (c_nev cf) (c_nex cf)))) (c_nev cf) (c_nex cf)).
Notation seqS bl cf l0 H V1 := (mk_cm l0 (seq_state bl (c_nev cf) (c_nex cf) H V1)).
Notation mpiS bl cf l0 H V1 := (mk_cm l0 (mpi_state bl (c_nev cf) (c_nex cf) H V1)).

(** C49 *)
Theorem C49_mpi_block_orthonormal : forall (R : rcfType) (C : fieldType) (inj : {rmorphism R -> C}) (cj : {rmorphism C -> C}) (N : nat) (G : Type)
  (fo : fops R) (bl : blas R 'cV[C]_N 'M[C]_N G C) qe td (cf : conf R) sort_idx (H : 'M[C]_N) fsort l0 (V1 : list 'cV[C]_N) ritzv resid, let n := Nat.add (c_nev cf) (c_nex cf) in
  (forall keys, Permutation (sort_idx keys) (List.seq 0 (length keys))) ->
  exact_fops fo -> exact_mv inj cj bl -> exact_qr cj bl n -> exact_rr inj cj bl H n -> hermitian cj H ->
  length V1 = n -> conf_ok cf -> le 1 (c_maxiter cf) -> forall o s,
  solve fo (mpiK fo bl qe td cf) fsort sort_idx cf (mpiS bl cf l0 H V1) ritzv resid = Ok o -> o_exit o = Some s ->
  size (cs_C (cm_dla (o_k o))) = n /\ orthonormal cj (cs_C (cm_dla (o_k o))).
Proof. exact mpi_orthonormal. Qed.
Print Assumptions C49_mpi_block_orthonormal.

Theorem C49_seq_block_orthonormal : forall (R : rcfType) (C : fieldType) (inj : {rmorphism R -> C}) (cj : {rmorphism C -> C}) (N : nat) (G : Type)
  (fo : fops R) (bl : blas R 'cV[C]_N 'M[C]_N G C) qe td (cf : conf R) sort_idx (H : 'M[C]_N) fsort l0 (V1 : list 'cV[C]_N) ritzv resid, let n := Nat.add (c_nev cf) (c_nex cf) in
  (forall keys, Permutation (sort_idx keys) (List.seq 0 (length keys))) ->
  exact_fops fo -> exact_mv inj cj bl -> exact_qr cj bl n -> exact_rr inj cj bl H n -> hermitian cj H ->
  length V1 = n -> conf_ok cf -> le 1 (c_maxiter cf) -> le (c_nex cf) (c_nev cf) -> forall o s,
  solve fo (seqK fo bl qe td cf) fsort sort_idx cf (seqS bl cf l0 H V1) ritzv resid = Ok o -> o_exit o = Some s ->
  (chol_disabled qe \/ solve fo (stopK fo bl qe td cf) fsort sort_idx cf (seqS bl cf l0 H V1) ritzv resid = Ok o) ->
  size (cs_C (cm_dla (o_k o))) = n /\ orthonormal cj (cs_C (cm_dla (o_k o))).
Proof. exact seq_orthonormal'. Qed.
Print Assumptions C49_seq_block_orthonormal.

(** C50: each returned value is the Rayleigh quotient of its vector, and an eigenvalue of H lies within the residual, which is one
    of the returned residuals (see C24 for their order) *)
Theorem C50_values_within_residual_of_spectrum : forall (R : rcfType) (C : fieldType) (inj : {rmorphism R -> C}) (cj : {rmorphism C -> C}) (N : nat) (G : Type)
  (fo : fops R) (bl : blas R 'cV[C]_N 'M[C]_N G C) qe td (cf : conf R) sort_idx (H : 'M[C]_N) fsort l0 (V1 : list 'cV[C]_N) ritzv resid, let n := Nat.add (c_nev cf) (c_nex cf) in
  (forall keys, Permutation (sort_idx keys) (List.seq 0 (length keys))) ->
  exact_fops fo -> exact_mv inj cj bl -> exact_qr cj bl n -> exact_rr inj cj bl H n -> hermitian cj H ->
  length V1 = n -> conf_ok cf -> le 1 (c_maxiter cf) -> le (c_nex cf) (c_nev cf) ->
  forall (e : {rmorphism C -> R[i]}), in_complex inj cj e -> exact_vec inj cj bl -> forall o s,
  solve fo (seqK fo bl qe td cf) fsort sort_idx cf (seqS bl cf l0 H V1) ritzv resid = Ok o -> o_exit o = Some s ->
  (chol_disabled qe \/ solve fo (stopK fo bl qe td cf) fsort sort_idx cf (seqS bl cf l0 H V1) ritzv resid = Ok o) ->
  exists rs, Permutation rs (List.firstn (c_nev cf) (o_res o)) /\
  forall i, lt i (c_nev cf) -> exists v x r, List.nth_error (o_ritz o) i = Some v /\ List.nth_error (cs_C (cm_dla (o_k o))) i = Some x /\
    List.nth_error rs i = Some r /\ dot cj x x = 1 /\ inj v = dot cj x (H *m x) /\
    0 <= r /\ inj r ^+ 2 = dot cj (H *m x - inj v *: x) (H *m x - inj v *: x) /\
    exists l, eigenvalue H (inj l) /\ `|l - v| <= r.
Proof. exact seq_values'. Qed.
Print Assumptions C50_values_within_residual_of_spectrum.

(** C51: no eigenvalue is counted twice.  d are the eigenvalues of H with their multiplicities *)
Theorem C51_as_many_eigenvalues_as_values : forall (R : rcfType) (C : fieldType) (inj : {rmorphism R -> C}) (cj : {rmorphism C -> C}) (N : nat) (G : Type)
  (fo : fops R) (bl : blas R 'cV[C]_N 'M[C]_N G C) qe td (cf : conf R) sort_idx (H : 'M[C]_N) fsort l0 (V1 : list 'cV[C]_N) ritzv resid, let n := Nat.add (c_nev cf) (c_nex cf) in
  (forall keys, Permutation (sort_idx keys) (List.seq 0 (length keys))) ->
  exact_fops fo -> exact_mv inj cj bl -> exact_qr cj bl n -> exact_rr inj cj bl H n -> hermitian cj H ->
  length V1 = n -> conf_ok cf -> le 1 (c_maxiter cf) -> le (c_nex cf) (c_nev cf) ->
  forall (e : {rmorphism C -> R[i]}), in_complex inj cj e -> exact_vec inj cj bl -> forall o s,
  solve fo (seqK fo bl qe td cf) fsort sort_idx cf (seqS bl cf l0 H V1) ritzv resid = Ok o -> o_exit o = Some s ->
  (chol_disabled qe \/ solve fo (stopK fo bl qe td cf) fsort sort_idx cf (seqS bl cf l0 H V1) ritzv resid = Ok o) ->
  exists d : 'I_N -> R, char_poly H = \prod_j ('X - (inj (d j))%:P) /\
  forall a b dl, 0 <= dl -> \sum_(r <- List.firstn (c_nev cf) (o_res o)) r ^+ 2 <= dl ^+ 2 ->
    (seq.count (fun v => a <= v <= b)%R (List.firstn (c_nev cf) (o_ritz o)) <= #|[set j : 'I_N | (a - dl <= d j <= b + dl)%R]|)%N.
Proof. exact seq_count'. Qed.
Print Assumptions C51_as_many_eigenvalues_as_values.

(** C65: in exact arithmetic the sum of any k returned values is at least the sum of the k lowest eigenvalues, and at most that of the k highest *)
Theorem C65_sums_between_extreme_eigenvalues : forall (R : rcfType) (C : fieldType) (inj : {rmorphism R -> C}) (cj : {rmorphism C -> C}) (N : nat) (G : Type)
  (fo : fops R) (bl : blas R 'cV[C]_N 'M[C]_N G C) qe td (cf : conf R) sort_idx (H : 'M[C]_N) fsort l0 (V1 : list 'cV[C]_N) ritzv resid, let n := Nat.add (c_nev cf) (c_nex cf) in
  (forall keys, Permutation (sort_idx keys) (List.seq 0 (length keys))) ->
  exact_fops fo -> exact_mv inj cj bl -> exact_qr cj bl n -> exact_rr inj cj bl H n -> hermitian cj H ->
  length V1 = n -> conf_ok cf -> le 1 (c_maxiter cf) -> le (c_nex cf) (c_nev cf) ->
  forall (e : {rmorphism C -> R[i]}), in_complex inj cj e -> exact_vec inj cj bl -> forall o s,
  solve fo (seqK fo bl qe td cf) fsort sort_idx cf (seqS bl cf l0 H V1) ritzv resid = Ok o -> o_exit o = Some s ->
  (chol_disabled qe \/ solve fo (stopK fo bl qe td cf) fsort sort_idx cf (seqS bl cf l0 H V1) ritzv resid = Ok o) ->
  exists ls : seq R, sorted <=%R ls /\ char_poly H = \prod_(l <- ls) ('X - (inj l)%:P) /\
  forall I : seq nat, uniq I -> all (fun i => i < c_nev cf)%N I ->
    \sum_(i < size I) ls`_i <= \sum_(i <- I) (o_ritz o)`_i <= \sum_(i < size I) ls`_(N - i.+1).
Proof. exact seq_kyfan. Qed.
Print Assumptions C65_sums_between_extreme_eigenvalues.

(** C50, C51 and C65 on the Mpi backend.  Its column swap moves nothing (C25), so values and columns correspond up to a permutation [p], the
    same for columns and residuals.  Needed: Rayleigh-Ritz delivers its values in ascending order, and sorting does not move them. *)
Theorem C50_mpi_values_within_residual_of_spectrum : forall (R : rcfType) (C : fieldType) (inj : {rmorphism R -> C}) (cj : {rmorphism C -> C}) (N : nat) (G : Type)
  (fo : fops R) (bl : blas R 'cV[C]_N 'M[C]_N G C) qe td (cf : conf R) sort_idx (H : 'M[C]_N) fsort l0 (V1 : list 'cV[C]_N) ritzv resid, let n := Nat.add (c_nev cf) (c_nex cf) in
  (forall keys, Permutation (sort_idx keys) (List.seq 0 (length keys))) ->
  exact_fops fo -> exact_mv inj cj bl -> exact_qr cj bl n -> exact_rr inj cj bl H n -> hermitian cj H ->
  length V1 = n -> conf_ok cf -> le 1 (c_maxiter cf) -> keeps_ascending sort_idx -> ordered_rr cj bl H n ->
  forall (e : {rmorphism C -> R[i]}), in_complex inj cj e -> exact_vec inj cj bl -> forall o s,
  solve fo (mpiK fo bl qe td cf) fsort sort_idx cf (mpiS bl cf l0 H V1) ritzv resid = Ok o -> o_exit o = Some s ->
  exists p, (forall i, (i < c_nev cf)%N -> (p i < c_nev cf)%N) /\ (forall i j, (i < c_nev cf)%N -> (j < c_nev cf)%N -> p i = p j -> i = j) /\
  forall i, (i < c_nev cf)%N -> exists v x r, List.nth_error (o_ritz o) i = Some v /\ List.nth_error (cs_C (cm_dla (o_k o))) (p i) = Some x /\
    List.nth_error (o_res o) (p i) = Some r /\ dot cj x x = 1 /\ inj v = dot cj x (H *m x) /\
    0 <= r /\ inj r ^+ 2 = dot cj (H *m x - inj v *: x) (H *m x - inj v *: x) /\
    exists l, eigenvalue H (inj l) /\ `|l - v| <= r.
Proof. exact mpi_values. Qed.
Print Assumptions C50_mpi_values_within_residual_of_spectrum.

Theorem C51_mpi_as_many_eigenvalues_as_values : forall (R : rcfType) (C : fieldType) (inj : {rmorphism R -> C}) (cj : {rmorphism C -> C}) (N : nat) (G : Type)
  (fo : fops R) (bl : blas R 'cV[C]_N 'M[C]_N G C) qe td (cf : conf R) sort_idx (H : 'M[C]_N) fsort l0 (V1 : list 'cV[C]_N) ritzv resid, let n := Nat.add (c_nev cf) (c_nex cf) in
  (forall keys, Permutation (sort_idx keys) (List.seq 0 (length keys))) ->
  exact_fops fo -> exact_mv inj cj bl -> exact_qr cj bl n -> exact_rr inj cj bl H n -> hermitian cj H ->
  length V1 = n -> conf_ok cf -> le 1 (c_maxiter cf) -> keeps_ascending sort_idx -> ordered_rr cj bl H n ->
  forall (e : {rmorphism C -> R[i]}), in_complex inj cj e -> exact_vec inj cj bl -> forall o s,
  solve fo (mpiK fo bl qe td cf) fsort sort_idx cf (mpiS bl cf l0 H V1) ritzv resid = Ok o -> o_exit o = Some s ->
  exists d : 'I_N -> R, char_poly H = \prod_j ('X - (inj (d j))%:P) /\
  forall a b dl, 0 <= dl -> \sum_(r <- List.firstn (c_nev cf) (o_res o)) r ^+ 2 <= dl ^+ 2 ->
    (seq.count (fun v => a <= v <= b)%R (List.firstn (c_nev cf) (o_ritz o)) <= #|[set j : 'I_N | (a - dl <= d j <= b + dl)%R]|)%N.
Proof. exact mpi_count. Qed.
Print Assumptions C51_mpi_as_many_eigenvalues_as_values.

Theorem C65_mpi_sums_between_extreme_eigenvalues : forall (R : rcfType) (C : fieldType) (inj : {rmorphism R -> C}) (cj : {rmorphism C -> C}) (N : nat) (G : Type)
  (fo : fops R) (bl : blas R 'cV[C]_N 'M[C]_N G C) qe td (cf : conf R) sort_idx (H : 'M[C]_N) fsort l0 (V1 : list 'cV[C]_N) ritzv resid, let n := Nat.add (c_nev cf) (c_nex cf) in
  (forall keys, Permutation (sort_idx keys) (List.seq 0 (length keys))) ->
  exact_fops fo -> exact_mv inj cj bl -> exact_qr cj bl n -> exact_rr inj cj bl H n -> hermitian cj H ->
  length V1 = n -> conf_ok cf -> le 1 (c_maxiter cf) -> keeps_ascending sort_idx -> ordered_rr cj bl H n ->
  forall (e : {rmorphism C -> R[i]}), in_complex inj cj e -> exact_vec inj cj bl -> forall o s,
  solve fo (mpiK fo bl qe td cf) fsort sort_idx cf (mpiS bl cf l0 H V1) ritzv resid = Ok o -> o_exit o = Some s ->
  exists ls : seq R, sorted <=%R ls /\ char_poly H = \prod_(l <- ls) ('X - (inj l)%:P) /\
  forall I : seq nat, uniq I -> all (fun i => i < c_nev cf)%N I ->
    \sum_(i < size I) ls`_i <= \sum_(i <- I) (o_ritz o)`_i <= \sum_(i < size I) ls`_(N - i.+1).
Proof. exact mpi_kyfan. Qed.
Print Assumptions C65_mpi_sums_between_extreme_eigenvalues.

(** the hypotheses are met: over the complex numbers of any real closed field the oracles exist, for every Hermitian matrix *)
Example C49_example_oracles : forall (R : rcfType) N n (H : 'M[complex_numClosedFieldType R]_N), (n <= N)%N -> hermitian (cc R) H ->
  exact_fops (ex_fops R) /\ exact_mv (rc R) (cc R) (xblas R N) /\ exact_qr (cc R) (xblas R N) n /\ exact_rr (rc R) (cc R) (xblas R N) H n /\
  exact_vec (rc R) (cc R) (xblas R N) /\ in_complex (rc R) (cc R) (ci R).
Proof.
exact (fun R N n H hn HH => conj (ex_fops_exact R) (conj (x_mv R N) (conj (x_qr R hn) (conj (x_rr n HH) (conj (x_vec R N) (x_complex R)))))).
Qed.
(** and runs return *)
Example C49_example_run : forall (R : rcfType) N nev nex (H : 'M[complex_numClosedFieldType R]_N) V1 td tol deg sort_idx fsort ritzv resid, hermitian (cc R) H ->
  (forall keys, Permutation (sort_idx keys) (List.seq 0 (length keys))) -> (forall l, length (fsort l) = length l) ->
  le 2 N -> le 1 nev -> le nex nev -> le 1 deg -> length V1 = Nat.add nev nex -> le (Nat.add nev nex) (length ritzv) -> le (Nat.add nev nex) (length resid) ->
  let cf := mk_conf R N nev nex tol deg 36 2 25 25 4 false true false in
  let qe := mk_qe R true (Some (Zpos xH)) None 0 0 in
  conf_ok cf /\ chol_disabled qe /\
  exists o s, solve (ex_fops R) (seqK (ex_fops R) (xblas R N) qe td cf) fsort sort_idx cf (seqS (xblas R N) cf 0 H V1) ritzv resid = Ok o /\ o_exit o = Some s.
Proof. exact x_run. Qed.
(** the same for the Mpi backend *)
Example C50_mpi_example : forall (R : rcfType) N n (H : 'M[complex_numClosedFieldType R]_N), hermitian (cc R) H ->
  ordered_rr (cc R) (xblas R N) H n /\ (forall keys, Permutation (@x_sort R keys) (List.seq 0 (length keys))) /\ keeps_ascending (@x_sort R).
Proof. exact (fun R N n H HH => conj (@x_ordered R N H n HH) (conj (@x_sort_perm R) (@x_sort_keeps R))). Qed.
Example C50_mpi_example_run : forall (R : rcfType) N nev nex (H : 'M[complex_numClosedFieldType R]_N) V1 qe td tol deg sort_idx fsort ritzv resid, hermitian (cc R) H ->
  (forall keys, Permutation (sort_idx keys) (List.seq 0 (length keys))) -> (forall l, length (fsort l) = length l) ->
  le 2 N -> le 1 nev -> le nex nev -> le 1 deg -> length V1 = Nat.add nev nex -> le (Nat.add nev nex) (length ritzv) -> le (Nat.add nev nex) (length resid) ->
  let cf := mk_conf R N nev nex tol deg 36 2 25 25 4 false true false in
  conf_ok cf /\
  exists o s, solve (ex_fops R) (mpiK (ex_fops R) (xblas R N) qe td cf) fsort sort_idx cf (mpiS (xblas R N) cf 0 H V1) ritzv resid = Ok o /\ o_exit o = Some s.
Proof. exact x_run_mpi. Qed.
