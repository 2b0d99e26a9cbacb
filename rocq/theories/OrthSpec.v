(** Exact arithmetic for the orthonormalisation and Rayleigh-Ritz oracles.  R are the real scalars (Base<T>), C the matrix
    entries (T); [e] embeds C into the complex numbers over R (the identity if T is complex, x |-> x + 0i if T is real). *)
From mathcomp Require Import all_ssreflect all_algebra all_real_closed.
Require Import Verif.AlgModel Verif.ColModel Verif.ExactSpec.
Set Implicit Arguments. Unset Strict Implicit. Unset Printing Implicit Defensive.
Import GRing.Theory Num.Theory.
Local Open Scope ring_scope.
Local Open Scope complex_scope.

Record in_complex (R : rcfType) (C : fieldType) (inj : {rmorphism R -> C}) (cj : {rmorphism C -> C}) (e : {rmorphism C -> R[i]}) : Prop := {
  ic_real : forall x, e (inj x) = x%:C;
  ic_conj : forall z, e (cj z) = (e z)^*
}.

Section Spec.
Variables (C : fieldType) (cj : {rmorphism C -> C}) (N : nat).
Implicit Types (cs : seq 'cV[C]_N).

(** x^H y *)
Definition dot (x y : 'cV[C]_N) : C := (adj cj x *m y) 0 0.

(** unit columns, pairwise orthogonal *)
Definition orthonormal cs : Prop :=
  forall i j, (i < size cs)%N -> (j < size cs)%N -> dot cs`_i cs`_j = (i == j)%:R.

(** old = new * U with U upper triangular *)
Definition upper_factor (old new : seq 'cV[C]_N) : Prop := size old = size new /\
  exists U : nat -> nat -> C, forall j, (j < size old)%N -> old`_j = \sum_(i < j.+1) U i j *: new`_i.

End Spec.

Section Oracles.
Variables (R : rcfType) (C : fieldType) (inj : {rmorphism R -> C}) (cj : {rmorphism C -> C}) (N : nat) (G : Type).
Variable bl : blas R 'cV[C]_N 'M[C]_N G C.
Local Notation cols f n := (map f (iota 0 n)).

(** Householder and Cholesky orthonormalisation of n columns:
    geqrf/gqr returns the Q of V = Q U; if potrf of V^H V succeeds then trsm returns such a Q; potrf of the identity succeeds;
    if potrf of the shifted V^H V succeeds then trsm returns W with V = W U. *)
Record exact_qr (n : nat) : Prop := {
  eq_hh : forall cs, size cs = n -> upper_factor cs (cols (b_hh bl cs) n) /\ orthonormal cj (cols (b_hh bl cs) n);
  eq_chol : forall cs U, size cs = n -> b_potrf bl (b_syherk bl cs) = (BinNums.Z0, U) ->
    upper_factor cs (cols (b_trsm bl U cs) n) /\ orthonormal cj (cols (b_trsm bl U cs) n);
  eq_unit : forall cs, size cs = n -> orthonormal cj cs -> fst (b_potrf bl (b_syherk bl cs)) = BinNums.Z0;
  eq_shift : forall cs U, size cs = n -> b_potrf bl (b_dshift bl (b_syherk bl cs)) = (BinNums.Z0, U) -> upper_factor cs (cols (b_trsm bl U cs) n)
}.

(** heevd and the back transformation: the small matrix A = V^H W of an orthonormal V and W = H^H V has the unitary eigenvector
    matrix Z and the eigenvalues d, and the new columns are V Z *)
Record exact_rr (H : 'M[C]_N) (n : nat) : Prop := {
  er_solve : forall cs, (size cs <= n)%N -> orthonormal cj cs ->
    let A := b_gram bl cs (map (b_mulH bl H) cs) in
    exists Z : nat -> nat -> C,
      (forall j, (j < size cs)%N -> b_comb bl cs A j = \sum_(i < size cs) Z i j *: cs`_i) /\
      (forall j k, (j < size cs)%N -> (k < size cs)%N -> \sum_(i < size cs) cj (Z i j) * Z i k = (j == k)%:R) /\
      (forall i j, (i < size cs)%N -> (j < size cs)%N ->
         \sum_(k < size cs) dot cj cs`_i (adj cj H *m cs`_k) * Z k j = inj (b_eval bl A j) * Z i j)
}.

(** the eigenvalues of the small problem come in ascending order (LAPACK's heevd) *)
Definition ordered_rr (H : 'M[C]_N) (n : nat) : Prop := forall cs i j, (size cs <= n)%N -> orthonormal cj cs -> (i <= j < size cs)%N ->
  let A := b_gram bl cs (map (b_mulH bl H) cs) in (b_eval bl A i <= b_eval bl A j)%R.

(** vector operations of the residual *)
Record exact_vec : Prop := {
  ev_inj : forall x, b_inj bl x = inj x;
  ev_axpy : forall a x y, b_axpy bl a x y = a *: x + y;
  ev_nrm2 : forall x, 0 <= b_nrm2 bl x /\ inj (b_nrm2 bl x) ^+ 2 = dot cj x x
}.
End Oracles.

(** a sort that leaves ascending keys where they are (any sort does if they are distinct, a stable one always) *)
Definition keeps_ascending (R : rcfType) (sort_idx : list R -> list nat) : Prop :=
  forall keys, sorted <=%R keys -> sort_idx keys = iota 0 (size keys).
