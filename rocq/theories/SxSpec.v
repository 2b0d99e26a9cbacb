(** Library calls of the sequential backends in exact arithmetic, and what the arrays of the caller mean as matrices.
    R are the real scalars (Base<T>), C the entries (T). *)
From mathcomp Require Import all_ssreflect all_algebra.
Require Import Verif.AlgModel Verif.ColModel Verif.SfModel Verif.SiModel Verif.SfSpec Verif.ExactSpec Verif.OrthSpec Verif.LapackSpec Verif.BackSpec.
Set Implicit Arguments. Unset Strict Implicit. Unset Printing Implicit Defensive.
Import GRing.Theory Num.Theory.
Local Open Scope ring_scope.

Section Arrays.
Variable C : fieldType.
(** the N x N matrix in a column-major array with leading dimension ldh; the k columns of an array with leading dimension N *)
Definition matrix_of (N ldh : nat) (H : list C) : 'M[C]_N := \matrix_(i, j) H`_(i + j * ldh).
Definition vectors_of (N k : nat) (V : list C) : seq 'cV[C]_N := [seq \col_i V`_(i + j * N) | j <- iota 0 k].

(** a vector and a matrix as the library sees them: entries, list of columns, columns of a triangle *)
Definition lst m (x : 'cV[C]_m) : list C := tab m (vfn x).
Definition cols m k (A : 'M[C]_(m, k)) : list (list C) := tab2 m k (LapackSpec.ent A).
Definition upcols k (A : 'M[C]_k) : list (list C) := SfSpec.upper k (LapackSpec.ent A).
Definition lowcols k (A : 'M[C]_k) : list (list C) := tab k (fun j => tab (k - j) (fun i => LapackSpec.ent A (j + i) j)).
End Arrays.

Section Lib.
Variables (R : rcfType) (C : fieldType) (inj : {rmorphism R -> C}) (cj : {rmorphism C -> C}) (lib : flib R C).

(** gemm (with and without reading the result), axpy, nrm2; geqrf and gqr of N x n columns; the upper triangle of A^H A; potrf of
    an upper triangle (info 0: factorised; succeeds on the identity); trsm; heevd of the lower triangle of a k x k matrix, k <= n.
    Nothing is assumed about the shift, the random numbers, the comparison and the scalar functions of mLanczos. *)
Record exact_lib (N n : nat) : Prop := {
  xs_gemm : forall m k (A : 'M[C]_(m, k)) a b x y (i : 'I_m), l_gemm lib false a b (cols A) (lst x) (lst y) i = (inj a *: (A *m x) + inj b *: y) i 0;
  xs_gemmH : forall m k (A : 'M[C]_(k, m)) a b x y (i : 'I_m), l_gemm lib true a b (cols A) (lst x) (lst y) i = (inj a *: (adj cj A *m x) + inj b *: y) i 0;
  xs_mul : forall m k (A : 'M[C]_(m, k)) x (i : 'I_m), l_mul lib false (cols A) (lst x) i = (A *m x) i 0;
  xs_mulH : forall m k (A : 'M[C]_(k, m)) x (i : 'I_m), l_mul lib true (cols A) (lst x) i = (adj cj A *m x) i 0;
  xs_add : forall x y, l_add lib x y = x + y;
  xs_zero : l_zero lib = 0;
  xs_inj : forall x, l_inj lib x = inj x;
  xs_axpy : forall a x y, l_axpy lib a x y = a * x + y;
  xs_nrm2 : forall m (x : 'cV[C]_m), 0 <= l_nrm2 lib (lst x) /\ inj (l_nrm2 lib (lst x)) ^+ 2 = dot cj x x;
  xs_hh : forall V : 'M[C]_(N, n), let f := l_geqrf lib (cols V) in
    let Q := \matrix_(i < N, j < n) l_gqr lib (tab2 N n (fst f)) (snd f) i j in
    adj cj Q *m Q = 1%:M /\ exists U : 'M[C]_n, uppertri U /\ V = Q *m U;
  xs_syherk : forall (V : 'M[C]_(N, n)) (i j : 'I_n), (i <= j)%N -> l_syherk lib (cols V) i j = (adj cj V *m V) i j;
  xs_po : forall A : 'M[C]_n, let f := l_potrf lib (upcols A) in fst f = BinNums.Z0 ->
    let U := \matrix_(i < n, j < n) (if (i <= j)%N then snd f i j else 0) in U \in unitmx /\ (hermitian cj A -> adj cj U *m U = A);
  xs_one : fst (l_potrf lib (upcols (1%:M : 'M[C]_n))) = BinNums.Z0;
  xs_tri : forall (U : 'M[C]_n) (V : 'M[C]_(N, n)), uppertri U -> U \in unitmx ->
    (\matrix_(i < N, j < n) l_trsm lib (upcols U) (cols V) i j) *m U = V;
  xs_ev : forall k (A : 'M[C]_k), (k <= n)%N -> hermitian cj A -> let f := l_heevd lib (lowcols A) in
    let Z := \matrix_(i < k, j < k) snd f i j in
    adj cj Z *m Z = 1%:M /\ A *m Z = Z *m diag_mx (\row_j inj (fst f j))
}.
End Lib.

(** the shifted factorisation of the vectors now in the array would succeed and the second one would fail *)
Definition late_arr {F T} (fo : fops F) (lib : flib F T) (N n : nat) (s : fst_ (T := T)) : bool := late_block (col_blas fo lib N) n (columns N n (f_C s)).
Definition late_iarr {F T} (fo : fops F) (lib : flib F T) (N n : nat) (s : ifst (T := T)) : bool := late_block (col_blas fo lib N) n (columns N n (g_V1 s)).
