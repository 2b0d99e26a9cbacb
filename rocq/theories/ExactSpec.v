(** Exact arithmetic: what the scalar operations and the matrix kernels mean when no rounding happens.
    R is the field of real scalars (Base<T>), C the field of matrix entries (T), [inj] the conversion and [cj] the complex
    conjugation (the identity for real T). *)
From mathcomp Require Import all_ssreflect all_algebra.
Require Import Verif.AlgModel Verif.ColModel.
Set Implicit Arguments. Unset Strict Implicit. Unset Printing Implicit Defensive.
Import GRing.Theory.
Local Open Scope ring_scope.

(** the operations the filter uses *)
Record exact_fops (R : fieldType) (fo : fops R) : Prop := {
  ef_add : forall x y, f_add fo x y = x + y;
  ef_sub : forall x y, f_sub fo x y = x - y;
  ef_mul : forall x y, f_mul fo x y = x * y;
  ef_div : forall x y, f_div fo x y = x / y;
  ef_neg : forall x, f_neg fo x = - x;
  ef_zero : f_zero fo = 0;
  ef_one : f_one fo = 1;
  ef_two : f_two fo = 2%:R
}.

(** conjugate transpose *)
Definition adj {C : fieldType} (cj : {rmorphism C -> C}) {m n} (A : 'M[C]_(m, n)) : 'M[C]_(n, m) := map_mx cj (A^T).

Definition hermitian {C : fieldType} (cj : {rmorphism C -> C}) {n} (A : 'M[C]_n) : Prop := adj cj A = A.

(** C and conjugation extend R *)
Record scalars (R C : fieldType) (inj : {rmorphism R -> C}) (cj : {rmorphism C -> C}) : Prop := {
  sc_inv : forall x, cj (cj x) = x;
  sc_real : forall x, cj (inj x) = inj x
}.

(** matrix-vector kernels *)
Record exact_mv (R C : fieldType) (inj : {rmorphism R -> C}) (cj : {rmorphism C -> C}) (n : nat) {G T : Type}
  (bl : blas R 'cV[C]_n 'M[C]_n G T) : Prop := {
  em_gemmN : forall H a b x y, b_gemmN bl H a b x y = inj a *: (H *m x) + inj b *: y;
  em_gemmH : forall H a b x y, b_gemmH bl H a b x y = inj a *: (adj cj H *m x) + inj b *: y;
  em_mulN : forall H x, b_mulN bl H x = H *m x;
  em_mulH : forall H x, b_mulH bl H x = adj cj H *m x;
  em_shift : forall H c, b_shift bl H c = H + (inj c)%:M
}.

(** ** Chebyshev polynomials of the first kind *)
Fixpoint chebT {R : comRingType} (n : nat) : {poly R} :=
  match n with
  | O => 1
  | S k => match k with
           | O => 'X
           | S j => 'X *+ 2 * chebT k - chebT j
           end
  end.

(** the interval [lo,up] mapped to [-1,1] *)
Definition mapto {R : fieldType} (lo up x : R) : R := (x - (up + lo) / 2%:R) / ((up - lo) / 2%:R).

(** scalar by which the filter of degree [d] multiplies an eigenvector of eigenvalue [x] *)
Definition gain {R : fieldType} (la lo up : R) (d : nat) (x : R) : R :=
  (chebT d).[mapto lo up x] / (chebT d).[mapto lo up la].

(** H with the spectrum interval [lo,up] mapped to [-1,1], and the filtered vector *)
Definition Hmap {R C : fieldType} (inj : {rmorphism R -> C}) (lo up : R) {n} (H : 'M[C]_n) : 'M[C]_n :=
  (inj ((up - lo) / 2%:R))^-1 *: (H - (inj ((up + lo) / 2%:R))%:M).
Definition cheb_col {R C : fieldType} (inj : {rmorphism R -> C}) (la lo up : R) {n} (H : 'M[C]_n.+1) (d : nat) (x : 'cV[C]_n.+1) : 'cV[C]_n.+1 :=
  (inj (chebT d).[mapto lo up la])^-1 *: (horner_mx (Hmap inj lo up H) (chebT d) *m x).
