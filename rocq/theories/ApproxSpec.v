(** Vocabulary for the distance of computed from exact eigenvalues and eigenvectors. *)
From mathcomp Require Import all_ssreflect all_algebra all_real_closed.
Require Import Verif.ExactSpec Verif.OrthSpec.
Set Implicit Arguments. Unset Strict Implicit. Unset Printing Implicit Defensive.
Import GRing.Theory Num.Theory.
Local Open Scope ring_scope.
Local Open Scope complex_scope.

Section Spec.
Variables (R : rcfType) (C : fieldType) (inj : {rmorphism R -> C}) (cj : {rmorphism C -> C}) (e : {rmorphism C -> R[i]}) (N : nat).

(** x is a linear combination of the columns cs *)
Definition in_span (cs : seq 'cV[C]_N) (x : 'cV[C]_N) : Prop := exists a : nat -> C, x = \sum_(i < size cs) a i *: cs`_i.

(** squared Euclidean distance *)
Definition dist2 (x y : 'cV[C]_N) : R := complex.Re (e (dot cj (x - y) (x - y))).

(** us is an orthonormal basis of eigenvectors of H, ls the eigenvalues in ascending order *)
Record eigenbasis (H : 'M[C]_N) (us : seq 'cV[C]_N) (ls : seq R) : Prop := {
  eb_size : size us = N;
  eb_orth : orthonormal cj us;
  eb_vals : size ls = N;
  eb_sort : sorted <=%R ls;
  eb_eig : forall j, (j < N)%N -> H *m us`_j = inj ls`_j *: us`_j
}.

(** the combination V0 Y has in its i-th column the component 1 along the i-th of the first m eigenvectors and 0 along the other m-1:
    such a Y exists exactly if the components of V0 along the first m eigenvectors form a matrix of rank m *)
Definition reaches (us V0 : seq 'cV[C]_N) (m : nat) (Y : nat -> nat -> C) : Prop :=
  forall i j, (i < m)%N -> (j < m)%N -> \sum_(l < size V0) dot cj us`_i V0`_l * Y l j = (i == j)%:R.
Definition combined (V0 : seq 'cV[C]_N) (Y : nat -> nat -> C) (j : nat) : 'cV[C]_N := \sum_(l < size V0) Y l j *: V0`_l.
End Spec.

(** factor by which one application of the degree-d filter reduces the components inside [lo,up] relative to that of eigenvalue x *)
Definition rate (R : rcfType) (lo up : R) (d : nat) (x : R) : R := `|(chebT d).[mapto lo up x]|^-1.

(** the first m eigenvalues lie below [lo], the others in [lo, up]; [la] is below [lo] too *)
Definition splits (R : rcfType) (ls : seq R) (m : nat) (la lo up : R) : Prop :=
  la < lo /\ lo < up /\ (m <= size ls)%N /\ (forall j, (j < m)%N -> ls`_j < lo) /\ (forall j, (m <= j < size ls)%N -> lo <= ls`_j <= up).

(** bound for the squared distance of the i-th exact eigenvector from the block after t applications of the filter *)
Definition err (R : rcfType) (C : fieldType) (cj : {rmorphism C -> C}) (e : {rmorphism C -> R[i]}) (N : nat) (us : seq 'cV[C]_N) (ls : seq R)
  (V0 : seq 'cV[C]_N) (Y : nat -> nat -> C) (lo up : R) (d t i : nat) : R := rate lo up d ls`_i ^+ (2 * t) * dist2 cj e (combined V0 Y i) us`_i.
