(** Vocabulary for the residuals of the solver's pairs. *)
From mathcomp Require Import all_ssreflect all_algebra all_real_closed.
Require Import Verif.ExactSpec Verif.OrthSpec Verif.ApproxSpec.
Set Implicit Arguments. Unset Strict Implicit. Unset Printing Implicit Defensive.
Import GRing.Theory Num.Theory.
Local Open Scope ring_scope.
Local Open Scope complex_scope.

(** the largest squared residual that m Ritz pairs can have if the squared distances of the first m eigenvectors (eigenvalues below lo, the others in
    [lo, up]) from the block sum up to at most E *)
Definition budget (R : rcfType) (ls : seq R) (m : nat) (lo up E : R) : R :=
  (up - ls`_0) ^+ 2 * E * (1 + m%:R * (up - ls`_0) / (lo - ls`_m.-1)) *+ 2.

(** the bound for those distances after t iterations *)
Definition total_err (R : rcfType) (C : fieldType) (cj : {rmorphism C -> C}) (e : {rmorphism C -> R[i]}) (N : nat) (us : seq 'cV[C]_N) (ls : seq R)
  (V0 : seq 'cV[C]_N) (Y : nat -> nat -> C) (lo up : R) (d t m : nat) : R := \sum_(i < m) err cj e us ls V0 Y lo up d t i.

(** for every element there is a larger natural number *)
Definition archimedean (R : rcfType) : Prop := forall x : R, exists k : nat, x < k%:R.
