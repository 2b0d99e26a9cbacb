(** What the caller gets back in exact arithmetic. *)
From Coq Require Import Permutation.
From mathcomp Require Import all_ssreflect all_algebra all_real_closed.
Require Import Verif.ExactSpec Verif.OrthSpec.
Set Implicit Arguments. Unset Strict Implicit. Unset Printing Implicit Defensive.
Import GRing.Theory Num.Theory.
Local Open Scope ring_scope.

Section Spec.
Variables (R : rcfType) (C : fieldType) (inj : {rmorphism R -> C}) (cj : {rmorphism C -> C}) (N : nat).
Variables (H : 'M[C]_N) (nev n : nat) (vals : list R) (cols : list 'cV[C]_N) (res : list R).

(** the first nev values are the Rayleigh quotients of the first nev columns, which have unit length; the residuals belong to
    them in some order, are the norms of H x - v x, and an eigenvalue of H lies within each *)
Definition pairs_ok : Prop := exists rs, Permutation rs (List.firstn nev res) /\
  forall i, lt i nev -> exists v x r, List.nth_error vals i = Some v /\ List.nth_error cols i = Some x /\
    List.nth_error rs i = Some r /\ dot cj x x = 1 /\ inj v = dot cj x (H *m x) /\
    0 <= r /\ inj r ^+ 2 = dot cj (H *m x - inj v *: x) (H *m x - inj v *: x) /\
    exists l, eigenvalue H (inj l) /\ `|l - v| <= r.

(** any interval, widened by the joint residual, contains at least as many eigenvalues d, with multiplicities, as values *)
Definition counts_ok : Prop := exists d : 'I_N -> R, char_poly H = \prod_j ('X - (inj (d j))%:P) /\
  forall a b dl, 0 <= dl -> \sum_(r <- List.firstn nev res) r ^+ 2 <= dl ^+ 2 ->
    (seq.count (fun v => a <= v <= b)%R (List.firstn nev vals) <= #|[set j : 'I_N | (a - dl <= d j <= b + dl)%R]|)%N.

(** any k of the values sum up to something between the sums of the k smallest and the k largest eigenvalues *)
Definition sums_ok : Prop := exists ls : seq R, sorted <=%R ls /\ char_poly H = \prod_(l <- ls) ('X - (inj l)%:P) /\
  forall I : seq nat, uniq I -> all (fun i => i < nev)%N I ->
    \sum_(i < size I) ls`_i <= \sum_(i <- I) vals`_i <= \sum_(i < size I) ls`_(N - i.+1).

Record eigen_answer : Prop := {
  ea_size : size cols = n;
  ea_orth : orthonormal cj cols;
  ea_pairs : pairs_ok;
  ea_count : counts_ok;
  ea_sums : sums_ok
}.
End Spec.
