(** Specification for sessions on grids with exact library calls. *)
From Coq Require Import Permutation.
From mathcomp Require Import all_ssreflect all_algebra all_real_closed.
Require Import Verif.Base Verif.AlgModel Verif.AlgSpec Verif.DlaModel Verif.ColModel Verif.ColSpec Verif.ExactSpec Verif.OrthSpec Verif.KerModel Verif.KerSpec Verif.DsSpec Verif.LapackSpec Verif.ReuseSpec.
Import Verif.ExactSpec Verif.OrthSpec Verif.ColSpec.
Set Implicit Arguments. Unset Strict Implicit. Unset Printing Implicit Defensive.
Import GRing.Theory Num.Theory.
Local Open Scope ring_scope.
Local Open Scope complex_scope.

Section Spec.
Variables (R : rcfType) (C : fieldType) (inj : {rmorphism R -> C}) (cj : {rmorphism C -> C}) (nev nex N : nat).
Local Notation n := (Nat.add nev nex).
Local Notation jobT := (job (F := R) (V := 'cV[C]_N) (M := 'M[C]_N)).
(** a Hermitian problem with a fixed degree and no symmetry test *)
Definition hjob_ok (J : jobT) : Prop := let cf := j_conf J in
  job_ok true nev nex J /\ hermitian cj (j_H J) /\ le 1 (c_maxiter cf) /\ c_opt cf = false /\ c_symcheck cf = false /\ c_approx cf = true /\
  le n (length (j_ritz J)) /\ le n (length (j_resid J)) /\ le 2 (c_N cf) /\ le 1 (c_lanczositer cf).
(** an answer to it: values, residuals and orthonormal vectors to which they belong *)
Definition solves_job (J : jobT) (a : list R * list R * seq 'cV[C]_N) : Prop := let '(vals, res, X) := a in
  size X = n /\ orthonormal cj X /\ spectral_pairs inj cj (j_H J) nev vals res X /\ sums_bounded inj (j_H J) nev vals.
(** a process reports that answer: the values, the residuals and its rows of the vectors *)
Definition reports_part (rows : list nat) (a : list R * list R * seq 'cV[C]_N) (b : list R * list R * list C) : Prop :=
  fst b = fst a /\ carries rows (map (@vfn C N) (snd a)) (snd b).
End Spec.
Arguments hjob_ok {R C} cj nev nex {N} J.
Arguments solves_job {R C} inj cj nev nex {N} J a.
Arguments reports_part {R C N} rows a b.
