(** Specification for sessions with exact library calls. *)
From Coq Require Import Permutation.
From mathcomp Require Import all_ssreflect all_algebra all_real_closed.
Require Import Verif.Base Verif.AlgModel Verif.AlgSpec Verif.DlaModel Verif.ColModel Verif.ColSpec Verif.SfModel Verif.SfSpec Verif.SiModel Verif.SgModel Verif.SgSpec
  Verif.ExactSpec Verif.OrthSpec Verif.BackSpec2 Verif.SxSpec Verif.ReuseSpec Verif.SuSpec.
Import Verif.ExactSpec Verif.OrthSpec Verif.ColSpec.
Set Implicit Arguments. Unset Strict Implicit. Unset Printing Implicit Defensive.
Import GRing.Theory Num.Theory.
Local Open Scope ring_scope.
Local Open Scope complex_scope.

Section Spec.
Variables (R : rcfType) (C : fieldType) (inj : {rmorphism R -> C}) (cj : {rmorphism C -> C}) (nev nex : nat) (N ldh : nat).
Local Notation n := (Nat.add nev nex).
Local Notation jobT := (job (F := R) (V := C) (M := list C)).
(** a problem with a fixed degree and no symmetry test, and its answer *)
Definition xjob_ok (j : jobT) : Prop := let cf := j_conf j in
  ajob_ok true N ldh nev nex j /\ hermitian cj (matrix_of N ldh (j_H j)) /\ le 1 (c_maxiter cf) /\ c_opt cf = false /\ c_symcheck cf = false /\ c_approx cf = true /\
  le n (length (j_ritz j)) /\ le n (length (j_resid j)) /\ le 2 (c_N cf) /\ le 1 (c_lanczositer cf).
Definition answer_ok (j : jobT) (r : res (list R * list R * option (list C))) : Prop := exists vals rs V, r = Ok (vals, rs, Some V) /\
  eigen_answer inj cj (matrix_of N ldh (j_H j)) nev n vals (vectors_of N n V) rs.

End Spec.
