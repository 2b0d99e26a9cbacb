(** Proofs about the loops of blas_templates.inc. *)
From Coq Require Import List ZArith Lia.
Require Import Verif.Base Verif.NormModel Verif.NormSpec.
Local Open Scope Z_scope.

Section Loop.
  Context {R : Type} (zero : R) (add : R -> R -> R).
  Lemma loop_sum n f v :
    0 <= n < 2 ^ 31 -> (forall j : nat, Z.of_nat j < n -> f (Z.of_nat j) = Some (v j)) ->
    forall k i, Z.of_nat i + Z.of_nat k = n ->
    loop add (S k) n f (Z.of_nat i) (partial zero add v i) = Ok (partial zero add v (Z.to_nat n)).
  Proof.
    intros N F. induction k as [|k IH]; intros i E.
    - cbn [loop]. rewrite Z.mod_small by lia. replace (Z.of_nat i <? n) with false by (symmetry; apply Z.ltb_ge; lia).
      now replace (Z.to_nat n) with i by lia.
    - remember (S k) as k' eqn:Ek. cbn [loop]. rewrite Z.mod_small by lia.
      replace (Z.of_nat i <? n) with true by (symmetry; apply Z.ltb_lt; lia).
      rewrite F by lia. unfold int_max. replace (Z.of_nat i =? _) with false by (symmetry; apply Z.eqb_neq; lia).
      subst k'. specialize (IH (S i)). rewrite Nat2Z.inj_succ in IH. unfold Z.succ in IH. cbn [partial] in IH. apply IH. lia.
  Qed.
  (** with 2^31 terms or more the counter overflows *)
  Lemma loop_overflow n f :
    2 ^ 31 <= n < 2 ^ 64 -> forall k i acc, 0 <= i <= int_max -> int_max - i < Z.of_nat k ->
    loop add k n f i acc = UB.
  Proof.
    intros N. induction k as [|k IH]; intros i acc I K; [unfold int_max in *; lia|].
    cbn [loop]. unfold int_max in *. rewrite Z.mod_small by lia.
    replace (i <? n) with true by (symmetry; apply Z.ltb_lt; lia).
    destruct (f i); auto. destruct (Z.eqb_spec i (2 ^ 31 - 1)); auto. apply IH; lia.
  Qed.
End Loop.

Lemma norm_p2_sum {T R} (zero : R) add (sq : T -> R) n x v :
  0 <= n < 2 ^ 31 -> entry x 1 v n ->
  t_norm_p2 zero add sq n x = Ok (partial zero add (fun j => sq (v j)) (Z.to_nat n)).
Proof.
  intros N E. unfold t_norm_p2.
  apply (loop_sum zero add n _ (fun j => sq (v j)) N) with (i := 0%nat); [|lia].
  intros j J. rewrite Z.mod_small by lia. specialize (E j J). rewrite Z.mul_1_r in E. now rewrite E.
Qed.
Lemma norm_p2_overflow {T R} (zero : R) add (sq : T -> R) n x :
  2 ^ 31 <= n < 2 ^ 64 -> t_norm_p2 zero add sq n x = UB.
Proof. intros N. unfold t_norm_p2. apply loop_overflow; unfold int_max; lia. Qed.
Lemma dot_sum {T} (zero : T) add mul conj n x incx y incy v w :
  0 <= n < 2 ^ 31 -> 0 <= incx -> 0 <= incy -> n * incx < 2 ^ 64 -> n * incy < 2 ^ 64 ->
  entry x incx v n -> entry y incy w n ->
  t_dot_complex zero add mul conj n x incx y incy = Ok (partial zero add (fun j => mul (conj (v j)) (w j)) (Z.to_nat n)).
Proof.
  intros N IX IY BX BY EX EY. unfold t_dot_complex.
  apply (loop_sum zero add n _ (fun j => mul (conj (v j)) (w j)) N) with (i := 0%nat); [|lia].
  intros j J. rewrite !Z.mod_small by nia. now rewrite EX, EY by assumption.
Qed.
Lemma dot_overflow {T} (zero : T) add mul conj n x incx y incy :
  2 ^ 31 <= n < 2 ^ 64 -> t_dot_complex zero add mul conj n x incx y incy = UB.
Proof. intros N. unfold t_dot_complex. apply loop_overflow; unfold int_max; lia. Qed.
