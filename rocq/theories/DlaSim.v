(** Backends with related operations give related kernels. *)
From Coq Require Import List Arith ZArith Bool Lia.
Require Import Verif.Base Verif.AlgModel Verif.AlgSpec Verif.AlgProofs1 Verif.AlgProofs2 Verif.AlgSim Verif.AlgSim2 Verif.DlaModel.
Import ListNotations.

Definition cmR {D1 D2} (R : D1 -> D2 -> Prop) (s : cm (D := D1)) (t : cm (D := D2)) : Prop :=
  cm_locked s = cm_locked t /\ R (cm_dla s) (cm_dla t).

Record dla_rel {F D1 D2} (L1 : dla F D1) (L2 : dla F D2) (R : D1 -> D2 -> Prop) : Prop := {
  dr_shift : forall c u s t, R s t -> rel_res R (d_shift L1 c u s) (d_shift L2 c u t);
  dr_apply : forall a b off blk l s t, R s t -> rel_res R (d_apply L1 a b off blk l s) (d_apply L2 a b off blk l t);
  dr_hhqr : forall l s t, R s t -> rel_res R (d_hhqr L1 l s) (d_hhqr L2 l t);
  dr_chol1 : forall l s t, R s t -> rel_res (vrel R) (d_chol1 L1 l s) (d_chol1 L2 l t);
  dr_chol2 : forall l s t, R s t -> rel_res (vrel R) (d_chol2 L1 l s) (d_chol2 L2 l t);
  dr_schol2 : forall l s t, R s t -> rel_res (vrel R) (d_schol2 L1 l s) (d_schol2 L2 l t);
  dr_lockcopy : forall l b s t, R s t -> rel_res R (d_lockcopy L1 l b s) (d_lockcopy L2 l b t);
  dr_rr : forall blk l s t, R s t -> rel_res (vrel R) (d_rr L1 blk l s) (d_rr L2 blk l t);
  dr_swap : forall i j s t, R s t -> rel_res R (d_swap L1 i j s) (d_swap L2 i j t);
  dr_mlanczos : forall m nv s t, R s t -> rel_res (vrel R) (d_mlanczos L1 m nv s) (d_mlanczos L2 m nv t);
  dr_dos : forall i m rv s t, R s t -> rel_res R (d_dos L1 i m rv s) (d_dos L2 i m rv t)
}.

Section Lift.
Context {F D1 D2 : Type} (fo : fops F) (qe : qr_env F) (td : tridiag F) (nev nex : nat) (L1 : dla F D1) (L2 : dla F D2) (R : D1 -> D2 -> Prop).
Local Notation K1 := (cmK fo qe td L1 nev nex).
Local Notation K2 := (cmK fo qe td L2 nev nex).

Lemma lift_rel (s : cm (D := D1)) (t : cm (D := D2)) x y : cm_locked s = cm_locked t -> rel_res R x y -> rel_res (cmR R) (lift s x) (lift t y).
Proof. intros E H. unfold lift. eapply rel_bind; eauto. intros. cbn. now split. Qed.
Lemma lift_v_rel {X} (s : cm (D := D1)) (t : cm (D := D2)) (x : res (X * D1)) y : cm_locked s = cm_locked t -> rel_res (vrel R) x y ->
  rel_res (vrel (cmR R)) (lift_v s x) (lift_v t y).
Proof. intros E H. unfold lift_v. eapply rel_bind; eauto. intros [? ?] [? ?] [? ?]. cbn in *. subst. repeat split; auto. Qed.

Context (DR : dla_rel L1 L2 R).

Lemma cm_qr_rel f c s t : cmR R s t -> rel_res (cmR R) (cm_qr fo qe L1 f c s) (cm_qr fo qe L2 f c t).
Proof.
  intros [E H]. unfold cm_qr. cbv zeta. rewrite E.
  eapply rel_bind with (R := vrel R).
  - destruct (_ =? 1)%Z.
    + eapply rel_bind; [apply (dr_hhqr _ _ _ DR); eauto|]. intros. cbn. split; auto.
    + eapply rel_bind with (R := vrel R).
      * destruct (f_lt _ _ _); [now apply (dr_schol2 _ _ _ DR)|]. destruct (f_lt _ _ _); [now apply (dr_chol1 _ _ _ DR)|now apply (dr_chol2 _ _ _ DR)].
      * intros [i d] [i' d'] [X Y]. cbn [fst snd] in *. subst i'. destruct (i =? 0)%Z; [cbn; split; auto|].
        eapply rel_bind; [apply (dr_hhqr _ _ _ DR); eauto|]. intros. cbn. split; auto.
  - intros [h d] [h' d'] [X Y]. cbn [fst snd] in *. subst h'. apply lift_rel; auto. now apply (dr_lockcopy _ _ _ DR).
Qed.

Lemma cm_core_rel : kernel_rel (core K1) (core K2) (cmR R).
Proof.
  split; cbn [core cmK k_sym k_start k_end k_init k_shift k_hemm k_qr k_rr k_resd k_swap k_lock k_lanczos1 k_lanczos2 k_dos];
    try (intros; exact I).
  - intros c u s t [E H]. apply lift_rel; auto. now apply (dr_shift _ _ _ DR).
  - intros m a b off s t [E H]. rewrite E. apply lift_rel; auto. now apply (dr_apply _ _ _ DR).
  - intros l c s t H. now apply cm_qr_rel.
  - intros m s t [E H]. rewrite E. apply lift_v_rel; auto. now apply (dr_rr _ _ _ DR).
  - intros i j s t [E H]. apply lift_rel; auto. now apply (dr_swap _ _ _ DR).
  - intros m s t [E H]. cbn. split; cbn; auto.
  - intros m s t [E H]. unfold cm_lanczos1. eapply rel_bind; [apply (dr_mlanczos _ _ _ DR); eauto|].
    intros [[[d e] b] x] [[[d' e'] b'] x'] [X Y]. cbn [fst snd] in *. injection X as <- <- <-. cbv zeta. rb. rb. rb. cbn. repeat split; auto.
  - intros m nv s t [E H]. unfold cm_lanczos2. eapply rel_bind; [apply (dr_mlanczos _ _ _ DR); eauto|].
    intros [[[d e] b] x] [[[d' e'] b'] x'] [X Y]. cbn [fst snd] in *. injection X as <- <- <-.
    eapply rel_bind; [apply rel_eq|]. intros [[th ta] rv] ? <-. rb. rb. rb. rb. cbn. repeat split; auto.
  - intros i m rv s t [E H]. apply lift_rel; auto. now apply (dr_dos _ _ _ DR).
Qed.
End Lift.
