(** One-sided version of DlaSim, for the whole interface. *)
From Coq Require Import List Arith ZArith Bool Lia.
Require Import Verif.Base Verif.AlgModel Verif.AlgSpec Verif.AlgSim Verif.AlgSimLe Verif.DlaModel Verif.DlaSim.
Import ListNotations.

Record dla_le {F D1 D2} (L1 : dla F D1) (L2 : dla F D2) (R : D1 -> D2 -> Prop) : Prop := {
  dl_sym : forall s t, R s t -> rel_le (vrel R) (d_sym L1 s) (d_sym L2 t);
  dl_start : forall s t, R s t -> rel_le R (d_start L1 s) (d_start L2 t);
  dl_end : forall s t, R s t -> rel_le R (d_end L1 s) (d_end L2 t);
  dl_initrnd : forall s t, R s t -> rel_le R (d_initrnd L1 s) (d_initrnd L2 t);
  dl_init : forall s t, R s t -> rel_le R (d_init L1 s) (d_init L2 t);
  dl_shift : forall c u s t, R s t -> rel_le R (d_shift L1 c u s) (d_shift L2 c u t);
  dl_apply : forall a b off blk l s t, R s t -> rel_le R (d_apply L1 a b off blk l s) (d_apply L2 a b off blk l t);
  dl_hhqr : forall l s t, R s t -> rel_le R (d_hhqr L1 l s) (d_hhqr L2 l t);
  dl_chol1 : forall l s t, R s t -> rel_le (vrel R) (d_chol1 L1 l s) (d_chol1 L2 l t);
  dl_chol2 : forall l s t, R s t -> rel_le (vrel R) (d_chol2 L1 l s) (d_chol2 L2 l t);
  dl_schol2 : forall l s t, R s t -> rel_le (vrel R) (d_schol2 L1 l s) (d_schol2 L2 l t);
  dl_lockcopy : forall l b s t, R s t -> rel_le R (d_lockcopy L1 l b s) (d_lockcopy L2 l b t);
  dl_rr : forall blk l s t, R s t -> rel_le (vrel R) (d_rr L1 blk l s) (d_rr L2 blk l t);
  dl_resd : forall v l u s t, R s t -> rel_le (vrel R) (d_resd L1 v l u s) (d_resd L2 v l u t);
  dl_swap : forall i j s t, R s t -> rel_le R (d_swap L1 i j s) (d_swap L2 i j t);
  dl_mlanczos : forall m nv s t, R s t -> rel_le (vrel R) (d_mlanczos L1 m nv s) (d_mlanczos L2 m nv t);
  dl_dos : forall i m rv s t, R s t -> rel_le R (d_dos L1 i m rv s) (d_dos L2 i m rv t)
}.

Section Lift.
Context {F D1 D2 : Type} (fo : fops F) (qe : qr_env F) (td : tridiag F) (nev nex : nat) (L1 : dla F D1) (L2 : dla F D2) (R : D1 -> D2 -> Prop).
Local Notation K1 := (cmK fo qe td L1 nev nex).
Local Notation K2 := (cmK fo qe td L2 nev nex).

Lemma lift_le (s : cm (D := D1)) (t : cm (D := D2)) x y : cm_locked s = cm_locked t -> rel_le R x y -> rel_le (cmR R) (lift s x) (lift t y).
Proof. intros E H. unfold lift. eapply le_bind; eauto. intros. cbn. now split. Qed.
Lemma lift_v_le {X} (s : cm (D := D1)) (t : cm (D := D2)) (x : res (X * D1)) y : cm_locked s = cm_locked t -> rel_le (vrel R) x y ->
  rel_le (vrel (cmR R)) (lift_v s x) (lift_v t y).
Proof. intros E H. unfold lift_v. eapply le_bind; eauto. intros [? ?] [? ?] [? ?]. cbn in *. subst. repeat split; auto. Qed.

Context (DR : dla_le L1 L2 R).

Lemma cm_qr_le f c s t : cmR R s t -> rel_le (cmR R) (cm_qr fo qe L1 f c s) (cm_qr fo qe L2 f c t).
Proof.
  intros [E H]. unfold cm_qr. cbv zeta. rewrite E.
  eapply le_bind with (R := vrel R).
  - destruct (_ =? 1)%Z.
    + eapply le_bind; [apply (dl_hhqr _ _ _ DR); eauto|]. intros. cbn. split; auto.
    + eapply le_bind with (R := vrel R).
      * destruct (f_lt _ _ _); [now apply (dl_schol2 _ _ _ DR)|]. destruct (f_lt _ _ _); [now apply (dl_chol1 _ _ _ DR)|now apply (dl_chol2 _ _ _ DR)].
      * intros [i d] [i' d'] [X Y]. cbn [fst snd] in *. subst i'. destruct (i =? 0)%Z; [cbn; split; auto|].
        eapply le_bind; [apply (dl_hhqr _ _ _ DR); eauto|]. intros. cbn. split; auto.
  - intros [h d] [h' d'] [X Y]. cbn [fst snd] in *. subst h'. apply lift_le; auto. now apply (dl_lockcopy _ _ _ DR).
Qed.

Lemma cm_le : kernel_le K1 K2 (cmR R).
Proof.
  split; cbn [cmK k_sym k_start k_end k_init k_shift k_hemm k_qr k_rr k_resd k_swap k_lock k_lanczos1 k_lanczos2 k_dos].
  - intros s t [E H]. apply lift_v_le; auto. now apply (dl_sym _ _ _ DR).
  - intros s t [E H]. eapply le_bind; [apply (dl_start _ _ _ DR); eauto|]. intros. cbn. now split.
  - intros s t [E H]. apply lift_le; auto. now apply (dl_end _ _ _ DR).
  - intros r s t [E H]. apply lift_le; auto. eapply le_bind with (R := R).
    + destruct r; [now apply (dl_initrnd _ _ _ DR)|exact H].
    + intros. now apply (dl_init _ _ _ DR).
  - intros c u s t [E H]. apply lift_le; auto. now apply (dl_shift _ _ _ DR).
  - intros m a b off s t [E H]. rewrite E. apply lift_le; auto. now apply (dl_apply _ _ _ DR).
  - intros l c s t H. now apply cm_qr_le.
  - intros m s t [E H]. rewrite E. apply lift_v_le; auto. now apply (dl_rr _ _ _ DR).
  - intros v l s t [E H]. rewrite E. apply lift_v_le; auto. now apply (dl_resd _ _ _ DR).
  - intros i j s t [E H]. apply lift_le; auto. now apply (dl_swap _ _ _ DR).
  - intros m s t [E H]. cbn. split; cbn; auto.
  - intros m s t [E H]. unfold cm_lanczos1. eapply le_bind; [apply (dl_mlanczos _ _ _ DR); eauto|].
    intros [[[d e] b] x] [[[d' e'] b'] x'] [X Y]. cbn [fst snd] in *. injection X as <- <- <-. cbv zeta.
    do 3 (eapply le_bind; [apply le_eq|]; intros ? ? <-). cbn. repeat split; auto.
  - intros m nv s t [E H]. unfold cm_lanczos2. eapply le_bind; [apply (dl_mlanczos _ _ _ DR); eauto|].
    intros [[[d e] b] x] [[[d' e'] b'] x'] [X Y]. cbn [fst snd] in *. injection X as <- <- <-.
    eapply le_bind; [apply le_eq|]. intros [[th ta] rv] ? <-. do 4 (eapply le_bind; [apply le_eq|]; intros ? ? <-). cbn. repeat split; auto.
  - intros i m rv s t [E H]. apply lift_le; auto. now apply (dl_dos _ _ _ DR).
Qed.
End Lift.
