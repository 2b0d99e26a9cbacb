(** Programs that differ only by the extensional equality of their continuations. *)
From Coq Require Import List Arith Bool ZArith Lia.
Require Import Verif.Base Verif.SpmdModel Verif.SpmdSpec Verif.SpmdProofs.
Import ListNotations.

Section Peq.
Context {D A : Type}.
Inductive peq : prog D A -> prog D A -> Prop :=
| peq_ret a : peq (Ret a) (Ret a)
| peq_bad : peq Bad Bad
| peq_call c a k k' : (forall r, peq (k r) (k' r)) -> peq (Call c a k) (Call c a k').
Lemma peq_refl x : peq x x.
Proof. induction x; constructor; auto. Qed.
Lemma peq_offer c x y : peq x y -> offer c x = offer c y.
Proof. destruct 1; reflexivity. Qed.
Lemma peq_resume x y r : peq x y -> peq (resume x r) (resume y r).
Proof. destruct 1; simpl; auto; constructor. Qed.
Lemma peq_offers c xs ys : Forall2 peq xs ys -> offers c xs = offers c ys.
Proof. induction 1; simpl; auto. now rewrite (peq_offer c x y H), IHForall2. Qed.
Context (add : D -> D -> D) (p q : nat) (Q : nat -> nat -> A -> Prop).
Lemma members_peq c x st st' : (forall i j, i < p -> j < q -> peq (st i j) (st' i j)) -> x < ncomm p q c ->
  Forall2 peq (members p q c x st) (members p q c x st').
Proof.
  intros H Hx. destruct c; simpl in *.
  - assert (G : forall l, (forall i, In i l -> i < p) -> Forall2 peq (map (fun i => st i x) l) (map (fun i => st' i x) l)).
    { induction l; simpl; constructor; auto. }
    apply G. intros i Hi. apply in_seq in Hi. lia.
  - assert (G : forall l, (forall j, In j l -> j < q) -> Forall2 peq (map (fun j => st x j) l) (map (fun j => st' x j) l)).
    { induction l; simpl; constructor; auto. }
    apply G. intros i Hi. apply in_seq in Hi. lia.
Qed.
Lemma path_peq n : forall st st', (forall i j, i < p -> j < q -> peq (st i j) (st' i j)) -> path add p q Q n st -> path add p q Q n st'.
Proof.
  induction n; intros st st' H Hpath; inversion Hpath as [? Hd|? ? st1 Hs Hr]; subst.
  - apply path_done. intros i j Hi Hj. destruct (Hd i j Hi Hj) as (a & E & Ha). exists a. split; auto. specialize (H i j Hi Hj). rewrite E in H. now inversion H.
  - inversion Hs as [c x acts r ? ? Hx Ho Hre He]; subst.
    apply (path_step add p q Q n st' (fun i j => if in_comm c x i j then resume (st' i j) r else st' i j)).
    + apply (fire add p q c x acts r); auto. rewrite <- Ho. symmetry. apply peq_offers. now apply members_peq.
    + apply (IHn st1); auto. intros i j Hi Hj. rewrite He by auto. destruct (in_comm c x i j); auto. now apply peq_resume, H.
Qed.
Lemma good_peq st st' : (forall i j, i < p -> j < q -> peq (st i j) (st' i j)) -> good add p q Q st -> good add p q Q st'.
Proof. intros H [n Hn]. exists n. eapply path_peq; eauto. Qed.
End Peq.
Lemma pbind_ret {D A} (x : prog D A) : peq (pbind x (fun a => Ret a)) x.
Proof. induction x; simpl; constructor; auto. Qed.
Lemma pbind_assoc {D A B C} (x : prog D A) (f : A -> prog D B) (g : B -> prog D C) : peq (pbind (pbind x f) g) (pbind x (fun a => pbind (f a) g)).
Proof. induction x; simpl; [apply peq_refl|constructor|constructor; auto]. Qed.
Lemma peq_sym {D A} (x y : prog D A) : peq x y -> peq y x.
Proof. induction 1; constructor; auto. Qed.
Lemma peq_bind {D A B} (x : prog D A) (f g : A -> prog D B) : (forall a, peq (f a) (g a)) -> peq (pbind x f) (pbind x g).
Proof. intros H. induction x; simpl; auto; constructor; auto. Qed.

Lemma good_last {D A} (add : D -> D -> D) p q (Q : nat -> nat -> A -> Prop) c (R : nat -> nat -> A -> Prop) (P : nat -> nat -> prog D A) : 0 < p -> 0 < q ->
  (forall x, x < ncomm p q c -> crun add c (csize p q c) (R x) (P x)) ->
  (forall i j a, i < p -> j < q -> R (cnum c i j) (crank c i j) a -> Q i j a) -> good add p q Q (fun i j => P (cnum c i j) (crank c i j)).
Proof.
  intros Hp Hq HP HQ. eapply good_peq; [intros i j Hi Hj; apply pbind_ret|].
  apply (good_phase add p q Q Hp Hq c R P (fun i j a => Ret a)); auto.
  intros a Ha. apply good_done. intros i j Hi Hj. exists (a i j). split; auto.
Qed.

Lemma crun_peq {D A} (add : D -> D -> D) c n (R : nat -> A -> Prop) P P' : (forall i, i < n -> peq (P i) (P' i)) -> crun add c n R P -> crun add c n R P'.
Proof.
  intros E H. revert P' E. induction H as [P HP|P acts r Ho Hr H IH]; intros P' E.
  - apply crun_done. intros i Hi. destruct (HP i Hi) as (a & Ea & Ha). exists a. split; auto. specialize (E i Hi). rewrite Ea in E. now inversion E.
  - apply (crun_call add c n R P' acts r); auto.
    + rewrite <- Ho. symmetry. apply peq_offers.
      assert (G : forall l, (forall i, In i l -> i < n) -> Forall2 peq (map P l) (map P' l)) by (induction l; simpl; constructor; auto).
      apply G. intros i Hi. apply in_seq in Hi. lia.
    + apply IH. intros i Hi. now apply peq_resume, E.
Qed.

(** ** Sequential composition on the grid *)
Lemma good_bind {D A B} (add : D -> D -> D) p q (R : nat -> nat -> A -> Prop) (Q : nat -> nat -> B -> Prop) (P : nat -> nat -> prog D A) (K : nat -> nat -> A -> prog D B) :
  0 < p -> 0 < q -> good add p q R P ->
  (forall a, (forall i j, i < p -> j < q -> R i j (a i j)) -> good add p q Q (fun i j => K i j (a i j))) ->
  good add p q Q (fun i j => pbind (P i j) (K i j)).
Proof.
  intros Hp Hq [n Hn] HK. revert P Hn. induction n; intros P Hn; inversion Hn as [? Hd|? ? st1 Hs Hr]; subst.
  - assert (F : exists f, forall i, i < p -> forall j, j < q -> P i j = Ret (f i j) /\ R i j (f i j)).
    { destruct (fin_choice0 p (fun i f => forall j, j < q -> P i j = Ret (f j) /\ R i j (f j)) Hp) as [f Hf]; [|now exists f].
      intros i Hi. apply (fin_choice0 q (fun j a => P i j = Ret a /\ R i j a)); auto. }
    destruct F as [f Hf]. eapply good_eqv; [|apply (HK f); intros i j Hi Hj; now apply Hf].
    intros i j Hi Hj. destruct (Hf i Hi j Hj) as [E _]. now rewrite E.
  - destruct (IHn st1 Hr) as [m Hm]. exists (S m).
    inversion Hs as [c x acts r ? ? Hx Ho Hre He]; subst.
    eapply path_step; [|exact Hm].
    apply (fire add p q c x acts r); auto.
    + destruct c; simpl in *.
      * apply (offers_bind ColC (seq 0 p) (fun i => P i x) (fun i => K i x)). exact Ho.
      * apply (offers_bind RowC (seq 0 q) (fun j => P x j) (fun j => K x j)). exact Ho.
    + intros i j Hi Hj. rewrite He by auto. destruct (in_comm c x i j) eqn:E; auto.
      destruct (member_waits p q c x P acts i j Ho Hi Hj E) as [a Ha]. destruct (P i j); simpl in *; try discriminate. reflexivity.
Qed.
