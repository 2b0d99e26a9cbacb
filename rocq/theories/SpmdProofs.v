(** Executions of the grid are confluent; phases on one communicator compose. *)
From Coq Require Import List Arith Bool Lia.
Require Import Verif.Base Verif.SpmdModel Verif.SpmdSpec.
Import ListNotations.

Lemma comm_eqb_eq a b : comm_eqb a b = true <-> a = b.
Proof. destruct a, b; simpl; split; congruence. Qed.

Lemma fin_choice {A} (n : nat) (R : nat -> A -> Prop) (d : A) : (forall i, i < n -> exists a, R i a) -> exists f, forall i, i < n -> R i (f i).
Proof.
  induction n; intros H.
  - exists (fun _ => d). intros; lia.
  - destruct IHn as [f Hf]; [intros; apply H; lia|]. destruct (H n) as [a Ha]; [lia|].
    exists (fun i => if i =? n then a else f i). intros i Hi. destruct (i =? n) eqn:E.
    + apply Nat.eqb_eq in E. now subst.
    + apply Nat.eqb_neq in E. apply Hf. lia.
Qed.
Lemma fin_choice0 {A} (n : nat) (R : nat -> A -> Prop) : 0 < n -> (forall i, i < n -> exists a, R i a) -> exists f, forall i, i < n -> R i (f i).
Proof. intros Hn H. destruct (H 0 Hn) as [d _]. now apply fin_choice. Qed.

Section Grid.
Context {D A : Type} (add : D -> D -> D) (p q : nat).
Notation gstate := (gstate D A).
Implicit Types st : gstate.

Definition eqv st st' : Prop := forall i j, i < p -> j < q -> st i j = st' i j.

Lemma members_eqv c x st st' : x < ncomm p q c -> eqv st st' -> members p q c x st = members p q c x st'.
Proof.
  intros Hx E. destruct c; simpl in *; apply map_ext_in; intros k Hk; apply in_seq in Hk; apply E; lia.
Qed.
Lemma step_eqv st1 st2 st' : eqv st1 st2 -> step add p q st1 st' -> step add p q st2 st'.
Proof.
  intros E H. inversion H as [c x acts r ? ? Hx Ho Hr Hs]; subst. apply (fire add p q c x acts r); auto.
  - now rewrite <- (members_eqv c x st1 st2).
  - intros i j Hi Hj. rewrite Hs, (E i j) by auto. reflexivity.
Qed.
Lemma step_eqv_r st st1 st2 : eqv st1 st2 -> step add p q st st1 -> step add p q st st2.
Proof.
  intros E H. inversion H as [c x acts r ? ? Hx Ho Hr Hs]; subst. apply (fire add p q c x acts r); auto.
  intros i j Hi Hj. rewrite <- (E i j), Hs by auto. reflexivity.
Qed.

Lemma offers_all c (xs : list (prog D A)) acts : offers c xs = Some acts -> forall x, In x xs -> exists a, offer c x = Some a.
Proof.
  revert acts; induction xs; simpl; intros acts H x; [tauto|].
  destruct (offer c a) eqn:E1; [|discriminate]. destruct (offers c xs) eqn:E2; [|discriminate].
  intros [->|I]; eauto.
Qed.
Lemma member_waits c x st acts i j : offers c (members p q c x st) = Some acts -> i < p -> j < q -> in_comm c x i j = true ->
  exists a, offer c (st i j) = Some a.
Proof.
  intros Ho Hi Hj Hc. apply (offers_all c _ acts Ho). destruct c; simpl in *; apply Nat.eqb_eq in Hc; subst x;
    apply in_map_iff; [exists i|exists j]; (split; [reflexivity|apply in_seq; lia]).
Qed.
Lemma offer_comm c c' (x : prog D A) a a' : offer c x = Some a -> offer c' x = Some a' -> c = c'.
Proof. destruct x; simpl; try discriminate. destruct c, c', c0; simpl; congruence. Qed.

(** two ready communicators share no member *)
Lemma ready_disjoint c x c' x' st acts acts' i j : offers c (members p q c x st) = Some acts -> offers c' (members p q c' x' st) = Some acts' ->
  i < p -> j < q -> in_comm c x i j = true -> in_comm c' x' i j = true -> c = c' /\ x = x'.
Proof.
  intros H1 H2 Hi Hj I1 I2. destruct (member_waits _ _ _ _ _ _ H1 Hi Hj I1) as [a Ha]. destruct (member_waits _ _ _ _ _ _ H2 Hi Hj I2) as [a' Ha'].
  pose proof (offer_comm _ _ _ _ _ Ha Ha'). subst c'. split; auto. destruct c; simpl in *; apply Nat.eqb_eq in I1, I2; congruence.
Qed.

Lemma members_kept c x c' x' st acts acts' r' st1 : x' < ncomm p q c' -> (c <> c' \/ x <> x') ->
  offers c (members p q c x st) = Some acts -> offers c' (members p q c' x' st) = Some acts' ->
  (forall i j, i < p -> j < q -> st1 i j = if in_comm c x i j then resume (st i j) r' else st i j) ->
  members p q c' x' st1 = members p q c' x' st.
Proof.
  intros Hx Hd H1 H2 Hs.
  assert (G : forall i j, i < p -> j < q -> in_comm c' x' i j = true -> st1 i j = st i j).
  { intros i j Hi Hj I. rewrite Hs by auto. destruct (in_comm c x i j) eqn:E; auto.
    destruct (ready_disjoint c x c' x' st acts acts' i j) as [? ?]; auto; intuition. }
  destruct c'; simpl in *; apply map_ext_in; intros k Hk; apply in_seq in Hk; apply G; try lia; apply Nat.eqb_refl.
Qed.

Lemma diamond st st1 st2 : step add p q st st1 -> step add p q st st2 -> eqv st1 st2 \/ (exists st3, step add p q st1 st3 /\ step add p q st2 st3).
Proof.
  intros S1 S2. inversion S1 as [c x acts r ? ? Hx Ho Hr Hs]; subst. inversion S2 as [c' x' acts' r' ? ? Hx' Ho' Hr' Hs']; subst.
  assert (Dec : (c = c' /\ x = x') \/ (c <> c' \/ x <> x')).
  { destruct (comm_eqb c c') eqn:E; [apply comm_eqb_eq in E|].
    - destruct (Nat.eq_dec x x'); auto.
    - right. left. intros ->. destruct c'; discriminate. }
  destruct Dec as [[-> ->]|Hd].
  - left. rewrite Ho in Ho'. inversion Ho'; subst acts'. rewrite Hr in Hr'. inversion Hr'; subst r'.
    intros i j Hi Hj. now rewrite Hs, Hs' by auto.
  - right. exists (fun i j => if in_comm c x i j then resume (st i j) r else if in_comm c' x' i j then resume (st i j) r' else st i j). split.
    + apply (fire add p q c' x' acts' r'); auto.
      * rewrite (members_kept c x c' x' st acts acts' r st1); auto.
      * intros i j Hi Hj. rewrite Hs by auto. destruct (in_comm c x i j) eqn:E1; destruct (in_comm c' x' i j) eqn:E2; auto.
        exfalso. destruct (ready_disjoint c x c' x' st acts acts' i j) as [? ?]; auto; intuition.
    + apply (fire add p q c x acts r); auto.
      * rewrite (members_kept c' x' c x st acts' acts r' st2); auto. intuition.
      * intros i j Hi Hj. rewrite Hs' by auto. destruct (in_comm c x i j) eqn:E1; destruct (in_comm c' x' i j) eqn:E2; auto.
        exfalso. destruct (ready_disjoint c x c' x' st acts acts' i j) as [? ?]; auto; intuition.
Qed.

(** one execution of n steps that finishes *)
Variable Q : nat -> nat -> A -> Prop.
Definition done st : Prop := forall i j, i < p -> j < q -> exists a, st i j = Ret a /\ Q i j a.
Inductive path : nat -> gstate -> Prop :=
| path_done st : done st -> path 0 st
| path_step n st st' : step add p q st st' -> path n st' -> path (S n) st.

Hypotheses (Hp : 0 < p) (Hq : 0 < q).

Lemma done_stuck st st' : done st -> ~ step add p q st st'.
Proof.
  intros Hd H. inversion H as [c x acts r ? ? Hx Ho Hr Hs]; subst.
  assert (G : exists i j, i < p /\ j < q /\ in_comm c x i j = true).
  { destruct c; simpl in *; [exists 0, x|exists x, 0]; rewrite Nat.eqb_refl; auto. }
  destruct G as (i & j & Hi & Hj & I). destruct (member_waits _ _ _ _ _ _ Ho Hi Hj I) as [a Ha].
  destruct (Hd i j Hi Hj) as (b & E & _). rewrite E in Ha. discriminate.
Qed.
Lemma done_eqv st st' : eqv st st' -> done st -> done st'.
Proof. intros E H i j Hi Hj. rewrite <- (E i j) by auto. now apply H. Qed.
Lemma path_eqv n st st' : eqv st st' -> path n st -> path n st'.
Proof.
  intros E H. inversion H; subst.
  - apply path_done. eapply done_eqv; eauto.
  - eapply path_step; eauto. eapply step_eqv; eauto.
Qed.

Lemma path_any n : forall st st2, path (S n) st -> step add p q st st2 -> path n st2.
Proof.
  induction n; intros st st2 H S2; inversion H as [|? ? st1 S1 P1]; subst.
  - destruct (diamond st st1 st2 S1 S2) as [E|(st3 & S3 & _)]; [eapply path_eqv; eauto|].
    inversion P1; subst. exfalso. eapply done_stuck; eauto.
  - destruct (diamond st st1 st2 S1 S2) as [E|(st3 & S3 & S4)]; [eapply path_eqv; eauto|].
    eapply path_step; [exact S4|]. now apply (IHn st1).
Qed.

Theorem path_completes n : forall st, path n st -> completes add p q Q st.
Proof.
  induction n; intros st H.
  - inversion H; subst. now apply all_done.
  - apply go_on.
    + inversion H; subst. eauto.
    + intros st' S. apply IHn. eapply path_any; eauto.
Qed.
End Grid.
Arguments eqv {D A}.

Lemma eqv_trans {D A} p q (a b c : gstate D A) : eqv p q a b -> eqv p q b c -> eqv p q a c.
Proof. intros H1 H2 i j Hi Hj. rewrite H1 by auto. now apply H2. Qed.

(** ** Runs on one communicator *)
Section One.
Context {D : Type} (add : D -> D -> D).

Inductive crun {A} (c : comm) (n : nat) (R : nat -> A -> Prop) : (nat -> prog D A) -> Prop :=
| crun_done P : (forall i, i < n -> exists a, P i = Ret a /\ R i a) -> crun c n R P
| crun_call P acts r : offers c (map P (seq 0 n)) = Some acts -> respond add acts = Some r ->
    crun c n R (fun i => resume (P i) r) -> crun c n R P.

Lemma crun_ext {A} c n (R : nat -> A -> Prop) P P' : (forall i, i < n -> P i = P' i) -> crun c n R P -> crun c n R P'.
Proof.
  intros E H. revert P' E. induction H; intros P' E.
  - apply crun_done. intros i Hi. rewrite <- E by auto. auto.
  - apply (crun_call c n R P' acts r); auto.
    + rewrite <- H. f_equal. apply map_ext_in. intros i Hi. apply in_seq in Hi. symmetry. apply E. lia.
    + apply IHcrun. intros i Hi. now rewrite E.
Qed.
Lemma crun_mono {A} c n (R R' : nat -> A -> Prop) P : (forall i a, i < n -> R i a -> R' i a) -> crun c n R P -> crun c n R' P.
Proof.
  intros E H. induction H.
  - apply crun_done. intros i Hi. destruct (H i Hi) as (a & ? & ?). eauto.
  - eapply crun_call; eauto.
Qed.

Lemma offers_bind {A B} c (xs : list nat) (P : nat -> prog D A) (K : nat -> A -> prog D B) acts :
  offers c (map P xs) = Some acts -> offers c (map (fun i => pbind (P i) (K i)) xs) = Some acts.
Proof.
  revert acts; induction xs; simpl; intros acts H; auto.
  destruct (offer c (P a)) eqn:E1; [|discriminate]. destruct (offers c (map P xs)) eqn:E2; [|discriminate].
  rewrite (IHxs _ eq_refl). destruct (P a); simpl in *; try discriminate. now rewrite E1.
Qed.
Lemma offers_in {A} c (xs : list nat) (P : nat -> prog D A) acts i : offers c (map P xs) = Some acts -> In i xs -> exists a k, P i = Call c a k.
Proof.
  intros H I. destruct (offers_all c (map P xs) acts H (P i)) as [a Ha]; [now apply in_map|].
  destruct (P i); simpl in Ha; try discriminate. destruct (comm_eqb c c0) eqn:E; [|discriminate]. apply comm_eqb_eq in E. subst. eauto.
Qed.

Lemma crun_bind {A B} c n (R : nat -> A -> Prop) (R' : nat -> B -> Prop) P (K : nat -> A -> prog D B) : 0 < n ->
  crun c n R P -> (forall a, (forall i, i < n -> R i (a i)) -> crun c n R' (fun i => K i (a i))) -> crun c n R' (fun i => pbind (P i) (K i)).
Proof.
  intros Hn H HK. induction H.
  - destruct (fin_choice0 n (fun i a => P i = Ret a /\ R i a) Hn H) as [f Hf].
    apply (crun_ext c n R' (fun i => K i (f i))).
    + intros i Hi. destruct (Hf i Hi) as [E _]. now rewrite E.
    + apply HK. intros i Hi. now apply Hf.
  - apply (crun_call c n R' _ acts r); auto.
    + now apply offers_bind.
    + eapply crun_ext; [|exact IHcrun]. intros i Hi. destruct (offers_in c _ P acts i H) as (a & k & E); [apply in_seq; lia|]. now rewrite E.
Qed.
End One.

(** ** Phases of the grid *)
Section Phase.
Context {D B : Type} (add : D -> D -> D) (p q : nat) (Q : nat -> nat -> B -> Prop) (Hp : 0 < p) (Hq : 0 < q).

Definition good (st : gstate D B) : Prop := exists n, path add p q Q n st.
Lemma good_eqv st st' : eqv p q st st' -> good st -> good st'.
Proof. intros E [n H]. exists n. eapply path_eqv; eauto. Qed.
Lemma good_completes st : good st -> completes add p q Q st.
Proof. intros [n H]. eapply path_completes; eauto. Qed.
Lemma good_done st : (forall i j, i < p -> j < q -> exists a, st i j = Ret a /\ Q i j a) -> good st.
Proof. intros H. exists 0. now apply path_done. Qed.

(** rank of (i, j) in communicator c, and size *)
Definition crank (c : comm) (i j : nat) : nat := match c with ColC => i | RowC => j end.
Definition cnum (c : comm) (i j : nat) : nat := match c with ColC => j | RowC => i end.
Definition csize (c : comm) : nat := match c with ColC => p | RowC => q end.

Lemma in_comm_num c x i j : in_comm c x i j = (cnum c i j =? x).
Proof. destruct c; reflexivity. Qed.

(** the members of one communicator run a phase alone; the others stay *)
Lemma good_one c x {A} (R : nat -> A -> Prop) (P : nat -> prog D A) (K : nat -> A -> prog D B) st : x < ncomm p q c ->
  crun add c (csize c) R P ->
  (forall i j, i < p -> j < q -> cnum c i j = x -> st i j = pbind (P (crank c i j)) (K (crank c i j))) ->
  (forall a, (forall k, k < csize c -> R k (a k)) ->
     good (fun i j => if cnum c i j =? x then K (crank c i j) (a (crank c i j)) else st i j)) -> good st.
Proof.
  intros Hx H. revert st. induction H as [P HP|P acts r Ho Hr H IH]; intros st Hst HG.
  - assert (Hn : 0 < csize c) by (destruct c; auto).
    destruct (fin_choice0 (csize c) (fun i a => P i = Ret a /\ R i a) Hn HP) as [f Hf].
    eapply good_eqv; [|apply (HG f); intros k Hk; now apply Hf].
    intros i j Hi Hj. destruct (cnum c i j =? x) eqn:E; auto. apply Nat.eqb_eq in E. rewrite (Hst i j Hi Hj E).
    assert (Hk : crank c i j < csize c) by (destruct c; auto). destruct (Hf _ Hk) as [E2 _]. now rewrite E2.
  - set (st1 := fun i j => if in_comm c x i j then resume (st i j) r else st i j).
    assert (S1 : step add p q st st1).
    { apply (fire add p q c x acts r); auto.
      replace (members p q c x st) with (map (fun k => pbind (P k) (K k)) (seq 0 (csize c))).
      - now apply offers_bind.
      - destruct c; simpl in *; apply map_ext_in; intros k Hk; apply in_seq in Hk; symmetry;
          [apply (Hst k x)|apply (Hst x k)]; auto; lia. }
    destruct (IH st1) as [n Hn].
    + intros i j Hi Hj E. unfold st1. rewrite in_comm_num, E, Nat.eqb_refl. rewrite (Hst i j Hi Hj E).
      destruct (offers_in c _ P acts (crank c i j) Ho) as (a & k & E2); [apply in_seq; destruct c; simpl; lia|]. now rewrite E2.
    + intros a Ha. eapply good_eqv; [|apply (HG a Ha)]. intros i j Hi Hj. unfold st1. rewrite in_comm_num. now destruct (cnum c i j =? x).
    + exists (S n). eapply path_step; eauto.
Qed.

(** all communicators of one kind run a phase *)
Lemma good_phase c {A} (R : nat -> nat -> A -> Prop) (P : nat -> nat -> prog D A) (K : nat -> nat -> A -> prog D B) :
  (forall x, x < ncomm p q c -> crun add c (csize c) (R x) (P x)) ->
  (forall a, (forall i j, i < p -> j < q -> R (cnum c i j) (crank c i j) (a i j)) -> good (fun i j => K i j (a i j))) ->
  good (fun i j => pbind (P (cnum c i j) (crank c i j)) (K i j)).
Proof.
  intros HP HK.
  assert (G : forall todo, todo <= ncomm p q c -> forall a, (forall i j, i < p -> j < q -> ncomm p q c - todo > cnum c i j -> R (cnum c i j) (crank c i j) (a i j)) ->
    good (fun i j => if cnum c i j <? ncomm p q c - todo then K i j (a i j) else pbind (P (cnum c i j) (crank c i j)) (K i j))).
  { induction todo; intros Ht a Ha.
    - eapply good_eqv; [|apply (HK a)].
      + intros i j Hi Hj. assert (E : cnum c i j < ncomm p q c - 0) by (destruct c; simpl; lia). apply Nat.ltb_lt in E. now rewrite E.
      + intros i j Hi Hj. apply Ha; auto. destruct c; simpl; lia.
    - set (x := ncomm p q c - S todo) in *. set (gi := fun k => match c with ColC => k | RowC => x end). set (gj := fun k => match c with ColC => x | RowC => k end).
      apply (good_one c x (R x) (P x) (fun k => K (gi k) (gj k))).
      + unfold x. lia.
      + apply HP. unfold x. lia.
      + intros i j Hi Hj E. rewrite E, Nat.ltb_irrefl. subst gi gj. simpl. destruct c; simpl in *; subst; reflexivity.
      + intros b Hb. eapply good_eqv; [|apply (IHtodo ltac:(lia) (fun i j => if cnum c i j =? x then b (crank c i j) else a i j))].
        * intros i j Hi Hj. cbv beta. destruct (cnum c i j =? x) eqn:E.
          -- apply Nat.eqb_eq in E. assert (L : cnum c i j < ncomm p q c - todo) by (unfold x in E; lia). apply Nat.ltb_lt in L. rewrite L.
             subst gi gj. destruct c; simpl in *; subst; reflexivity.
          -- apply Nat.eqb_neq in E. destruct (cnum c i j <? ncomm p q c - todo) eqn:L1; destruct (cnum c i j <? x) eqn:L2; auto; exfalso;
               [apply Nat.ltb_lt in L1; apply Nat.ltb_ge in L2|apply Nat.ltb_ge in L1; apply Nat.ltb_lt in L2]; unfold x in *; lia.
        * intros i j Hi Hj L. destruct (cnum c i j =? x) eqn:E.
          -- apply Nat.eqb_eq in E. rewrite E. apply Hb. destruct c; auto.
          -- apply Nat.eqb_neq in E. apply Ha; auto. unfold x in *. lia. }
  destruct (Nat.eq_dec (ncomm p q c) 0) as [E0|E0]; [destruct c; simpl in E0; lia|].
  assert (exists b : nat -> A, forall k, k < csize c -> R 0 k (b k)) as [b _].
  { specialize (HP 0 ltac:(lia)). clear -HP Hp Hq. induction HP; auto. apply fin_choice0; [destruct c; auto|].
    intros i Hi. destruct (H i Hi) as (a & _ & ?). eauto. }
  eapply good_eqv; [|apply (G (ncomm p q c) ltac:(lia) (fun i _ => b i))].
  - intros i j Hi Hj. rewrite Nat.sub_diag. reflexivity.
  - intros i j _ _ L. lia.
Qed.
End Phase.
