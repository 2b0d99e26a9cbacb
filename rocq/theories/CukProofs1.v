(** Race-free launches: every interleaving ends in the memory of the sequential execution. *)
From Coq Require Import List Arith ZArith Bool Lia.
Require Import Verif.CukModel Verif.CukSpec.
Import ListNotations.

Section G.
Context {V R : Type} (add : V -> V -> V) (r0 : R).
Local Notation mem := (mem V). Local Notation action := (action V R). Local Notation cfg := (cfg V R). Local Notation thread := (thread V R).
Local Notation act := (act (R := R) add).
Local Notation step := (step add r0). Local Notation steps := (steps add r0).

Definition meq (m m' : mem) : Prop := forall x, m x = m' x.
Definition target (a : action) : option addr := match a with Ld x _ | St x _ | At x _ => Some x | Bad => None end.
Definition is_ld (a : action) : bool := match a with Ld _ _ => true | _ => false end.
Definition is_at (a : action) : bool := match a with At _ _ => true | _ => false end.
(** [rc]: atomic additions to one address are allowed together *)
Definition nonconf (rc : bool) (a a' : action) : Prop := forall x, target a = Some x -> target a' = Some x ->
  (is_ld a = true /\ is_ld a' = true) \/ (rc = true /\ is_at a = true /\ is_at a' = true).
Definition safe_act (m : mem) (a : action) : Prop := exists x, target a = Some x /\ m x <> None.

Lemma upd_eq (m : mem) x v : upd_mem m x v x = Some v.
Proof. unfold upd_mem. now destruct (addr_eq_dec x x). Qed.
Lemma upd_neq (m : mem) x v y : y <> x -> upd_mem m x v y = m y.
Proof. unfold upd_mem. now destruct (addr_eq_dec y x). Qed.

Lemma act_meq a r m m' r' m1 : meq m m' -> act a r m = Some (r', m1) -> exists m1', act a r m' = Some (r', m1') /\ meq m1 m1'.
Proof.
  intros E H. destruct a; cbn in *; try discriminate; rewrite <- E; destruct (m x); try discriminate; injection H as <- <-; eexists; split; eauto;
    intros y; unfold upd_mem; destruct (addr_eq_dec y x); auto.
Qed.
Lemma act_dom a r m r' m1 x : act a r m = Some (r', m1) -> (m1 x <> None <-> m x <> None).
Proof.
  destruct a; cbn; intros H; try discriminate; destruct (m x0) eqn:E; try discriminate; injection H as <- <-; try reflexivity;
    unfold upd_mem; destruct (addr_eq_dec x x0) as [->|]; try tauto; rewrite E; split; discriminate.
Qed.
Lemma act_safe a r m : safe_act m a -> exists r' m', act a r m = Some (r', m').
Proof. intros (x & E & H). destruct a; cbn in *; try discriminate; injection E as ->; destruct (m x); try easy; eauto. Qed.

Context (rc : bool) (Hrc : rc = true -> forall m x y, add (add m x) y = add (add m y) x).
Lemma act_comm a a' r s m r1 m1 s1 m2 : nonconf rc a a' -> act a r m = Some (r1, m1) -> act a' s m = Some (s1, m2) ->
  exists m3 m4, act a' s m1 = Some (s1, m3) /\ act a r m2 = Some (r1, m4) /\ meq m3 m4.
Proof.
  intros N H1 H2. unfold nonconf in N.
  destruct a as [x f|x g|x g|]; cbn in H1; try discriminate; destruct (m x) as [v|] eqn:Ex; try discriminate; injection H1 as <- <-;
  destruct a' as [y f'|y g'|y g'|]; cbn in H2; try discriminate; destruct (m y) as [w|] eqn:Ey; try discriminate; injection H2 as <- <-;
  cbn in N; cbn.
  all: destruct (addr_eq_dec x y) as [->|D].
  all: try (specialize (N y eq_refl eq_refl); destruct N as [[? ?]|(? & ? & ?)]; try discriminate; rewrite Ey in Ex; injection Ex as ->).
  all: repeat first [rewrite upd_eq | rewrite upd_neq by congruence | rewrite Ex | rewrite Ey].
  all: do 2 eexists; split; [reflexivity|]; split; [reflexivity|]; intros z; unfold upd_mem;
    repeat match goal with |- context [addr_eq_dec ?a ?b] => destruct (addr_eq_dec a b) end; try congruence.
  all: f_equal; auto.
Qed.

Definition all (x : thread) : list action := t_cur x ++ concat (t_later x).
Definition phase (x : thread) (p : nat) : list action := nth p (t_cur x :: t_later x) [].
Definition ceq (c d : cfg) : Prop := meq (c_mem c) (c_mem d) /\ forall b t, c_th c b t = c_th d b t.
Lemma ceq_refl c : ceq c c. Proof. split; auto. intros x; auto. Qed.
Lemma ceq_sym c d : ceq c d -> ceq d c. Proof. intros [A B]. split; auto. intros x. now rewrite A. Qed.
Lemma ceq_trans c d e : ceq c d -> ceq d e -> ceq c e. Proof. intros [A B] [C D]. split; [intros x; now rewrite A|intros; now rewrite B]. Qed.

Context (nb nt : nat).
Record RF (c : cfg) : Prop := {
  rf_len : forall b t t', b < nb -> t < nt -> t' < nt -> length (t_later (c_th c b t)) = length (t_later (c_th c b t'));
  rf_in : forall b t t' p a a', b < nb -> t < nt -> t' < nt -> t <> t' -> In a (phase (c_th c b t) p) -> In a' (phase (c_th c b t') p) -> nonconf rc a a';
  rf_out : forall b b' t t' a a', b < nb -> b' < nb -> b <> b' -> t < nt -> t' < nt -> In a (all (c_th c b t)) -> In a' (all (c_th c b' t')) -> nonconf rc a a'
}.
Definition Safe (c : cfg) : Prop := forall b t a, b < nb -> t < nt -> In a (all (c_th c b t)) -> safe_act (c_mem c) a.

(** th' is what remains of th *)
Definition rest (x y : thread) : Prop := exists a, t_cur x = a :: t_cur y /\ t_later x = t_later y.
Lemma set_same f b t (x : thread) : set_th f b t x b t = x.
Proof. unfold set_th. now rewrite !Nat.eqb_refl. Qed.
Lemma set_other f b t (x : thread) b' t' : (b', t') <> (b, t) -> set_th f b t x b' t' = f b' t'.
Proof.
  intros H. unfold set_th. destruct (b' =? b) eqn:E1, (t' =? t) eqn:E2; auto. apply Nat.eqb_eq in E1, E2. subst. congruence.
Qed.
Lemma in_phase_all (x : thread) p (a : action) : In a (phase x p) -> In a (all x).
Proof.
  unfold phase, all. intros H. apply in_or_app. destruct p; cbn in H; auto. right. apply in_concat.
  destruct (nth_in_or_default p (t_later x) []) as [I|E]; [eauto|rewrite E in H; destruct H].
Qed.
Lemma pop_phase (x : thread) p : t_cur x = [] -> t_later x <> [] -> phase (pop r0 x) p = phase x (S p).
Proof. intros E N. unfold pop, phase. destruct (t_later x) as [|l ls]; [congruence|]. cbn. destruct p; auto. Qed.
Lemma pop_all (x : thread) : t_cur x = [] -> all (pop r0 x) = all x.
Proof. intros E. unfold pop, all. destruct (t_later x) as [|l ls] eqn:EL; cbn; [now rewrite EL|]. now rewrite E. Qed.
Lemma pop_len (x : thread) : length (t_later (pop r0 x)) = length (t_later x) - 1.
Proof. unfold pop. destruct (t_later x) eqn:E; cbn; [now rewrite E|lia]. Qed.

Lemma step_all c d : step nb nt c d -> forall b t, b < nb -> t < nt ->
  (forall a, In a (all (c_th d b t)) -> In a (all (c_th c b t))).
Proof.
  intros H b t Hb Ht a Ha. destruct H as [c b1 t1 a1 l r m H1 H2 E A|c b1 H1 E]; cbn in Ha.
  - destruct (Nat.eq_dec b b1) as [->|]; [destruct (Nat.eq_dec t t1) as [->|]|].
    + rewrite set_same in Ha. unfold all in *. cbn in Ha. rewrite E. now right.
    + rewrite set_other in Ha by congruence. auto.
    + rewrite set_other in Ha by congruence. auto.
  - destruct (b =? b1) eqn:Eb; auto. apply Nat.eqb_eq in Eb. subst. rewrite pop_all in Ha; auto. now apply E.
Qed.
Lemma step_safe c d : Safe c -> step nb nt c d -> Safe d.
Proof.
  intros S H b t a Hb Ht Ha. apply (step_all _ _ H _ _ Hb Ht) in Ha. destruct (S b t a Hb Ht Ha) as (x & E & N). exists x. split; auto.
  destruct H; cbn; auto. erewrite act_dom; eauto.
Qed.
Lemma step_rf c d : RF c -> step nb nt c d -> RF d.
Proof.
  intros [L I U] H. split.
  - intros b t t' Hb Ht Ht'. destruct H as [c b1 t1 a1 l r m H1 H2 E A|c b1 H1 E]; cbn.
    + assert (X : forall t, length (t_later (set_th (c_th c) b1 t1 (mk_th l (t_later (c_th c b1 t1)) r) b t)) = length (t_later (c_th c b t))).
      { intros s. destruct (Nat.eq_dec b b1) as [->|]; [destruct (Nat.eq_dec s t1) as [->|]|]; [now rewrite set_same| |]; now rewrite set_other by congruence. }
      rewrite !X. auto.
    + destruct (b =? b1); auto. rewrite !pop_len. f_equal. auto.
  - intros b t t' p a a' Hb Ht Ht' N Ha Ha'. destruct H as [c b1 t1 a1 l r m H1 H2 E A|c b1 H1 E]; cbn [c_th c_mem] in *.
    + assert (X : forall t a, In a (phase (set_th (c_th c) b1 t1 (mk_th l (t_later (c_th c b1 t1)) r) b t) p) -> In a (phase (c_th c b t) p)).
      { intros s q. destruct (Nat.eq_dec b b1) as [->|]; [destruct (Nat.eq_dec s t1) as [->|]|]; [rewrite set_same| |]; [|now rewrite set_other by congruence..].
        unfold phase. cbn. rewrite E. destruct p; auto. now right. }
      apply (I b t t' p a a'); auto; apply X; assumption.
    + destruct (b =? b1) eqn:Eb; [|eapply (I b t t' p); eauto]. apply Nat.eqb_eq in Eb. subst.
      rewrite pop_phase in Ha, Ha' by (apply E; auto). eapply (I b1 t t' (S p)); eauto.
  - intros b b' t t' a a' Hb Hb' N Ht Ht' Ha Ha'. eapply (U b b' t t'); eauto; eapply step_all; eauto.
Qed.

Lemma step_ceq c d c1 : ceq c d -> step nb nt c c1 -> exists d1, step nb nt d d1 /\ ceq c1 d1.
Proof.
  intros [E1 E2] H. destruct H as [c b t a l r m Hb Ht E A|c b Hb E].
  - destruct (act_meq _ _ _ (c_mem d) _ _ E1 A) as (m' & A' & EM). rewrite E2 in E, A'.
    eexists. split; [eapply step_run; eauto|]. split; cbn; auto. intros b' t'. rewrite (E2 b t). unfold set_th. now destruct (_ && _).
  - eexists. split; [apply (step_sync add r0 nb nt d b Hb)|].
    + intros t Ht. rewrite <- E2. auto.
    + split; cbn; auto. intros b' t. rewrite (E2 b' t). reflexivity.
Qed.
Lemma steps_ceq c d c1 : ceq c d -> steps nb nt c c1 -> exists d1, steps nb nt d d1 /\ ceq c1 d1.
Proof.
  intros E H. revert d E. induction H as [c|c c2 c3 H1 H2 IH]; intros d E.
  - exists d. split; auto. constructor.
  - destruct (step_ceq _ _ _ E H1) as (d2 & A & B). destruct (IH d2 B) as (d3 & A3 & B3). exists d3. split; auto. econstructor; eauto.
Qed.

Lemma in_phase_0 (x : thread) (a : action) l : t_cur x = a :: l -> In a (phase x 0).
Proof. intros E. unfold phase. cbn. rewrite E. now left. Qed.
Lemma in_cur_all (x : thread) (a : action) l : t_cur x = a :: l -> In a (all x).
Proof. intros E. unfold all. rewrite E. now left. Qed.

Lemma diamond c c1 c2 : RF c -> step nb nt c c1 -> step nb nt c c2 ->
  ceq c1 c2 \/ exists d1 d2, step nb nt c1 d1 /\ step nb nt c2 d2 /\ ceq d1 d2.
Proof.
  intros HR H1 H2. destruct H1 as [c b t a l r m Hb Ht E A|c b Hb E].
  - inversion H2 as [c' b' t' a' l' r' m' Hb' Ht' E' A'|c' b' Hb' E']; subst.
    + destruct (Nat.eq_dec b b') as [<-|Nb]; [destruct (Nat.eq_dec t t') as [<-|Nt]|].
      * left. rewrite E in E'. injection E' as <- <-. rewrite A in A'. injection A' as <- <-. apply ceq_refl.
      * right. assert (NC : nonconf rc a a') by (eapply (rf_in _ HR b t t' 0); eauto using in_phase_0).
        destruct (act_comm _ _ _ _ _ _ _ _ _ NC A A') as (m3 & m4 & X1 & X2 & EM).
        do 2 eexists. split; [|split].
        -- eapply (step_run add r0 nb nt _ b t' a' l'); cbn; auto; rewrite set_other by congruence; eauto.
        -- eapply (step_run add r0 nb nt _ b t a l); cbn; auto; rewrite set_other by congruence; eauto.
        -- split; cbn; auto. intros bb tt. rewrite (set_other _ b t _ b t'), (set_other _ b t' _ b t) by congruence. unfold set_th.
           destruct (bb =? b) eqn:Q1, (tt =? t) eqn:Q2, (tt =? t') eqn:Q3; cbn; auto. apply Nat.eqb_eq in Q2, Q3. congruence.
      * right. assert (NC : nonconf rc a a') by (eapply (rf_out _ HR b b' t t'); eauto using in_cur_all).
        destruct (act_comm _ _ _ _ _ _ _ _ _ NC A A') as (m3 & m4 & X1 & X2 & EM).
        do 2 eexists. split; [|split].
        -- eapply (step_run add r0 nb nt _ b' t' a' l'); cbn; auto; rewrite set_other by congruence; eauto.
        -- eapply (step_run add r0 nb nt _ b t a l); cbn; auto; rewrite set_other by congruence; eauto.
        -- split; cbn; auto. intros bb tt. rewrite (set_other _ b t _ b' t'), (set_other _ b' t' _ b t) by congruence. unfold set_th.
           destruct (bb =? b) eqn:Q1, (bb =? b') eqn:Q2, (tt =? t) eqn:Q3, (tt =? t') eqn:Q4; cbn; auto; apply Nat.eqb_eq in Q1, Q2; congruence.
    + assert (Nb : b <> b') by (intros <-; destruct (E' t Ht) as [X _]; congruence).
      right. do 2 eexists. split; [|split].
      * apply (step_sync add r0 nb nt _ b' Hb'). cbn. intros s Hs. rewrite set_other by congruence. auto.
      * eapply (step_run add r0 nb nt _ b t a l); cbn; auto; rewrite (proj2 (Nat.eqb_neq b b')) by auto; eauto.
      * split; cbn; [intros x; auto|]. intros bb tt. rewrite (proj2 (Nat.eqb_neq b b')) by auto. unfold set_th.
        destruct (bb =? b') eqn:Q1, (bb =? b) eqn:Q2; cbn; auto. apply Nat.eqb_eq in Q1, Q2. congruence.
  - inversion H2 as [c' b' t' a' l' r' m' Hb' Ht' E' A'|c' b' Hb' E']; subst.
    + assert (Nb : b <> b') by (intros <-; destruct (E t' Ht') as [X _]; congruence).
      right. do 2 eexists. split; [|split].
      * eapply (step_run add r0 nb nt _ b' t' a' l'); cbn; auto; rewrite (proj2 (Nat.eqb_neq b' b)) by auto; eauto.
      * apply (step_sync add r0 nb nt _ b Hb). cbn. intros s Hs. rewrite set_other by congruence. auto.
      * split; cbn; [intros x; auto|]. intros bb tt. rewrite (proj2 (Nat.eqb_neq b' b)) by auto. unfold set_th.
        destruct (bb =? b') eqn:Q1, (bb =? b) eqn:Q2; cbn; auto. apply Nat.eqb_eq in Q1, Q2. congruence.
    + destruct (Nat.eq_dec b b') as [<-|Nb]; [left; apply ceq_refl|]. right. do 2 eexists. split; [|split].
      * apply (step_sync add r0 nb nt _ b' Hb'). cbn. intros s Hs. rewrite (proj2 (Nat.eqb_neq b' b)) by auto. auto.
      * apply (step_sync add r0 nb nt _ b Hb). cbn. intros s Hs. rewrite (proj2 (Nat.eqb_neq b b')) by auto. auto.
      * split; cbn; [intros x; auto|]. intros bb tt. destruct (bb =? b) eqn:Q1, (bb =? b') eqn:Q2; auto; apply Nat.eqb_eq in Q1, Q2; congruence.
Qed.

Lemma final_no_step c d : 0 < nt -> final nb nt c -> step nb nt c d -> False.
Proof.
  intros HT HF H. destruct H as [c b t a l r m Hb Ht E A|c b Hb E].
  - destruct (HF b t Hb Ht). congruence.
  - destruct (E 0 HT). destruct (HF b 0 Hb HT). congruence.
Qed.
Lemma final_ceq c d : ceq c d -> final nb nt c -> final nb nt d.
Proof. intros [_ E] H b t Hb Ht. rewrite <- E. auto. Qed.

Lemma catch_up c f : 0 < nt -> steps nb nt c f -> RF c -> final nb nt f -> forall c1, step nb nt c c1 ->
  exists f', steps nb nt c1 f' /\ ceq f f'.
Proof.
  intros HT H. induction H as [c|c c2 f H1 H2 IH]; intros HR HF c1 Hc.
  - exfalso. eapply final_no_step; eauto.
  - destruct (diamond _ _ _ HR Hc H1) as [E|(d1 & d2 & A1 & A2 & E)].
    + destruct (steps_ceq _ _ _ (ceq_sym _ _ E) H2) as (f' & A & B). eauto.
    + destruct (IH (step_rf _ _ HR H1) HF d2 A2) as (f' & X1 & X2).
      destruct (steps_ceq _ _ _ (ceq_sym _ _ E) X1) as (f2 & Y1 & Y2). exists f2. split; [econstructor; eauto|]. eapply ceq_trans; eauto.
Qed.
Lemma catch_up_all c f c1 : 0 < nt -> RF c -> steps nb nt c f -> final nb nt f -> steps nb nt c c1 -> exists f', steps nb nt c1 f' /\ ceq f f'.
Proof.
  intros HT HR Hf HF H. revert f Hf HF. induction H as [c|c c2 c3 H1 H2 IH]; intros f Hf HF; [exists f; split; auto using ceq_refl|].
  destruct (catch_up _ _ HT Hf HR HF _ H1) as (f2 & A & B). destruct (IH (step_rf _ _ HR H1) f2 A (final_ceq _ _ B HF)) as (f3 & A3 & B3).
  exists f3. split; auto. eapply ceq_trans; eauto.
Qed.

Lemma progress c : 0 < nt -> RF c -> Safe c -> ~ final nb nt c -> exists d, step nb nt c d.
Proof.
  intros HT HR HS NF.
  assert (D : forall k, k <= nb -> (forall b t, b < k -> t < nt -> t_cur (c_th c b t) = [] /\ t_later (c_th c b t) = []) \/ exists d, step nb nt c d).
  { induction k; intros Hk; [left; intros; lia|]. destruct (IHk ltac:(lia)) as [A|]; auto.
    assert (E : forall j, j <= nt -> (forall t, t < j -> t_cur (c_th c k t) = []) \/ exists d, step nb nt c d).
    { induction j; intros Hj; [left; intros; lia|]. destruct (IHj ltac:(lia)) as [B|]; auto.
      destruct (t_cur (c_th c k j)) as [|a l] eqn:Ec.
      - left. intros t Ht. destruct (Nat.eq_dec t j) as [->|]; auto. apply B. lia.
      - right. destruct (act_safe a (t_reg (c_th c k j)) (c_mem c)) as (r & m & Ea). { apply (HS k j); try lia. unfold all. rewrite Ec. now left. }
        eexists. eapply (step_run add r0 nb nt c k j a l); eauto; lia. }
    destruct (E nt (le_n _)) as [B|]; auto.
    destruct (t_later (c_th c k 0)) as [|p ls] eqn:E0.
    - left. intros b t Hb Ht. destruct (Nat.eq_dec b k) as [->|]; [|apply A; lia]. split; auto.
      pose proof (rf_len _ HR k t 0 ltac:(lia) Ht HT) as L. rewrite E0 in L. now destruct (t_later (c_th c k t)).
    - right. eexists. apply (step_sync add r0 nb nt c k); [lia|]. intros t Ht. split; auto. intros X.
      pose proof (rf_len _ HR k t 0 ltac:(lia) Ht HT) as L. rewrite E0, X in L. discriminate. }
  destruct (D nb (le_n _)) as [A|]; auto. contradict NF. exact A.
Qed.
Lemma safe_not_faulty c : Safe c -> ~ faulty add nb nt c.
Proof.
  intros HS (b & t & a & l & Hb & Ht & E & A). destruct (act_safe a (t_reg (c_th c b t)) (c_mem c)) as (r & m & X); [|congruence].
  apply (HS b t); auto. unfold all. rewrite E. now left.
Qed.

(** *** number of steps *)
Definition tsize (x : thread) : nat := length (t_cur x) + list_sum (map (fun p => S (length p)) (t_later x)).
Fixpoint sum (n : nat) (f : nat -> nat) : nat := match n with O => 0 | S k => sum k f + f k end.
Definition size (c : cfg) : nat := sum nb (fun b => sum nt (fun t => tsize (c_th c b t))).
Lemma sum_le n f g : (forall i, i < n -> f i <= g i) -> sum n f <= sum n g.
Proof. induction n; cbn; intros H; auto. pose proof (H n ltac:(lia)). assert (sum n f <= sum n g) by auto. lia. Qed.
Lemma sum_lt n f g k : k < n -> f k < g k -> (forall i, i < n -> f i <= g i) -> sum n f < sum n g.
Proof.
  induction n; cbn; intros Hk Hf H; [lia|]. pose proof (H n ltac:(lia)). destruct (Nat.eq_dec k n) as [->|].
  - assert (sum n f <= sum n g) by (apply sum_le; auto). lia.
  - assert (sum n f < sum n g) by (apply IHn; auto; lia). lia.
Qed.
Lemma step_size c d : 0 < nt -> step nb nt c d -> size d < size c.
Proof.
  intros HT H. destruct H as [c b t a l r m Hb Ht E A|c b Hb E]; unfold size; cbn.
  - assert (X : forall b' t', tsize (set_th (c_th c) b t (mk_th l (t_later (c_th c b t)) r) b' t') <= tsize (c_th c b' t')).
    { intros b' t'. destruct (Nat.eq_dec b' b) as [->|]; [destruct (Nat.eq_dec t' t) as [->|]|]; [rewrite set_same| |]; [|rewrite set_other by congruence; auto..].
      unfold tsize. cbn [t_cur t_later]. rewrite E. cbn [length]. lia. }
    apply sum_lt with (k := b); auto.
    + apply sum_lt with (k := t); auto. rewrite set_same. unfold tsize. cbn [t_cur t_later]. rewrite E. cbn [length]. lia.
    + intros i Hi. apply sum_le. auto.
  - assert (X : forall t, t < nt -> tsize (pop r0 (c_th c b t)) < tsize (c_th c b t)).
    { intros t Ht. destruct (E t Ht) as [E1 E2]. unfold pop, tsize. rewrite E1. destruct (t_later (c_th c b t)) as [|p ls]; [congruence|]. cbn. lia. }
    apply sum_lt with (k := b); auto.
    + rewrite Nat.eqb_refl. apply sum_lt with (k := 0); auto. intros i Hi. apply Nat.lt_le_incl. auto.
    + intros i Hi. destruct (i =? b) eqn:Q; auto. apply Nat.eqb_eq in Q. subst. apply sum_le. intros t Ht. apply Nat.lt_le_incl. auto.
Qed.
Lemma stepn_size n c d : 0 < nt -> stepn add r0 nb nt n c d -> n + size d <= size c.
Proof.
  intros HT. revert c. induction n; cbn; intros c H; [subst; auto|]. destruct H as (e & H1 & H2). apply step_size in H1; auto. apply IHn in H2. lia.
Qed.
Lemma stepn_steps n c d : stepn add r0 nb nt n c d -> steps nb nt c d.
Proof. revert c. induction n; cbn; intros c H; [subst; constructor|]. destruct H as (e & H1 & H2). econstructor; eauto. Qed.
Lemma steps_rf c d : RF c -> Safe c -> steps nb nt c d -> RF d /\ Safe d.
Proof. intros A B H. induction H; auto. apply IHsteps; [eapply step_rf|eapply step_safe]; eauto. Qed.
Lemma steps_app c d e : steps nb nt c d -> steps nb nt d e -> steps nb nt c e.
Proof. induction 1; auto. intros. econstructor; eauto. Qed.

(** *** the sequential execution *)
Definition act' (a : action) (p : R * mem) : R * mem := match act a (fst p) (snd p) with Some q => q | None => p end.
Definition seqa (l : list action) (r : R) (m : mem) : R * mem := fold_left (fun p a => act' a p) l (r, m).
Definition thread_mem (l : list action) (m : mem) : mem := snd (seqa l r0 m).
Definition phase_mem (P : nat -> list action) (m : mem) : mem := fold_left (fun m t => thread_mem (P t) m) (seq 0 nt) m.
Definition block_mem (np : nat) (P : nat -> nat -> list action) (m : mem) : mem := fold_left (fun m p => phase_mem (fun t => P t p) m) (seq 0 np) m.

Lemma run_acts c b t : b < nb -> t < nt -> Safe c -> exists d, steps nb nt c d /\
  c_mem d = snd (seqa (t_cur (c_th c b t)) (t_reg (c_th c b t)) (c_mem c)) /\
  t_cur (c_th d b t) = [] /\ t_later (c_th d b t) = t_later (c_th c b t) /\ forall b' t', (b', t') <> (b, t) -> c_th d b' t' = c_th c b' t'.
Proof.
  intros Hb Ht. remember (t_cur (c_th c b t)) as l eqn:E. revert c E. induction l as [|a l IH]; intros c E HS.
  - exists c. cbn. repeat split; auto. constructor.
  - destruct (act_safe a (t_reg (c_th c b t)) (c_mem c)) as (r & m & A). { apply (HS b t); auto. unfold all. rewrite <- E. now left. }
    set (c1 := mk_cfg m (set_th (c_th c) b t (mk_th l (t_later (c_th c b t)) r))).
    assert (H1 : step nb nt c c1) by (eapply (step_run add r0 nb nt c b t a l); eauto).
    destruct (IH c1) as (d & X1 & X2 & X3 & X4 & X5). { cbn. now rewrite set_same. } { eapply step_safe; eauto. }
    exists d. split; [econstructor; eauto|]. cbn in X2, X4. rewrite set_same in X2, X4. cbn in X2, X4. split; [|split; [auto|split; [auto|]]].
    + rewrite X2. unfold seqa at 2. cbn. unfold act'. cbn. rewrite A. reflexivity.
    + intros b' t' N. rewrite X5 by auto. cbn. now apply set_other.
Qed.

Lemma run_phase c b : b < nb -> Safe c -> (forall t, t < nt -> t_reg (c_th c b t) = r0) ->
  exists d, steps nb nt c d /\ c_mem d = phase_mem (fun t => t_cur (c_th c b t)) (c_mem c) /\
  (forall t, t < nt -> t_cur (c_th d b t) = [] /\ t_later (c_th d b t) = t_later (c_th c b t)) /\
  forall b' t', b' <> b -> c_th d b' t' = c_th c b' t'.
Proof.
  intros Hb HS HR.
  assert (X : forall k, k <= nt -> exists d, steps nb nt c d /\ c_mem d = fold_left (fun m t => thread_mem (t_cur (c_th c b t)) m) (seq 0 k) (c_mem c) /\
    (forall t, t < k -> t_cur (c_th d b t) = [] /\ t_later (c_th d b t) = t_later (c_th c b t)) /\
    (forall t, k <= t -> c_th d b t = c_th c b t) /\ forall b' t', b' <> b -> c_th d b' t' = c_th c b' t').
  { induction k; intros Hk.
    - exists c. cbn. repeat split; auto; try constructor; lia.
    - destruct (IHk ltac:(lia)) as (d & A1 & A2 & A3 & A4 & A5).
      assert (Sd : Safe d). { clear - HS A1. induction A1; auto. apply IHA1. eapply step_safe; eauto. }
      destruct (run_acts d b k Hb ltac:(lia) Sd) as (e & B1 & B2 & B3 & B4 & B5). exists e. split; [eapply steps_app; eauto|].
      rewrite seq_S, fold_left_app. cbn. rewrite <- A2. unfold thread_mem. rewrite A4 in B2, B4 by lia. rewrite HR in B2 by lia. rewrite B2. split; auto. split; [|split].
      + intros t Ht. destruct (Nat.eq_dec t k) as [->|]; auto. rewrite B5 by congruence. apply A3. lia.
      + intros t Ht. rewrite B5 by (intros Q; injection Q; lia). apply A4. lia.
      + intros b' t' N. rewrite B5 by congruence. auto. }
  destruct (X nt (le_n _)) as (d & A1 & A2 & A3 & _ & A5). exists d. auto.
Qed.

Lemma run_block c b np (P : nat -> nat -> list action) : 0 < nt -> b < nb -> Safe c ->
  (forall t, t < nt -> t_reg (c_th c b t) = r0 /\ t_cur (c_th c b t) :: t_later (c_th c b t) = map (P t) (seq 0 (S np))) ->
  exists d, steps nb nt c d /\ c_mem d = block_mem (S np) P (c_mem c) /\
  (forall t, t < nt -> t_cur (c_th d b t) = [] /\ t_later (c_th d b t) = []) /\
  forall b' t', b' <> b -> c_th d b' t' = c_th c b' t'.
Proof.
  intros HT Hb. unfold block_mem.
  assert (X : forall np s c, Safe c -> (forall t, t < nt -> t_reg (c_th c b t) = r0 /\ t_cur (c_th c b t) :: t_later (c_th c b t) = map (P t) (seq s (S np))) ->
    exists d, steps nb nt c d /\ c_mem d = fold_left (fun m p => phase_mem (fun t => P t p) m) (seq s (S np)) (c_mem c) /\
    (forall t, t < nt -> t_cur (c_th d b t) = [] /\ t_later (c_th d b t) = []) /\
    forall b' t', b' <> b -> c_th d b' t' = c_th c b' t').
  { clear c np. induction np as [|np IH]; intros s c HS HP;
      (destruct (run_phase c b Hb HS) as (d & A1 & A2 & A3 & A4); [intros t Ht; apply HP; auto|]);
      assert (EP : c_mem d = phase_mem (fun t => P t s) (c_mem c))
        by (rewrite A2; unfold phase_mem; clear - HP;
            assert (Q : forall l m, (forall t, In t l -> t < nt) -> fold_left (fun m t => thread_mem (t_cur (c_th c b t)) m) l m = fold_left (fun m t => thread_mem (P t s) m) l m)
              by (induction l as [|t l IHl]; intros m Hl; cbn; auto; destruct (HP t (Hl t (or_introl eq_refl))) as [_ E]; cbn in E; injection E as E _; rewrite E; apply IHl; intros; apply Hl; now right);
            apply Q; intros t Ht; apply in_seq in Ht; lia).
    - exists d. cbn. rewrite <- EP. repeat split; auto; intros; try apply A3; auto. destruct (A3 t H) as [_ ->]. destruct (HP t H) as [_ E]. cbn in E. now injection E.
    - assert (Sd : Safe d). { clear - HS A1. induction A1; auto. apply IHA1. eapply step_safe; eauto. }
      set (e := mk_cfg (c_mem d) (fun b' t => if b' =? b then pop r0 (c_th d b' t) else c_th d b' t)).
      assert (He : step nb nt d e).
      { apply step_sync; auto. intros t Ht. destruct (A3 t Ht) as [Q1 Q2]. split; auto. rewrite Q2. destruct (HP t Ht) as [_ E]. cbn in E. injection E as _ E. rewrite E. discriminate. }
      destruct (IH (S s) e) as (f & B1 & B2 & B3 & B4).
      + eapply step_safe; eauto.
      + intros t Ht. cbn [e c_th]. rewrite Nat.eqb_refl. unfold pop. destruct (A3 t Ht) as [_ Q2]. rewrite Q2. destruct (HP t Ht) as [_ E].
        cbn [seq map] in E. injection E as _ E. rewrite E. cbn. auto.
      + exists f. split; [eapply steps_app; [eauto|econstructor; eauto]|]. split; [|split; auto].
        * rewrite B2. cbn [seq fold_left]. rewrite <- EP. reflexivity.
        * intros b' t' N. rewrite B4 by auto. cbn. rewrite (proj2 (Nat.eqb_neq b' b)) by auto. auto. }
  intros HS HP. apply (X np 0 c); auto.
Qed.
End G.
