(** Launches of race-free kernels: the resulting memory, read off the programs. *)
From Coq Require Import List Arith ZArith Bool Lia.
Require Import Verif.CukModel Verif.CukSpec Verif.CukProofs1.
Import ListNotations.

(** folding memory transformers with disjoint footprints *)
Section Fold.
Context {V : Type} (T : nat -> mem V -> mem V) (W A : nat -> addr -> Prop) (n : nat).
Context (WA : forall i x, i < n -> W i x -> A i x).
Context (frame : forall i m x, i < n -> ~ W i x -> T i m x = m x).
Context (ext : forall i m m' x, i < n -> (forall y, A i y -> m y = m' y) -> W i x -> T i m x = T i m' x).
Context (dis : forall i j x, i < n -> j < n -> i <> j -> W i x -> A j x -> False).
Lemma fold_frame k m x : k <= n -> (forall i, i < k -> ~ W i x) -> fold_left (fun m i => T i m) (seq 0 k) m x = m x.
Proof.
  intros Hk H. induction k; auto. rewrite seq_S, fold_left_app. cbn. rewrite frame; auto; try lia. apply IHk; [lia|]. intros; apply H; lia.
Qed.
Lemma fold_write k m i x : k <= n -> i < k -> W i x -> fold_left (fun m i => T i m) (seq 0 k) m x = T i m x.
Proof.
  intros Hk Hi HW. induction k; [lia|]. rewrite seq_S, fold_left_app. cbn. destruct (Nat.eq_dec i k) as [->|N].
  - apply ext; [lia| |auto]. intros y Hy. apply fold_frame; [lia|]. intros j Hj Hw. apply (dis j k y); auto; lia.
  - rewrite frame; [apply IHk; lia|lia|]. intros Hw. apply (dis k i x); auto; try lia. apply WA; auto; lia.
Qed.
End Fold.

Section K.
Context {V : Type} (add : V -> V -> V).
Local Notation act := (action V (list V)).
Local Notation tmem := (thread_mem add (@nil V)).
Local Notation seqa := (seqa (R := list V) add).
Local Notation nonconf := (nonconf (V := V) (R := list V)).

(** footprints of a list of operations *)
Definition acc (l : list act) (x : addr) : Prop := exists a, In a l /\ target a = Some x.
Definition wri (l : list act) (x : addr) : Prop := exists a, In a l /\ target a = Some x /\ is_ld a = false.
Lemma wri_acc l x : wri l x -> acc l x.
Proof. intros (a & I & E & _). exists a; auto. Qed.
Lemma seqa_cons a (l : list act) r m : seqa (a :: l) r m = let p := act' add a (r, m) in seqa l (fst p) (snd p).
Proof. unfold seqa. cbn. now destruct (act' add a (r, m)). Qed.
Lemma seqa_app (l l' : list act) r m : seqa (l ++ l') r m = let p := seqa l r m in seqa l' (fst p) (snd p).
Proof. unfold seqa. rewrite fold_left_app. cbn. now destruct (fold_left _ l _). Qed.
Lemma act'_frame (a : act) r m x : ~ (target a = Some x /\ is_ld a = false) -> snd (act' add a (r, m)) x = m x.
Proof.
  intros H. unfold act'. destruct a; cbn in *; auto; destruct (m x0); cbn; auto; apply upd_neq; intros ->; tauto.
Qed.
Lemma seqa_frame (l : list act) r m x : ~ wri l x -> snd (seqa l r m) x = m x.
Proof.
  revert r m. induction l as [|a l IH]; intros r m H; auto. rewrite seqa_cons. cbv zeta. rewrite IH.
  - apply act'_frame. intros [E L]. apply H. exists a. cbn. auto.
  - intros (b & I & E). apply H. exists b. cbn. tauto.
Qed.
Lemma act'_ext (a : act) r (m m' : mem V) : (forall x, target a = Some x -> m x = m' x) ->
  fst (act' add a (r, m)) = fst (act' add a (r, m')) /\ forall x, m x = m' x -> snd (act' add a (r, m)) x = snd (act' add a (r, m')) x.
Proof.
  intros H. unfold act'. destruct a; cbn in *; auto; rewrite <- (H x eq_refl); destruct (m x) eqn:E; cbn; auto; split; auto; intros y Hy; unfold upd_mem;
    destruct (addr_eq_dec y x); auto.
Qed.
Lemma seqa_ext (l : list act) r (m m' : mem V) : (forall x, acc l x -> m x = m' x) ->
  fst (seqa l r m) = fst (seqa l r m') /\ forall x, m x = m' x -> snd (seqa l r m) x = snd (seqa l r m') x.
Proof.
  revert r m m'. induction l as [|a l IH]; intros r m m' H; [cbn; auto|]. rewrite !seqa_cons. cbv zeta.
  destruct (act'_ext a r m m') as [E1 E2]. { intros x E. apply H. exists a. cbn. auto. } rewrite E1.
  destruct (IH (fst (act' add a (r, m'))) (snd (act' add a (r, m))) (snd (act' add a (r, m')))) as [F1 F2].
  { intros x (b & I & E). apply E2. apply H. exists b. cbn. auto. }
  split; auto.
Qed.
Lemma nonconf_dis rc (l l' : list act) x : rc = false -> (forall a a', In a l -> In a' l' -> nonconf rc a a') -> wri l x -> acc l' x -> False.
Proof.
  intros -> H (a & I & E & L) (a' & I' & E'). destruct (H a a' I I' x E E') as [[? ?]|[? ?]]; congruence.
Qed.
Lemma nonconf_sym rc (a a' : act) : nonconf rc a a' -> nonconf rc a' a.
Proof. intros H x E E'. destruct (H x E' E); tauto. Qed.

(** *** one phase of a block *)
Section Phase.
Context (nt : nat) (P : nat -> list act) (HP : forall t t' a a', t < nt -> t' < nt -> t <> t' -> In a (P t) -> In a' (P t') -> nonconf false a a').
Local Notation pm := (phase_mem add (@nil V) nt P).
Lemma phase_frame m x : (forall t, t < nt -> ~ wri (P t) x) -> pm m x = m x.
Proof. intros H. apply (fold_frame (fun t => tmem (P t)) (fun t => wri (P t)) nt); auto. intros. now apply seqa_frame. Qed.
Lemma phase_write m t x : t < nt -> wri (P t) x -> pm m x = tmem (P t) m x.
Proof.
  intros Ht HW. apply (fold_write (fun t => tmem (P t)) (fun t => wri (P t)) (fun t => acc (P t)) nt); auto.
  - intros. now apply wri_acc.
  - intros. now apply seqa_frame.
  - intros i m1 m2 y Hi E Hw. apply seqa_ext; auto. apply E. now apply wri_acc.
  - intros i j y Hi Hj N. apply (nonconf_dis false); auto. intros a a'. apply HP; auto.
Qed.
End Phase.
Lemma phase_ext nt (P : nat -> list act) (m m' : mem V) : (forall t x, t < nt -> acc (P t) x -> m x = m' x) ->
  forall x, m x = m' x -> phase_mem add (@nil V) nt P m x = phase_mem add (@nil V) nt P m' x.
Proof.
  intros H. unfold phase_mem.
  assert (X : forall l, (forall t, In t l -> t < nt) -> forall m m', (forall t x, t < nt -> acc (P t) x -> m x = m' x) ->
    forall x, m x = m' x -> fold_left (fun m t => tmem (P t) m) l m x = fold_left (fun m t => tmem (P t) m) l m' x).
  { clear. induction l as [|t l IH]; intros Hl m m' H x E; auto. cbn. apply IH; [intros; apply Hl; now right| |].
    - intros s y Hs Hy. apply seqa_ext; auto; [|now apply (H s y)]. intros z Hz. apply (H t); auto. apply Hl. now left.
    - apply seqa_ext; auto. intros z Hz. apply (H t); auto. apply Hl. now left. }
  apply X; auto. intros t Ht. apply in_seq in Ht. lia.
Qed.
Lemma phase_mem_frame nt (P : nat -> list act) m x : (forall t, t < nt -> ~ wri (P t) x) -> phase_mem add (@nil V) nt P m x = m x.
Proof. intros H. apply (fold_frame (fun t => tmem (P t)) (fun t => wri (P t)) nt); auto. intros. now apply seqa_frame. Qed.
Lemma block_frame nt np (P : nat -> nat -> list act) m x : (forall t p, t < nt -> p < np -> ~ wri (P t p) x) -> block_mem add (@nil V) nt np P m x = m x.
Proof.
  intros H. apply (fold_frame (fun p => phase_mem add (@nil V) nt (fun t => P t p)) (fun p y => exists t, t < nt /\ wri (P t p) y) np); auto.
  - intros i m1 y Hi Hn. apply phase_mem_frame. intros t Ht Hw. apply Hn. eauto.
  - intros i Hi (t & Ht & Hw). exact (H t i Ht Hi Hw).
Qed.
Lemma block_ext nt np (P : nat -> nat -> list act) (m m' : mem V) : (forall t p x, t < nt -> p < np -> acc (P t p) x -> m x = m' x) ->
  forall x, m x = m' x -> block_mem add (@nil V) nt np P m x = block_mem add (@nil V) nt np P m' x.
Proof.
  unfold block_mem. assert (X : forall l, (forall p, In p l -> p < np) -> forall m m', (forall t p x, t < nt -> p < np -> acc (P t p) x -> m x = m' x) ->
    forall x, m x = m' x -> fold_left (fun m p => phase_mem add (@nil V) nt (fun t => P t p) m) l m x = fold_left (fun m p => phase_mem add (@nil V) nt (fun t => P t p) m) l m' x).
  { clear. induction l as [|p l IH]; intros Hl m m' H x E; auto. cbn. assert (Hp : p < np) by (apply Hl; now left). apply IH; [intros; apply Hl; now right| |].
    - intros s q y Hs Hq Hy. apply phase_ext; eauto.
    - apply phase_ext; eauto. }
  intros H. apply X; auto. intros t Ht. apply in_seq in Ht. lia.
Qed.

(** *** launches *)
Section Launch.
Context (k : kernel V) (np : nat) (rc : bool) (Hrc : rc = true -> forall m x y, add (add m x) y = add (add m y) x).
Context (Hnt : 0 < kn_threads k).
Context (Hlen : forall b t, length (kn_prog k b t) = S np).
Definition ph (b t p : nat) : list act := nth p (kn_prog k b t) [].
Context (Hin : forall b t t' p a a', b < kn_blocks k -> t < kn_threads k -> t' < kn_threads k -> t <> t' -> p <= np ->
  In a (ph b t p) -> In a' (ph b t' p) -> nonconf rc a a').
Context (Hout : forall b b' t t' p p' a a', b < kn_blocks k -> b' < kn_blocks k -> b <> b' -> t < kn_threads k -> t' < kn_threads k -> p <= np -> p' <= np ->
  In a (ph b t p) -> In a' (ph b' t' p') -> nonconf rc a a').
Definition bmem (b : nat) : mem V -> mem V := block_mem add (@nil V) (kn_threads k) (S np) (ph b).
Definition launch_mem (m : mem V) : mem V := fold_left (fun m b => bmem b m) (seq 0 (kn_blocks k)) m.
Context (m : mem V).
Context (Hsafe : forall b t p a, b < kn_blocks k -> t < kn_threads k -> p <= np -> In a (ph b t p) -> safe_act m a).

Lemma launch_th b t : t_reg (c_th (launch k m) b t) = [] /\ t_cur (c_th (launch k m) b t) :: t_later (c_th (launch k m) b t) = kn_prog k b t.
Proof. cbn. unfold pop. cbn. pose proof (Hlen b t). destruct (kn_prog k b t); [discriminate|]. cbn. auto. Qed.
Lemma in_all b t a : In a (all (c_th (launch k m) b t)) -> exists p, p <= np /\ In a (ph b t p).
Proof.
  unfold all. change (t_cur ?x ++ concat (t_later ?x)) with (concat (t_cur x :: t_later x)). destruct (launch_th b t) as [_ ->]. intros H.
  apply in_concat in H. destruct H as (l & Hl & Ha). apply (In_nth _ _ []) in Hl. destruct Hl as (p & Hp & E). rewrite Hlen in Hp.
  exists p. unfold ph. rewrite E. split; auto; lia.
Qed.
Lemma in_ph b t a p : In a (phase (c_th (launch k m) b t) p) -> p <= np /\ In a (ph b t p).
Proof.
  unfold phase. destruct (launch_th b t) as [_ ->]. intros H. split; auto. destruct (le_lt_dec p np) as [|L]; auto.
  rewrite nth_overflow in H by (rewrite Hlen; lia). destruct H.
Qed.
Lemma launch_rf : RF rc (kn_blocks k) (kn_threads k) (launch k m).
Proof.
  split.
  - intros b t t' Hb Ht Ht'. destruct (launch_th b t) as [_ E]. destruct (launch_th b t') as [_ E']. apply (f_equal (@length _)) in E, E'. rewrite Hlen in E, E'. cbn in *. lia.
  - intros b t t' p a a' Hb Ht Ht' N I I'. apply in_ph in I, I'. destruct I, I'. eapply (Hin b t t' p); eauto.
  - intros b b' t t' a a' Hb Hb' N Ht Ht' I I'. apply in_all in I, I'. destruct I as (p & ? & ?), I' as (p' & ? & ?). eapply (Hout b b' t t' p p'); eauto.
Qed.
Lemma launch_safe : Safe (kn_blocks k) (kn_threads k) (launch k m).
Proof. intros b t a Hb Ht I. apply in_all in I. destruct I as (p & ? & ?). eapply (Hsafe b t p); eauto. Qed.

Lemma launch_canon : exists d, steps add [] (kn_blocks k) (kn_threads k) (launch k m) d /\ final (kn_blocks k) (kn_threads k) d /\ c_mem d = launch_mem m.
Proof.
  assert (X : forall j, j <= kn_blocks k -> exists d, steps add [] (kn_blocks k) (kn_threads k) (launch k m) d /\
    c_mem d = fold_left (fun m b => bmem b m) (seq 0 j) m /\
    (forall b t, b < j -> t < kn_threads k -> t_cur (c_th d b t) = [] /\ t_later (c_th d b t) = []) /\
    (forall b t, j <= b -> c_th d b t = c_th (launch k m) b t)).
  { induction j; intros Hj.
    - exists (launch k m). split; [constructor|]. repeat split; auto; lia.
    - destruct (IHj ltac:(lia)) as (d & A1 & A2 & A3 & A4).
      destruct (run_block add [] (kn_blocks k) (kn_threads k) d j np (ph j)) as (e & B1 & B2 & B3 & B4); auto; try lia.
      + eapply (steps_rf add [] rc); eauto using launch_rf, launch_safe.
      + intros t Ht. rewrite A4 by lia. destruct (launch_th j t) as [E1 E2]. split; auto. rewrite E2.
        unfold ph. pose proof (Hlen j t) as HL. revert HL. generalize (kn_prog k j t) as l. intros l HL. rewrite <- HL. clear.
        apply (nth_ext _ _ [] []); [now rewrite map_length, seq_length|]. intros i Hi.
        rewrite (nth_indep (map _ _) [] (nth 0 l [])) by (rewrite map_length, seq_length; auto).
        rewrite (map_nth (fun p => nth p l []) (seq 0 (length l)) 0), seq_nth by auto. reflexivity.
      + exists e. split; [eapply steps_app; eauto|]. rewrite seq_S, fold_left_app. cbn [fold_left]. rewrite <- A2. split; [exact B2|]. split.
        * intros b t Hb Ht. destruct (Nat.eq_dec b j) as [->|]; auto. rewrite B4 by auto. apply A3; auto; lia.
        * intros b t Hb. rewrite B4 by lia. apply A4. lia. }
  destruct (X _ (le_n _)) as (d & A1 & A2 & A3 & _). exists d. auto.
Qed.

Lemma launch_yields : yields add k m (launch_mem m).
Proof.
  exists (size (kn_blocks k) (kn_threads k) (launch k m)). intros n c H.
  pose proof (stepn_steps _ _ _ _ _ _ _ H) as HS. apply stepn_size in H; auto.
  destruct (steps_rf add [] rc _ _ _ _ launch_rf launch_safe HS) as [RFc Sc].
  split; [lia|]. split; [now apply safe_not_faulty|]. split.
  - intros F x. destruct launch_canon as (d & D1 & D2 & D3).
    destruct (catch_up_all add [] rc Hrc _ _ _ _ _ Hnt launch_rf D1 D2 HS) as (f & F1 & F2 & _). rewrite <- D3, F2.
    inversion F1; subst; auto. exfalso. exact (final_no_step add [] _ _ c _ Hnt F H0).
  - intros NF. eapply progress; eauto.
Qed.

(** without atomic operations, the value of an address is the one its only writing block gives it *)
Lemma launch_frame x : (forall b t p, b < kn_blocks k -> t < kn_threads k -> p <= np -> ~ wri (ph b t p) x) -> launch_mem m x = m x.
Proof.
  intros H. apply (fold_frame bmem (fun b y => exists t p, t < kn_threads k /\ p <= np /\ wri (ph b t p) y) (kn_blocks k)); auto.
  - intros i m1 y Hi Hn. apply block_frame. intros t p Ht Hp Hw. apply Hn. exists t, p. repeat split; auto; lia.
  - intros i Hi (t & p & Ht & Hp & Hw). exact (H i t p Hi Ht Hp Hw).
Qed.
Lemma launch_write b x : rc = false -> b < kn_blocks k -> (exists t p, t < kn_threads k /\ p <= np /\ wri (ph b t p) x) -> launch_mem m x = bmem b m x.
Proof.
  intros Erc Hb HW. apply (fold_write bmem (fun b y => exists t p, t < kn_threads k /\ p <= np /\ wri (ph b t p) y)
    (fun b y => exists t p, t < kn_threads k /\ p <= np /\ acc (ph b t p) y) (kn_blocks k)); auto.
  - intros i y Hi (t & p & ? & ? & ?). exists t, p. eauto using wri_acc.
  - intros i m1 y Hi Hn. apply block_frame. intros t p Ht Hp Hw. apply Hn. exists t, p. repeat split; auto; lia.
  - intros i m1 m2 y Hi E (t & p & Ht & Hp & Hw). apply block_ext.
    + intros s q z Hs Hq Hz. apply E. exists s, q. repeat split; auto; lia.
    + apply E. exists t, p. eauto using wri_acc.
  - intros i j y Hi Hj N (t & p & Ht & Hp & Hw) (t' & p' & Ht' & Hp' & Hw'). apply (nonconf_dis rc (ph i t p) (ph j t' p') y); auto.
    intros a a'. apply Hout; auto.
Qed.
End Launch.

(** kernels of one phase *)
Section Single.
Context (k : kernel V) (P : nat -> nat -> list act).
Context (Hnt : 0 < kn_threads k) (HK : forall b t, kn_prog k b t = [P b t]).
Context (Hout : forall b b' t t' a a', b < kn_blocks k -> b' < kn_blocks k -> t < kn_threads k -> t' < kn_threads k -> (b, t) <> (b', t') ->
  In a (P b t) -> In a' (P b' t') -> nonconf false a a').
Context (m : mem V) (Hsafe : forall b t a, b < kn_blocks k -> t < kn_threads k -> In a (P b t) -> safe_act m a).
Lemma single_yields : exists m', yields add k m m' /\
  (forall x, (forall b t, b < kn_blocks k -> t < kn_threads k -> ~ wri (P b t) x) -> m' x = m x) /\
  (forall b t x, b < kn_blocks k -> t < kn_threads k -> wri (P b t) x -> m' x = tmem (P b t) m x).
Proof.
  assert (E : forall b t p, p <= 0 -> ph k b t p = P b t) by (intros b t p Hp; unfold ph; rewrite HK; now replace p with 0 by lia).
  exists (launch_mem k 0 m). split; [|split].
  - apply (launch_yields k 0 false); [discriminate|auto| | | |].
    + intros. now rewrite HK.
    + intros b t t' p a a' Hb Ht Ht' N Hp. rewrite !E by auto. intros. apply (Hout b b t t'); auto. congruence.
    + intros b b' t t' p p' a a' Hb Hb' N Ht Ht' Hp Hp'. rewrite !E by auto. intros. apply (Hout b b' t t'); auto. congruence.
    + intros b t p a Hb Ht Hp. rewrite E by auto. intros. eapply Hsafe; eauto.
  - intros x H. apply launch_frame; auto. intros b t p Hb Ht Hp. rewrite E by auto. auto.
  - intros b t x Hb Ht HW. rewrite (launch_write k 0 false) with (b := b); [|exact Hnt| |reflexivity|exact Hb|].
    + unfold bmem, block_mem. cbn [seq fold_left]. assert (Q : forall t, ph k b t 0 = P b t) by (intros; now apply E).
      rewrite (phase_write (kn_threads k) (fun t => ph k b t 0)) with (t := t); auto.
      * now rewrite Q.
      * intros t1 t2 a a' H1 H2 N. rewrite !Q. intros. apply (Hout b b t1 t2); auto. congruence.
      * now rewrite Q.
    + intros b1 b' t1 t' p p' a a' Hb1 Hb' N Ht1 Ht' Hp Hp'. rewrite !E by auto. intros. apply (Hout b1 b' t1 t'); auto. congruence.
    + exists t, 0. rewrite E by auto. auto.
Qed.
End Single.
End K.
