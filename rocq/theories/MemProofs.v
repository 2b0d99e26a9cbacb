(** Ownership invariant of the buffers: use counts equal the number of handles, every live buffer has exactly one owner. *)
From Coq Require Import List Arith Bool Lia Permutation.
Require Import Verif.Base Verif.MemModel Verif.MemSpec.
Import ListNotations.

Local Notation count := (count_occ Nat.eq_dec).

Section Inv.
Context (h0 : heap).
Local Notation n0 := (length (hp_blk h0)).
Local Notation c0 := (length (hp_mem h0)).

(** [hs]: shared_ptr handles of this solver; [rs]: raw buffers it has not freed *)
Record inv (h : heap) (hs : list nat) (rs : list (mkind * nat)) : Prop := {
  i_old : firstn n0 (hp_blk h) = hp_blk h0;
  i_oldm : firstn c0 (hp_mem h) = hp_mem h0;
  i_range : forall c, In c hs -> c0 <= c < length (hp_mem h);
  i_cell : forall c x, c0 <= c -> nth_error (hp_mem h) c = Some x ->
    mm_rc x = count hs c /\
    (mm_alloc x = true -> n0 <= mm_blk x /\ exists l, nth_error (hp_blk h) (mm_blk x) = Some (mk_blk (mm_kind x) l (0 <? mm_rc x))) /\
    (mm_alloc x = false -> mm_blk x < n0 /\ valid h (mm_blk x));
  i_own : forall c c' x x', c0 <= c -> c0 <= c' -> nth_error (hp_mem h) c = Some x -> nth_error (hp_mem h) c' = Some x' ->
    mm_alloc x = true -> mm_alloc x' = true -> mm_blk x = mm_blk x' -> c = c';
  i_nodup : NoDup (map snd rs);
  i_raw : forall k b, In (k, b) rs -> n0 <= b /\ (exists l, nth_error (hp_blk h) b = Some (mk_blk k l true)) /\
    forall c x, c0 <= c -> nth_error (hp_mem h) c = Some x -> mm_alloc x = true -> mm_blk x <> b;
  i_live : forall b x, n0 <= b -> nth_error (hp_blk h) b = Some x -> bk_live x = true ->
    (exists k, In (k, b) rs) \/ exists c y, c0 <= c /\ nth_error (hp_mem h) c = Some y /\ mm_alloc y = true /\ mm_blk y = b
}.

(** lengths and kinds never change, nor which buffer a CpuMem/GpuMem has *)
Definition ext (h h' : heap) : Prop :=
  (forall b x, nth_error (hp_blk h) b = Some x -> exists v, nth_error (hp_blk h') b = Some (mk_blk (bk_kind x) (bk_len x) v)) /\
  (forall c x, nth_error (hp_mem h) c = Some x -> exists r, nth_error (hp_mem h') c = Some (mk_mem (mm_blk x) (mm_alloc x) (mm_kind x) r)).
Lemma ext_refl h : ext h h.
Proof. split; intros c x H; destruct x; eexists; exact H. Qed.
Lemma ext_trans a b c : ext a b -> ext b c -> ext a c.
Proof.
  intros [A1 A2] [B1 B2]. split.
  - intros i x H. destruct (A1 i x H) as (v & H1). destruct (B1 i _ H1) as (v' & H2). exists v'. exact H2.
  - intros i x H. destruct (A2 i x H) as (v & H1). destruct (B2 i _ H1) as (v' & H2). exists v'. exact H2.
Qed.

Lemma old_len h hs rs : inv h hs rs -> n0 <= length (hp_blk h) /\ c0 <= length (hp_mem h).
Proof.
  intros I. split; [rewrite <- (i_old _ _ _ I)|rewrite <- (i_oldm _ _ _ I)]; rewrite firstn_length; lia.
Qed.
Lemma firstn_app_old {A} n (l m : list A) : n <= length l -> firstn n (l ++ m) = firstn n l.
Proof. intros H. rewrite firstn_app. replace (n - length l) with 0 by lia. cbn. apply app_nil_r. Qed.
Lemma firstn_upd {A} n (l : list A) i v : n <= i -> firstn n (upd l i v) = firstn n l.
Proof. revert n i. induction l as [|a l IH]; intros [|n] [|i] H; cbn; auto; try lia. f_equal. apply IH. lia. Qed.
Lemma nth_snoc {A} (l : list A) a i : nth_error (l ++ [a]) i = if i =? length l then Some a else nth_error l i.
Proof.
  destruct (i =? length l) eqn:E.
  - apply Nat.eqb_eq in E as ->. rewrite nth_error_app2 by lia. now rewrite Nat.sub_diag.
  - apply Nat.eqb_neq in E. destruct (lt_dec i (length l)); [now rewrite nth_error_app1|].
    rewrite nth_error_app2 by lia. destruct (i - length l) as [|j] eqn:D; [lia|]. cbn. transitivity (@None A); [now destruct j|symmetry; apply nth_error_None; lia].
Qed.
Lemma nth_lt {A} (l : list A) i x : nth_error l i = Some x -> i < length l.
Proof. intros H. apply nth_error_Some. congruence. Qed.

Lemma inv_perm h hs hs' rs rs' : Permutation hs hs' -> Permutation rs rs' -> inv h hs rs -> inv h hs' rs'.
Proof.
  intros P Q [A B C D E F G H]. split; auto.
  - intros c Hc. apply C. eapply Permutation_in; [symmetry; exact P|auto].
  - intros c x H1 H2. specialize (D c x H1 H2). rewrite (proj1 (Permutation_count_occ Nat.eq_dec _ _) P) in D. exact D.
  - eapply Permutation_NoDup; [|exact F]. now apply Permutation_map.
  - intros k b Hb. apply G. eapply Permutation_in; [symmetry; exact Q|auto].
  - intros b x H1 H2 H3. destruct (H b x H1 H2 H3) as [[k Hk]|]; auto. left. exists k. eapply Permutation_in; eauto.
Qed.

Lemma alloc_inv h hs rs k l : inv h hs rs -> let (b, h') := hp_alloc k l h in
  inv h' hs ((k, b) :: rs) /\ ext h h' /\ nth_error (hp_blk h') b = Some (mk_blk k l true) /\ (forall i, i < length (hp_blk h) -> nth_error (hp_blk h') i = nth_error (hp_blk h) i).
Proof.
  intros I. pose proof (old_len _ _ _ I) as [L1 L2]. destruct I as [A B C D E F G H]. unfold hp_alloc. cbn [hp_blk hp_mem].
  assert (X : forall i x, nth_error (hp_blk h) i = Some x -> nth_error (hp_blk h ++ [mk_blk k l true]) i = Some x).
  { intros i x Hi. rewrite nth_error_app1; auto. eapply nth_lt; eauto. }
  split; [split; cbn [hp_blk hp_mem]|split; [|split]]; auto.
  - now rewrite firstn_app_old.
  - intros c x H1 H2. destruct (D c x H1 H2) as (D1 & D2 & D3). split; auto. split.
    + intros Ha. destruct (D2 Ha) as (N & l' & Hl). split; auto. eauto.
    + intros Ha. destruct (D3 Ha) as (N & y & Hy & Hv). split; auto. exists y. auto.
  - cbn. constructor; auto. intros Hi. apply in_map_iff in Hi as ([k' b] & Eb & Hb). cbn in Eb. subst b.
    destruct (G _ _ Hb) as (_ & (l' & Hl) & _). apply nth_lt in Hl. lia.
  - intros k' b [Hb|Hb].
    + injection Hb as <- <-. split; [lia|]. split; [exists l; rewrite nth_snoc, Nat.eqb_refl; auto|].
      intros c x H1 H2 H3. destruct (D c x H1 H2) as (_ & D2 & _). destruct (D2 H3) as (_ & l' & Hl). apply nth_lt in Hl. lia.
    + destruct (G _ _ Hb) as (G1 & (l' & Hl) & G3). split; auto. split; eauto.
  - intros b x H1 H2 H3. rewrite nth_snoc in H2. destruct (b =? length (hp_blk h)) eqn:Eb.
    + apply Nat.eqb_eq in Eb as ->. left. exists k. now left.
    + destruct (H b x H1 H2 H3) as [[k' Hk]|R]; [left; exists k'; now right|auto].
  - split; intros i x Hi; destruct x; eexists; cbn; [apply X|]; exact Hi.
  - rewrite nth_snoc, Nat.eqb_refl. auto.
  - intros i Hi. now rewrite nth_error_app1.
Qed.

Lemma free_inv h hs rs k b : inv h hs ((k, b) :: rs) -> exists h', hp_free k b h = Ok h' /\ inv h' hs rs /\ ext h h'.
Proof.
  intros I. pose proof (old_len _ _ _ I) as [L1 L2]. destruct I as [A B C D E F G H].
  destruct (G k b (or_introl eq_refl)) as (G1 & (l & Hl) & G3). pose proof (nth_lt _ _ _ Hl) as Hb.
  unfold hp_free. rewrite (proj2 (rd_ok _ _ _) Hl). cbn [bind bk_live bk_kind bk_len andb].
  replace (mkind_eqb k k) with true by (destruct k; auto). rewrite wr_ok by auto. cbn [bind]. eexists. split; [reflexivity|].
  assert (X : forall i, i <> b -> nth_error (upd (hp_blk h) b (mk_blk k l false)) i = nth_error (hp_blk h) i) by (intros; apply upd_other; auto).
  split; [split; cbn [hp_blk hp_mem]|]; auto.
  - now rewrite firstn_upd.
  - intros c x H1 H2. destruct (D c x H1 H2) as (D1 & D2 & D3). split; auto. split.
    + intros Ha. destruct (D2 Ha) as (N & l' & Hl'). split; auto. exists l'. rewrite X; auto. eapply G3; eauto.
    + intros Ha. destruct (D3 Ha) as (N & y & Hy & Hv). split; auto. exists y. cbn [hp_blk]. rewrite X by lia. auto.
  - now inversion F.
  - intros k' b' Hb'. destruct (G k' b' (or_intror Hb')) as (Q1 & (l' & Hl') & Q3). split; auto. split; auto. exists l'. rewrite X; auto.
    intros ->. inversion F as [|? ? F1 _]; subst. apply F1. cbn. now apply (in_map snd) in Hb'.
  - intros i x H1 H2 H3. destruct (Nat.eq_dec i b) as [->|Ni].
    + rewrite upd_same in H2 by auto. injection H2 as <-. discriminate H3.
    + rewrite X in H2 by auto. destruct (H i x H1 H2 H3) as [[k' [Hk|Hk]]|R]; eauto. injection Hk as _ <-. congruence.
  - split; intros i x Hi; cbn.
    + destruct (Nat.eq_dec i b) as [->|Ni]; [|rewrite X by auto; destruct x; eauto].
      rewrite Hl in Hi. injection Hi as <-. rewrite upd_same by auto. eauto.
    + destruct x; eauto.
Qed.

(** handle [c] owns a buffer of [l] elements / wraps a user buffer *)
Definition owns (h : heap) (c l : nat) : Prop := exists x y, nth_error (hp_mem h) c = Some x /\ mm_alloc x = true /\ nth_error (hp_blk h) (mm_blk x) = Some y /\ bk_len y = l.
Lemma owns_ext h h' c l : ext h h' -> owns h c l -> owns h' c l.
Proof.
  intros [E1 E2] (x & y & A & B & C & D). destruct (E2 _ _ A) as (r & A'). destruct (E1 _ _ C) as (v & C').
  exists (mk_mem (mm_blk x) (mm_alloc x) (mm_kind x) r), (mk_blk (bk_kind y) (bk_len y) v). auto.
Qed.

Lemma count_fresh hs c : ~ In c hs -> count hs c = 0.
Proof. apply count_occ_not_In. Qed.

Lemma new_inv h hs rs k l : inv h hs rs -> let (c, h') := mem_new k l h in inv h' (c :: hs) rs /\ ext h h' /\ owns h' c l /\ ~ In c hs.
Proof.
  intros I. pose proof (old_len _ _ _ I) as [L1 L2]. pose proof (i_range _ _ _ I) as R0. destruct I as [A B C D E F G H].
  unfold mem_new, hp_alloc. cbn [hp_blk hp_mem].
  set (bs := hp_blk h ++ [mk_blk k l true]). set (x0 := mk_mem (length (hp_blk h)) true k 1).
  assert (Xb : forall i x, nth_error (hp_blk h) i = Some x -> nth_error bs i = Some x).
  { intros i x Hi. unfold bs. rewrite nth_error_app1; auto. eapply nth_lt; eauto. }
  assert (Fr : ~ In (length (hp_mem h)) hs) by (intros Hc; apply C in Hc; lia).
  assert (Nb : forall c x, c0 <= c -> nth_error (hp_mem h) c = Some x -> mm_alloc x = true -> mm_blk x <> length (hp_blk h)).
  { intros c x H1 H2 H3 Eb. destruct (D c x H1 H2) as (_ & D2 & _). destruct (D2 H3) as (_ & l' & Hl). apply nth_lt in Hl. lia. }
  split; [split; cbn [hp_blk hp_mem]|split; [|split]]; auto.
  - unfold bs. now rewrite firstn_app_old.
  - now rewrite firstn_app_old.
  - intros c Hc. rewrite app_length. cbn. destruct Hc as [<-|Hc]; [lia|]. apply C in Hc. lia.
  - intros c x H1 H2. rewrite nth_snoc in H2. destruct (c =? length (hp_mem h)) eqn:Ec.
    + apply Nat.eqb_eq in Ec as ->. injection H2 as <-. cbn [mm_rc mm_alloc mm_blk mm_kind x0]. split.
      * rewrite count_occ_cons_eq by auto. now rewrite count_fresh.
      * split; [|discriminate]. intros _. split; auto. exists l. unfold bs. rewrite nth_snoc, Nat.eqb_refl. auto.
    + apply Nat.eqb_neq in Ec. destruct (D c x H1 H2) as (D1 & D2 & D3). rewrite count_occ_cons_neq by auto. split; auto. split.
      * intros Ha. destruct (D2 Ha) as (N & l' & Hl). split; eauto.
      * intros Ha. destruct (D3 Ha) as (N & y & Hy & Hv). split; auto. exists y. auto.
  - intros c c' x x' H1 H1' H2 H2' H3 H3' Eb. rewrite nth_snoc in H2, H2'.
    destruct (c =? length (hp_mem h)) eqn:Ec, (c' =? length (hp_mem h)) eqn:Ec'.
    + apply Nat.eqb_eq in Ec, Ec'. congruence.
    + injection H2 as <-. cbn in Eb. exfalso. eapply (Nb c'); eauto.
    + injection H2' as <-. cbn in Eb. exfalso. eapply (Nb c); eauto.
    + eapply E; eauto.
  - intros k' b Hb. destruct (G k' b Hb) as (G1 & (l' & Hl) & G3). split; auto. split; [exists l'; auto|].
    intros c x H1 H2 H3. rewrite nth_snoc in H2. destruct (c =? length (hp_mem h)); [|eauto]. injection H2 as <-. cbn. apply nth_lt in Hl. lia.
  - intros b x H1 H2 H3. unfold bs in H2. rewrite nth_snoc in H2. destruct (b =? length (hp_blk h)) eqn:Eb.
    + apply Nat.eqb_eq in Eb as ->. right. exists (length (hp_mem h)), x0. rewrite nth_snoc, Nat.eqb_refl. auto.
    + destruct (H b x H1 H2 H3) as [R|(c & y & Hc & Hy & Ha & Hb)]; auto. right. exists c, y. split; auto. split; auto.
      rewrite nth_error_app1; auto. eapply nth_lt; eauto.
  - split; intros i x Hi; cbn.
    + exists (bk_live x). destruct x; auto.
    + exists (mm_rc x). rewrite nth_error_app1 by (eapply nth_lt; eauto). destruct x; auto.
  - exists x0, (mk_blk k l true). cbn. rewrite nth_snoc, Nat.eqb_refl. unfold bs. rewrite nth_snoc, Nat.eqb_refl. auto.
Qed.

Lemma wrap_inv h hs rs p : p < n0 -> valid h p -> inv h hs rs -> let (c, h') := mem_wrap p h in inv h' (c :: hs) rs /\ ext h h' /\ ~ In c hs /\ hp_blk h' = hp_blk h.
Proof.
  intros Hp Hv I. pose proof (old_len _ _ _ I) as [L1 L2]. destruct I as [A B C D E F G H]. unfold mem_wrap. cbn [hp_blk hp_mem].
  set (x0 := mk_mem p false Host 1).
  assert (Fr : ~ In (length (hp_mem h)) hs) by (intros Hc; apply C in Hc; lia).
  split; [split; cbn [hp_blk hp_mem]|split; [|split]]; auto.
  - now rewrite firstn_app_old.
  - intros c Hc. rewrite app_length. cbn. destruct Hc as [<-|Hc]; [lia|]. apply C in Hc. lia.
  - intros c x H1 H2. rewrite nth_snoc in H2. destruct (c =? length (hp_mem h)) eqn:Ec.
    + apply Nat.eqb_eq in Ec as ->. injection H2 as <-. cbn [mm_rc mm_alloc mm_blk mm_kind x0]. split.
      * rewrite count_occ_cons_eq by auto. now rewrite count_fresh.
      * split; [discriminate|]. auto.
    + apply Nat.eqb_neq in Ec. destruct (D c x H1 H2) as (D1 & D2 & D3). rewrite count_occ_cons_neq by auto. auto.
  - intros c c' x x' H1 H1' H2 H2' H3 H3' Eb. rewrite nth_snoc in H2, H2'.
    destruct (c =? length (hp_mem h)); [injection H2 as <-; discriminate|]. destruct (c' =? length (hp_mem h)); [injection H2' as <-; discriminate|].
    eapply E; eauto.
  - intros k' b Hb. destruct (G k' b Hb) as (G1 & G2 & G3). split; auto. split; auto.
    intros c x H1 H2 H3. rewrite nth_snoc in H2. destruct (c =? length (hp_mem h)); [|eauto]. injection H2 as <-. discriminate H3.
  - intros b x H1 H2 H3. destruct (H b x H1 H2 H3) as [R|(c & y & Hc & Hy & Ha & Hb)]; auto. right. exists c, y. split; auto. split; auto.
    rewrite nth_error_app1; auto. eapply nth_lt; eauto.
  - split; intros i x Hi; cbn; [destruct x; eauto|].
    exists (mm_rc x). rewrite nth_error_app1 by (eapply nth_lt; eauto). destruct x; auto.
Qed.

Lemma cell_of h hs rs c : inv h hs rs -> In c hs -> exists x, nth_error (hp_mem h) c = Some x /\ c0 <= c /\ mm_rc x = count hs c /\ 0 < mm_rc x.
Proof.
  intros I Hc. destruct (i_range _ _ _ I c Hc) as [H1 H2]. destruct (nth_error (hp_mem h) c) as [x|] eqn:E; [|apply nth_error_None in E; lia].
  exists x. destruct (i_cell _ _ _ I c x H1 E) as (Er & _). split; auto. split; auto. split; auto. rewrite Er.
  now apply (count_occ_In Nat.eq_dec).
Qed.

Lemma use_inv h hs rs c : inv h hs rs -> In c hs -> mem_use c h = Ok h.
Proof.
  intros I Hc. destruct (cell_of _ _ _ _ I Hc) as (x & E & H1 & Er & Hr). unfold mem_use, hp_use. rewrite (proj2 (rd_ok _ _ _) E). cbn [bind].
  destruct (mm_rc x) as [|r] eqn:R; [lia|]. cbn [Nat.eqb].
  destruct (i_cell _ _ _ I c x H1 E) as (_ & A & B). rewrite R in A. cbn in A.
  destruct (mm_alloc x).
  - destruct (A eq_refl) as (_ & l & Hl). now rewrite (proj2 (rd_ok _ _ _) Hl).
  - destruct (B eq_refl) as (_ & y & Hy & Hv). rewrite (proj2 (rd_ok _ _ _) Hy). cbn [bind]. now rewrite Hv.
Qed.

(** only the use count of [c] changes, and stays on the same side of 0 *)
Lemma setrc_inv h hs hs' rs c x r : inv h hs rs -> nth_error (hp_mem h) c = Some x -> c0 <= c -> (0 <? r) = (0 <? mm_rc x) ->
  r = count hs' c -> (forall d, d <> c -> count hs' d = count hs d) -> (forall d, In d hs' -> In d hs) ->
  inv (mk_hp (hp_blk h) (upd (hp_mem h) c (mk_mem (mm_blk x) (mm_alloc x) (mm_kind x) r))) hs' rs.
Proof.
  intros I E H1 Hs Er Ho Hsub. destruct I as [A B C D E' F G H]. pose proof (nth_lt _ _ _ E) as Lc.
  assert (X : forall d y, nth_error (upd (hp_mem h) c (mk_mem (mm_blk x) (mm_alloc x) (mm_kind x) r)) d = Some y ->
     (d = c /\ y = mk_mem (mm_blk x) (mm_alloc x) (mm_kind x) r) \/ (d <> c /\ nth_error (hp_mem h) d = Some y)).
  { intros d y Hd. destruct (Nat.eq_dec d c) as [->|Nd]; [rewrite upd_same in Hd by auto; injection Hd as <-; auto|]. rewrite upd_other in Hd by auto. auto. }
  assert (X' : forall d y, nth_error (upd (hp_mem h) c (mk_mem (mm_blk x) (mm_alloc x) (mm_kind x) r)) d = Some y ->
     exists z, nth_error (hp_mem h) d = Some z /\ mm_blk y = mm_blk z /\ mm_alloc y = mm_alloc z).
  { intros d y Hd. apply X in Hd as [[-> ->]|[_ Hd]]; eauto. }
  split; cbn [hp_blk hp_mem]; auto.
  - now rewrite firstn_upd.
  - intros d Hd. rewrite upd_length. auto.
  - intros d y Hd Hy. apply X in Hy as [[-> ->]|[Nd Hy]].
    + cbn [mm_rc mm_alloc mm_blk mm_kind]. split; auto. destruct (D c x H1 E) as (_ & D2 & D3). rewrite Hs. auto.
    + destruct (D d y Hd Hy) as (D1 & D2). rewrite Ho by auto. auto.
  - intros d d' y y' Hd Hd' Hy Hy' Ha Ha' Eb. apply X' in Hy as (z & Hz & E1 & E2). apply X' in Hy' as (z' & Hz' & E1' & E2').
    apply (E' d d' z z'); auto; congruence.
  - intros k b Hb. destruct (G k b Hb) as (G1 & G2 & G3). split; auto. split; auto. intros d y Hd Hy Ha. apply X' in Hy as (z & Hz & E1 & E2).
    rewrite E1. apply (G3 d z); auto. congruence.
  - intros b y Hb Hy Hl. destruct (H b y Hb Hy Hl) as [R|(d & z & Hd & Hz & Ha & Eb)]; auto. right.
    destruct (Nat.eq_dec d c) as [->|Nd].
    + exists c, (mk_mem (mm_blk x) (mm_alloc x) (mm_kind x) r). rewrite upd_same by auto. rewrite E in Hz. injection Hz as <-. auto.
    + exists d, z. rewrite upd_other by auto. auto.
Qed.
Lemma setrc_ext h c x r : nth_error (hp_mem h) c = Some x ->
  ext h (mk_hp (hp_blk h) (upd (hp_mem h) c (mk_mem (mm_blk x) (mm_alloc x) (mm_kind x) r))).
Proof.
  intros E. split; intros i y Hi; cbn; [destruct y; eauto|]. destruct (Nat.eq_dec i c) as [->|Ni].
  - rewrite E in Hi. injection Hi as <-. rewrite upd_same by (eapply nth_lt; eauto). eauto.
  - rewrite upd_other by auto. destruct y; eauto.
Qed.

Lemma copy_inv h hs rs c : inv h hs rs -> In c hs -> exists h', mem_copy c h = Ok h' /\ inv h' (c :: hs) rs /\ ext h h'.
Proof.
  intros I Hc. destruct (cell_of _ _ _ _ I Hc) as (x & E & H1 & Er & Hr). unfold mem_copy. rewrite (proj2 (rd_ok _ _ _) E). cbn [bind].
  destruct (mm_rc x) as [|r] eqn:R; [lia|]. cbn [Nat.eqb]. rewrite wr_ok by (eapply nth_lt; eauto). cbn [bind].
  eexists. split; [reflexivity|]. split; [|now apply setrc_ext].
  apply (setrc_inv h hs); auto.
  - now rewrite R.
  - rewrite count_occ_cons_eq by auto. lia.
  - intros d Nd. rewrite count_occ_cons_neq; auto.
  - intros d [<-|Hd]; auto.
Qed.

Lemma drop_inv h hs rs c : inv h (c :: hs) rs -> exists h', mem_drop c h = Ok h' /\ inv h' hs rs /\ ext h h'.
Proof.
  intros I. destruct (cell_of _ _ _ _ I (or_introl eq_refl)) as (x & E & H1 & Er & Hr). unfold mem_drop. rewrite (proj2 (rd_ok _ _ _) E). cbn [bind].
  rewrite count_occ_cons_eq in Er by auto. rewrite Er. rewrite wr_ok by (eapply nth_lt; eauto). cbn [bind]. cbv zeta.
  pose proof (nth_lt _ _ _ E) as Lc.
  assert (Ho : forall d, d <> c -> count hs d = count (c :: hs) d) by (intros d Nd; rewrite count_occ_cons_neq; auto).
  destruct (count hs c) as [|r] eqn:R; cbn [Nat.eqb andb].
  2:{ eexists. split; [reflexivity|]. split; [|now apply setrc_ext]. apply (setrc_inv h (c :: hs)); auto.
      - rewrite Er. auto.
      - intros d Hd. now right. }
  (* last handle *)
  assert (Hn : ~ In c hs) by (intros Hc; apply (count_occ_In Nat.eq_dec) in Hc; lia).
  destruct I as [A B C D E' F G H]. destruct (D c x H1 E) as (_ & D2 & D3).
  destruct (mm_alloc x) eqn:Ha.
  - destruct (D2 eq_refl) as (Nb & l & Hl). rewrite Er in Hl. cbn in Hl. unfold hp_free. cbn [hp_blk hp_mem]. rewrite (proj2 (rd_ok _ _ _) Hl).
    cbn [bind bk_live bk_kind bk_len andb]. replace (mkind_eqb (mm_kind x) (mm_kind x)) with true by (now destruct (mm_kind x)).
    pose proof (nth_lt _ _ _ Hl) as Lb. rewrite wr_ok by auto. cbn [bind]. eexists. split; [reflexivity|].
    set (x' := mk_mem (mm_blk x) true (mm_kind x) 0). set (bs := upd (hp_blk h) (mm_blk x) (mk_blk (mm_kind x) l false)).
    assert (Xb : forall i, i <> mm_blk x -> nth_error bs i = nth_error (hp_blk h) i) by (intros; apply upd_other; auto).
    assert (X : forall d y, nth_error (upd (hp_mem h) c x') d = Some y -> (d = c /\ y = x') \/ (d <> c /\ nth_error (hp_mem h) d = Some y)).
    { intros d y Hd. destruct (Nat.eq_dec d c) as [->|Nd]; [rewrite upd_same in Hd by auto; injection Hd as <-; auto|]. rewrite upd_other in Hd by auto. auto. }
    assert (X' : forall d y, nth_error (upd (hp_mem h) c x') d = Some y -> exists z, nth_error (hp_mem h) d = Some z /\ mm_blk y = mm_blk z /\ mm_alloc y = mm_alloc z).
    { intros d y Hd. apply X in Hd as [[-> ->]|[_ Hd]]; eauto. }
    split; [split; cbn [hp_blk hp_mem]|]; auto.
    + unfold bs. now rewrite firstn_upd.
    + now rewrite firstn_upd.
    + intros d Hd. rewrite upd_length. apply C. now right.
    + intros d y Hd Hy. apply X in Hy as [[-> ->]|[Nd Hy]].
      * cbn. split; auto. split; [|discriminate]. intros _. split; auto. exists l. unfold bs. rewrite upd_same; auto.
      * destruct (D d y Hd Hy) as (Q1 & Q2 & Q3). rewrite Ho by auto. split; auto. split.
        -- intros Hy'. destruct (Q2 Hy') as (Q4 & l' & Hl'). split; auto. exists l'. rewrite Xb; auto. intros Eb.
           apply Nd. exact (E' d c y x Hd H1 Hy E Hy' Ha Eb).
        -- intros Hy'. destruct (Q3 Hy') as (Q4 & z & Hz & Hv). split; auto. exists z. cbn [hp_blk]. rewrite Xb by lia. auto.
    + intros d d' y y' Hd Hd' Hy Hy' Hay Hay' Eb. apply X' in Hy as (z & Hz & E1 & E2). apply X' in Hy' as (z' & Hz' & E1' & E2').
      apply (E' d d' z z'); auto; congruence.
    + intros k b Hb. destruct (G k b Hb) as (G1 & (l' & Hl') & G3). split; auto. split.
      * exists l'. rewrite Xb; auto. intros ->. exact (G3 c x H1 E Ha eq_refl).
      * intros d y Hd Hy Hay. apply X' in Hy as (z & Hz & E1 & E2). rewrite E1. apply (G3 d z); auto. congruence.
    + intros b y Hb Hy Hlv. destruct (Nat.eq_dec b (mm_blk x)) as [->|Nbx].
      * unfold bs in Hy. rewrite upd_same in Hy by auto. injection Hy as <-. discriminate Hlv.
      * rewrite Xb in Hy by auto. destruct (H b y Hb Hy Hlv) as [R'|(d & z & Hd & Hz & Haz & Eb)]; auto. right.
        destruct (Nat.eq_dec d c) as [->|Nd]; [rewrite E in Hz; injection Hz as <-; congruence|]. exists d, z. rewrite upd_other by auto. auto.
    + split; intros i y Hi; cbn.
      * destruct (Nat.eq_dec i (mm_blk x)) as [->|Ni]; [|rewrite Xb by auto; destruct y; eauto].
        rewrite Hl in Hi. injection Hi as <-. unfold bs. rewrite upd_same by auto. eauto.
      * destruct (Nat.eq_dec i c) as [->|Ni]; [|rewrite upd_other by auto; destruct y; eauto].
        rewrite E in Hi. injection Hi as <-. rewrite upd_same by auto. rewrite Ha. exists 0. reflexivity.
  - eexists. split; [reflexivity|]. split; [|rewrite <- Ha; now apply setrc_ext].
    destruct (D3 eq_refl) as (Nb & Hv).
    set (x' := mk_mem (mm_blk x) false (mm_kind x) 0).
    assert (X : forall d y, nth_error (upd (hp_mem h) c x') d = Some y -> (d = c /\ y = x') \/ (d <> c /\ nth_error (hp_mem h) d = Some y)).
    { intros d y Hd. destruct (Nat.eq_dec d c) as [->|Nd]; [rewrite upd_same in Hd by auto; injection Hd as <-; auto|]. rewrite upd_other in Hd by auto. auto. }
    assert (X' : forall d y, nth_error (upd (hp_mem h) c x') d = Some y -> exists z, nth_error (hp_mem h) d = Some z /\ mm_blk y = mm_blk z /\ mm_alloc y = mm_alloc z).
    { intros d y Hd. apply X in Hd as [[-> ->]|[_ Hd]]; eauto. }
    split; cbn [hp_blk hp_mem]; auto.
    + now rewrite firstn_upd.
    + intros d Hd. rewrite upd_length. apply C. now right.
    + intros d y Hd Hy. apply X in Hy as [[-> ->]|[Nd Hy]].
      * cbn. split; auto. split; [discriminate|auto].
      * destruct (D d y Hd Hy) as (Q1 & Q2). rewrite Ho by auto. auto.
    + intros d d' y y' Hd Hd' Hy Hy' Hay Hay' Eb. apply X' in Hy as (z & Hz & E1 & E2). apply X' in Hy' as (z' & Hz' & E1' & E2').
      apply (E' d d' z z'); auto; congruence.
    + intros k b Hb. destruct (G k b Hb) as (G1 & G2 & G3). split; auto. split; auto.
      intros d y Hd Hy Hay. apply X' in Hy as (z & Hz & E1 & E2). rewrite E1. apply (G3 d z); auto. congruence.
    + intros b y Hb Hy Hlv. destruct (H b y Hb Hy Hlv) as [R'|(d & z & Hd & Hz & Haz & Eb)]; auto. right.
      destruct (Nat.eq_dec d c) as [->|Nd]; [rewrite E in Hz; injection Hz as <-; congruence|]. exists d, z. rewrite upd_other by auto. auto.
Qed.
End Inv.
