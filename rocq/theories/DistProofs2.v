From Coq Require Import List Arith ZArith Bool Lia Sorted.
Require Import Verif.Base Verif.DistModel Verif.DistSpec Verif.DistProofs.
Import ListNotations.

Lemma in_owned N nb p src i g : In g (owned N nb p src i) <-> g < N /\ owner nb p src g = i.
Proof.
  unfold owned. rewrite filter_In, in_seq, Nat.eqb_eq. intuition lia.
Qed.

Lemma owned_NoDup N nb p src i : NoDup (owned N nb p src i).
Proof. apply NoDup_filter, seq_NoDup. Qed.

Lemma Sorted_seq a n : StronglySorted lt (seq a n).
Proof.
  revert a; induction n; intros; simpl; constructor; auto.
  apply Forall_forall. intros x H. apply in_seq in H. lia.
Qed.
Lemma StronglySorted_filter {A} R (f : A -> bool) l : StronglySorted R l -> StronglySorted R (filter f l).
Proof.
  induction 1; simpl; [constructor|]. destruct (f a); auto. constructor; auto.
  rewrite Forall_forall in *. intros x Hx. apply filter_In in Hx. apply H0. tauto.
Qed.
Lemma owned_sorted N nb p src i : StronglySorted lt (owned N nb p src i).
Proof. apply StronglySorted_filter, Sorted_seq. Qed.

Lemma flat_map_seq_nth (offs lens : list nat) : forall b t off len,
  nth_error offs b = Some off -> nth_error lens b = Some len -> t < len ->
  nth_error (expand offs lens) (list_sum (firstn b lens) + t) = Some (off + t).
Proof.
  revert lens; induction offs as [|o offs IH]; intros [|l lens] b t off len Ho Hl Ht;
    destruct b; simpl in *; try discriminate.
  - inversion Ho; inversion Hl; subst.
    unfold expand. simpl. rewrite nth_error_app1 by (rewrite seq_length; lia).
    rewrite (nth_error_nth' _ 0) by (rewrite seq_length; lia). now rewrite seq_nth by lia.
  - unfold expand. simpl. rewrite nth_error_app2 by (rewrite seq_length; lia).
    rewrite seq_length. replace (l + list_sum (firstn b lens) + t - l) with (list_sum (firstn b lens) + t) by lia.
    eapply IH; eauto.
Qed.

Lemma expand_split (offs lens : list nat) : forall pos g,
  length offs = length lens ->
  nth_error (expand offs lens) pos = Some g ->
  exists b t off len, nth_error offs b = Some off /\ nth_error lens b = Some len /\ t < len /\
    pos = list_sum (firstn b lens) + t /\ g = off + t.
Proof.
  revert lens; induction offs as [|o offs IH]; intros [|l lens] pos g Hlen H; simpl in *; try discriminate.
  - destruct pos; discriminate.
  - unfold expand in H. simpl in H. destruct (Nat.lt_ge_cases pos l) as [Hp|Hp].
    + rewrite nth_error_app1 in H by (rewrite seq_length; lia).
      rewrite (nth_error_nth' _ 0) in H by (rewrite seq_length; lia). rewrite seq_nth in H by lia.
      inversion H; subst. exists 0, pos, o, l. simpl. repeat split; auto.
    + rewrite nth_error_app2 in H by (rewrite seq_length; lia). rewrite seq_length in H.
      destruct (IH lens (pos - l) g ltac:(lia) H) as (b & t & off & len & ? & ? & ? & ? & ?).
      exists (S b), t, off, len. simpl. repeat split; auto. lia.
Qed.

Lemma bc_ctor_inv N mb p src i d : 0 < mb -> src < p -> i < p ->
  bc_ctor N mb p src i = Ok d ->
  d_m d = length (owned N mb p src i) /\
  d_blocks d = length (owned_blocks N mb p src i) /\
  d_offs d = map (fun b => b * mb) (owned_blocks N mb p src i) /\
  d_lens d = map (blen N mb) (owned_blocks N mb p src i) /\
  d_offs_l d = psums (d_lens d).
Proof.
  intros Hmb Hs Hi H.
  destruct (list_eq_dec Nat.eq_dec (owned_blocks N mb p src i) []) as [E|E].
  - rewrite bc_ctor_ub in H by auto. discriminate.
  - rewrite bc_ctor_ok in H by auto. inversion H; subst; simpl. repeat split; auto.
Qed.

Lemma bc_tables N mb p src i d : 0 < mb -> src < p -> i < p ->
  bc_ctor N mb p src i = Ok d ->
  expand (d_offs d) (d_lens d) = owned N mb p src i /\
  d_m d = length (owned N mb p src i) /\
  length (d_offs d) = d_blocks d /\ length (d_lens d) = d_blocks d /\ length (d_offs_l d) = d_blocks d /\
  (forall b t off len ol, nth_error (d_offs d) b = Some off -> nth_error (d_lens d) b = Some len ->
     nth_error (d_offs_l d) b = Some ol -> t < len ->
     nth_error (owned N mb p src i) (ol + t) = Some (off + t)) /\
  (forall pos, pos < d_m d -> exists b t off len ol,
     nth_error (d_offs d) b = Some off /\ nth_error (d_lens d) b = Some len /\
     nth_error (d_offs_l d) b = Some ol /\ t < len /\ pos = ol + t).
Proof.
  intros Hmb Hs Hi H. destruct (bc_ctor_inv _ _ _ _ _ _ Hmb Hs Hi H) as (E1 & E2 & E3 & E4 & E5).
  assert (HX : expand (d_offs d) (d_lens d) = owned N mb p src i).
  { rewrite E3, E4. apply expand_owned; lia. }
  assert (HL : length (d_offs d) = length (d_lens d)) by (rewrite E3, E4, !map_length; auto).
  assert (HP : forall b ol, nth_error (d_offs_l d) b = Some ol -> ol = list_sum (firstn b (d_lens d))).
  { intros b ol Hb. rewrite E5 in Hb.
    assert (b < length (d_lens d)).
    { apply nth_error_Some_bound_index in Hb || (assert (nth_error (psums (d_lens d)) b <> None) as Hn by congruence;
        apply nth_error_Some in Hn; unfold psums in Hn; now rewrite map_length, seq_length in Hn). }
    rewrite psums_nth in Hb by auto. congruence. }
  split; [exact HX|]. split; [exact E1|].
  split; [rewrite E3, map_length; auto|]. split; [rewrite E4, map_length; auto|].
  split; [rewrite E5; unfold psums; rewrite map_length, seq_length, E4, map_length; auto|].
  split.
  - intros b t off len ol Ho Hl Hol Ht. rewrite (HP _ _ Hol), <- HX. eapply flat_map_seq_nth; eauto.
  - intros pos Hpos. rewrite E1, <- HX in Hpos.
    destruct (nth_error (expand (d_offs d) (d_lens d)) pos) as [g|] eqn:Eg; [|apply nth_error_None in Eg; lia].
    destruct (expand_split _ _ _ _ HL Eg) as (b & t & off & len & Ho & Hl & Ht & Hp & _).
    exists b, t, off, len, (list_sum (firstn b (d_lens d))).
    repeat split; auto. rewrite E5. apply psums_nth. apply nth_error_Some. congruence.
Qed.

Lemma owner_unique N mb p src g : 0 < p -> g < N ->
  exists i, i < p /\ In g (owned N mb p src i) /\ forall j, In g (owned N mb p src j) -> j = i.
Proof.
  intros. exists (owner mb p src g). split; [apply owner_lt; lia|]. split; [apply in_owned; auto|].
  intros j Hj. apply in_owned in Hj. symmetry. tauto.
Qed.

Lemma bc_ctor_safe_iff N mb p src i : 0 < mb -> src < p -> i < p ->
  (bc_ctor N mb p src i = UB <-> nblocks N mb <= mydist i src p) /\
  ((exists d, bc_ctor N mb p src i = Ok d) <-> mydist i src p < nblocks N mb).
Proof.
  intros Hmb Hs Hi. rewrite <- (owned_blocks_nonempty N mb p src i) by auto.
  destruct (owned_blocks N mb p src i) eqn:E.
  - rewrite bc_ctor_ub by auto. split; split; auto; try congruence.
    + intros _. destruct (Nat.lt_ge_cases (mydist i src p) (nblocks N mb)) as [C|C]; auto.
      apply (owned_blocks_nonempty N mb p src i) in C; auto. congruence.
    + intros [d Hd]; discriminate.
  - assert (Hne : owned_blocks N mb p src i <> []) by congruence.
    rewrite bc_ctor_ok by auto. apply owned_blocks_nonempty in Hne; auto.
    split; split; intros; try discriminate; try lia; eauto.
Qed.

Lemma mydist_surj src p d : src < p -> d < p -> exists i, i < p /\ mydist i src p = d.
Proof.
  intros. exists ((d + src) mod p). split; [apply Nat.mod_upper_bound; lia|].
  symmetry. apply mydist_iff; auto. apply Nat.mod_upper_bound; lia.
Qed.

Lemma bc_all_safe_iff N mb p src : 0 < mb -> src < p ->
  ((forall i, i < p -> exists d, bc_ctor N mb p src i = Ok d) <-> p <= nblocks N mb).
Proof.
  intros Hmb Hs. split.
  - intros H. destruct (mydist_surj src p (p - 1)) as (i & Hi & Hd); try lia.
    destruct (bc_ctor_safe_iff N mb p src i) as [_ [F _]]; auto. specialize (F (H i Hi)). lia.
  - intros H i Hi. apply bc_ctor_safe_iff; auto.
    pose proof (mydist_lt i src p). lia.
Qed.

(** ** block distributions *)
Lemma sub64_ge a b : b <= a -> (Z.of_nat a < w64)%Z -> sub64 a b = a - b.
Proof.
  intros. unfold sub64. rewrite Z.mod_small; [|unfold w64 in *; lia].
  rewrite <- Nat2Z.inj_sub by lia. apply Nat2Z.id.
Qed.
Lemma sub64_lt a b : a < b -> (Z.of_nat b < w64)%Z ->
  Z.of_nat (sub64 a b) = (w64 - (Z.of_nat b - Z.of_nat a))%Z.
Proof.
  intros. unfold sub64.
  assert (E : ((Z.of_nat a - Z.of_nat b) mod w64 = w64 - (Z.of_nat b - Z.of_nat a))%Z).
  { symmetry. apply Z.mod_unique with (-1)%Z; unfold w64 in *; lia. }
  rewrite E, Z2Nat.id; unfold w64 in *; lia.
Qed.

Lemma blk_partition_iff N len d : 0 < d -> (Z.of_nat N < w64)%Z -> (Z.of_nat ((d - 1) * len) < w64)%Z ->
  (partitions N d (blk_off len) (blk_size N len d) <-> (d - 1) * len <= N).
Proof.
  intros Hd HN HL. split.
  - intros [_ H]. destruct (Nat.le_gt_cases ((d - 1) * len) N) as [|C]; auto.
    exfalso. specialize (H (d - 1) ((d - 1) * len)).
    assert ((d - 1) * len < N); [|lia]. apply H; [lia|].
    unfold blk_off, blk_size. rewrite Nat.ltb_irrefl.
    pose proof (sub64_lt N ((d - 1) * len) C HL). unfold w64 in *. lia.
  - intros H. split.
    + intros g Hg. 
      assert (Hlast : blk_size N len d (d - 1) = N - (d - 1) * len).
      { unfold blk_size. rewrite Nat.ltb_irrefl. now apply sub64_ge. }
      destruct (Nat.le_gt_cases ((d - 1) * len) g) as [C|C].
      * exists (d - 1). split; [lia|]. unfold blk_off. rewrite Hlast. split; [lia|].
        intros j Hj Hr. destruct (Nat.eq_dec j (d - 1)); auto.
        unfold blk_size in Hr. destruct (j <? d - 1) eqn:E; [|apply Nat.ltb_ge in E; lia].
        apply Nat.ltb_lt in E. nia.
      * assert (Hlen : 0 < len) by (destruct len; lia).
        pose proof (Nat.div_mod g len ltac:(lia)). pose proof (Nat.mod_upper_bound g len ltac:(lia)).
        exists (g / len). assert (g / len < d - 1) by nia. split; [lia|].
        assert (E : (g / len <? d - 1) = true) by (apply Nat.ltb_lt; lia).
        unfold blk_off, blk_size at 1. rewrite E. split; [lia|].
        intros j Hj Hr. unfold blk_size in Hr. destruct (j <? d - 1) eqn:E'.
        -- nia.
        -- apply Nat.ltb_ge in E'. assert (j = d - 1) by lia. subst j. lia.
    + intros i g Hi Hr. unfold blk_off, blk_size in Hr.
      destruct (i <? d - 1) eqn:E.
      * apply Nat.ltb_lt in E. nia.
      * apply Nat.ltb_ge in E. assert (i = d - 1) by lia. subst i.
        rewrite sub64_ge in Hr by auto. lia.
Qed.

Lemma blk_last_wraps N len d : 0 < d -> (Z.of_nat ((d - 1) * len) < w64)%Z -> N < (d - 1) * len ->
  Z.of_nat (blk_size N len d (d - 1)) = (2 ^ 64 - (Z.of_nat ((d - 1) * len) - Z.of_nat N))%Z.
Proof. intros. unfold blk_size. rewrite Nat.ltb_irrefl. now apply sub64_lt. Qed.

(** a simple sufficient condition: at least (d-1)^2 rows *)
(** the block length is the ceiling of N / d *)
Lemma auto_len_ceil N d : 0 < d -> auto_len N d = (N + d - 1) / d.
Proof.
  intros Hd. unfold auto_len. pose proof (Nat.div_mod N d ltac:(lia)) as E. pose proof (Nat.mod_upper_bound N d ltac:(lia)) as B.
  destruct (N mod d =? 0) eqn:Em.
  - apply Nat.eqb_eq in Em. apply (Nat.div_unique _ _ _ (d - 1)); lia.
  - apply Nat.eqb_neq in Em. replace (Nat.min N (N / d + 1)) with (N / d + 1).
    + apply (Nat.div_unique _ _ _ (N mod d - 1)); lia.
    + symmetry. apply Nat.min_r. assert (Hq : N / d <= N) by (apply Nat.div_le_upper_bound; nia).
      destruct (Nat.eq_dec (N / d) N) as [Q|Q]; [|lia]. exfalso. apply Em. clear Em.
      destruct (Nat.eq_dec N 0) as [->|HN]; [now apply Nat.mod_0_l; lia|].
      assert (d = 1) as -> by nia. apply Nat.mod_1_r.
Qed.

Lemma auto_len_enough N d : 0 < d -> (d - 1) * (d - 1) <= N -> (d - 1) * auto_len N d <= N.
Proof.
  intros Hd H. unfold auto_len.
  pose proof (Nat.div_mod N d ltac:(lia)). pose proof (Nat.mod_upper_bound N d ltac:(lia)).
  destruct (N mod d =? 0) eqn:E; [nia|]. apply Nat.eqb_neq in E.
  assert (N / d + 1 <= N / d + 1) by lia.
  transitivity ((d - 1) * (N / d + 1)); [apply Nat.mul_le_mono_l; lia|].
  set (q := N / d) in *. set (r := N mod d) in *. clearbody q r. subst N.
  destruct d as [|d]; [lia|]. replace (S d - 1) with d in * by lia.
  assert (d <= q + r); [|nia].
  destruct (Nat.le_gt_cases d (q + 1)); [lia|].
  assert (exists x, d = q + 2 + x) as [x ->] by (exists (d - q - 2); lia).
  nia.
Qed.

Lemma blk_mb_eq N len d coord : 1 < d -> coord < d -> (Z.of_nat N < w64)%Z -> (d - 1) * len <= N ->
  blk_mb N len d coord = len.
Proof.
  intros Hd Hc HN H. unfold blk_mb, blk_size.
  destruct (d =? 1) eqn:E1; [apply Nat.eqb_eq in E1; lia|].
  destruct (coord =? d - 1) eqn:E2; simpl.
  - apply Nat.eqb_eq in E2. subst coord. rewrite Nat.ltb_irrefl.
    rewrite (sub64_ge N ((d - 1) * len)) by auto. rewrite sub64_ge; [|apply Nat.le_sub_l|exact HN].
    assert (EE : forall X, X <= N -> N - (N - X) = X) by (intros; lia). rewrite EE by exact H. rewrite Nat.mul_comm.
    apply Nat.div_mul. lia.
  - apply Nat.eqb_neq in E2. destruct (coord <? d - 1) eqn:E; auto. apply Nat.ltb_ge in E. lia.
Qed.

Lemma blk_owner_rule_iff N len d : 1 < d -> 0 < len -> (Z.of_nat N < w64)%Z -> (d - 1) * len <= N ->
  ((forall g i, g < N -> i < d ->
      (blk_off len i <= g < blk_off len i + blk_size N len d i <-> owner (blk_mb N len d i) d 0 g = i))
   <-> N <= d * len).
Proof.
  intros Hd Hl HN H. split.
  - intros F. destruct (Nat.le_gt_cases N (d * len)) as [|C]; auto. exfalso.
    specialize (F (d * len) (d - 1) C ltac:(lia)).
    rewrite blk_mb_eq in F by (auto; lia).
    unfold owner in F. rewrite Nat.div_mul, Nat.add_0_r, Nat.mod_same in F by lia.
    assert (0 = d - 1); [|lia]. apply F. unfold blk_off, blk_size. rewrite Nat.ltb_irrefl.
    rewrite sub64_ge by auto. nia.
  - intros HB g i Hg Hi. rewrite blk_mb_eq by (auto; lia). unfold owner, blk_off, blk_size.
    rewrite Nat.add_0_r.
    pose proof (Nat.div_mod g len ltac:(lia)). pose proof (Nat.mod_upper_bound g len ltac:(lia)).
    assert (g / len < d) by nia. rewrite Nat.mod_small by auto.
    destruct (i <? d - 1) eqn:E.
    + split; intros; nia.
    + apply Nat.ltb_ge in E. assert (i = d - 1) by lia. subst i. rewrite sub64_ge by auto.
      split; intros; nia.
Qed.

(** the tables replicated on every rank agree with what the ranks themselves store *)
Lemma blk_send_lens_nth N len d i : i < d -> nth_error (blk_send_lens N len d) i = Some (blk_size N len d i).
Proof.
  intros Hi. unfold blk_send_lens, blk_size. destruct (i <? d - 1) eqn:E.
  - apply Nat.ltb_lt in E. rewrite upd_other by lia. now rewrite nth_error_repeat by lia.
  - apply Nat.ltb_ge in E. assert (i = d - 1) by lia. subst i. apply upd_same. rewrite repeat_length. lia.
Qed.
Lemma blk_displs_nth len d i : i < d -> nth_error (blk_displs len d) i = Some (blk_off len i).
Proof.
  intros Hi. unfold blk_displs, blk_off. destruct (Nat.eq_dec i (d - 1)) as [->|E].
  - apply upd_same. rewrite map_length, seq_length. lia.
  - rewrite upd_other by lia. rewrite nth_error_map, (nth_error_nth' _ 0) by (rewrite seq_length; lia).
    rewrite seq_nth by lia. reflexivity.
Qed.

Lemma bc_send_lens_nth N mb p src i : 0 < mb -> src < p -> i < p ->
  nth_error (bc_send_lens N mb p src) i = Some (length (owned N mb p src i)).
Proof.
  intros. unfold bc_send_lens. rewrite nth_error_map, (nth_error_nth' _ 0) by (rewrite seq_length; lia).
  rewrite seq_nth by lia. simpl. f_equal. now apply numroc_counts.
Qed.
Lemma bc_blocks_of_spec N mb p src i : 0 < mb -> src < p -> i < p ->
  exists st, bc_blocks_of N mb p src i = Ok st /\
    expand (t_offs st) (t_lens st) = owned N mb p src i.
Proof.
  intros. eexists. split; [unfold bc_blocks_of; cbv zeta; apply offs_loop_run; auto|].
  simpl. apply expand_owned; lia.
Qed.

Lemma auto_refuted_witness :
  exists N d, 0 < d /\ d < N /\ ~ partitions N d (blk_off (auto_len N d)) (blk_size N (auto_len N d) d).
Proof.
  exists 5, 4. split; [lia|]. split; [lia|]. intros H.
  apply blk_partition_iff in H; [|lia|reflexivity|reflexivity].
  vm_compute in H. lia.
Qed.

Lemma auto_partition_iff N d : 0 < d -> (Z.of_nat N < 2 ^ 64)%Z -> (Z.of_nat ((d - 1) * ((N + d - 1) / d)) < 2 ^ 64)%Z ->
  (partitions N d (blk_off (auto_len N d)) (blk_size N (auto_len N d) d) <-> (d - 1) * ((N + d - 1) / d) <= N).
Proof. intros Hd. rewrite (auto_len_ceil N d Hd). exact (blk_partition_iff N ((N + d - 1) / d) d Hd). Qed.
