From Coq Require Import List Arith Bool Lia.
Require Import Verif.Base Verif.GridModel.
Import ListNotations.

Lemma filter_all {A} (f : A -> bool) l : (forall x, In x l -> f x = true) -> filter f l = l.
Proof.
  induction l; simpl; intros H; auto. rewrite (H a) by auto. f_equal. apply IHl. auto.
Qed.
Lemma filter_none {A} (f : A -> bool) l : (forall x, In x l -> f x = false) -> filter f l = [].
Proof.
  induction l; simpl; intros H; auto. rewrite (H a) by auto. apply IHl. auto.
Qed.

Lemma map_seq_shift a n : map (fun k => a + k) (seq 0 n) = seq a n.
Proof.
  revert a; induction n; intros; auto. simpl. rewrite Nat.add_0_r. f_equal.
  rewrite <- seq_shift, map_map. rewrite <- (IHn (S a)). apply map_ext. intros; lia.
Qed.

Lemma filter_div p q a : 0 < q -> a < p ->
  filter (fun s => s / q =? a) (seq 0 (p * q)) = map (fun k => a * q + k) (seq 0 q).
Proof.
  intros Hq. induction p; intros Ha; [lia|].
  replace (S p * q) with (p * q + q) by lia. rewrite seq_app, filter_app. simpl Nat.add.
  assert (Hb : forall s, In s (seq (p * q) q) -> s / q = p).
  { intros s Hs. apply in_seq in Hs. symmetry. apply Nat.div_unique with (s - p * q); lia. }
  destruct (Nat.eq_dec a p) as [->|].
  - rewrite filter_none, filter_all; simpl.
    + now rewrite map_seq_shift.
    + intros s Hs. rewrite Hb by auto. apply Nat.eqb_refl.
    + intros s Hs. apply in_seq in Hs. apply Nat.eqb_neq. intros E.
      assert (s / q < p) by (apply Nat.div_lt_upper_bound; lia). lia.
  - rewrite IHp by lia. rewrite filter_none; [apply app_nil_r|].
    intros s Hs. rewrite Hb by auto. apply Nat.eqb_neq. auto.
Qed.

Lemma filter_eqb_seq b n a : b < n -> filter (fun s => s =? a + b) (seq a n) = [a + b].
Proof.
  revert a b; induction n; intros a b Hb; [lia|]. simpl.
  destruct b.
  - rewrite Nat.add_0_r, Nat.eqb_refl. f_equal. apply filter_none.
    intros x Hx. apply in_seq in Hx. apply Nat.eqb_neq. lia.
  - destruct (a =? a + S b) eqn:E; [apply Nat.eqb_eq in E; lia|].
    replace (a + S b) with (S a + b) by lia. apply IHn. lia.
Qed.

Lemma filter_mod p q b : b < q ->
  filter (fun s => s mod q =? b) (seq 0 (p * q)) = map (fun k => k * q + b) (seq 0 p).
Proof.
  intros Hb. induction p; auto.
  replace (S p * q) with (p * q + q) by lia. rewrite seq_app, filter_app, IHp. simpl Nat.add.
  rewrite seq_S, map_app. f_equal. simpl.
  rewrite <- (filter_eqb_seq b q (p * q)) by auto.
  apply filter_ext_in. intros s Hs. apply in_seq in Hs.
  assert (E : s mod q = s - p * q) by (symmetry; apply Nat.mod_unique with p; lia).
  rewrite E. destruct (s - p * q =? b) eqn:E1, (s =? p * q + b) eqn:E2; auto;
    rewrite ?Nat.eqb_eq, ?Nat.eqb_neq in *; lia.
Qed.

Definition grid_rank (col_major : bool) (p q i j : nat) : nat :=
  if col_major then j * p + i else i * q + j.

Lemma grid_coord_rank cm p q i j : i < p -> j < q -> grid_coord cm p q (grid_rank cm p q i j) = (i, j).
Proof.
  intros Hi Hj. unfold grid_coord, grid_rank, cart_coords. destruct cm; simpl; f_equal; symmetry;
    (apply Nat.mod_unique with j; lia) || (apply Nat.div_unique with i; lia) ||
    (apply Nat.mod_unique with i; lia) || (apply Nat.div_unique with j; lia).
Qed.

Lemma grid_rank_coord cm p q r : r < p * q ->
  let c := grid_coord cm p q r in fst c < p /\ snd c < q /\ grid_rank cm p q (fst c) (snd c) = r.
Proof.
  intros Hr. unfold grid_coord, grid_rank, cart_coords. destruct cm; simpl.
  - assert (p <> 0) by (intros ->; simpl in Hr; lia).
    split; [apply Nat.mod_upper_bound; auto|]. split; [apply Nat.div_lt_upper_bound; auto|].
    rewrite (Nat.div_mod r p) at 3 by auto. lia.
  - assert (q <> 0) by (intros ->; lia).
    split; [apply Nat.div_lt_upper_bound; auto; lia|]. split; [apply Nat.mod_upper_bound; auto|].
    rewrite (Nat.div_mod r q) at 3 by auto. lia.
Qed.

Lemma grid_rank_lt cm p q i j : i < p -> j < q -> grid_rank cm p q i j < p * q.
Proof. intros. unfold grid_rank. destruct cm; nia. Qed.

Lemma row_comm_spec cm p q r : r < p * q ->
  row_comm cm p q r = map (fun j => grid_rank cm p q (fst (grid_coord cm p q r)) j) (seq 0 q).
Proof.
  intros Hr. destruct (grid_rank_coord cm p q r Hr) as (H1 & H2 & _).
  unfold row_comm, cart_sub, grid_coord, grid_rank, cart_coords in *. destruct cm; simpl in *.
  - rewrite <- filter_mod by auto. apply filter_ext. intros s. reflexivity.
  - rewrite <- filter_div with (p := p) by lia. apply filter_ext. intros s. apply andb_true_r.
Qed.

Lemma col_comm_spec cm p q r : r < p * q ->
  col_comm cm p q r = map (fun i => grid_rank cm p q i (snd (grid_coord cm p q r))) (seq 0 p).
Proof.
  intros Hr. destruct (grid_rank_coord cm p q r Hr) as (H1 & H2 & _).
  unfold col_comm, cart_sub, grid_coord, grid_rank, cart_coords in *. destruct cm; simpl in *.
  - rewrite <- filter_div with (p := q) by lia. apply filter_ext. intros s. apply andb_true_r.
  - rewrite <- filter_mod by auto. apply filter_ext. intros s. reflexivity.
Qed.

Lemma user_map_spec cm p q r : r < p * q -> user_map cm p q r = col_comm cm p q r.
Proof.
  intros Hr. rewrite col_comm_spec by auto. unfold user_map, grid_rank, grid_coord, cart_coords.
  destruct cm; simpl; apply map_ext; intros; lia.
Qed.

(** statements used by the property file *)
Lemma grid_bijection cm p q :
  (forall r, r < p * q -> let c := grid_coord cm p q r in fst c < p /\ snd c < q) /\
  (forall i j, i < p -> j < q -> exists r, r < p * q /\ grid_coord cm p q r = (i, j)) /\
  (forall r s, r < p * q -> s < p * q -> grid_coord cm p q r = grid_coord cm p q s -> r = s).
Proof.
  split; [|split].
  - intros r Hr. destruct (grid_rank_coord cm p q r Hr) as (? & ? & _). auto.
  - intros i j Hi Hj. exists (grid_rank cm p q i j). split; [now apply grid_rank_lt|now apply grid_coord_rank].
  - intros r s Hr Hs E. destruct (grid_rank_coord cm p q r Hr) as (_ & _ & <-).
    destruct (grid_rank_coord cm p q s Hs) as (_ & _ & <-). now rewrite E.
Qed.

Lemma nth_error_map_seq {A} (f : nat -> A) n k : k < n -> nth_error (map f (seq 0 n)) k = Some (f k).
Proof.
  intros. rewrite nth_error_map, (nth_error_nth' _ 0) by (rewrite seq_length; lia).
  rewrite seq_nth by lia. reflexivity.
Qed.

Lemma comm_ranks cm p q r : r < p * q ->
  let c := grid_coord cm p q r in
  (length (row_comm cm p q r) = q /\
   (forall k s, nth_error (row_comm cm p q r) k = Some s -> s < p * q /\ grid_coord cm p q s = (fst c, k)) /\
   nth_error (row_comm cm p q r) (snd c) = Some r) /\
  (length (col_comm cm p q r) = p /\
   (forall k s, nth_error (col_comm cm p q r) k = Some s -> s < p * q /\ grid_coord cm p q s = (k, snd c)) /\
   nth_error (col_comm cm p q r) (fst c) = Some r).
Proof.
  intros Hr c. destruct (grid_rank_coord cm p q r Hr) as (H1 & H2 & H3). fold c in H1, H2, H3.
  rewrite row_comm_spec, col_comm_spec by auto. fold c.
  assert (HL : forall (f : nat -> nat) n k s, nth_error (map f (seq 0 n)) k = Some s -> k < n /\ s = f k).
  { intros f n k s H. assert (k < n).
    { assert (nth_error (map f (seq 0 n)) k <> None) as Hn by congruence.
      apply nth_error_Some in Hn. now rewrite map_length, seq_length in Hn. }
    rewrite nth_error_map_seq in H by auto. split; congruence. }
  split; (split; [now rewrite map_length, seq_length|]); split.
  - intros k s H. apply HL in H as [Hk ->]. split; [now apply grid_rank_lt|now apply grid_coord_rank].
  - rewrite nth_error_map_seq by auto. now rewrite H3.
  - intros k s H. apply HL in H as [Hk ->]. split; [now apply grid_rank_lt|now apply grid_coord_rank].
  - rewrite nth_error_map_seq by auto. now rewrite H3.
Qed.

Lemma nccl_ids cm p q r s : r < p * q -> s < p * q ->
  let c := grid_coord cm p q r in let c' := grid_coord cm p q s in
  nccl_row_id c < p * q /\ nccl_col_id p c < p * q /\
  (nccl_row_id c = nccl_row_id c' <-> In s (row_comm cm p q r)) /\
  (nccl_col_id p c = nccl_col_id p c' <-> In s (col_comm cm p q r)).
Proof.
  intros Hr Hs c c'. destruct (grid_rank_coord cm p q r Hr) as (H1 & H2 & H3). fold c in H1, H2, H3.
  destruct (grid_rank_coord cm p q s Hs) as (H1' & H2' & H3'). fold c' in H1', H2', H3'.
  rewrite row_comm_spec, col_comm_spec by auto. fold c. unfold nccl_row_id, nccl_col_id.
  split; [nia|]. split; [nia|].
  split; split.
  - intros E. apply in_map_iff. exists (snd c'). rewrite E. split; auto. apply in_seq; lia.
  - intros H. apply in_map_iff in H as (j & E & Hj). apply in_seq in Hj.
    unfold c'. rewrite <- E, grid_coord_rank by lia. reflexivity.
  - intros E. assert (E' : snd c = snd c') by nia.
    apply in_map_iff. exists (fst c'). rewrite E'. split; auto. apply in_seq; lia.
  - intros H. apply in_map_iff in H as (j & E & Hj). apply in_seq in Hj.
    unfold c'. rewrite <- E, grid_coord_rank by lia. reflexivity.
Qed.
