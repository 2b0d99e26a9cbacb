(** Gathering and redistribution for the concrete layouts; witnesses. *)
From Coq Require Import List Arith Bool ZArith Lia.
Require Import Verif.Base Verif.DistModel Verif.DistSpec Verif.DistProofs Verif.DistProofs2 Verif.FlatModel Verif.FlatSpec.
Require Import Verif.FlatProofs Verif.FlatProofs2 Verif.RedistModel Verif.RedistSpec Verif.RedistProofs Verif.RedistProofs2 Verif.GatherProofs.
Import ListNotations.

Lemma nth_error_ext {A} (l : list A) : forall l', (forall k, nth_error l k = nth_error l' k) -> l = l'.
Proof.
  induction l as [|x l IH]; intros [|y l'] H; auto; try (specialize (H 0); discriminate).
  pose proof (H 0) as H0. inversion H0. f_equal. apply IH. intros k. apply (H (S k)).
Qed.
Lemma filter_none {A} (f : A -> bool) l : (forall x, In x l -> f x = false) -> filter f l = [].
Proof. induction l; simpl; intros H; auto. rewrite H by auto. auto. Qed.
Lemma filter_all {A} (f : A -> bool) l : (forall x, In x l -> f x = true) -> filter f l = l.
Proof. induction l; simpl; intros H; auto. rewrite H, IHl by auto. auto. Qed.
(** the block layout is the block-cyclic one with a single round *)
Lemma blk_owned N len d i : 0 < len -> i < d -> (Z.of_nat N < w64)%Z -> (d - 1) * len <= N -> N <= d * len ->
  owned N len d 0 i = seq (blk_off len i) (blk_size N len d i).
Proof.
  intros Hl Hi HW H1 H2. unfold owned, owner, blk_off, blk_size.
  set (sz := if i <? d - 1 then len else sub64 N ((d - 1) * len)).
  assert (Hsz : i * len + sz <= N /\ sz <= len /\ (i < d - 1 -> sz = len) /\ (i = d - 1 -> i * len + sz = N)).
  { unfold sz. destruct (i <? d - 1) eqn:E; [apply Nat.ltb_lt in E|apply Nat.ltb_ge in E; rewrite sub64_ge by auto]; repeat split; try nia. }
  destruct Hsz as (B1 & B2 & B3 & B4).
  assert (Q : forall x, x < N -> ((x / len + 0) mod d =? i) = (i * len <=? x) && (x <? i * len + len)).
  { intros x Hx. rewrite Nat.add_0_r. assert (x / len < d) by (apply Nat.div_lt_upper_bound; lia). rewrite Nat.mod_small by auto.
    pose proof (Nat.div_mod x len ltac:(lia)). pose proof (Nat.mod_upper_bound x len ltac:(lia)).
    destruct (Nat.eqb_spec (x / len) i) as [e|e]; symmetry.
    - apply andb_true_intro. rewrite Nat.leb_le, Nat.ltb_lt. nia.
    - apply andb_false_iff. rewrite Nat.leb_gt, Nat.ltb_ge. nia. }
  replace N with (i * len + (sz + (N - i * len - sz))) by lia. rewrite !seq_app, !filter_app.
  rewrite (filter_none _ (seq 0 (i * len))), (filter_all _ (seq (0 + i * len) sz)), (filter_none _ (seq (0 + i * len + sz) _)).
  - now rewrite app_nil_r.
  - intros x Hx. apply in_seq in Hx. rewrite Q by lia. apply andb_false_iff. right. apply Nat.ltb_ge.
    assert (i < d - 1 \/ i = d - 1) as [L|L] by lia; [pose proof (B3 L)|pose proof (B4 L)]; lia.
  - intros x Hx. apply in_seq in Hx. rewrite Q by lia. apply andb_true_intro. rewrite Nat.leb_le, Nat.ltb_lt. lia.
  - intros x Hx. apply in_seq in Hx. rewrite Q by lia. apply andb_false_iff. left. apply Nat.leb_gt. lia.
Qed.

Section Cyclic.
Context {T : Type}.
Variables (N mb p src : nat).
Hypotheses (Hmb : 0 < mb) (Hs : src < p) (Hall : p <= nblocks N mb).
Let own := map (owned N mb p src) (seq 0 p).
Lemma own_nth j ow : nth_error own j = Some ow <-> j < p /\ ow = owned N mb p src j.
Proof.
  unfold own. rewrite nth_error_map. destruct (nth_error (seq 0 p) j) as [x|] eqn:E; simpl.
  - apply nth_error_seq in E as [H ->]. split; [intros X; inversion X; auto|intros [_ ->]; auto].
  - apply nth_error_None in E. rewrite seq_length in E. split; [discriminate|lia].
Qed.
Lemma own_total : length (concat own) = N.
Proof.
  rewrite concat_length_sum. unfold own. rewrite map_map. transitivity (list_sum (map (fun i => fst (numroc N mb i src p)) (seq 0 p))); [|now apply numroc_sum]. f_equal. apply map_ext_in.
  intros i Hi. apply in_seq in Hi. symmetry. apply numroc_counts; lia.
Qed.
Lemma own_cover g : g < N -> exists j ow, nth_error own j = Some ow /\ In g ow.
Proof.
  intros Hg. exists (owner mb p src g), (owned N mb p src (owner mb p src g)). split.
  - apply own_nth. split; auto. apply owner_lt. lia.
  - apply in_owned. auto.
Qed.
Lemma own_in j ow g : nth_error own j = Some ow -> In g ow -> g < N.
Proof. intros H Hg. apply own_nth in H as [_ ->]. apply in_owned in Hg. tauto. Qed.

Lemma own_tabs (st : nat -> tabs) : (forall i, i < p -> bc_blocks_of N mb p src i = Ok (st i)) ->
  tabs_of own (map (fun i => t_lens (st i)) (seq 0 p)) (map (fun i => t_offs (st i)) (seq 0 p)).
Proof.
  intros H. unfold tabs_of, own. rewrite !map_length, seq_length. split; [auto|]. split; [auto|].
  intros j ow ls os. rewrite !nth_error_map. destruct (nth_error (seq 0 p) j) as [x|] eqn:E; [|discriminate].
  apply nth_error_seq in E as [Hj ->]. cbn [Nat.add option_map]. intros E1 E2 E3. inversion E1; inversion E2; inversion E3. subst. clear E1 E2 E3.
  pose proof (H j Hj) as HB. unfold bc_blocks_of in HB. cbv zeta in HB. rewrite (offs_loop_run N mb p src j Hmb Hs Hj) in HB. inversion HB. simpl.
  rewrite !map_length. split; [auto|]. split; [apply expand_owned; lia|].
  assert (NE : owned_blocks N mb p src j <> []).
  { apply owned_blocks_nonempty; auto. pose proof (mydist_lt j src p ltac:(lia)). lia. }
  split; [destruct (owned_blocks N mb p src j); [congruence|simpl; lia]|].
  apply Forall_forall. intros l Hl. apply in_map_iff in Hl as (b & <- & Hb). unfold owned_blocks in Hb. apply filter_In in Hb as [Hb _].
  apply in_seq in Hb. unfold blen. pose proof (nblocks_le N mb Hmb). nia.
Qed.

Lemma send_lens_own : bc_send_lens N mb p src = map (@length nat) own.
Proof. unfold bc_send_lens, own. rewrite map_map. apply map_ext_in. intros i Hi. apply in_seq in Hi. apply numroc_counts; lia. Qed.

Lemma gather_cyclic block (st : nat -> tabs) V (S : nat -> list T) (buf target : list T) :
  (forall i, i < p -> bc_blocks_of N mb p src i = Ok (st i)) ->
  (forall i, i < p -> holds (owned N mb p src i) 0 block (length (owned N mb p src i)) V (S i)) ->
  N * block <= length buf -> N * block <= length target ->
  exists t', collect_cyclic N block (map (fun i => t_lens (st i)) (seq 0 p)) (map (fun i => t_offs (st i)) (seq 0 p)) (bc_send_lens N mb p src) S buf target = Ok t' /\
    (length t' = length target /\ holds (seq 0 N) 0 block N V t' /\ (forall k, block <= k / N -> nth_error t' k = nth_error target k)).
Proof.
  intros H1 H2 H3 H4. rewrite send_lens_own. apply (collect_cyclic_ok N block own); auto.
  - now apply own_tabs. - exact own_total. - intros i ow Hi. apply own_nth in Hi as [Hi ->]. auto.
  - exact own_cover. - exact own_in.
Qed.

Lemma holds_eq block V (l l' : list T) : 0 < N -> length l = N * block -> length l' = N * block -> holds (seq 0 N) 0 block N V l -> holds (seq 0 N) 0 block N V l' -> l = l'.
Proof.
  intros HN L1 L2 H1 H2. apply nth_error_ext. intros k. destruct (Nat.lt_ge_cases k (N * block)) as [Hk|Hk].
  - pose proof (pos_split k N HN) as E. pose proof (Nat.mod_upper_bound k N ltac:(lia)).
    assert (k / N < block) by (apply Nat.div_lt_upper_bound; lia).
    rewrite E, (H1 (k mod N) (k mod N) (k / N)), (H2 (k mod N) (k mod N) (k / N)); auto; try lia; apply nth_error_seq; lia.
  - rewrite (proj2 (nth_error_None l k)), (proj2 (nth_error_None l' k)) by lia. reflexivity.
Qed.

Lemma gather_scatter_cyclic block (st : nat -> tabs) (R : nat -> dim) V (Vl : list T) (C : nat -> list T) (buf target : list T) :
  (forall i, i < p -> bc_blocks_of N mb p src i = Ok (st i)) -> (forall i, i < p -> bc_ctor N mb p src i = Ok (R i)) ->
  holds (seq 0 N) 0 block N V Vl -> length Vl = N * block ->
  (forall i, i < p -> length (C i) = length (owned N mb p src i) * block) -> length buf = N * block -> length target = N * block ->
  exists C', (forall i, i < p -> pre_application N (R i) 0 block Vl (C i) = Ok (C' i) /\ length (C' i) = length (C i)) /\
    collect_cyclic N block (map (fun i => t_lens (st i)) (seq 0 p)) (map (fun i => t_offs (st i)) (seq 0 p)) (bc_send_lens N mb p src) C' buf target = Ok Vl.
Proof.
  intros H1 HR HV LV LC LB LT.
  assert (HN : 0 < N). { destruct N; [|lia]. unfold nblocks in Hall. rewrite Nat.div_small in Hall; lia. }
  assert (PC : forall i, i < p -> exists c, pre_application N (R i) 0 block Vl (C i) = Ok c /\ length c = length (C i) /\
    holds (owned N mb p src i) 0 block (length (owned N mb p src i)) V c).
  { intros i Hi. destruct (pre_application_ok N (R i) (owned N mb p src i) 0 block V Vl (C i)) as (c & E & L & H & _); eauto.
    - apply (bc_describes N mb p src i); auto.
    - apply (bc_lens_pos N mb p src i); auto.
    - intros g Hg. apply in_owned in Hg. tauto.
    - apply (own_pos N own _ _ (own_tabs st H1) own_total i). apply own_nth. auto.
    - rewrite LC by auto. lia. }
  set (C' := fun i => match pre_application N (R i) 0 block Vl (C i) with Ok c => c | _ => [] end).
  exists C'. split.
  - intros i Hi. destruct (PC i Hi) as (c & E & L & _). unfold C'. now rewrite E.
  - destruct (gather_cyclic block st V C' buf target) as (t' & E & L & H & _); auto; try lia.
    + intros i Hi. destruct (PC i Hi) as (c & E & _ & H). unfold C'. now rewrite E.
    + rewrite E. f_equal. apply (holds_eq block V); auto; lia.
Qed.
End Cyclic.

(** ** block layout *)
Lemma concat_blocks (f : nat -> nat) n : (forall i, i < n -> f (S i) = f i + (f (S i) - f i)) -> f 0 = 0 ->
  concat (map (fun i => seq (f i) (f (S i) - f i)) (seq 0 n)) = seq 0 (f n).
Proof.
  intros Hf H0. induction n; [simpl; now rewrite H0|]. rewrite seq_S, map_app, concat_app, IHn by auto. simpl. rewrite app_nil_r.
  replace (f (S n)) with (f n + (f (S n) - f n)) at 2 by (symmetry; apply Hf; lia). rewrite seq_app. reflexivity.
Qed.

Section Block.
Context {T : Type}.
Variables (N len d : nat).
Hypotheses (Hd : 0 < d) (Hl : 0 < len) (HW : (Z.of_nat N < w64)%Z) (Hlast : (d - 1) * len < N).
Let own := map (fun i => seq (blk_off len i) (blk_size N len d i)) (seq 0 d).

Lemma blk_own_concat : concat own = seq 0 N.
Proof.
  unfold own. set (f := fun i => if i <? d then i * len else N).
  transitivity (seq 0 (f d)); [|unfold f; now rewrite Nat.ltb_irrefl]. rewrite <- (concat_blocks f d).
  - f_equal. apply map_ext_in. intros i Hi. apply in_seq in Hi. unfold blk_off, blk_size, f. rewrite (proj2 (Nat.ltb_lt i d)) by lia.
    destruct (Nat.ltb_spec i (d - 1)).
    + rewrite (proj2 (Nat.ltb_lt (S i) d)) by lia. f_equal. simpl. lia.
    + rewrite (proj2 (Nat.ltb_ge (S i) d)) by lia. rewrite sub64_ge by (auto; lia). replace i with (d - 1) by lia. reflexivity.
  - intros i Hi. unfold f. destruct (Nat.ltb_spec i d); [|lia]. destruct (Nat.ltb_spec (S i) d); [simpl; lia|]. replace i with (d - 1) by lia. lia.
  - unfold f. now rewrite (proj2 (Nat.ltb_lt 0 d)).
Qed.
Lemma blk_size_pos i : i < d -> 0 < blk_size N len d i.
Proof. intros Hi. unfold blk_size. destruct (i <? d - 1); auto. rewrite sub64_ge by (auto; lia). lia. Qed.
Lemma blk_own_tabs : tabs_of own (map (fun x => [x]) (blk_send_lens N len d)) (map (fun x => [x]) (blk_displs len d)).
Proof.
  assert (L1 : length (blk_send_lens N len d) = d) by (unfold blk_send_lens; now rewrite upd_length, repeat_length).
  assert (L2 : length (blk_displs len d) = d) by (unfold blk_displs; now rewrite upd_length, map_length, seq_length).
  unfold tabs_of, own. rewrite !map_length, seq_length. split; [auto|]. split; [auto|].
  intros j ow ls os. rewrite !nth_error_map. destruct (nth_error (seq 0 d) j) as [x|] eqn:E; [|discriminate].
  apply nth_error_seq in E as [Hj ->]. cbn [Nat.add]. rewrite blk_send_lens_nth, blk_displs_nth by auto. cbn [option_map].
  intros E1 E2 E3. inversion E1; inversion E2; inversion E3. subst. split; [auto|]. split; [unfold expand; simpl; apply app_nil_r|]. split; [simpl; lia|].
  constructor; auto. now apply blk_size_pos.
Qed.
Lemma blk_ms : map (@length nat) own = blk_send_lens N len d.
Proof.
  assert (L1 : length (blk_send_lens N len d) = d) by (unfold blk_send_lens; now rewrite upd_length, repeat_length).
  apply nth_error_ext. intros k. unfold own. rewrite map_map, nth_error_map. destruct (Nat.lt_ge_cases k d) as [H|H].
  - rewrite blk_send_lens_nth by auto. rewrite (proj2 (nth_error_seq 0 d k (0 + k))) by auto. simpl. now rewrite seq_length.
  - rewrite (proj2 (nth_error_None (blk_send_lens N len d) k)) by lia. rewrite (proj2 (nth_error_None (seq 0 d) k)) by (rewrite seq_length; lia). reflexivity.
Qed.
Lemma gather_block block V (S : nat -> list T) (target : list T) :
  (forall i, i < d -> holds (seq (blk_off len i) (blk_size N len d i)) 0 block (blk_size N len d i) V (S i)) ->
  N * block <= length target ->
  exists t', collect_block N block (map (fun x => [x]) (blk_send_lens N len d)) (blk_send_lens N len d) S target = Ok t' /\
    (length t' = length target /\ holds (seq 0 N) 0 block N V t' /\ (forall k, block <= k / N -> nth_error t' k = nth_error target k)).
Proof.
  intros HS HL. unfold collect_block.
  assert (LC : length (concat own) = N) by (rewrite blk_own_concat; apply seq_length).
  assert (HO : forall i ow, nth_error own i = Some ow -> holds ow 0 block (length ow) V (S i)).
  { intros i ow Hi. unfold own in Hi. rewrite nth_error_map in Hi. destruct (nth_error (seq 0 d) i) as [x|] eqn:E; [|discriminate].
    apply nth_error_seq in E as [Hj ->]. inversion Hi. rewrite seq_length. apply HS. auto. }
  pose proof (gather_parts_ok N block own _ _ V S blk_own_tabs LC HO target HL) as X. rewrite blk_ms, blk_own_concat in X. exact X.
Qed.
End Block.

(** ** witnesses *)
(** one column, N = 2, one row per process, two process rows with the first row on process row 1, one process column:
    the schedule asks process row 1 for two rows *)
Lemma runs_source_witness : runs 2 1 2 1 2 1 0 = [mk_run 0 1 2 0 0] /\ redist (runs 2 1 2 1 2 1 0) 0 (fun _ => 1) 2 0 1 (fun s => if s =? 0 then [20%Z] else [10%Z]) [0%Z; 0%Z] = UB.
Proof. vm_compute. auto. Qed.
(** two process rows, first block on process row 1: rows 1 and 2 of the result come from the wrong places *)
Lemma runs_source_wrong : exists N mb p src nb q (V : nat -> nat -> Z) (S : nat -> list Z) D', src < p /\ src <> 0 /\
  (forall s, s < p -> holds (owned N mb p src s) 0 1 (length (owned N mb p src s)) V (S s)) /\
  redist (runs N mb p src nb q 0) 0 (fun s => length (owned N mb p src s)) (length (owned N nb q 0 0)) 0 1 S (repeat 0%Z N) = Ok D' /\
  ~ holds (owned N nb q 0 0) 0 1 (length (owned N nb q 0 0)) V D'.
Proof.
  exists 4, 2, 2, 1, 4, 1, (fun g _ => Z.of_nat (10 + g)), (fun s => if s =? 0 then [12; 13]%Z else [10; 11]%Z), [10; 13; 10; 11]%Z.
  split; [lia|]. split; [lia|]. split; [|split; [reflexivity|]].
  - intros s Hs a g c Ha Hc. assert (c = 0) by lia. subst c. destruct s as [|[|s]]; [| |lia].
    + replace (owned 4 2 2 1 0) with [2; 3] in * by reflexivity. destruct a as [|[|[|a]]]; inversion Ha; reflexivity.
    + replace (owned 4 2 2 1 1) with [0; 1] in * by reflexivity. destruct a as [|[|[|a]]]; inversion Ha; reflexivity.
  - intros H. specialize (H 1 1 0 eq_refl ltac:(lia)). discriminate.
Qed.
