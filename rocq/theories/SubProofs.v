From Coq Require Import List Arith Bool Lia.
Require Import Verif.Base Verif.GridModel Verif.GridProofs Verif.SubModel.
Import ListNotations.

(** the column of the grid the solver works on, as world ranks *)
Definition wanted_column (cm : bool) (p q : nat) (members : list nat) (r : nat) : list (option nat) :=
  map (nth_error members) (col_comm cm p q r).

Lemma blacs_column_iff cm p q members r : r < p * q ->
  map Some (blacs_column cm p q members r) = wanted_column cm p q members r <->
  forall s, In s (col_comm cm p q r) -> nth_error members s = Some s.
Proof.
  intros Hr. unfold blacs_column, wanted_column. rewrite user_map_spec by auto.
  induction (col_comm cm p q r) as [|a l IH]; cbn; split; intros H; auto.
  - intros s [].
  - injection H as H1 H2. intros s [->|Hs]; auto. now apply IH.
  - f_equal; [symmetry; apply H; now left|]. apply IH. intros s Hs. apply H. now right.
Qed.

Lemma world_ok cm p q r : r < p * q -> let members := seq 0 (p * q) in
  map Some (blacs_column cm p q members r) = wanted_column cm p q members r /\ blacs_grid p q members = members.
Proof.
  intros Hr members. split; [|reflexivity]. apply blacs_column_iff; auto. intros s Hs.
  destruct (comm_ranks cm p q r Hr) as (_ & _ & Hc & _). apply In_nth_error in Hs as (k & Hk).
  apply Hc in Hk as (Hs & _). unfold members.
  rewrite (nth_error_nth' _ 0) by (rewrite seq_length; auto). rewrite seq_nth by auto. reflexivity.
Qed.

(** a communicator without the first processes of the world: nobody is in the grid they build *)
Lemma elsewhere cm p q members r w : length members = p * q -> (forall x, In x members -> p * q <= x) -> r < p * q ->
  nth_error members r = Some w -> ~ In w (blacs_column cm p q members r) /\ ~ In w (blacs_grid p q members).
Proof.
  intros L H Hr Hw. assert (p * q <= w) by (apply H; eapply nth_error_In; eauto). split.
  - unfold blacs_column. rewrite user_map_spec by auto. intros Hin.
    destruct (comm_ranks cm p q r Hr) as (_ & _ & Hc & _). apply In_nth_error in Hin as (k & Hk). apply Hc in Hk as (Hs & _). lia.
  - unfold blacs_grid. intros Hin. apply in_seq in Hin. lia.
Qed.

Lemma prints_once members : NoDup members -> In 0 members ->
  exists r, r < length members /\ prints members r = true /\ forall s, prints members s = true -> s = r.
Proof.
  intros N H. apply In_nth_error in H as (r & Hr). exists r.
  assert (Lr : r < length members) by (apply nth_error_Some; congruence).
  split; auto. split; [unfold prints; now rewrite Hr|].
  intros s Hs. unfold prints in Hs. destruct (nth_error members s) as [[|]|] eqn:E; try discriminate.
  assert (Ls : s < length members) by (apply nth_error_Some; congruence).
  apply (proj1 (NoDup_nth_error members)); auto. congruence.
Qed.
Lemma prints_never members r : ~ In 0 members -> prints members r = false.
Proof.
  intros H. unfold prints. destruct (nth_error members r) as [[|]|] eqn:E; auto. exfalso. apply H. eapply nth_error_In; eauto.
Qed.

(** devices *)
Lemma on_node_sym node members r s : on_node node members r s = on_node node members s r.
Proof. unfold on_node. destruct (nth_error members r), (nth_error members s); auto using Nat.eqb_sym. Qed.
Lemma on_node_trans node members r s t : on_node node members r s = true -> on_node node members r t = on_node node members s t.
Proof.
  unfold on_node. destruct (nth_error members r), (nth_error members s); try discriminate. intros E. apply Nat.eqb_eq in E.
  destruct (nth_error members t); [now rewrite E|reflexivity].
Qed.
Lemma filter_ext_ {A} (f g : A -> bool) l : (forall x, f x = g x) -> filter f l = filter g l.
Proof. intros H. induction l; cbn; auto. rewrite H, IHl. reflexivity. Qed.
Lemma shm_comm_same node members r s : on_node node members r s = true -> shm_comm node members r = shm_comm node members s.
Proof. intros H. apply filter_ext_. intros t. now apply on_node_trans. Qed.

Lemma rank_mono (f : nat -> bool) r s : r < s -> f r = true -> length (filter f (seq 0 r)) < length (filter f (seq 0 s)).
Proof.
  intros H Hr. replace s with (r + (S (s - r - 1))) by lia. rewrite seq_app, filter_app, app_length. cbn. rewrite Hr. cbn. lia.
Qed.
Lemma shm_rank_lt node members r : r < length members -> shm_rank node members r < length (shm_comm node members r).
Proof.
  intros H. apply rank_mono; auto. unfold on_node. destruct (nth_error members r) eqn:E; [apply Nat.eqb_refl|].
  apply nth_error_None in E. lia.
Qed.
Lemma shm_rank_inj node members r s : r < length members -> s < length members -> on_node node members r s = true ->
  shm_rank node members r = shm_rank node members s -> r = s.
Proof.
  intros Hr Hs O E. unfold shm_rank in E. rewrite (filter_ext_ _ _ (seq 0 r) (fun t => on_node_trans node members r s t O)) in E.
  assert (Os : on_node node members s s = true).
  { unfold on_node. destruct (nth_error members s) eqn:X; [apply Nat.eqb_refl|]. apply nth_error_None in X. lia. }
  destruct (lt_eq_lt_dec r s) as [[L|L]|L]; auto.
  - pose proof (rank_mono (on_node node members s) r s L). rewrite on_node_sym in O. specialize (H O). lia.
  - pose proof (rank_mono (on_node node members s) s r L Os). lia.
Qed.

Lemma devices_distinct ndev node members r : r < length members ->
  length (shm_comm node members r) <= ndev ->
  device (set_device ndev node members r) < ndev /\
  forall s, s < length members -> on_node node members r s = true ->
    device (set_device ndev node members s) = device (set_device ndev node members r) -> s = r.
Proof.
  intros Hr L. pose proof (shm_rank_lt node members r Hr) as K.
  assert (D : forall t, t < length members -> on_node node members r t = true ->
    device (set_device ndev node members t) = shm_rank node members t).
  { intros t Ht O. unfold set_device. rewrite <- (shm_comm_same node members r t O).
    destruct (Nat.ltb_spec ndev (length (shm_comm node members r))); [lia|].
    destruct (length (shm_comm node members r) <? ndev); reflexivity. }
  assert (Or : on_node node members r r = true).
  { unfold on_node. destruct (nth_error members r) eqn:X; [apply Nat.eqb_refl|]. apply nth_error_None in X. lia. }
  split; [rewrite (D r) by auto; lia|]. intros s Hs O E. rewrite (D s), (D r) in E by auto.
  symmetry. apply (shm_rank_inj node members); auto.
Qed.

Lemma devices_oversubscribed ndev node members r : r < length members -> ndev < length (shm_comm node members r) ->
  device (set_device ndev node members r) = 0 /\ (r = 0 -> says (set_device ndev node members r) = Some WillTerminate).
Proof.
  intros Hr L. unfold set_device. apply Nat.ltb_lt in L. rewrite L. split; [reflexivity|]. intros ->. reflexivity.
Qed.

(** two solvers on disjoint communicators of one node count their devices from the same one *)
Lemma device_of_first ndev node members : device (set_device ndev node members 0) = 0.
Proof. unfold set_device. destruct (_ <? _); [reflexivity|]. destruct (_ <? _); reflexivity. Qed.
Lemma devices_shared ndev node a b x y : nth_error a 0 = Some x -> nth_error b 0 = Some y -> node x = node y ->
  (forall w, In w a -> ~ In w b) ->
  x <> y /\ device (set_device ndev node a 0) = device (set_device ndev node b 0).
Proof.
  intros Hx Hy _ D. split; [|now rewrite !device_of_first]. intros ->.
  apply (D y); eapply nth_error_In; eauto.
Qed.
