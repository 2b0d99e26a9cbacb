From Coq Require Import List Arith ZArith Lia Bool.
Require Import Verif.CollModel Verif.CollSpec.
Import ListNotations.

Lemma narrow_small z : (0 <= z < 2 ^ 31)%Z -> narrow z = z.
Proof. intros H. unfold narrow. rewrite Z.mod_small by lia. destruct (Z.ltb_spec z (2 ^ 31)); lia. Qed.

Section Proofs.
  Context {R : Type} (o : arith R).
  Implicit Types (bufs : list (list R)).

  Lemma nth_nil i (z : R) : nth i [] z = z. Proof. destruct i; reflexivity. Qed.

  Lemma zip_length f (a b : list R) : length b = length a -> length (zip f a b) = length a.
  Proof. revert b. induction a; destruct b; cbn; intros; try discriminate; [reflexivity|]. f_equal. apply IHa. lia. Qed.
  Lemma zip_nth f (a b : list R) i z : length b = length a -> i < length a -> nth i (zip f a b) z = f (nth i a z) (nth i b z).
  Proof. revert b i. induction a; destruct b, i; cbn; intros; try lia; auto. apply IHa; lia. Qed.

  Lemma fold_zip f l : forall (a : list R), (forall b, In b l -> length b = length a) ->
    length (fold_left (zip f) l a) = length a /\
    forall i z, i < length a -> nth i (fold_left (zip f) l a) z = fold_left f (map (fun b => nth i b z) l) (nth i a z).
  Proof.
    induction l as [|b l IH]; intros a H; cbn; auto.
    assert (E : length b = length a) by (apply H; now left).
    destruct (IH (zip f a b)) as (L & N).
    - intros c Hc. rewrite zip_length by auto. apply H. now right.
    - split; [now rewrite L, zip_length|]. intros i z Hi. rewrite N by (now rewrite zip_length). now rewrite zip_nth.
  Qed.

  Lemma fold_total (z : R) (plus : R -> R -> R) (l : list R) : addition z plus -> forall a, fold_left plus l a = plus a (total z plus l).
  Proof.
    intros (A0 & AA & AC). induction l as [|x l IH]; intros a; cbn; [now rewrite A0|]. rewrite IH. now rewrite AA.
  Qed.

  Lemma nth_skipn_ {A} k (l : list A) i : nth_error (skipn k l) i = nth_error l (k + i).
  Proof. revert l. induction k; intros l; cbn; auto. destruct l; cbn; auto. destruct i; auto. Qed.
  Lemma nth_firstn_ {A} k (l : list A) i : i < k -> nth_error (firstn k l) i = nth_error l i.
  Proof. revert l i. induction k; intros l i H; [lia|]. destruct l, i; cbn; auto. apply IHk. lia. Qed.
  Lemma nth_error_nth_ {A} (l : list A) i (z : A) : i < length l -> nth_error l i = Some (nth i l z).
  Proof. revert i. induction l; destruct i; cbn; intros; try lia; auto. apply IHl. lia. Qed.
  Lemma nth_firstn_d {A} k (l : list A) i z : i < k -> nth i (firstn k l) z = nth i l z.
  Proof. revert l i. induction k; intros l i H; [lia|]. destruct l, i; cbn; auto. apply IHk. lia. Qed.

  Lemma prefix_suffix k (v b : list R) : length v = k -> k <= length b ->
    length (v ++ skipn k b) = length b /\
    (forall i, i < k -> nth_error (v ++ skipn k b) i = nth_error v i) /\
    (forall i, k <= i -> nth_error (v ++ skipn k b) i = nth_error b i).
  Proof.
    intros L H. split; [rewrite app_length, skipn_length; lia|]. split; intros i Hi.
    - apply nth_error_app1. lia.
    - rewrite nth_error_app2 by lia. rewrite nth_skipn_. f_equal. lia.
  Qed.

  Lemma reduce_sum k bufs : addition (zero o) (add o) -> (forall b, In b bufs -> k <= length b) ->
    exists bufs', reduce_first (zip (add o)) k bufs = Done bufs' /\ summed (zero o) (add o) k bufs bufs'.
  Proof.
    intros AD H. unfold reduce_first.
    replace (forallb (fun b => k <=? length b) bufs) with true.
    2: { symmetry. apply forallb_forall. intros b Hb. apply Nat.leb_le. auto. }
    eexists. split; [reflexivity|]. split; [now rewrite map_length|].
    intros r b Hr. set (v := combine (zip (add o)) (map (firstn k) bufs)).
    assert (V : length v = k /\ forall i, i < k -> nth i v (zero o) = total (zero o) (add o) (map (fun c => nth i c (zero o)) bufs)).
    { subst v. destruct bufs as [|a l]; [destruct r; discriminate|]. cbn [map combine].
      assert (La : length (firstn k a) = k) by (rewrite firstn_length; specialize (H a (or_introl eq_refl)); lia).
      destruct (fold_zip (add o) (map (firstn k) l) (firstn k a)) as (L & N).
      - intros c Hc. apply in_map_iff in Hc as (c' & <- & Hc'). rewrite La, firstn_length. specialize (H c' (or_intror Hc')). lia.
      - split; [lia|]. intros i Hi. rewrite N by lia. rewrite map_map, (fold_total (zero o)) by auto. cbn [total].
        rewrite nth_firstn_d by auto. f_equal. f_equal. apply map_ext_in. intros c Hc. now apply nth_firstn_d. }
    destruct V as (LV & NV).
    assert (Lb : k <= length b) by (apply H; eapply nth_error_In; eauto).
    destruct (prefix_suffix k v b LV Lb) as (P1 & P2 & P3).
    exists (v ++ skipn k b). split.
    - rewrite nth_error_map, Hr. reflexivity.
    - split; auto. split; auto. intros i Hi. rewrite P2 by auto. rewrite (nth_error_nth_ v i (zero o)) by lia. now rewrite NV.
  Qed.

  Lemma bcast_ok k root bufs : (Z.to_nat root < length bufs) -> (0 <= root)%Z -> (forall b, In b bufs -> k <= length b) ->
    exists bufs', bcast_first k root bufs = Done bufs' /\ broadcast k (Z.to_nat root) bufs bufs'.
  Proof.
    intros Hr H0 H. unfold bcast_first. destruct (Z.ltb_spec root 0); [lia|].
    destruct (nth_error bufs (Z.to_nat root)) as [s|] eqn:E; [|apply nth_error_None in E; lia].
    replace (forallb (fun b => k <=? length b) bufs) with true.
    2: { symmetry. apply forallb_forall. intros b Hb. apply Nat.leb_le. auto. }
    eexists. split; [reflexivity|]. split; [now rewrite map_length|].
    intros r b s' Hb Hs. assert (s' = s) by congruence. subst s'.
    assert (Ls : k <= length s) by (apply H; eapply nth_error_In; eauto).
    assert (Lb : k <= length b) by (apply H; eapply nth_error_In; eauto).
    destruct (prefix_suffix k (firstn k s) b) as (P1 & P2 & P3); [rewrite firstn_length; lia|auto|].
    exists (firstn k s ++ skipn k b). split; [rewrite nth_error_map, Hb; reflexivity|]. split; auto. split; auto.
    intros i Hi. rewrite P2 by auto. now apply nth_firstn_.
  Qed.

  (** sizes the chosen backend can express *)
  Definition fits (nccl aware : bool) (t : scalar) (dim : Z) : Prop :=
    (0 <= dim /\ (if nccl && aware then parts t * dim else dim) < 2 ^ 31)%Z.

  Lemma parts_pos t : (parts t = 1 \/ parts t = 2)%Z.
  Proof. destruct t; cbn; auto. Qed.
  Lemma types_known t : exists d, datatype_map (mpi_type_of t) = Some d /\ base_is t d = true.
  Proof. destruct t; cbn; eauto. Qed.

  Lemma allreduce_as_reduce nccl aware t dim bufs : fits nccl aware t dim ->
    site_sum o nccl aware t dim bufs = reduce_first (zip (add o)) (Z.to_nat (parts t * dim)) bufs.
  Proof.
    intros (H0 & H). unfold site_sum, AllReduce, chosen.
    assert (P := parts_pos t). destruct (types_known t) as (d & Ed & Bd).
    rewrite narrow_small by (destruct nccl, aware; cbn in H; lia).
    destruct aware; [destruct nccl|]; cbn [andb] in H.
    - assert (is_int (parts t * dim) = true) as -> by (unfold is_int; rewrite andb_true_iff, Z.leb_le, Z.ltb_lt; nia).
      rewrite Ed. cbn [opt_map]. unfold ncclAllReduce. rewrite Bd. cbn [nccl_fun]. now rewrite Z.mod_small by nia.
    - unfold MPI_Allreduce. destruct (Z.ltb_spec dim 0); [lia|]. reflexivity.
    - unfold MPI_Allreduce. destruct (Z.ltb_spec dim 0); [lia|]. reflexivity.
  Qed.

  Lemma site_sum_ok nccl aware t dim bufs : addition (zero o) (add o) -> fits nccl aware t dim ->
    (forall b, In b bufs -> (parts t * dim <= Z.of_nat (length b))%Z) ->
    exists bufs', site_sum o nccl aware t dim bufs = Done bufs' /\
      summed (zero o) (add o) (Z.to_nat (parts t * dim)) bufs bufs'.
  Proof.
    intros AD F L. rewrite allreduce_as_reduce by auto. apply reduce_sum; auto. intros b Hb. specialize (L b Hb). lia.
  Qed.

  Lemma site_bcast_ok nccl aware t dim root bufs : fits nccl aware t dim ->
    (0 <= root < Z.of_nat (length bufs))%Z -> (forall b, In b bufs -> (parts t * dim <= Z.of_nat (length b))%Z) ->
    exists bufs', site_bcast nccl aware t dim root bufs = Done bufs' /\
      broadcast (Z.to_nat (parts t * dim)) (Z.to_nat root) bufs bufs'.
  Proof.
    intros (H0 & H) Hr L. unfold site_bcast, Bcast, chosen.
    assert (P := parts_pos t). destruct (types_known t) as (d & Ed & Bd).
    rewrite narrow_small by (destruct nccl, aware; cbn in H; lia).
    assert (L' : forall b, In b bufs -> Z.to_nat (parts t * dim) <= length b) by (intros b Hb; specialize (L b Hb); lia).
    destruct aware; [destruct nccl|]; cbn [andb] in H.
    - assert (is_int (parts t * dim) = true) as -> by (unfold is_int; rewrite andb_true_iff, Z.leb_le, Z.ltb_lt; nia).
      rewrite Ed, Bd. rewrite Z.mod_small by nia. apply bcast_ok; auto; lia.
    - destruct (Z.ltb_spec dim 0); [lia|]. apply bcast_ok; auto; lia.
    - destruct (Z.ltb_spec dim 0); [lia|]. apply bcast_ok; auto; lia.
  Qed.

  (** any operation, real numbers: the two libraries are asked for the same thing *)
  Lemma backends_agree_real known t p count bufs : parts t = 1%Z -> (0 <= count < 2 ^ 31)%Z -> known = true ->
    AllReduce o true NCCL_BACKEND known t p count bufs = AllReduce o true MPI_BACKEND known t p count bufs.
  Proof.
    intros P H ->. unfold AllReduce, MPI_Allreduce, ncclAllReduce, mpi_fun. rewrite P. destruct (types_known t) as (d & Ed & Bd).
    assert (is_int (1 * count) = true) as -> by (unfold is_int; rewrite andb_true_iff, Z.leb_le, Z.ltb_lt; lia).
    rewrite Ed, Bd. destruct (Z.ltb_spec count 0); [lia|]. rewrite Z.mod_small by lia. destruct p; reflexivity.
  Qed.
  Lemma backends_agree_sum known t count bufs : (0 <= count)%Z -> (parts t * count < 2 ^ 31)%Z -> known = true ->
    AllReduce o true NCCL_BACKEND known t MPI_SUM count bufs = AllReduce o true MPI_BACKEND known t MPI_SUM count bufs.
  Proof.
    intros H0 H ->. assert (P := parts_pos t). unfold AllReduce, MPI_Allreduce, ncclAllReduce, mpi_fun.
    destruct (types_known t) as (d & Ed & Bd).
    assert (is_int (parts t * count) = true) as -> by (unfold is_int; rewrite andb_true_iff, Z.leb_le, Z.ltb_lt; nia).
    rewrite Ed, Bd. destruct (Z.ltb_spec count 0); [lia|]. rewrite Z.mod_small by nia. destruct (parts t) as [|[| |]|]; reflexivity.
  Qed.
  Lemma unregistered t p count bufs : is_int (parts t * count) = true -> AllReduce o true NCCL_BACKEND false t p count bufs = Throw.
  Proof. intros H. unfold AllReduce. rewrite H. destruct (datatype_map _), (opt_map p); reflexivity. Qed.

  (** sizes beyond an int *)
  Lemma narrow_wrap q r : (0 <= r < 2 ^ 31)%Z -> narrow (q * 2 ^ 32 + r) = r.
  Proof.
    intros H. unfold narrow. rewrite Z.add_comm, Z.mod_add by lia. rewrite Z.mod_small by lia.
    destruct (Z.ltb_spec r (2 ^ 31)); lia.
  Qed.
  Lemma large_sum_wrapped nccl aware t q r bufs : addition (zero o) (add o) -> (0 < q)%Z -> fits nccl aware t r ->
    (forall b, In b bufs -> (parts t * (q * 2 ^ 32 + r) <= Z.of_nat (length b))%Z) ->
    exists bufs', site_sum o nccl aware t (q * 2 ^ 32 + r) bufs = Done bufs' /\
      summed (zero o) (add o) (Z.to_nat (parts t * r)) bufs bufs'.
  Proof.
    intros AD Hq F L. assert (P := parts_pos t). assert (0 <= r)%Z by apply F.
    assert (Hr : (0 <= r < 2 ^ 31)%Z) by (destruct F as (F0 & F1); destruct nccl, aware; cbn in F1; lia).
    replace (site_sum o nccl aware t (q * 2 ^ 32 + r) bufs) with (site_sum o nccl aware t r bufs).
    - apply site_sum_ok; auto. intros b Hb. specialize (L b Hb). nia.
    - unfold site_sum. rewrite narrow_wrap by auto. rewrite narrow_small by auto. reflexivity.
  Qed.
  Lemma large_sum_aborts nccl t dim bufs : (2 ^ 31 <= dim < 2 ^ 32)%Z -> site_sum o nccl false t dim bufs = Abort.
  Proof.
    intros H. unfold site_sum, AllReduce, chosen, MPI_Allreduce, narrow. rewrite Z.mod_small by lia.
    destruct (Z.ltb_spec dim (2 ^ 31)); [lia|]. destruct (Z.ltb_spec (dim - 2 ^ 32) 0); [reflexivity|lia].
  Qed.
  Lemma nccl_complex_overflow t dim bufs : parts t = 2%Z -> (2 ^ 30 <= dim < 2 ^ 31)%Z -> site_sum o true true t dim bufs = Undef.
  Proof.
    intros P H. unfold site_sum, AllReduce, chosen. rewrite narrow_small by lia. rewrite P.
    replace (is_int (2 * dim)) with false; [reflexivity|]. symmetry. unfold is_int. apply andb_false_iff. right. apply Z.ltb_ge. lia.
  Qed.
End Proofs.

(** a product over complex numbers *)
Definition zarith : arith Z := Arith Z 0%Z Z.add Z.sub Z.mul Z.max Z.min.
Lemma product_differs t : parts t = 2%Z ->
  AllReduce zarith true NCCL_BACKEND true t MPI_PROD 1 [[0; 1]; [0; 1]]%Z = Done [[0; 1]; [0; 1]]%Z /\
  AllReduce zarith true MPI_BACKEND true t MPI_PROD 1 [[0; 1]; [0; 1]]%Z = Done [[-1; 0]; [-1; 0]]%Z /\
  cprod Z.sub Z.add Z.mul (0, 1)%Z (0, 1)%Z = (-1, 0)%Z.
Proof. destruct t; cbn; intros H; try discriminate; repeat split. Qed.

(** nothing is reduced at all when the number of elements is a multiple of 2^32 *)
Lemma summed_none {R} z plus (bufs bufs' : list (list R)) : summed z plus 0 bufs bufs' -> bufs' = bufs.
Proof.
  intros (L & H).
  assert (X : forall r, nth_error bufs' r = nth_error bufs r).
  { intros r. destruct (nth_error bufs r) as [b|] eqn:E.
    - destruct (H r b E) as (b' & E' & _ & _ & Q). rewrite E'. f_equal.
      assert (Y : forall i, nth_error b' i = nth_error b i) by (intros; apply Q; lia).
      clear -Y. revert b Y. induction b' as [|x l IH]; destruct b as [|y b]; intros Y; auto; try (specialize (Y 0); discriminate).
      f_equal. specialize (Y 0). now inversion Y. apply IH. intros i. apply (Y (S i)).
    - apply nth_error_None in E. apply nth_error_None. lia. }
  clear -X. revert bufs X. induction bufs' as [|x l IH]; destruct bufs as [|y b]; intros X; auto; try (specialize (X 0); discriminate).
  f_equal. specialize (X 0). now inversion X. apply IH. intros i. apply (X (S i)).
Qed.

Lemma large_sum_lost {R} (o : arith R) nccl aware t q bufs : addition (zero o) (add o) -> (0 < q)%Z ->
  (forall b, In b bufs -> (parts t * (q * 2 ^ 32) <= Z.of_nat (length b))%Z) ->
  site_sum o nccl aware t (q * 2 ^ 32) bufs = Done bufs.
Proof.
  intros AD Hq L.
  destruct (large_sum_wrapped o nccl aware t q 0 bufs AD Hq) as (b' & E & S).
  - split; [lia|]. destruct nccl, aware; cbn; try lia; rewrite Z.mul_0_r; lia.
  - intros b Hb. rewrite Z.add_0_r. auto.
  - rewrite Z.add_0_r in E. rewrite Z.mul_0_r in S. apply summed_none in S. now subst.
Qed.

(** two processes holding ones in 2^32 places *)
Lemma ones_not_summed k : 0 < k -> ~ summed 0%Z Z.add k [repeat 1%Z k; repeat 1%Z k] [repeat 1%Z k; repeat 1%Z k].
Proof.
  intros Hk (_ & H). destruct (H 0 (repeat 1%Z k) eq_refl) as (b' & E & _ & P & _).
  assert (b' = repeat 1%Z k) by (cbn in E; congruence). subst b'. specialize (P 0 Hk).
  destruct k as [|k]; [lia|]. cbn in P. discriminate.
Qed.
Lemma big_length q : (0 <= q)%Z -> Z.of_nat (length (repeat 1%Z (Z.to_nat q))) = q.
Proof. intros H. rewrite repeat_length. now apply Z2Nat.id. Qed.

Lemma ones_lost_at nccl aware d : (0 < d)%Z -> d = (1 * 2 ^ 32)%Z -> exists bufs,
  (forall b, In b bufs -> (d <= Z.of_nat (length b))%Z) /\ site_sum zarith nccl aware SDouble d bufs = Done bufs /\
  ~ summed 0%Z Z.add (Z.to_nat d) bufs bufs.
Proof.
  intros Hd E. assert (Lb := big_length d ltac:(lia)).
  exists [repeat 1%Z (Z.to_nat d); repeat 1%Z (Z.to_nat d)]. split; [intros c [<-|[<-|[]]]; lia|]. split.
  - rewrite E at 1. apply (large_sum_lost zarith nccl aware SDouble 1); [|lia|].
    + split; [|split]; cbn; intros; lia.
    + intros c Hc. rewrite <- E. change (parts SDouble) with 1%Z. destruct Hc as [<-|[<-|[]]]; lia.
  - apply ones_not_summed. apply (Z2Nat.inj_lt 0 d); lia.
Qed.
Lemma ones_lost nccl aware : exists bufs,
  (forall b, In b bufs -> (2 ^ 32 <= Z.of_nat (length b))%Z) /\ site_sum zarith nccl aware SDouble (2 ^ 32) bufs = Done bufs /\
  ~ summed 0%Z Z.add (Z.to_nat (2 ^ 32)) bufs bufs.
Proof. exact (ones_lost_at nccl aware (2 ^ 32) eq_refl eq_refl). Qed.
