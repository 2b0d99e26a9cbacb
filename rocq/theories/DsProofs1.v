(** Blocks of vectors in arrays. *)
From Coq Require Import List Arith Bool ZArith Lia.
Require Import Verif.Base Verif.AlgModel Verif.DlaModel Verif.ColModel Verif.DistModel Verif.DistSpec Verif.FlatModel Verif.FlatSpec Verif.RedistModel Verif.RedistSpec.
Require Import Verif.SpmdModel Verif.SpmdSpec Verif.SpmdProofs Verif.SpmdProofs2 Verif.KerModel Verif.KerSpec Verif.DsModel Verif.DsSpec.
Require Import Verif.AlgProofs1 Verif.FilterProofs.
Import ListNotations.

Section Flat.
Context {D : Type} (o : sops D).
Notation V := (nat -> D).
Notation blk := (blk o).

Lemma flat_app rows (a b : list V) : flat rows (a ++ b) = flat rows a ++ flat rows b.
Proof. unfold flat. apply flat_map_app. Qed.
Lemma flat_len rows (vs : list V) : length (flat rows vs) = length vs * length rows.
Proof. unfold flat. induction vs; simpl; auto. rewrite app_length, map_length, IHvs. lia. Qed.
Lemma flat_firstn rows (vs : list V) k : flat rows (firstn k vs) = firstn (k * length rows) (flat rows vs).
Proof.
  unfold flat. revert k. induction vs; intros k; [now rewrite !firstn_nil|]. destruct k; simpl; auto.
  rewrite firstn_app, map_length, (firstn_all2 (map a rows)) by (rewrite map_length; lia). f_equal. rewrite IHvs. f_equal. lia.
Qed.
Lemma flat_skipn rows (vs : list V) k : flat rows (skipn k vs) = skipn (k * length rows) (flat rows vs).
Proof.
  unfold flat. revert k. induction vs; intros k; [now rewrite !skipn_nil|]. destruct k; simpl; auto.
  rewrite skipn_app, map_length, (skipn_all2 (map a rows)) by (rewrite map_length; lia). simpl. rewrite IHvs. f_equal. lia.
Qed.
Lemma flat_nth rows (vs : list V) a c g : nth_error rows a = Some g -> c < length vs -> nth_error (flat rows vs) (a + c * length rows) = Some (blk vs g c).
Proof.
  intros Ha. assert (La : a < length rows) by (apply nth_error_Some; congruence). revert c. induction vs; intros c Hc; [simpl in Hc; lia|].
  unfold flat, DsSpec.blk in *. simpl. destruct c.
  - rewrite nth_error_app1 by (rewrite map_length; lia). rewrite Nat.add_0_r. now apply map_nth_error.
  - rewrite nth_error_app2 by (rewrite map_length; lia). rewrite map_length. rewrite <- IHvs by (simpl in Hc; lia). f_equal. lia.
Qed.
Lemma flat_ext rows (vs ws : list V) : length vs = length ws -> (forall c g, c < length vs -> In g rows -> blk vs g c = blk ws g c) -> flat rows vs = flat rows ws.
Proof.
  revert ws. induction vs; intros [|w ws] E H; simpl in E; try lia; auto. unfold flat in *. simpl. f_equal.
  - apply map_ext_in. intros g Hg. apply (H 0 g); [simpl; lia|auto].
  - apply IHvs; [lia|]. intros c g Hc Hg. apply (H (S c) g); [simpl; lia|auto].
Qed.

(** [carries]: ranges *)
Lemma carries_len rows (vs : list V) buf : carries rows vs buf -> length vs * length rows <= length buf.
Proof. intros [r ->]. rewrite app_length, flat_len. lia. Qed.
Lemma carries_nth rows (vs : list V) buf a c g : carries rows vs buf -> nth_error rows a = Some g -> c < length vs -> nth_error buf (a + c * length rows) = Some (blk vs g c).
Proof.
  intros [r ->] Ha Hc. rewrite nth_error_app1.
  - now apply flat_nth.
  - rewrite flat_len. assert (a < length rows) by (apply nth_error_Some; congruence). nia.
Qed.
Lemma carries_holds rows (vs : list V) buf off block : carries rows vs buf -> off + block <= length vs -> holds rows off block (length rows) (blk vs) buf.
Proof. intros H1 H2 a g c Ha Hc. eapply carries_nth; eauto. lia. Qed.
Lemma carries_get rows (vs ws : list V) buf off k : carries rows vs buf -> get_range vs off k = Ok ws ->
  get_range buf (off * length rows) (k * length rows) = Ok (flat rows ws).
Proof.
  intros H1 H2. pose proof (carries_len _ _ _ H1) as L. apply get_range_inv in H2 as [H2 ->]. rewrite get_range_ok by nia. f_equal.
  destruct H1 as [r ->]. rewrite flat_firstn, flat_skipn, skipn_app, firstn_app. rewrite skipn_length, flat_len.
  replace (k * length rows - _) with 0 by nia. rewrite firstn_O, app_nil_r. reflexivity.
Qed.
Lemma carries_put rows (vs ws vs' : list V) buf off : carries rows vs buf -> put_range vs off ws = Ok vs' ->
  exists buf', put_range buf (off * length rows) (flat rows ws) = Ok buf' /\ carries rows vs' buf' /\ length buf' = length buf.
Proof.
  intros H1 H2. pose proof (carries_len _ _ _ H1) as L. apply put_range_inv in H2 as [H2 ->]. rewrite put_range_ok by (rewrite flat_len; nia).
  eexists. split; [reflexivity|]. split.
  - destruct H1 as [r ->]. exists r. rewrite !flat_app, flat_firstn, flat_skipn, firstn_app, skipn_app, !flat_len.
    replace (off * length rows - _) with 0 by nia. replace (_ - length vs * length rows) with 0 by nia. rewrite firstn_O, app_nil_r. simpl.
    replace (off * length rows + length ws * length rows) with ((off + length ws) * length rows) by lia. now rewrite <- !app_assoc.
  - rewrite !app_length, firstn_length, skipn_length, flat_len. nia.
Qed.
(** from the array's entries *)
Lemma nth_error_carries rows (vs : list V) buf : length vs * length rows <= length buf ->
  (forall a c g, nth_error rows a = Some g -> c < length vs -> nth_error buf (a + c * length rows) = Some (blk vs g c)) -> carries rows vs buf.
Proof.
  intros L H. exists (skipn (length vs * length rows) buf). rewrite <- (firstn_skipn (length vs * length rows) buf) at 1. f_equal.
  apply nth_error_ext. intros k. destruct (Nat.lt_ge_cases k (length vs * length rows)) as [Hk|Hk].
  - set (m := length rows) in *. assert (Hm : 0 < m) by nia. pose proof (Nat.div_mod_eq k m) as E. pose proof (Nat.mod_upper_bound k m ltac:(lia)) as Hb.
    assert (Hc : k / m < length vs) by (apply Nat.div_lt_upper_bound; rewrite ?(Nat.mul_comm m); lia).
    destruct (nth_error rows (k mod m)) as [g|] eqn:Eg; [|apply nth_error_None in Eg; fold m in Eg; lia].
    rewrite FilterProofs.nth_error_firstn by auto. assert (Ek : k = k mod m + (k / m) * m) by lia. rewrite Ek.
    etransitivity; [exact (H _ _ _ Eg Hc)|symmetry; exact (flat_nth rows vs (k mod m) (k / m) g Eg Hc)].
  - rewrite !(proj2 (nth_error_None _ _)); auto; rewrite ?flat_len, ?firstn_length; lia.
Qed.
(** columns off .. off+block-1 were overwritten *)
Lemma only_carries rows (vs ws vs' : list V) buf buf' off block W : carries rows vs buf -> only_columns rows off block W buf buf' ->
  put_range vs off ws = Ok vs' -> length ws = block -> (forall c g, c < block -> In g rows -> blk ws g c = W g (off + c)) -> carries rows vs' buf'.
Proof.
  intros H1 (L & Hh & Hr) H2 Lw HW. pose proof (carries_len _ _ _ H1) as Lv. pose proof (put_range_length _ _ _ _ H2) as Lv'. apply put_range_inv in H2 as [Hb ->].
  apply nth_error_carries; [rewrite Lv', L; auto|]. intros a c g Ha Hc. rewrite Lv' in Hc.
  assert (La : a < length rows) by (apply nth_error_Some; congruence). assert (Hm : 0 < length rows) by lia.
  assert (Ek : (a + c * length rows) / length rows = c) by (rewrite Nat.div_add, Nat.div_small; lia).
  unfold DsSpec.blk. destruct (Nat.lt_ge_cases c off) as [Hlo|Hlo].
  - rewrite Hr by (left; lia). rewrite (carries_nth _ _ _ _ _ _ H1 Ha) by lia. rewrite app_nth1 by (rewrite firstn_length; lia).
    unfold DsSpec.blk. f_equal. rewrite <- (firstn_skipn off vs) at 1. rewrite app_nth1 by (rewrite firstn_length; lia). reflexivity.
  - destruct (Nat.lt_ge_cases c (off + block)) as [Hhi|Hhi].
    + rewrite (Hh a g c Ha) by lia. rewrite app_nth2 by (rewrite firstn_length; lia). rewrite firstn_length, Nat.min_l by lia. rewrite app_nth1 by lia.
      specialize (HW (c - off) g ltac:(lia) ltac:(eapply nth_error_In; eauto)). unfold DsSpec.blk in HW. rewrite HW. f_equal. f_equal. lia.
    + rewrite Hr by (right; lia). rewrite (carries_nth _ _ _ _ _ _ H1 Ha) by lia. rewrite app_nth2 by (rewrite firstn_length; lia). rewrite firstn_length, Nat.min_l by lia.
      rewrite app_nth2 by lia. unfold DsSpec.blk. f_equal. rewrite <- (firstn_skipn (off + length ws) vs) at 1. rewrite app_nth2 by (rewrite firstn_length; lia).
      rewrite firstn_length, Nat.min_l by lia. replace (c - (off + length ws)) with (c - off - length ws) by lia. reflexivity.
Qed.
Lemma blk_map (f : nat -> V) n g c : c < n -> blk (map f (seq 0 n)) g c = f c g.
Proof. intros Hc. unfold DsSpec.blk. rewrite (nth_indep _ _ (f 0)) by (rewrite map_length, seq_length; lia). rewrite map_nth, seq_nth by lia. reflexivity. Qed.
Lemma blk_mapv (f : V -> V) (vs : list V) g c : c < length vs -> blk (map f vs) g c = f (nth c vs (fun _ => s0 o)) g.
Proof. intros Hc. unfold DsSpec.blk. rewrite (nth_indep _ _ (f (fun _ => s0 o))) by (rewrite map_length; lia). now rewrite map_nth. Qed.
Lemma blk_zip (f : V -> V -> V) (vs ws : list V) g c : length vs = length ws -> c < length vs ->
  blk (zip f vs ws) g c = f (nth c vs (fun _ => s0 o)) (nth c ws (fun _ => s0 o)) g.
Proof.
  unfold DsSpec.blk, zip. revert ws c. induction vs; intros [|w ws] c E Hc; simpl in E, Hc; try lia. destruct c; simpl; auto. apply IHvs; lia.
Qed.
Lemma nth_get_range {A} (l l' : list A) off k c d : get_range l off k = Ok l' -> c < k -> nth c l' d = nth (off + c) l d.
Proof.
  intros H Hc. apply get_range_inv in H as [H ->]. rewrite <- (firstn_skipn off l) at 2. rewrite app_nth2 by (rewrite firstn_length; lia).
  rewrite firstn_length, Nat.min_l by lia. replace (off + c - off) with c by lia. rewrite <- (firstn_skipn k (skipn off l)) at 2. rewrite app_nth1; auto.
  rewrite firstn_length, skipn_length. lia.
Qed.
Lemma get_range_length {A} (l l' : list A) off k : get_range l off k = Ok l' -> length l' = k.
Proof. intros H. apply get_range_inv in H as [H ->]. rewrite firstn_length, skipn_length. lia. Qed.
End Flat.

Lemma completes_good {D A} (add : D -> D -> D) p q (Q : nat -> nat -> A -> Prop) st : completes add p q Q st -> good add p q Q st.
Proof.
  intros H. induction H as [st Hd|st [st' Hs] _ IH].
  - now apply good_done.
  - destruct (IH st' Hs) as [n Hn]. exists (S n). eapply path_step; eauto.
Qed.
Lemma good_mono {D A} (add : D -> D -> D) p q (Q Q' : nat -> nat -> A -> Prop) st : (forall i j a, i < p -> j < q -> Q i j a -> Q' i j a) ->
  good add p q Q st -> good add p q Q' st.
Proof.
  intros E [n H]. exists n. induction H.
  - apply path_done. intros i j Hi Hj. destruct (H i j Hi Hj) as (a & Ea & Ha). eauto.
  - eapply path_step; eauto.
Qed.
