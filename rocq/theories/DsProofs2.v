(** The calls of the distributed backend, one by one: those that do not communicate, the product with the matrix, the
    symmetry test. *)
From Coq Require Import List Arith Bool ZArith Lia.
Require Import Verif.Base Verif.AlgModel Verif.DlaModel Verif.ColModel Verif.DistModel Verif.DistSpec Verif.DistProofs Verif.DistProofs2 Verif.FlatModel Verif.FlatSpec Verif.FlatProofs Verif.FlatProofs2 Verif.FlatProofs4 Verif.RedistModel Verif.RedistSpec.
Require Import Verif.SpmdModel Verif.SpmdSpec Verif.SpmdProofs Verif.SpmdProofs2 Verif.KerModel Verif.KerSpec Verif.KerProofs1 Verif.KerProofs5 Verif.KerProofs8 Verif.KerProofs9.
Require Import Verif.ClientModel Verif.DsModel Verif.DsSpec.
Require Import Verif.AlgProofs1 Verif.FilterProofs Verif.DsProofs1.
Import ListNotations.

Lemma lpos_nth N nb p src i r g : 0 < nb -> src < p -> nth_error (owned N nb p src i) r = Some g -> g < N /\ owner nb p src g = i /\ lpos nb p g = r.
Proof.
  intros Hb Hs H. pose proof (nth_error_In _ _ H) as Hin. apply in_owned in Hin as [Hg Ho]. split; auto. split; auto.
  pose proof (lpos_owned N nb p src g Hb Hs Hg) as E. rewrite Ho in E.
  eapply (proj1 (NoDup_nth_error (owned N nb p src i))); [apply owned_NoDup|apply nth_error_Some; congruence|congruence].
Qed.
Lemma rows_seq {A} (f : nat -> A) (h : nat -> A) (rows : list nat) : (forall r g, nth_error rows r = Some g -> h g = f r) -> map f (seq 0 (length rows)) = map h rows.
Proof.
  intros H. apply nth_error_ext. intros k. rewrite !nth_error_map. destruct (nth_error rows k) as [g|] eqn:E.
  - rewrite (proj2 (nth_error_seq 0 (length rows) k k)) by (assert (k < length rows) by (apply nth_error_Some; congruence); lia). simpl. f_equal. symmetry. auto.
  - rewrite (proj2 (nth_error_None (seq 0 _) k)); auto. rewrite seq_length. now apply nth_error_None.
Qed.

Lemma unit_inv {S} (x : res S) (r : unit * S) : unit_ans x = Ok r -> fst r = tt /\ x = Ok (snd r).
Proof. unfold unit_ans. destruct x; simpl; try discriminate. intros E. inversion E. auto. Qed.
Lemma get_one {A} (l : list A) i x : nth_error l i = Some x -> get_range l i 1 = Ok [x].
Proof.
  intros H. assert (i < length l) by (apply nth_error_Some; congruence). rewrite get_range_ok by lia. f_equal.
  apply nth_error_split in H as (l1 & l2 & -> & <-). rewrite skipn_app, skipn_all, Nat.sub_diag. reflexivity.
Qed.
Lemma put_one {A} (l l' : list A) i x : wr l i x = Ok l' -> put_range l i [x] = Ok l'.
Proof.
  intros H. apply wr_inv in H as [H ->]. rewrite put_range_ok by (simpl; lia). f_equal. revert i H. induction l as [|y l IH]; intros i H; simpl in H; [lia|].
  destruct i; simpl; auto. f_equal. apply IH. lia.
Qed.
Lemma swap_local {D} (rs : list nat) (vs vs' : list (nat -> D)) buf i j : carries rs vs buf -> swap_ vs i j = Ok vs' ->
  exists buf', swap_cols (length rs) i j buf = Ok buf' /\ carries rs vs' buf'.
Proof.
  intros H E. unfold swap_ in E. apply bind_ok in E as (a & Ea & E). apply bind_ok in E as (b & Eb & E). apply bind_ok in E as (l1 & E1 & E2).
  apply rd_ok in Ea, Eb. pose proof (carries_get _ _ _ _ _ _ H (get_one _ _ _ Ea)) as G1. pose proof (carries_get _ _ _ _ _ _ H (get_one _ _ _ Eb)) as G2.
  destruct (carries_put _ _ _ _ _ _ H (put_one _ _ _ _ E1)) as (b1 & P1 & P2 & P3). destruct (carries_put _ _ _ _ _ _ P2 (put_one _ _ _ _ E2)) as (b2 & Q1 & Q2 & Q3).
  rewrite Nat.mul_1_l in *. unfold swap_cols. rewrite !(Nat.mul_comm (length rs)). rewrite G1. cbn [bind]. rewrite G2. cbn [bind]. rewrite P1. cbn [bind]. rewrite Q1. eauto.
Qed.
Lemma swap_length {A} (l l' : list A) i j : swap_ l i j = Ok l' -> length l' = length l.
Proof.
  intros E. unfold swap_ in E. apply bind_ok in E as (a & Ea & E). apply bind_ok in E as (b & Eb & E). apply bind_ok in E as (l1 & E1 & E2).
  apply put_one in E1, E2. apply put_range_length in E1, E2. lia.
Qed.
Lemma zip_length {A B C} (f : A -> B -> C) l m : length l = length m -> length (zip f l m) = length l.
Proof. intros E. unfold zip. rewrite map_length, combine_length. lia. Qed.

Section Calls.
Context {F D : Type} (o : sops D) (fo : fops F) (inj : F -> D) (re : D -> F) (oc : oracles D) (RT : is_ring o).
Variables (N p q mb nb rsrc csrc n : nat) (ldh : nat -> nat -> nat).
Hypothesis HL : layout N p q mb nb rsrc csrc.
Notation rows := (owned N mb p rsrc).
Notation cols := (owned N nb q csrc).
Notation env i j := (bc_env N p q mb nb rsrc csrc (ldh i j) n i j).
Notation V := (nat -> D).
Notation bl := (gblas o fo inj re oc N mb p rsrc).
Notation L := (colD fo bl true n).
Notation cst := (cst (V := V) (M := nat -> nat -> D)).
Notation blk := (blk o).
Notation hp i j := (holds_part o n (rows i) (cols j) (ldh i j)).
Variables (tab : nat -> nat -> gtab).
Notation kr i j c := (ker o fo inj re oc (env i j) (tab i j) c).
Hypothesis Htab : forall i j, i < p -> j < q -> bc_ctor N mb p rsrc i = Ok (g_R (tab i j)) /\ bc_ctor N nb q csrc j = Ok (g_C (tab i j)) /\
  g_N (tab i j) = N /\ g_ms (tab i j) = bc_send_lens N mb p rsrc /\
  exists st, (forall k, k < p -> bc_blocks_of N mb p rsrc k = Ok (st k)) /\
    g_lens (tab i j) = map (fun k => t_lens (st k)) (seq 0 p) /\ g_offs (tab i j) = map (fun k => t_offs (st k)) (seq 0 p).
Hypothesis Hld : forall i j, i < p -> j < q -> length (rows i) <= ldh i j.
Hypothesis Hr : forall i, i < p -> (Z.of_nat (length (rows i) * n) < 2 ^ 31)%Z.
Hypothesis Hc : forall j, j < q -> (Z.of_nat (length (cols j) * n) < 2 ^ 31)%Z.
Hypothesis Hn : (Z.of_nat (n * n) < 2 ^ 31)%Z.
Hypothesis Hn0 : 0 < n.

Definition spread (g : cst) (s : nat -> nat -> loc (D := D)) : Prop := forall i j, i < p -> j < q -> hp i j g (s i j).
Definition after {A} (a : A) (g : cst) (i j : nat) (r : A * loc (D := D)) : Prop := fst r = a /\ hp i j g (snd r).

Lemma em i j : i < p -> e_m (env i j) = length (rows i).
Proof. intros Hi. destruct HL as (H1 & H2 & H3 & H4 & _). cbn. now apply numroc_counts. Qed.
Lemma en i j : j < q -> e_n (env i j) = length (cols j).
Proof. intros Hi. destruct HL as (H1 & H2 & H3 & H4 & _). cbn. now apply numroc_counts. Qed.
Lemma Pp : 0 < p. Proof. apply (lay_pos _ _ _ _ _ _ _ HL). Qed.
Lemma Pq : 0 < q. Proof. apply (lay_pos _ _ _ _ _ _ _ HL). Qed.

Lemma local_unit (f : nat -> nat -> res (loc (D := D))) g : (forall i j, i < p -> j < q -> exists s', f i j = Ok s' /\ hp i j g s') ->
  good (sadd o) p q (after tt g) (fun i j => let? s := local (f i j) in Ret (done_ s)).
Proof. intros H. apply good_done. intros i j Hi Hj. destruct (H i j Hi Hj) as (s' & E & Hs). exists (tt, s'). rewrite E. split; [reflexivity|split; auto]. Qed.

Lemma good_ret g s : spread g s -> good (sadd o) p q (after tt g) (fun i j => Ret (done_ (s i j))).
Proof. intros H. apply good_done. intros i j Hi Hj. exists (tt, s i j). split; [reflexivity|]. split; [reflexivity|]. apply H; auto. Qed.


(** *** sym *)
Lemma test_rows i : i < p -> map (or_test oc i) (seq 0 (length (rows i))) = map (assembled mb p rsrc (or_test oc)) (rows i).
Proof.
  intros Hi. destruct HL as (H1 & H2 & H3 & H4 & _). apply rows_seq. intros r g E. destruct (lpos_nth _ _ _ _ _ _ _ H1 H3 E) as (_ & E1 & E2). unfold assembled. now rewrite E1, E2.
Qed.
Lemma call_sym g s a g' : spread g s -> d_sym L g = Ok (a, g') -> good (sadd o) p q (after a g') (fun i j => kr i j QSym (s i j)).
Proof.
  intros HS E. cbn in E. unfold c_sym in E. inversion E; subst g' a. clear E. cbn [ker].
  assert (C1 : forall i, i < p -> (Z.of_nat (length (rows i)) < 2 ^ 31)%Z) by (intros i Hi; specialize (Hr i Hi); nia).
  assert (C2 : forall j, j < q -> (Z.of_nat (length (cols j)) < 2 ^ 31)%Z) by (intros j Hj; specialize (Hc j Hj); nia).
  apply (good_bind (sadd o) p q (fun i j b => b = sym_verdict o N (cs_H g) (assembled mb p rsrc (or_test oc)) (or_far oc))); [apply Pp|apply Pq| |].
  - eapply good_eqv; [|apply completes_good, (lay_check_sym o RT N p q mb nb rsrc csrc n ldh (cs_H g) HL s); auto].
    + intros i j Hi Hj. cbv beta. rewrite (em i j Hi). cbn [e_i bc_env]. now rewrite test_rows.
    + intros i j Hi Hj. apply (HS i j Hi Hj).
  - intros b Hb. apply good_done. intros i j Hi Hj. eexists. split; [reflexivity|]. split; [|apply HS; auto]. rewrite Hb by auto. reflexivity.
Qed.

(** *** initrnd, init, shift *)
Lemma flat_rnd i : i < p -> map (or_rnd oc i) (seq 0 (length (rows i) * n)) = flat (rows i) (map (b_rnd bl) (seq 0 n)).
Proof.
  intros Hi. destruct HL as (H1 & H2 & H3 & H4 & _). apply nth_error_ext. intros k. destruct (Nat.lt_ge_cases k (length (rows i) * n)) as [Hk|Hk].
  - set (m := length (rows i)) in *. assert (Hm : 0 < m) by nia. pose proof (Nat.div_mod_eq k m) as E. pose proof (Nat.mod_upper_bound k m ltac:(lia)) as Hb.
    assert (Hd : k / m < n) by (apply Nat.div_lt_upper_bound; lia).
    rewrite nth_error_map, (proj2 (nth_error_seq 0 (m * n) k k)) by lia. simpl option_map.
    destruct (nth_error (rows i) (k mod m)) as [g|] eqn:Eg; [|apply nth_error_None in Eg; fold m in Eg; lia].
    rewrite E at 2. rewrite (Nat.add_comm (m * _)), (Nat.mul_comm m). unfold m. rewrite (flat_nth o _ _ (k mod m) (k / m) g Eg) by (rewrite map_length, seq_length; auto). fold m.
    f_equal. rewrite blk_map by auto. cbn. unfold assembled. destruct (lpos_nth _ _ _ _ _ _ _ H1 H3 Eg) as (_ & E1 & E2). rewrite E1, E2. fold m. f_equal. lia.
  - rewrite !(proj2 (nth_error_None _ _)); auto; rewrite ?flat_len, ?map_length, ?seq_length; lia.
Qed.
Lemma call_initrnd g s g' : spread g s -> d_initrnd L g = Ok g' -> good (sadd o) p q (after tt g') (fun i j => kr i j QInitRnd (s i j)).
Proof.
  intros HS E. cbn [d_initrnd colD] in E. unfold c_initrnd in E. apply bind_ok in E as (C & EC & E). inversion E; subst g'. clear E.
  cbn [ker]. apply local_unit. intros i j Hi Hj. pose proof (HS i j Hi Hj) as []. destruct hp_C as [LC HC].
  destruct (carries_put _ _ _ _ _ _ HC EC) as (b & E1 & E2 & E3). unfold p_initrnd. rewrite (em i j Hi). cbn [e_i e_nevex bc_env]. rewrite flat_rnd by auto. rewrite Nat.mul_0_l in E1. rewrite E1. cbn [bind].
  eexists. split; [reflexivity|]. constructor; cbn; auto. split; auto. rewrite <- LC. eapply put_range_length; eauto.
Qed.
Lemma call_init g s g' : spread g s -> d_init L g = Ok g' -> good (sadd o) p q (after tt g') (fun i j => kr i j QInit (s i j)).
Proof.
  intros HS E. cbn [d_init colD] in E. unfold c_init in E. apply bind_ok in E as (xs & EX & E). apply bind_ok in E as (C2 & EC & E). inversion E; subst g'. clear E.
  cbn [ker]. apply local_unit. intros i j Hi Hj. pose proof (HS i j Hi Hj) as []. destruct hp_C as [LC HC]. destruct hp_C2 as [LC2 HC2].
  pose proof (carries_get _ _ _ _ _ _ HC EX) as E0.
  destruct (carries_put _ _ _ _ _ _ HC2 EC) as (b & E1 & E2 & E3). unfold p_init. rewrite (em i j Hi). cbn [e_nevex bc_env]. rewrite Nat.mul_0_l in *. rewrite (Nat.mul_comm (length (rows i))), E0. cbn [bind]. rewrite E1. cbn [bind].
  eexists. split; [reflexivity|]. constructor; cbn; auto. split; auto. rewrite <- LC2. eapply put_range_length; eauto.
Qed.
Lemma call_shift c u g s g' : spread g s -> d_shift L c u g = Ok g' -> good (sadd o) p q (after tt g') (fun i j => kr i j (QShift c u) (s i j)).
Proof.
  intros HS E. cbn [d_shift colD] in E. unfold c_shift in E. inversion E; subst g'. clear E. destruct HL as (H1 & H2 & H3 & H4 & _).
  cbn [ker]. apply local_unit. intros i j Hi Hj.
  destruct (bc_shift_grid (fun x => sadd o x (inj c)) N mb nb p q rsrc csrc ldh (cs_H g) (fun i => g_R (tab i j)) (fun j => g_C (tab i j)) (fun i j => l_H (s i j)) H1 H2 H3 H4) as (H' & E1 & E2 & _).
  - intros k Hk. apply (Htab k j Hk Hj).
  - intros k Hk. apply (Htab i k Hi Hk).
  - exact Hld.
  - intros a b Ha Hb. apply (HS a b Ha Hb).
  - unfold p_shift. cbn [e_ldh bc_env]. rewrite E1 by auto. cbn [bind]. pose proof (HS i j Hi Hj) as []. eexists. split; [reflexivity|]. constructor; cbn; auto; try (now apply E2).
Qed.

(** *** lockcopy, swap *)
Lemma call_lockcopy l h g s g' : spread g s -> d_lockcopy L l h g = Ok g' -> good (sadd o) p q (after tt g') (fun i j => kr i j (QLockCopy l h) (s i j)).
Proof.
  intros HS E. cbn [d_lockcopy colD] in E. unfold c_lockcopy in E. apply bind_ok in E as (a & Ea & E). apply bind_ok in E as (C & EC & E). apply bind_ok in E as (b & Eb & E).
  apply bind_ok in E as (C2 & EC2 & E). inversion E; subst g'. clear E. cbn [ker]. apply local_unit. intros i j Hi Hj. pose proof (HS i j Hi Hj) as []. destruct hp_C as [LC HC]. destruct hp_C2 as [LC2 HC2].
  assert (Hl : l <= n) by (apply get_range_inv in Ea as [Ea _]; lia).
  pose proof (carries_get _ _ _ _ _ _ HC2 Ea) as E1. destruct (carries_put _ _ _ _ _ _ HC EC) as (c1 & E2 & E3 & E4). pose proof (carries_get _ _ _ _ _ _ E3 Eb) as E5.
  destruct (carries_put _ _ _ _ _ _ HC2 EC2) as (c2 & E6 & E7 & E8).
  unfold p_lockcopy. rewrite (em i j Hi). cbn [e_nevex bc_env]. rewrite (proj2 (Nat.ltb_ge _ _) Hl). rewrite Nat.mul_0_l in *. rewrite E1. cbn [bind]. rewrite E2. cbn [bind]. rewrite E5. cbn [bind]. rewrite E6. cbn [bind].
  eexists. split; [reflexivity|]. constructor; cbn; auto; split; auto; [rewrite <- LC|rewrite <- LC2]; eapply put_range_length; eauto.
Qed.
Lemma call_swap x y g s g' : spread g s -> d_swap L x y g = Ok g' -> good (sadd o) p q (after tt g') (fun i j => kr i j (QSwap x y) (s i j)).
Proof.
  intros HS E. cbn [d_swap colD] in E. unfold c_swap in E. apply bind_ok in E as (C & EC & E). apply bind_ok in E as (C' & EC' & E). inversion E; subst g'. clear E.
  cbn [ker]. apply local_unit. intros i j Hi Hj. pose proof (HS i j Hi Hj) as []. destruct hp_C as [LC HC].
  destruct (swap_local _ _ _ _ _ _ HC EC) as (b1 & E1 & E2). destruct (swap_local _ _ _ _ _ _ E2 EC') as (b2 & E3 & E4).
  unfold p_swap. rewrite (em i j Hi), E1. cbn [bind]. rewrite E3. cbn [bind]. eexists. split; [reflexivity|]. constructor; cbn; auto. split; auto.
  apply swap_length in EC, EC'. lia.
Qed.

(** *** apply *)
Lemma blk_gemmH H a b (C B c y : list V) off k g t : get_range C off k = Ok c -> get_range B off k = Ok y -> t < k ->
  blk (zip (b_gemmH bl H a b) c y) g t = axpby o N (inj a) (inj b) (ctrans o H) (blk C) (blk B) g (off + t).
Proof.
  intros E1 E2 Ht. pose proof (get_range_length _ _ _ _ E1). pose proof (get_range_length _ _ _ _ E2). rewrite blk_zip by lia.
  rewrite (nth_get_range _ _ _ _ t _ E1), (nth_get_range _ _ _ _ t _ E2) by auto. reflexivity.
Qed.
Lemma blk_gemmN H a b (C B c y : list V) off k g t : get_range C off k = Ok c -> get_range B off k = Ok y -> t < k ->
  blk (zip (b_gemmN bl H a b) c y) g t = axpby o N (inj a) (inj b) H (blk C) (blk B) g (off + t).
Proof.
  intros E1 E2 Ht. pose proof (get_range_length _ _ _ _ E1). pose proof (get_range_length _ _ _ _ E2). rewrite blk_zip by lia.
  rewrite (nth_get_range _ _ _ _ t _ E1), (nth_get_range _ _ _ _ t _ E2) by auto. reflexivity.
Qed.
Lemma call_apply al be off k l g s g' : spread g s -> d_apply L al be off k l g = Ok g' ->
  good (sadd o) p q (after tt g') (fun i j => kr i j (QApply al be off k l) (s i j)).
Proof.
  intros HS E. cbn [d_apply colD] in E. unfold c_apply in E. apply bind_ok in E as (c & Ec & E). apply bind_ok in E as (b & Eb & E). cbn [ker].
  pose proof (get_range_length _ _ _ _ Ec) as Lc. pose proof (get_range_length _ _ _ _ Eb) as Lb.
  assert (Bc : l + off + k <= length (cs_C g)) by (apply get_range_inv in Ec as [X _]; exact X). assert (Bb : l + off + k <= length (cs_B g)) by (apply get_range_inv in Eb as [X _]; exact X).
  assert (Bk : forall i j, i < p -> j < q -> l + off + k <= n) by (intros i j Hi Hj; destruct (HS i j Hi Hj) as [_ [? _] _ _ _ _ _]; lia).
  assert (Bn : l + off + k <= n) by (apply (Bk 0 0); [apply Pp|apply Pq]).
  destruct (cs_bAc g) eqn:Eb0.
  - apply bind_ok in E as (B' & EB & E). inversion E; subst g'. clear E.
    eapply good_bind; [apply Pp|apply Pq|apply completes_good, (lay_hemm_bAc o RT N p q mb nb rsrc csrc n ldh (cs_H g) HL s) with (V := blk (cs_C g)) (W := blk (cs_B g))|].
    + intros i j Hi Hj. apply (HS i j Hi Hj).
    + intros i j Hi Hj. destruct (HS i j Hi Hj) as [_ _ _ _ _ _ [X Y]]. rewrite X, Y. auto.
    + intros j Hj. specialize (Hc j Hj). nia.
    + intros i j Hi Hj. destruct (HS i j Hi Hj) as [_ [LC HC] _ _ _ _ _]. apply carries_holds; auto.
    + intros i j Hi Hj. destruct (HS i j Hi Hj) as [_ _ _ [LC HC] _ _ _]. apply carries_len in HC. nia.
    + right. intros j Hj. destruct (HS 0 j Pp Hj) as [_ _ _ [LC HC] _ _ _]. apply carries_holds; auto.
    + intros a Ha. cbv beta in Ha. apply good_done. intros i j Hi Hj. eexists. split; [reflexivity|]. destruct (Ha i j Hi Hj) as [H1 H2]. pose proof (HS i j Hi Hj) as []. destruct hp_B as [LB HB].
      split; [reflexivity|]. cbn [snd done_]. rewrite H2. constructor; cbn; auto. split; [rewrite <- LB; eapply put_range_length; eauto|].
      eapply only_carries; [exact HB|exact H1|exact EB|rewrite zip_length; lia|]. intros t h Ht Hh. now apply blk_gemmH with (k := k).
  - apply bind_ok in E as (C' & EC & E). inversion E; subst g'. clear E.
    eapply good_bind; [apply Pp|apply Pq|apply completes_good, (lay_hemm_cAb o RT N p q mb nb rsrc csrc n ldh (cs_H g) HL s) with (V := blk (cs_B g)) (W := blk (cs_C g))|].
    + intros i j Hi Hj. apply (HS i j Hi Hj).
    + intros i j Hi Hj. destruct (HS i j Hi Hj) as [_ _ _ _ _ _ [X Y]]. rewrite X, Y. auto.
    + intros i Hi. specialize (Hr i Hi). nia.
    + intros i j Hi Hj. destruct (HS i j Hi Hj) as [_ _ _ [LC HC] _ _ _]. apply carries_holds; auto.
    + intros i j Hi Hj. destruct (HS i j Hi Hj) as [_ [LC HC] _ _ _ _ _]. apply carries_len in HC. nia.
    + right. intros i Hi. destruct (HS i 0 Hi Pq) as [_ [LC HC] _ _ _ _ _]. apply carries_holds; auto.
    + intros a Ha. cbv beta in Ha. apply good_done. intros i j Hi Hj. eexists. split; [reflexivity|]. destruct (Ha i j Hi Hj) as [H1 H2]. pose proof (HS i j Hi Hj) as []. destruct hp_C as [LB HB].
      split; [reflexivity|]. cbn [snd done_]. rewrite H2. constructor; cbn; auto. split; [rewrite <- LB; eapply put_range_length; eauto|].
      eapply only_carries; [exact HB|exact H1|exact EC|rewrite zip_length; lia|]. intros t h Ht Hh. now apply blk_gemmN with (k := k).
Qed.
End Calls.
