(** Descriptors of the distributed vector blocks. *)
From Coq Require Import List Arith Bool ZArith Lia.
Require Import Verif.Base Verif.DistModel Verif.DistSpec Verif.DistProofs Verif.DistProofs2 Verif.FlatModel Verif.FlatProofs2 Verif.KerSpec Verif.BlkProofs Verif.DsProofs2 Verif.ScalModel Verif.ScalSpec.
Import ListNotations.

Lemma g2p_owner nb p src g : indxg2p nb src p g = owner nb p src g.
Proof. unfold indxg2p, owner. now rewrite Nat.add_comm. Qed.
Lemma g2l_lpos nb p g : indxg2l nb p g = lpos nb p g.
Proof.
  unfold indxg2l, lpos. destruct (Nat.eq_dec nb 0) as [->|Hn]; [cbn; lia|]. destruct (Nat.eq_dec p 0) as [->|Hp]; [rewrite Nat.mul_0_r; cbn; lia|].
  rewrite Nat.div_div by auto. lia.
Qed.
Lemma g2l_one nb c : 0 < nb -> indxg2l nb 1 c = c.
Proof. intros H. unfold indxg2l. rewrite Nat.mul_1_r. pose proof (Nat.div_mod c nb). lia. Qed.

(** what a valid descriptor looks like *)
Definition plain_desc (N n mb rsrc ld : nat) (d : desc) : Prop := s_m d = N /\ s_n d = n /\ s_mb d = mb /\ 0 < s_nb d /\ s_rsrc d = rsrc /\ s_lld d = ld.
Lemma descinit_plain N n p i mb nb rsrc ld : 0 < mb -> 0 < nb -> rsrc < p -> i < p -> length (owned N mb p rsrc i) = ld -> 0 < ld ->
  fst (descinit p 1 i 0 N n mb nb rsrc 0 ld) = 0%Z /\ plain_desc N n mb rsrc ld (snd (descinit p 1 i 0 N n mb nb rsrc 0 ld)).
Proof.
  intros Hm Hn Hs Hi Hl H0. unfold descinit. rewrite numroc_counts, Hl by auto. cbn [fst snd].
  assert (E1 : (mb <? 1) = false) by (apply Nat.ltb_ge; lia). assert (E2 : (nb <? 1) = false) by (apply Nat.ltb_ge; lia).
  assert (E3 : (p <=? rsrc) = false) by (apply Nat.leb_gt; lia). assert (E4 : (ld <? Nat.max 1 ld) = false) by (apply Nat.ltb_ge; lia).
  rewrite E1, E2, E3. cbn [Nat.leb]. rewrite E4. split; auto. unfold plain_desc. cbn [s_m s_n s_mb s_nb s_rsrc s_lld]. repeat split; lia.
Qed.
Lemma bc_desc_plain N p mb rsrc n i : 0 < mb -> rsrc < p -> i < p -> 0 < n -> owned N mb p rsrc i <> [] ->
  fst (bc_desc N p mb rsrc n i) = 0%Z /\ plain_desc N n mb rsrc (length (owned N mb p rsrc i)) (snd (bc_desc N p mb rsrc n i)).
Proof.
  intros Hm Hs Hi Hn Ho. unfold bc_desc. rewrite numroc_counts by auto. apply descinit_plain; auto; [apply Nat.min_glb_lt; lia|]. destruct (owned N mb p rsrc i); [congruence|simpl; lia].
Qed.
Lemma blk_desc_bc N p ml n i : in_blocks N ml p -> i < p -> blk_desc N p ml n i = bc_desc N p (blk_mb N ml p 0) 0 n i.
Proof.
  intros HB Hi. unfold blk_desc, bc_desc. pose proof HB as (H1 & H2 & H3 & H4 & H5). fold (bsz N ml p).
  rewrite numroc_counts, (owned_len N ml p HB), (mb_all N ml p HB) by (auto; try apply (bsz_facts N ml p HB); lia). reflexivity.
Qed.

Lemma plain_right N n p mb rsrc i d : 0 < mb -> rsrc < p -> i < p -> plain_desc N n mb rsrc (length (owned N mb p rsrc i)) d -> right_desc N n p (owned N mb p rsrc) i d.
Proof.
  intros Hm Hs Hi (E1 & E2 & E3 & E4 & E5 & E6). split; auto. split; auto. intros g c Hg Hc. unfold sl_process, sl_place. rewrite E3, E5, E6, g2p_owner, g2l_lpos, g2l_one by auto.
  split; [apply in_owned; auto|]. split; [unfold owner; apply Nat.mod_upper_bound; lia|].
  intros a Ha. destruct (lpos_nth _ _ _ _ _ _ _ Hm Hs Ha) as (_ & -> & ->). auto.
Qed.
Theorem cyclic_right N p mb rsrc n i : 0 < mb -> rsrc < p -> i < p -> 0 < n -> owned N mb p rsrc i <> [] ->
  fst (bc_desc N p mb rsrc n i) = 0%Z /\ right_desc N n p (owned N mb p rsrc) i (snd (bc_desc N p mb rsrc n i)).
Proof. intros. destruct (bc_desc_plain N p mb rsrc n i) as [A B]; auto. split; auto. now apply (plain_right N n p mb rsrc). Qed.

(** a process that holds no rows *)
Theorem cyclic_empty N p mb rsrc n i : 0 < mb -> rsrc < p -> i < p -> 0 < n -> owned N mb p rsrc i = [] -> fst (bc_desc N p mb rsrc n i) = (-9)%Z.
Proof.
  intros Hm Hs Hi Hn Ho. unfold bc_desc, descinit. rewrite numroc_counts, Ho by auto. cbn [fst length].
  assert (E1 : (mb <? 1) = false) by (apply Nat.ltb_ge; lia). assert (E2 : (Nat.min 32 n <? 1) = false) by (apply Nat.ltb_ge, Nat.min_glb; lia).
  assert (E3 : (p <=? rsrc) = false) by (apply Nat.leb_gt; lia). rewrite E1, E2, E3. reflexivity.
Qed.

(** block distributions *)
Lemma in_piece N ml p i g : In g (piece N ml p i) <-> i * ml <= g < i * ml + (if i =? p - 1 then N - i * ml else ml).
Proof. unfold piece. rewrite in_seq. tauto. Qed.
Theorem blocks_right N p ml n : 0 < p -> 0 < ml -> (p - 1) * ml < N -> (Z.of_nat N < 2 ^ 64)%Z -> 0 < n ->
  ((forall i, i < p -> fst (blk_desc N p ml n i) = 0%Z /\ right_desc N n p (piece N ml p) i (snd (blk_desc N p ml n i))) <-> p = 1 \/ N <= p * ml).
Proof.
  intros Hp Hl Hr HN Hn. split.
  - intros H. destruct (Nat.eq_dec p 1) as [|Hp1]; auto. destruct (Nat.le_gt_cases N (p * ml)) as [|G]; auto. exfalso.
    destruct (H 0 Hp) as (_ & _ & _ & R). destruct (R (p * ml) 0 G Hn) as (R1 & _).
    unfold sl_process in R1. unfold blk_desc, descinit in R1. cbn [snd s_mb s_rsrc] in R1.
    assert (E : blk_mb N ml p 0 = ml).
    { unfold blk_mb, blk_size. assert (X : (0 <? p - 1) = true) by (apply Nat.ltb_lt; lia). assert (Y : (0 =? p - 1) = false) by (apply Nat.eqb_neq; lia). now rewrite X, Y. }
    rewrite E in R1. replace (Nat.max 1 ml) with ml in R1 by lia. cbn [Nat.min] in R1. unfold indxg2p in R1. rewrite Nat.div_mul, Nat.add_0_l, Nat.mod_same in R1 by lia.
    apply in_piece in R1. assert (Y : (0 =? p - 1) = false) by (apply Nat.eqb_neq; lia). rewrite Y in R1. nia.
  - intros Hc i Hi. assert (HB : in_blocks N ml p) by (unfold in_blocks; auto). rewrite (blk_desc_bc N p ml n i HB Hi). fold (bsz N ml p).
    pose proof (owned_ne N ml p HB i Hi) as Ho.
    destruct (cyclic_right N p (bsz N ml p) 0 n i) as [A B]; auto; [apply (bsz_facts N ml p HB)|]. split; auto.
    destruct B as (B1 & B2 & B3). split; auto. split; auto. intros g c Hg Hk. destruct (B3 g c Hg Hk) as (C1 & C2 & C3). rewrite (owned_piece N ml p HB) in C1 by auto.
    split; auto. split; auto. intros a Ha. rewrite <- (owned_piece N ml p HB) in Ha |- * by auto. auto.
Qed.
