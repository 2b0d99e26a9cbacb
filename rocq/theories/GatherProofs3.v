(** Gathering and scattering are inverse to each other, in both layouts. *)
From Coq Require Import List Arith ZArith Lia.
Require Import Verif.Base Verif.DistModel Verif.DistSpec Verif.DistProofs Verif.DistProofs2 Verif.FlatModel Verif.FlatSpec Verif.FlatProofs Verif.FlatProofs2 Verif.RedistModel Verif.RedistSpec
  Verif.RedistProofs Verif.RedistProofs2 Verif.GatherProofs Verif.GatherProofs2.
Import ListNotations.

Lemma holds_rows_eq {T} rows block (V : nat -> nat -> T) (l l' : list T) : 0 < length rows ->
  length l = length rows * block -> length l' = length rows * block ->
  holds rows 0 block (length rows) V l -> holds rows 0 block (length rows) V l' -> l = l'.
Proof.
  intros HN L1 L2 H1 H2. set (m := length rows) in *. apply nth_error_ext. intros k. destruct (Nat.lt_ge_cases k (m * block)) as [Hk|Hk].
  - pose proof (pos_split k m HN) as E. pose proof (Nat.mod_upper_bound k m ltac:(lia)) as Hm.
    assert (k / m < block) by (apply Nat.div_lt_upper_bound; lia).
    destruct (nth_error rows (k mod m)) as [g|] eqn:Eg; [|apply nth_error_None in Eg; unfold m in *; lia].
    rewrite E, (H1 _ g (k / m)), (H2 _ g (k / m)); auto; lia.
  - rewrite (proj2 (nth_error_None l k)), (proj2 (nth_error_None l' k)) by lia. reflexivity.
Qed.

Section Cyclic.
Context {T : Type}.
Variables (N mb p src : nat).
Hypotheses (Hmb : 0 < mb) (Hsrc : src < p) (Hall : p <= nblocks N mb).

Lemma owned_pos i : i < p -> 0 < length (owned N mb p src i).
Proof.
  intros Hi. set (b := (i + (p - src)) mod p). assert (Hb : b < p) by (apply Nat.mod_upper_bound; lia).
  assert (HN : b * mb < N). { pose proof (nblocks_le N mb Hmb). nia. }
  assert (HO : owner mb p src (b * mb) = i).
  { unfold owner. rewrite Nat.div_mul by lia. unfold b. rewrite Nat.add_comm, Nat.add_mod_idemp_r by lia.
    replace (src + (i + (p - src))) with (i + 1 * p) by lia. rewrite Nat.mod_add by lia. now apply Nat.mod_small. }
  assert (HI : In (b * mb) (owned N mb p src i)) by (apply in_owned; auto).
  destruct (owned N mb p src i); [destruct HI|cbn; lia].
Qed.

Lemma scatter_gather_cyclic block (st : nat -> tabs) (R : nat -> dim) (V : nat -> nat -> T) (C D : nat -> list T) (buf target : list T) :
  (forall i, i < p -> bc_blocks_of N mb p src i = Ok (st i)) -> (forall i, i < p -> bc_ctor N mb p src i = Ok (R i)) ->
  (forall i, i < p -> holds (owned N mb p src i) 0 block (length (owned N mb p src i)) V (C i)) ->
  (forall i, i < p -> length (C i) = length (owned N mb p src i) * block /\ length (D i) = length (owned N mb p src i) * block) ->
  length buf = N * block -> length target = N * block ->
  exists t, collect_cyclic N block (map (fun i => t_lens (st i)) (seq 0 p)) (map (fun i => t_offs (st i)) (seq 0 p)) (bc_send_lens N mb p src) C buf target = Ok t /\
    forall i, i < p -> pre_application N (R i) 0 block t (D i) = Ok (C i).
Proof.
  intros H1 HR HC L LB LT.
  destruct (gather_cyclic N mb p src Hmb Hsrc Hall block st V C buf target) as (t & E & Lt & Ht & _); auto; try lia.
  exists t. split; [exact E|]. intros i Hi. destruct (L i Hi) as [LC LD].
  destruct (pre_application_ok N (R i) (owned N mb p src i) 0 block V t (D i)) as (c & Ec & Lc & Hc & _); eauto.
  - apply (bc_describes N mb p src i); auto.
  - apply (bc_lens_pos N mb p src i); auto.
  - intros g Hg. apply in_owned in Hg. tauto.
  - now apply owned_pos.
  - rewrite LD. lia.
  - rewrite Ec. f_equal. apply (holds_rows_eq (owned N mb p src i) block V); auto; try lia. now apply owned_pos.
Qed.
End Cyclic.

Section Block.
Context {T : Type}.
Variables (N len d : nat).
Hypotheses (Hd : 0 < d) (Hl : 0 < len) (HW : (Z.of_nat N < w64)%Z) (Hlast : (d - 1) * len < N).
Local Notation rows i := (seq (i * len) (blk_size N len d i)).

Lemma blk_scatter block V (Vl C : list T) i : i < d -> holds (seq 0 N) 0 block N V Vl -> length C = blk_size N len d i * block ->
  exists C', pre_application N (blk_ctor N len d i) 0 block Vl C = Ok C' /\ length C' = length C /\ holds (rows i) 0 block (blk_size N len d i) V C'.
Proof.
  intros Hi HV LC. pose proof (blk_size_pos N len d Hd Hl HW Hlast i Hi) as HP.
  assert (HN : i * len + blk_size N len d i <= N).
  { unfold blk_size. destruct (Nat.ltb_spec i (d - 1)); [nia|]. rewrite sub64_ge by (auto; lia). replace i with (d - 1) by lia. lia. }
  destruct (pre_application_ok N (blk_ctor N len d i) (rows i) 0 block V Vl C) as (c & E & L & H & _); eauto.
  - apply (blk_describes N).
  - cbn. constructor; auto.
  - intros g Hg. apply in_seq in Hg. lia.
  - now rewrite seq_length.
  - rewrite seq_length, LC. lia.
  - exists c. split; [exact E|]. split; [exact L|]. now rewrite seq_length in H.
Qed.

Lemma gather_scatter_block block V (Vl : list T) (C : nat -> list T) (target : list T) :
  holds (seq 0 N) 0 block N V Vl -> length Vl = N * block ->
  (forall i, i < d -> length (C i) = blk_size N len d i * block) -> length target = N * block ->
  exists C', (forall i, i < d -> pre_application N (blk_ctor N len d i) 0 block Vl (C i) = Ok (C' i) /\ length (C' i) = length (C i)) /\
    collect_block N block (map (fun x => [x]) (blk_send_lens N len d)) (blk_send_lens N len d) C' target = Ok Vl.
Proof.
  intros HV LV LC LT.
  set (C' := fun i => match pre_application N (blk_ctor N len d i) 0 block Vl (C i) with Ok c => c | _ => [] end).
  exists C'. split.
  - intros i Hi. destruct (blk_scatter block V Vl (C i) i Hi HV (LC i Hi)) as (c & E & L & _). unfold C'. now rewrite E.
  - destruct (gather_block N len d Hd Hl HW Hlast block V C' target) as (t' & E & L & H & _); [|lia|].
    + intros i Hi. destruct (blk_scatter block V Vl (C i) i Hi HV (LC i Hi)) as (c & E & _ & H). unfold C'. rewrite E. exact H.
    + rewrite E. f_equal. clear C' E. apply (holds_rows_eq (seq 0 N) block V); rewrite ?seq_length; auto; [nia|lia].
Qed.

Lemma scatter_gather_block block V (C D : nat -> list T) (target : list T) :
  (forall i, i < d -> holds (rows i) 0 block (blk_size N len d i) V (C i)) ->
  (forall i, i < d -> length (C i) = blk_size N len d i * block /\ length (D i) = blk_size N len d i * block) ->
  length target = N * block ->
  exists t, collect_block N block (map (fun x => [x]) (blk_send_lens N len d)) (blk_send_lens N len d) C target = Ok t /\
    forall i, i < d -> pre_application N (blk_ctor N len d i) 0 block t (D i) = Ok (C i).
Proof.
  intros HC L LT.
  destruct (gather_block N len d Hd Hl HW Hlast block V C target) as (t & E & Lt & Ht & _); [exact HC|lia|].
  exists t. split; [exact E|]. intros i Hi. destruct (L i Hi) as [LC LD].
  destruct (blk_scatter block V t (D i) i Hi Ht LD) as (c & Ec & Lc & Hc). rewrite Ec. f_equal.
  pose proof (blk_size_pos N len d Hd Hl HW Hlast i Hi) as HP.
  apply (holds_rows_eq (rows i) block V); rewrite ?seq_length; auto; lia.
Qed.
End Block.
