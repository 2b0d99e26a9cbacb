(** The block distribution is the block-cyclic one with one block per process. *)
From Coq Require Import List Arith Bool ZArith Lia.
Require Import Verif.Base Verif.DistModel Verif.DistSpec Verif.DistProofs Verif.DistProofs2 Verif.FlatModel Verif.FlatProofs Verif.RedistModel Verif.RedistSpec Verif.GatherProofs2.
Require Import Verif.KerModel Verif.KerSpec Verif.DsModel Verif.DsProofs7.
Import ListNotations.

(** the block size stored on process 0 *)
Definition bsz (N len d : nat) : nat := blk_mb N len d 0.
Section One.
Variables (N len d : nat).
Hypothesis HB : in_blocks N len d.
Notation b := (bsz N len d).

Lemma bsz_eq : b = if d =? 1 then N else len.
Proof.
  destruct HB as (H1 & H2 & H3 & H4 & H5). unfold bsz. destruct (Nat.eqb_spec d 1) as [->|Hd].
  - unfold blk_mb, blk_size. cbn [Nat.sub Nat.mul Nat.eqb Nat.ltb Nat.leb negb andb]. rewrite sub64_ge by (auto; lia). lia.
  - apply blk_mb_eq; auto; lia.
Qed.
Lemma mb_all i : i < d -> blk_mb N len d i = b.
Proof.
  destruct HB as (H1 & H2 & H3 & H4 & H5). intros Hi. destruct (Nat.eq_dec d 1) as [E|Hd]; [replace i with 0 by lia; reflexivity|].
  unfold bsz. rewrite !blk_mb_eq; auto; lia.
Qed.
Lemma bsz_facts : 0 < b /\ (d - 1) * b < N /\ N <= d * b.
Proof.
  rewrite bsz_eq. destruct HB as (H1 & H2 & H3 & H4 & H5). destruct (Nat.eqb_spec d 1) as [->|Hd]; [simpl in *; lia|]. destruct H4; [lia|auto].
Qed.
Lemma off_eq i : i < d -> i * b = i * len.
Proof. intros Hi. rewrite bsz_eq. destruct (Nat.eqb_spec d 1); auto. replace i with 0 by lia. reflexivity. Qed.
Lemma size_eq i : i < d -> blk_size N len d i = blk_size N b d i.
Proof.
  intros Hi. unfold blk_size. destruct (Nat.ltb_spec i (d - 1)).
  - rewrite bsz_eq. destruct (Nat.eqb_spec d 1); auto. lia.
  - now rewrite off_eq by lia.
Qed.
Lemma size_val i : i < d -> blk_size N len d i = if i =? d - 1 then N - i * len else len.
Proof.
  destruct HB as (H1 & H2 & H3 & H4 & H5). intros Hi. unfold blk_size. destruct (Nat.ltb_spec i (d - 1)); destruct (Nat.eqb_spec i (d - 1)); try lia.
  subst i. rewrite sub64_ge; auto. lia.
Qed.
Lemma owned_piece i : i < d -> owned N b d 0 i = piece N len d i.
Proof.
  intros Hi. destruct bsz_facts as (F1 & F2 & F3). pose proof HB as (H1 & H2 & H3 & H4 & H5). rewrite blk_owned; auto; [|lia]. unfold blk_off.
  now rewrite off_eq, <- size_eq, size_val by auto.
Qed.
Lemma owned_len i : i < d -> length (owned N b d 0 i) = blk_size N len d i.
Proof. intros Hi. rewrite owned_piece by auto. unfold piece. now rewrite seq_length, size_val. Qed.
Lemma owned_ne i : i < d -> owned N b d 0 i <> [].
Proof.
  intros Hi E. pose proof (owned_len i Hi) as L. rewrite E in L. cbn [length] in L. pose proof HB as (H1 & H2 & H3 & H4 & H5). rewrite size_val in L by auto.
  destruct (Nat.eqb_spec i (d - 1)); [subst i|]; lia.
Qed.
Lemma owned_concat : concat (map (owned N b d 0) (seq 0 d)) = seq 0 N.
Proof.
  destruct bsz_facts as (F1 & F2 & F3). pose proof HB as (H1 & H2 & H3 & H4 & H5). rewrite <- (blk_own_concat N b d); auto.
  f_equal. apply map_ext_in. intros i Hi. apply in_seq in Hi. apply blk_owned; auto; lia.
Qed.
Lemma one_block i : i < d -> owned_blocks N b d 0 i = [i].
Proof.
  intros Hi. destruct bsz_facts as (F1 & F2 & F3). unfold owned_blocks. assert (En : nblocks N b = d).
  { unfold nblocks. assert (exists r, N + b - 1 = b * d + r /\ r < b) as (r & -> & Hr) by (exists (N + b - 1 - b * d); nia).
    symmetry. apply (Nat.div_unique _ b d r); auto. }
  rewrite En. assert (Es : seq 0 d = seq 0 (i + (1 + (d - i - 1)))) by (f_equal; lia). rewrite Es, !seq_app, !filter_app.
  assert (M : forall k, k < d -> ((k + 0) mod d =? i) = (k =? i)) by (intros k Hk; now rewrite Nat.add_0_r, Nat.mod_small).
  rewrite (filter_none _ (seq 0 i)), (filter_none _ (seq (0 + i + 1) _)).
  - cbn [seq filter app]. rewrite M, Nat.eqb_refl by lia. reflexivity.
  - intros x Hx. apply in_seq in Hx. rewrite M by lia. apply Nat.eqb_neq. lia.
  - intros x Hx. apply in_seq in Hx. rewrite M by lia. apply Nat.eqb_neq. lia.
Qed.
Lemma blen_size i : i < d -> blen N b i = blk_size N len d i.
Proof.
  intros Hi. destruct bsz_facts as (F1 & F2 & F3). pose proof HB as (H1 & H2 & H3 & H4 & H5). rewrite size_eq by auto. unfold blen, blk_size.
  destruct (Nat.ltb_spec i (d - 1)); [nia|]. replace i with (d - 1) by lia. rewrite sub64_ge by (auto; lia). nia.
Qed.
Lemma ctor_eq i : i < d -> bc_ctor N b d 0 i = Ok (blk_ctor N len d i).
Proof.
  intros Hi. destruct bsz_facts as (F1 & F2 & F3). rewrite bc_ctor_ok; try lia; rewrite one_block by auto; [|discriminate].
  cbn [map length]. unfold blk_ctor, blk_off. rewrite owned_len, off_eq, blen_size by auto. reflexivity.
Qed.
Lemma lens_eq : bc_send_lens N b d 0 = blk_send_lens N len d.
Proof.
  pose proof HB as (H1 & _). destruct bsz_facts as (F1 & _).
  assert (L1 : length (blk_send_lens N len d) = d) by (unfold blk_send_lens; now rewrite upd_length, repeat_length).
  apply nth_error_ext. intros k. destruct (Nat.lt_ge_cases k d) as [H|H].
  - rewrite bc_send_lens_nth, blk_send_lens_nth, owned_len by auto. reflexivity.
  - rewrite (proj2 (nth_error_None (blk_send_lens N len d) k)) by lia. apply nth_error_None. unfold bc_send_lens. rewrite map_length, seq_length. lia.
Qed.
Lemma blocks_eq i : i < d -> bc_blocks_of N b d 0 i = Ok (mk_tabs 1 [i * len] [blk_size N len d i]).
Proof.
  intros Hi. destruct bsz_facts as (F1 & _). unfold bc_blocks_of. cbv zeta. rewrite offs_loop_run by lia. rewrite numroc_snd, one_block by (auto; lia).
  cbn [map length]. now rewrite off_eq, blen_size by auto.
Qed.
End One.

Section Two.
Variables (N p q ml nl : nat).
Hypothesis HR : in_blocks N ml p.
Hypothesis HC : in_blocks N nl q.
Notation mb := (bsz N ml p).
Notation nb := (bsz N nl q).
Lemma env_eq ldh n i j : i < p -> j < q -> blk_env N p q ml nl ldh n i j = bc_env N p q mb nb 0 0 ldh n i j.
Proof.
  intros Hi Hj. unfold blk_env, bc_env. cbv zeta. pose proof (bsz_facts _ _ _ HR) as (A & _). pose proof (bsz_facts _ _ _ HC) as (B & _).
  rewrite !numroc_counts, !owned_len, !lens_eq, !mb_all by (auto; lia). rewrite Nat.eqb_refl, andb_true_r. reflexivity.
Qed.
Lemma blk_layout : layout N p q mb nb 0 0.
Proof.
  pose proof (bsz_facts _ _ _ HR) as (A & _). pose proof (bsz_facts _ _ _ HC) as (B & _). pose proof HR as (A1 & _). pose proof HC as (B1 & _).
  repeat split; auto; intros k Hk; now apply owned_ne.
Qed.
Lemma blk_packable : (p = q /\ (p = 1 \/ ml = nl)) \/ p = 1 \/ N = p * ml -> packable N p q mb nb 0 0.
Proof.
  intros H. unfold packable. assert (U : p = 1 -> forall i i', i < p -> i' < p -> length (owned N mb p 0 i) = length (owned N mb p 0 i')).
  { intros E i i' H1 H2. f_equal. f_equal. lia. }
  destruct H as [[E [F|F]]|[E|E]]; [right; auto| |right; auto|].
  - left. subst. auto.
  - right. intros i i' H1 H2. rewrite !owned_len, !size_val by auto.
    destruct (Nat.eqb_spec i (p - 1)), (Nat.eqb_spec i' (p - 1)); subst; try nia.
Qed.
Lemma blk_htab i j : i < p -> j < q -> htab N p q mb nb 0 0 i j (blk_tab N p q ml nl i j).
Proof.
  intros Hi Hj. unfold htab, blk_tab. cbn [g_R g_C g_N g_ms g_lens g_offs]. rewrite !ctor_eq, lens_eq by auto. repeat split; auto.
  exists (fun k => mk_tabs 1 [k * ml] [blk_size N ml p k]). pose proof HR as (A1 & _). split; [|split].
  - intros k Hk. now apply blocks_eq.
  - cbn [t_lens]. unfold blk_send_lens. apply nth_error_ext. intros k. rewrite !nth_error_map. destruct (Nat.lt_ge_cases k p) as [H|H].
    + pose proof (blk_send_lens_nth N ml p k H) as E. unfold blk_send_lens in E. rewrite E, (proj2 (nth_error_seq 0 p k (0 + k))) by auto. reflexivity.
    + rewrite (proj2 (nth_error_None (seq 0 p) k)) by (rewrite seq_length; lia). rewrite (proj2 (nth_error_None _ k)); [reflexivity|]. rewrite upd_length, repeat_length. lia.
  - cbn [t_offs]. apply nth_error_ext. intros k. rewrite !nth_error_map. destruct (Nat.lt_ge_cases k p) as [H|H].
    + rewrite blk_displs_nth, (proj2 (nth_error_seq 0 p k (0 + k))) by auto. reflexivity.
    + rewrite (proj2 (nth_error_None (seq 0 p) k)) by (rewrite seq_length; lia). rewrite (proj2 (nth_error_None _ k)); [reflexivity|].
      unfold blk_displs. rewrite upd_length, map_length, seq_length. lia.
Qed.
End Two.
