(** Proofs about the element-level model, part 2: Element-level loops over the stored matrix. *)
From Coq Require Import List Arith Bool Lia.
Require Import Verif.Base Verif.DistModel Verif.DistSpec Verif.DistProofs Verif.DistProofs2 Verif.FlatModel Verif.FlatSpec.
Require Import Verif.FlatProofs.
Import ListNotations.

(** ** symOrHermMatrix, sequential *)
Lemma seq_symherm_spec {T} (cj : T -> T) upper N ld G (H : list T) : N <= ld -> stores (seq 0 N) (seq 0 N) ld G H ->
  exists H', seq_symherm cj upper N ld H = Ok H' /\ (length H' = length H /\
    stores (seq 0 N) (seq 0 N) ld
      (fun g h => if (if upper then h <? g else g <? h) then cj (G h g) else G g h) H' /\
    (forall k, padding N N ld k -> nth_error H' k = nth_error H k)).
Proof.
  intros Hld HS.
  assert (HE : forall a b, a < N -> b < N -> nth_error H (a + b * ld) = Some (G a b)).
  { intros a b Ha Hb. apply HS; apply nth_error_seq; lia. }
  set (tri := fun a b : nat => if upper then b <? a else a <? b).
  set (tgt := fun k => if tri (k mod ld) (k / ld) && (k mod ld <? N) && (k / ld <? N) then option_map cj (nth_error H (k / ld + (k mod ld) * ld)) else nth_error H k).
  assert (HT : forall a b, a < N -> b < N -> tri a b = true -> tgt (a + b * ld) = Some (cj (G b a))).
  { intros a b Ha Hb Ht. unfold tgt. rewrite pos_mod, pos_div by lia. rewrite Ht.
    replace (a <? N) with true by (symmetry; apply Nat.ltb_lt; lia). replace (b <? N) with true by (symmetry; apply Nat.ltb_lt; lia).
    cbn [andb]. rewrite HE by auto. reflexivity. }
  assert (STEP : forall D H' a b, prog ld H tgt D H' -> a < N -> b < N -> tri a b = true -> ~ D b a ->
    exists H'', (let! x := rd H' (b + a * ld) in wr H' (a + b * ld) (cj x)) = Ok H'' /\ prog ld H tgt (fun x y => D x y \/ (x = a /\ y = b)) H'').
  { intros D H' a b P Ha Hb Ht Hn. pose proof P as [L Q]. destruct (Q (b + a * ld)) as [_ Q2]. rewrite pos_mod, pos_div in Q2 by lia.
    unfold rd. rewrite (Q2 Hn), HE by lia. cbn [bind].
    assert (a + b * ld < length H) by (apply nth_error_Some; rewrite HE by lia; discriminate).
    rewrite wr_ok by lia. eexists. split; [reflexivity|]. apply prog_upd; auto; lia. }
  assert (FIN : forall H', prog ld H tgt (fun x y => x < N /\ y < N /\ tri x y = true) H' ->
    length H' = length H /\ stores (seq 0 N) (seq 0 N) ld (fun g h => if tri g h then cj (G h g) else G g h) H' /\
    (forall k, padding N N ld k -> nth_error H' k = nth_error H k)).
  { intros H' [L P]. split; auto. split.
    - intros a b g h Ha Hb. apply nth_error_seq in Ha, Hb. destruct Ha as [Ha ->], Hb as [Hb ->]. cbn [Nat.add].
      destruct (P (a + b * ld)) as [P1 P2]. rewrite pos_mod, pos_div in P1, P2 by lia.
      destruct (tri a b) eqn:E; [rewrite P1, HT by auto; auto|]. rewrite P2, HE; auto. intros (_ & _ & F). discriminate.
    - intros k Hk. apply P. unfold padding in Hk. intros (F1 & F2 & _). lia. }
  unfold seq_symherm. destruct upper.
  - apply (for_run (fun j H' => prog ld H tgt (fun x y => y < x /\ x < j) H')).
    + split; auto. intros k. split; [lia|auto].
    + intros j Hj [_ Lj] P.
      apply (for_run (fun i H' => prog ld H tgt (fun x y => (y < x /\ x < j) \/ (x = j /\ y < i)) H')).
      * eapply prog_ext; [|exact P]. intros a b. cbv beta. lia.
      * intros i Hi [_ Li] Pi. edestruct (STEP _ Hi j i Pi) as (H2 & E2 & P2); [lia|lia|apply Nat.ltb_lt; lia|cbv beta; lia|].
        exists H2. split; [exact E2|]. eapply prog_ext; [|exact P2]. intros a b. cbv beta. lia.
      * intros H1 P1. eapply prog_ext; [|exact P1]. intros a b. cbv beta. lia.
    + intros H' P. apply FIN. eapply prog_ext; [|exact P]. intros a b. cbv beta. unfold tri. rewrite Nat.ltb_lt. lia.
  - apply (for_run (fun i H' => prog ld H tgt (fun x y => x < y /\ y < i) H')).
    + split; auto. intros k. split; [lia|auto].
    + intros i Hi [_ Li] P.
      apply (for_run (fun j H' => prog ld H tgt (fun x y => (x < y /\ y < i) \/ (y = i /\ x < j)) H')).
      * eapply prog_ext; [|exact P]. intros a b. cbv beta. lia.
      * intros j Hj [_ Lj] Pj. edestruct (STEP _ Hj j i Pj) as (H2 & E2 & P2); [lia|lia|apply Nat.ltb_lt; lia|cbv beta; lia|].
        exists H2. split; [exact E2|]. eapply prog_ext; [|exact P2]. intros a b. cbv beta. lia.
      * intros H1 P1. eapply prog_ext; [|exact P1]. intros a b. cbv beta. lia.
    + intros H' P. apply FIN. eapply prog_ext; [|exact P]. intros a b. cbv beta. unfold tri. rewrite Nat.ltb_lt. lia.
Qed.

(** ** reading *)
Lemma nth_error_skip {A} (l : list A) : forall c k, c <= k -> nth_error (skipn c l) (k - c) = nth_error l k.
Proof.
  induction l as [|x l IH]; intros c k Hc.
  - rewrite skipn_nil. now destruct k, c, (_ - _).
  - destruct c; cbn [skipn]; [f_equal; lia|]. destruct k; [lia|]. simpl. apply IH. lia.
Qed.
Lemma nth_error_put {A} (l l' : list A) off xs k : put_range l off xs = Ok l' ->
  nth_error l' k = if (off <=? k) && (k <? off + length xs) then nth_error xs (k - off) else nth_error l k.
Proof.
  intros H. apply put_range_inv in H as [H ->]. destruct (off <=? k) eqn:E1; cbn [andb].
  - apply Nat.leb_le in E1. rewrite nth_error_app2 by (rewrite firstn_length; lia). rewrite firstn_length, Nat.min_l by lia.
    destruct (k <? off + length xs) eqn:E2.
    + apply Nat.ltb_lt in E2. now rewrite nth_error_app1 by lia.
    + apply Nat.ltb_ge in E2. rewrite nth_error_app2 by lia.
      transitivity (nth_error (skipn (off + length xs) l) (k - (off + length xs))); [f_equal; lia|].
      apply nth_error_skip. lia.
  - apply Nat.leb_gt in E1. rewrite nth_error_app1 by (rewrite firstn_length; lia).
    clear -E1. revert off E1. revert k. induction l as [|x l IH]; intros k off Ho; [now rewrite firstn_nil|].
    destruct off; [lia|]. destruct k; simpl; auto. apply IH. lia.
Qed.

Lemma prog_put {T} ld (H : list T) tgt D H' a b xs : prog ld H tgt D H' -> a + length xs <= ld -> a + b * ld + length xs <= length H ->
  (forall t, t < length xs -> tgt (a + t + b * ld) = nth_error xs t) ->
  exists H'', put_range H' (a + b * ld) xs = Ok H'' /\
    prog ld H tgt (fun x y => D x y \/ (a <= x < a + length xs /\ y = b)) H''.
Proof.
  intros [L P] Ha Hb Hv.
  assert (E : exists l', put_range H' (a + b * ld) xs = Ok l') by (eexists; apply put_range_ok; lia). destruct E as [l' E].
  exists l'. split; [exact E|]. split; [apply put_range_length in E; lia|]. intros k. rewrite (nth_error_put _ _ _ _ k E).
  destruct (P k) as [P1 P2]. destruct ((a + b * ld <=? k) && (k <? a + b * ld + length xs)) eqn:B.
  - apply andb_prop in B as [B1 B2]. apply Nat.leb_le in B1. apply Nat.ltb_lt in B2.
    assert (k = (a + (k - (a + b * ld))) + b * ld) as Ek by lia. remember (k - (a + b * ld)) as t. subst k.
    rewrite pos_mod, pos_div by lia. split; [intros _; symmetry; apply Hv; lia|intros Q; exfalso; apply Q; right; lia].
  - split.
    + intros [Q|Q]; [auto|]. exfalso. assert (0 < ld) by lia. pose proof (pos_split k ld ltac:(auto)) as Ek.
      destruct Q as [Q1 Q2]. rewrite Q2 in Ek. apply andb_false_iff in B as [B|B]; [apply Nat.leb_gt in B|apply Nat.ltb_ge in B]; lia.
    + intros Q. apply P2. tauto.
Qed.

Lemma nth_error_range {A} (l xs : list A) off n t : get_range l off n = Ok xs -> length xs = n /\ (t < n -> nth_error xs t = nth_error l (off + t)).
Proof.
  intros H. apply get_range_inv in H as [H ->]. split; [rewrite firstn_length, skipn_length; lia|]. intros Ht.
  assert (E : forall m (l0 : list A) i, i < m -> nth_error (firstn m l0) i = nth_error l0 i).
  { induction m; intros [|z l0] [|i] Hi; simpl; try lia; auto. apply IHm. lia. }
  rewrite E by auto. revert l H. induction off; intros [|z l] H; simpl in *; auto; try lia. apply IHoff. lia.
Qed.

Lemma read_block_spec {T} (file : list T) N G m n off0 off1 (H : list T) : in_file file N G ->
  off0 + m <= N -> off1 + n <= N -> length H = m * n ->
  exists H', read_block file N m n off0 off1 H = Ok H' /\ (length H' = length H /\ stores (seq off0 m) (seq off1 n) m G H').
Proof.
  intros [FL FG] H0 H1 HL. unfold read_block.
  destruct (Nat.eq_dec m 0) as [->|Hm].
  { apply (for_run (fun _ H' => length H' = length H)); auto.
    - intros y H' [_ Hy] L. assert (off0 + N * (off1 + y) + 0 <= length file \/ ~ (off0 + N * (off1 + y) + 0 <= length file)) as [B|B] by lia.
      + rewrite get_range_ok by lia. cbn [bind firstn]. rewrite put_range_ok by (simpl; lia). eexists; split; [reflexivity|].
        simpl. destruct H'; auto; simpl in *; lia.
      + exfalso. nia.
    - intros H' L. split; auto. intros a b g h Ha. apply nth_error_seq in Ha. lia. }
  set (tgt := fun k => Some (G (off0 + k mod m) (off1 + k / m))).
  apply (for_run (fun y H' => prog m H tgt (fun a b => b < y) H')).
  - split; auto. intros k. split; [lia|auto].
  - intros y H' [_ Hy] P.
    assert (EB : exists xs, get_range file (off0 + N * (off1 + y)) m = Ok xs) by (eexists; apply get_range_ok; nia).
    destruct EB as [xs E]. rewrite E. cbn [bind]. destruct (nth_error_range _ _ _ _ 0 E) as [Lx _].
    replace (m * y) with (0 + y * m) by lia.
    edestruct (prog_put m H tgt _ H' 0 y xs P) as (H2 & E2 & P2); [lia| | |].
    + rewrite HL, Lx. nia.
    + intros t Ht. unfold tgt. rewrite pos_mod, pos_div by lia. symmetry. rewrite (proj2 (nth_error_range _ _ _ _ t E) ltac:(lia)).
      rewrite <- FG by lia. f_equal. lia.
    + exists H2. split; [exact E2|].
      destruct P2 as [L2 P2]. split; auto. intros k. destruct (P2 k) as [A1 A2]. split; intros Hk; [apply A1|apply A2]; cbv beta.
      * assert (k mod m < m) by (apply Nat.mod_upper_bound; lia). lia.
      * lia.
  - intros H' [L P]. split; auto. intros a b g h Ha Hb. apply nth_error_seq in Ha, Hb. destruct Ha as [Ha ->], Hb as [Hb ->].
    destruct (P (a + b * m)) as [P1 _]. rewrite pos_div in P1 by lia. rewrite P1 by lia. unfold tgt. now rewrite pos_mod, pos_div by lia.
Qed.

Lemma read_cyclic_spec {T} (file : list T) N G R C rows cols (H : list T) : in_file file N G ->
  describes rows R -> describes cols C -> Forall (fun l => 0 < l) (d_lens R) ->
  (forall g, In g rows -> g < N) -> (forall h, In h cols -> h < N) ->
  length H = length rows * length cols ->
  exists H', read_cyclic file N R C H = Ok H' /\ (length H' = length H /\ stores rows cols (length rows) G H').
Proof.
  intros [FL FG] HR HC PR BR BC HL. unfold read_cyclic. pose proof HR as (_ & EmR & _). rewrite EmR. set (m := length rows) in *.
  set (tgt := fun k => match nth_error rows (k mod m), nth_error cols (k / m) with Some g, Some h => Some (G g h) | _, _ => nth_error H k end).
  apply (for_run (fun j H' => prog m H tgt (fun x y => y < list_sum (firstn j (d_lens C)) /\ x < m) H')).
  { split; auto. intros k. simpl. split; [lia|auto]. }
  - intros j Hj [_ Lj] P.
    destruct (describes_rd _ _ j HC Lj) as (clen & coff & C1 & C2 & C3 & C4 & C5). pose proof (describes_mono _ _ _ HC Lj) as Mj.
    rewrite C4 in *. set (B := list_sum (firstn j (d_lens C))) in *.
    apply (for_run (fun i H' => prog m H tgt (fun x y => (y < B /\ x < m) \/ (B <= y < B + clen /\ x < list_sum (firstn i (d_lens R)))) H')).
    { eapply prog_ext; [|exact P]. intros a b. simpl. lia. }
    + intros i Hi [_ Li] Pi.
      destruct (describes_rd _ _ i HR Li) as (rlen & roff & R1 & R2 & R3 & R4 & R5). pose proof (describes_mono _ _ _ HR Li) as Mi.
      assert (Pr : 0 < rlen). { rewrite Forall_forall in PR. apply PR. eapply nth_error_In. apply rd_ok. exact R1. }
      rewrite R4 in *. set (A := list_sum (firstn i (d_lens R))) in *.
      rewrite C1, C2, C3, R1, R2, R3. cbn [bind]. clear C1 C2 C3 R1 R2 R3. fold m in Mi.
      apply (for_run (fun q H' => prog m H tgt (fun x y => (y < B /\ x < m) \/ (B <= y < B + clen /\ x < A) \/ (B <= y < B + q /\ A <= x < A + rlen)) H')).
      { eapply prog_ext; [|exact Pi]. intros a b. simpl. lia. }
      * intros q Hq [_ Lq] Pq. pose proof (C5 q Lq) as Ec. pose proof (BC _ (nth_error_In _ _ Ec)) as Bc.
        pose proof (BR _ (nth_error_In _ _ (R5 (rlen - 1) ltac:(lia)))) as Br.
        assert (BG : (q + coff) * N + roff + rlen <= length file) by nia.
        destruct (get_range file ((q + coff) * N + roff) rlen) as [xs| |] eqn:E; [|rewrite get_range_ok in E by lia; discriminate..].
        cbn [bind]. destruct (nth_error_range _ _ _ _ 0 E) as [Lx _].
        replace ((q + B) * m + A) with (A + (B + q) * m) by lia.
        edestruct (prog_put m H tgt _ Hq A (B + q) xs Pq) as (H2 & E2 & P2); [lia| | |].
        -- rewrite HL, Lx. nia.
        -- intros t Ht. rewrite Lx in Ht. unfold tgt. rewrite pos_mod, pos_div by lia. rewrite (R5 t Ht), Ec.
           symmetry. rewrite (proj2 (nth_error_range _ _ _ _ t E) ltac:(lia)).
           pose proof (BR _ (nth_error_In _ _ (R5 t Ht))). rewrite <- FG by lia. f_equal. lia.
        -- exists H2. split; [exact E2|]. rewrite Lx in P2. eapply prog_ext; [|exact P2]. intros a b. cbv beta. lia.
      * intros H1 P1. eapply prog_ext; [|exact P1]. intros a b. cbv beta. try rewrite R4. lia.
    + intros H1 P1. eapply prog_ext; [|exact P1]. intros a b. cbv beta.
      rewrite (describes_total rows R HR : list_sum (firstn (0 + d_blocks R) (d_lens R)) = _). fold m. lia.
  - intros H' [L P]. split; auto. intros a b g h Ha Hb.
    assert (a < m) by (apply nth_error_Some; congruence). assert (b < length cols) by (apply nth_error_Some; congruence).
    destruct (P (a + b * m)) as [P1 _]. rewrite pos_mod, pos_div in P1 by lia.
    rewrite (describes_total cols C HC : list_sum (firstn (0 + d_blocks C) (d_lens C)) = _) in P1.
    rewrite P1 by lia. unfold tgt. now rewrite pos_mod, pos_div, Ha, Hb by lia.
Qed.

Lemma bc_lens_pos N mb p src i d : 0 < mb -> src < p -> i < p -> bc_ctor N mb p src i = Ok d -> Forall (fun l => 0 < l) (d_lens d).
Proof.
  intros Hmb Hs Hi H. destruct (bc_ctor_inv _ _ _ _ _ _ Hmb Hs Hi H) as (_ & _ & _ & E & _). rewrite E.
  apply Forall_forall. intros l Hl. apply in_map_iff in Hl as (b & <- & Hb). unfold owned_blocks in Hb. apply filter_In in Hb as [Hb _].
  apply in_seq in Hb. unfold blen. pose proof (nblocks_le N mb Hmb). nia.
Qed.

(** ** local positions *)
Lemma filter_seq_nth f N g : g < N -> f g = true -> nth_error (filter f (seq 0 N)) (length (filter f (seq 0 g))) = Some g.
Proof.
  intros Hg Hf. replace N with (g + S (N - g - 1)) by lia. rewrite seq_app, filter_app, nth_error_app2 by lia.
  rewrite Nat.sub_diag. simpl. now rewrite Hf.
Qed.
Lemma lpos_owned N nb p src g : 0 < nb -> src < p -> g < N ->
  nth_error (owned N nb p src (owner nb p src g)) (lpos nb p g) = Some g.
Proof.
  intros Hnb Hs Hg. pose proof (owner_lt nb p src g ltac:(lia)) as Ho.
  replace (lpos nb p g) with (length (owned g nb p src (owner nb p src g))).
  { unfold owned. apply filter_seq_nth; auto. apply Nat.eqb_refl. }
  rewrite <- numroc_counts by auto. unfold numroc, lpos.
  assert (E : mydist (owner nb p src g) src p = (g / nb) mod p). { pose proof (proj1 (owner_iff nb p src (owner nb p src g) g Hs Ho) eq_refl). lia. }
  rewrite E, Nat.ltb_irrefl, Nat.eqb_refl. simpl. lia.
Qed.
