(** Proofs about gathering and scattering. *)
From Coq Require Import List Arith Bool Lia.
Require Import Verif.Base Verif.DistModel Verif.DistSpec Verif.DistProofs Verif.DistProofs2 Verif.FlatModel Verif.FlatSpec.
Require Import Verif.FlatProofs Verif.FlatProofs2 Verif.RedistModel Verif.RedistSpec Verif.RedistProofs.
Import ListNotations.

Lemma displs_row_spec lens : forall cnt, snd (displs_row cnt lens) = cnt + list_sum lens /\ length (fst (displs_row cnt lens)) = length lens /\
  forall i, i < length lens -> nth_error (fst (displs_row cnt lens)) i = Some (cnt + list_sum (firstn i lens)).
Proof.
  induction lens as [|x l IH]; intros cnt; cbn [displs_row].
  - simpl. split; [lia|]. split; auto. intros; lia.
  - destruct (IH (cnt + x)) as (A & B & C). destruct (displs_row (cnt + x) l) as [r c]. cbn [fst snd] in *. split; [simpl; lia|]. split; [simpl; lia|].
    intros [|i] Hi; cbn [nth_error firstn]; [f_equal; unfold list_sum; simpl; lia|]. rewrite C by (simpl in Hi; lia). f_equal. unfold list_sum. cbn [fold_right]. lia.
Qed.
Lemma displs_all_spec lens : forall cnt, length (displs_all cnt lens) = length lens /\
  forall j l, nth_error lens j = Some l -> exists ds, nth_error (displs_all cnt lens) j = Some ds /\ length ds = length l /\
    forall i, i < length l -> nth_error ds i = Some (cnt + list_sum (map list_sum (firstn j lens)) + list_sum (firstn i l)).
Proof.
  induction lens as [|x l IH]; intros cnt; cbn [displs_all].
  - simpl. split; auto. intros [|j]; discriminate.
  - destruct (displs_row_spec x cnt) as (A & B & C). destruct (displs_row cnt x) as [r c]. cbn [fst snd] in *. destruct (IH c) as [D E].
    split; [simpl; lia|]. intros [|j] l0 Hj; simpl in Hj.
    + inversion Hj; subst l0. exists r. split; auto. split; auto. intros i Hi. rewrite C by auto. f_equal. simpl. lia.
    + destruct (E j l0 Hj) as (ds & E1 & E2 & E3). exists ds. split; auto. split; auto. intros i Hi. rewrite E3 by auto. f_equal. simpl. lia.
Qed.

(** [tabs_of own lens offs]: the block tables describe the global indices held by every coordinate. *)
Definition tabs_of (own : list (list nat)) (lens offs : list (list nat)) : Prop :=
  length lens = length own /\ length offs = length own /\
  forall j ow ls os, nth_error own j = Some ow -> nth_error lens j = Some ls -> nth_error offs j = Some os ->
    length ls = length os /\ expand os ls = ow /\ 0 < length ls /\ Forall (fun l => 0 < l) ls.

Lemma expand_length offs : forall lens, length offs = length lens -> length (expand offs lens) = list_sum lens.
Proof. induction offs; intros [|l lens] H; simpl in *; try lia; auto. unfold expand in *. simpl. rewrite app_length, seq_length, IHoffs; simpl; lia. Qed.
Lemma concat_nth {A} (ll : list (list A)) : forall j l t x, nth_error ll j = Some l -> nth_error l t = Some x ->
  nth_error (concat ll) (list_sum (map (@length A) (firstn j ll)) + t) = Some x.
Proof.
  induction ll as [|l0 ll IH]; intros [|j] l t x Hj Ht; simpl in *; try discriminate.
  - inversion Hj; subst. rewrite nth_error_app1; auto. apply nth_error_Some. congruence.
  - rewrite nth_error_app2 by lia. replace (_ - _) with (list_sum (map (@length A) (firstn j ll)) + t) by lia. eauto.
Qed.
Lemma concat_length_sum {A} (ll : list (list A)) : length (concat ll) = list_sum (map (@length A) ll).
Proof. induction ll; simpl; auto. rewrite app_length. lia. Qed.
Lemma concat_find {A} (ll : list (list A)) : forall k, k < length (concat ll) -> exists j l t, nth_error ll j = Some l /\ t < length l /\
  k = list_sum (map (@length A) (firstn j ll)) + t.
Proof.
  induction ll as [|l0 ll IH]; intros k Hk; simpl in *; [lia|]. rewrite app_length in Hk. destruct (Nat.lt_ge_cases k (length l0)) as [L|L].
  - exists 0, l0, k. simpl. auto.
  - destruct (IH (k - length l0) ltac:(lia)) as (j & l & t & H1 & H2 & H3). exists (S j), l, t. simpl. split; auto. split; auto. lia.
Qed.

Section Gather.
Context {T : Type}.
Variables (N block : nat) (own lens offs : list (list nat)) (V : nat -> nat -> T) (S : nat -> list T).
Hypothesis HT : tabs_of own lens offs.
Hypothesis HP : length (concat own) = N.
Hypothesis HS : forall i ow, nth_error own i = Some ow -> holds ow 0 block (length ow) V (S i).
Let ms := map (@length nat) own.

Lemma sums_same j : list_sum (map list_sum (firstn j lens)) = list_sum (map (@length nat) (firstn j own)).
Proof.
  destruct HT as (L1 & L2 & H). f_equal. rewrite <- !firstn_map. f_equal. clear HS HP j ms HT.
  revert lens offs L1 L2 H. induction own as [|ow own0 IH]; intros [|ls lens0] [|os offs0] L1 L2 H; simpl in *; try lia; auto.
  f_equal; [|apply (IH lens0 offs0); try lia; intros j; apply (H (Datatypes.S j))].
  destruct (H 0 ow ls os eq_refl eq_refl eq_refl) as (A & B & _). rewrite <- B. symmetry. apply expand_length. auto.
Qed.

Lemma lookup_all j ow : nth_error own j = Some ow -> exists ls os ds, nth_error lens j = Some ls /\ nth_error offs j = Some os /\
  nth_error (displs_all 0 lens) j = Some ds /\ length ls = length os /\ length ds = length ls /\ expand os ls = ow /\ 0 < length ls /\ Forall (fun l => 0 < l) ls /\
  forall i, i < length ls -> nth_error ds i = Some (list_sum (map (@length nat) (firstn j own)) + list_sum (firstn i ls)).
Proof.
  intros Hj. destruct HT as (L1 & L2 & H). assert (j < length own) by (apply nth_error_Some; congruence).
  destruct (nth_error lens j) as [ls|] eqn:E1; [|apply nth_error_None in E1; lia].
  destruct (nth_error offs j) as [os|] eqn:E2; [|apply nth_error_None in E2; lia].
  destruct (displs_all_spec lens 0) as [_ D]. destruct (D j ls E1) as (ds & E3 & E4 & E5).
  destruct (H j ow ls os Hj E1 E2) as (A1 & A2 & A3 & A4). exists ls, os, ds. split; [auto|]. split; [auto|]. split; [auto|]. split; [auto|]. split; [auto|].
  split; [auto|]. split; [auto|]. split; [auto|]. intros i Hi. rewrite E5 by auto. rewrite sums_same. f_equal.
Qed.

Lemma own_pos j ow : nth_error own j = Some ow -> 0 < length ow.
Proof.
  intros Hj. destruct (lookup_all j ow Hj) as (ls & os & ds & _ & _ & _ & A & _ & B & C & D & _). rewrite <- B, expand_length by auto.
  destruct ls as [|x ls]; simpl in *; [lia|]. inversion D; subst. lia.
Qed.
Lemma own_le j ow : nth_error own j = Some ow -> list_sum (map (@length nat) (firstn j own)) + length ow <= N.
Proof.
  intros Hj. pose proof (own_pos _ _ Hj). destruct (nth_error ow (length ow - 1)) as [x|] eqn:E; [|apply nth_error_None in E; lia].
  pose proof (concat_nth own j ow _ x Hj E) as C. assert (X : list_sum (map (@length nat) (firstn j own)) + (length ow - 1) < N) by (rewrite <- HP; apply nth_error_Some; congruence). lia.
Qed.

Definition gathered rows (buf buf' : list T) : Prop := length buf' = length buf /\ holds rows 0 block N V buf' /\
  (forall k, block <= k / N -> nth_error buf' k = nth_error buf k).

Lemma gather_parts_ok (buf : list T) : N * block <= length buf ->
  exists buf', gather_parts N block (displs_all 0 lens) ms S buf = Ok buf' /\ gathered (concat own) buf buf'.
Proof.
  intros HL. unfold gather_parts. unfold ms at 1. rewrite map_length.
  set (tgt := fun k => match nth_error (concat own) (k mod N) with Some g => Some (V g (k / N)) | None => nth_error buf k end).
  apply (for_run (fun i b => prog N buf tgt (fun x y => y < block /\ x < list_sum (map (@length nat) (firstn i own))) b)).
  - split; auto. intros k. simpl. split; [lia|auto].
  - intros i b [_ Hi] P. destruct (nth_error own i) as [ow|] eqn:Eo; [|apply nth_error_None in Eo; lia].
    destruct (lookup_all i ow Eo) as (ls & os & ds & E1 & E2 & E3 & A1 & A2 & A3 & A4 & A5 & A6).
    rewrite (proj2 (rd_ok _ _ _) E3). cbn [bind]. rewrite (proj2 (rd_ok _ _ _) (A6 0 A4)). cbn [bind].
    assert (Em : nth_error ms i = Some (length ow)) by (unfold ms; rewrite nth_error_map, Eo; reflexivity).
    rewrite (proj2 (rd_ok _ _ _) Em). cbn [bind]. rewrite firstn_O. cbn [list_sum fold_right]. rewrite Nat.add_0_r.
    pose proof (own_le _ _ Eo) as B. pose proof (own_pos _ _ Eo) as Bp. set (d := list_sum (map (@length nat) (firstn i own))) in *.
    destruct (move_spec (length ow) N (length ow) 0 d 0 block (S i) b buf tgt _ P) as (b' & E & P'); try lia.
    + intros c t Hc Ht. cbn [Nat.add]. destruct (nth_error ow t) as [g|] eqn:Eg; [|apply nth_error_None in Eg; lia].
      exists (V g c). split; [eapply HS; eauto|]. unfold tgt. rewrite pos_mod, pos_div by lia. unfold d. now rewrite (concat_nth own i ow t g Eo Eg).
    + exists b'. split; auto. eapply prog_ext; [|exact P']. intros x y. cbv beta.
      replace (list_sum (map (@length nat) (firstn (Datatypes.S i) own))) with (d + length ow); [lia|].
      unfold d. rewrite <- !firstn_map. rewrite (firstn_S_nth _ _ _ Em : firstn (Datatypes.S i) (map (@length nat) own) = _). rewrite list_sum_app. simpl. unfold ms. lia.
  - intros b [L P]. cbn [Nat.add] in P. rewrite firstn_all in P. rewrite <- concat_length_sum, HP in P. split; auto. split.
    + intros a g c Ha Hc. assert (a < N) by (rewrite <- HP; apply nth_error_Some; congruence). destruct (P (a + c * N)) as [P1 _].
      rewrite pos_mod, pos_div in P1 by lia. rewrite P1 by lia. unfold tgt. now rewrite pos_mod, pos_div, Ha by lia.
    + intros k Hk. apply P. lia.
Qed.

Hypothesis HPerm : forall g, g < N -> exists j ow, nth_error own j = Some ow /\ In g ow.
Hypothesis HIn : forall j ow g, nth_error own j = Some ow -> In g ow -> g < N.

Lemma gather_sort_ok (buf0 buf target : list T) : gathered (concat own) buf0 buf -> N * block <= length target ->
  exists t', gather_sort N block (displs_all 0 lens) lens offs buf target = Ok t' /\ gathered (seq 0 N) target t'.
Proof.
  intros (_ & HB & _) HL. unfold gather_sort. pose proof HT as (L1 & L2 & _).
  set (tgt := fun k => if k mod N <? N then Some (V (k mod N) (k / N)) else nth_error target k).
  set (dn := fun j x y => y < block /\ exists j' ow, j' < j /\ nth_error own j' = Some ow /\ In x ow).
  apply (for_run (fun j t => prog N target tgt (dn j) t)).
  - split; auto. intros k. split; [|auto]. intros (_ & j' & ow & F & _). lia.
  - intros j t [_ Hj] P. destruct (nth_error own j) as [ow|] eqn:Eo; [|apply nth_error_None in Eo; lia].
    destruct (lookup_all j ow Eo) as (ls & os & ds & E1 & E2 & E3 & A1 & A2 & A3 & A4 & A5 & A6).
    rewrite (proj2 (rd_ok _ _ _) E1). cbn [bind].
    set (bl := fun i x => exists i' o l, i' < i /\ nth_error os i' = Some o /\ nth_error ls i' = Some l /\ o <= x < o + l).
    apply (for_run (fun i t => prog N target tgt (fun x y => dn j x y \/ (y < block /\ bl i x)) t)).
    + eapply prog_ext; [|exact P]. intros x y. cbv beta. split; [auto|]. intros [H|(_ & i' & o & l & F & _)]; [auto|lia].
    + intros i t1 [_ Hi] P1. rewrite (proj2 (rd_ok _ _ _) E3), (proj2 (rd_ok _ _ _) E2). cbn [bind].
      destruct (nth_error ls i) as [len|] eqn:El; [|apply nth_error_None in El; lia].
      destruct (nth_error os i) as [o|] eqn:Ew; [|apply nth_error_None in Ew; lia].
      rewrite (proj2 (rd_ok _ _ _) El), (proj2 (rd_ok _ _ _) (A6 i Hi)), (proj2 (rd_ok _ _ _) Ew). cbn [bind].
      assert (X : forall u, u < len -> nth_error ow (list_sum (firstn i ls) + u) = Some (o + u)) by (intros u Hu; rewrite <- A3; eapply flat_map_seq_nth; eauto).
      assert (Hlen : 0 < len) by (rewrite Forall_forall in A5; apply A5; eapply nth_error_In; eauto).
      pose proof (HIn _ _ _ Eo (nth_error_In _ _ (X (len - 1) ltac:(lia)))) as Bo.
      destruct (move_spec N N len (list_sum (map (@length nat) (firstn j own)) + list_sum (firstn i ls)) o 0 block buf t1 target tgt _ P1) as (t2 & E & P2); try lia.
      * intros c u Hc Hu. exists (V (o + u) c). split.
        -- apply HB; auto. rewrite <- Nat.add_assoc. eapply concat_nth; eauto.
        -- unfold tgt. rewrite pos_mod, pos_div by lia. now rewrite (proj2 (Nat.ltb_lt _ _)) by lia.
      * exists t2. split; auto. eapply prog_ext; [|exact P2]. intros x y. cbv beta. unfold bl. split.
        -- intros [[H|(H & i' & o' & l' & H1 & H2)]|[H1 H2]]; [auto|right..].
           ++ split; auto. exists i', o', l'. split; [lia|auto].
           ++ split; [lia|]. exists i, o, len. auto.
        -- intros [H|(H & i' & o' & l' & H1 & H2 & H3 & H4)]; [auto|]. destruct (Nat.eq_dec i' i) as [->|Ne].
           ++ right. split; [lia|]. congruence.
           ++ left; right. split; auto. exists i', o', l'. split; [lia|auto].
    + intros t1 P1. eapply prog_ext; [|exact P1]. intros x y. cbv beta.
      assert (B : bl (0 + length ls) x <-> In x ow).
      { rewrite <- A3. unfold expand. rewrite in_flat_map. unfold bl. cbn [Nat.add]. split.
        - intros (i' & o & l & H1 & H2 & H3 & H4). exists (o, l). split; [|apply in_seq; simpl; lia].
          eapply nth_error_In with (n := i'). revert H2 H3. clear. revert ls i'. induction os; intros [|l0 ls] [|i']; simpl; intros; try discriminate; auto. congruence.
        - intros ((o & l) & H1 & H2). apply in_seq in H2. cbn [fst snd] in H2. apply In_nth_error in H1 as (i' & H1). exists i', o, l.
          assert (G : nth_error os i' = Some o /\ nth_error ls i' = Some l).
          { revert H1. clear. revert ls i'. induction os; intros [|l0 ls] [|i']; simpl; intros H; try discriminate; auto. inversion H; auto. }
          destruct G as [G1 G2]. split; [apply nth_error_Some; congruence|]. auto. }
      rewrite B. unfold dn. split.
      * intros [(H1 & j' & ow' & H2 & H3)|[H1 H2]]; (split; [auto|]); [exists j', ow'; split; [lia|auto]|exists j, ow; auto].
      * intros (H1 & j' & ow' & H2 & H3 & H4). destruct (Nat.eq_dec j' j) as [->|Ne]; [right; split; [auto|congruence]|].
        left. split; auto. exists j', ow'. split; [lia|auto].
  - intros t [L P]. cbn [Nat.add] in P. split; auto. split.
    + intros a g c Ha Hc. apply nth_error_seq in Ha as [Ha ->]. cbn [Nat.add]. destruct (P (a + c * N)) as [P1 _].
      rewrite pos_mod, pos_div in P1 by lia. rewrite P1.
      * unfold tgt. rewrite pos_mod, pos_div by lia. now rewrite (proj2 (Nat.ltb_lt _ _)) by lia.
      * split; [lia|]. destruct (HPerm a Ha) as (j & ow & H1 & H2). exists j, ow. split; [|auto]. rewrite L1. apply nth_error_Some. congruence.
    + intros k Hk. apply P. intros [F _]. lia.
Qed.

Lemma collect_cyclic_ok (buf target : list T) : N * block <= length buf -> N * block <= length target ->
  exists t', collect_cyclic N block lens offs ms S buf target = Ok t' /\ gathered (seq 0 N) target t'.
Proof.
  intros H1 H2. unfold collect_cyclic. destruct (gather_parts_ok buf H1) as (b & E & G). rewrite E. cbn [bind]. eapply gather_sort_ok; eauto.
Qed.
End Gather.

(** ** scatter *)
Lemma pre_application_ok {T} N R rows locked block (V : nat -> nat -> T) (Vl C : list T) :
  describes rows R -> Forall (fun l => 0 < l) (d_lens R) -> (forall g, In g rows -> g < N) -> 0 < length rows ->
  holds (seq 0 N) locked block N V Vl -> length rows * (locked + block) <= length C ->
  exists C', pre_application N R locked block Vl C = Ok C' /\ (length C' = length C /\ holds rows locked block (length rows) V C' /\
    (forall k, (k / length rows < locked \/ locked + block <= k / length rows) -> nth_error C' k = nth_error C k)).
Proof.
  intros HR PR BR Hm HV HL. unfold pre_application. pose proof HR as (_ & EmR & _). rewrite EmR. set (m := length rows) in *.
  set (tgt := fun k => match nth_error rows (k mod m) with Some g => Some (V g (k / m)) | None => nth_error C k end).
  apply (for_run (fun j C' => prog m C tgt (fun x y => x < m /\ locked <= y < locked + j) C')).
  - split; auto. intros k. split; [lia|auto].
  - intros j Cj [_ Hj] P.
    apply (for_run (fun i C' => prog m C tgt (fun x y => (x < m /\ locked <= y < locked + j) \/ (y = locked + j /\ x < list_sum (firstn i (d_lens R)))) C')).
    + eapply prog_ext; [|exact P]. intros; cbn. lia.
    + intros i Ci [_ Li] Pi.
      destruct (describes_rd _ _ i HR Li) as (rlen & roff & R1 & R2 & R3 & R4 & R5). pose proof (describes_mono _ _ _ HR Li) as Mi.
      assert (Pr : 0 < rlen). { rewrite Forall_forall in PR. apply PR. eapply nth_error_In. apply rd_ok. exact R1. }
      rewrite R4 in *. set (A := list_sum (firstn i (d_lens R))) in *. rewrite R3, R2, R1. cbn [bind]. fold m in Mi.
      assert (HVt : forall t, t < rlen -> nth_error Vl (j * N + locked * N + roff + t) = Some (V (roff + t) (locked + j))).
      { intros t Ht. pose proof (BR _ (nth_error_In _ _ (R5 t Ht))). rewrite <- (HV (roff + t) (roff + t) (locked + j)); [f_equal; lia| |lia].
        apply nth_error_seq; lia. }
      assert (BV : j * N + locked * N + roff + (rlen - 1) < length Vl) by (apply nth_error_Some; rewrite HVt by lia; discriminate).
      destruct (get_range Vl (j * N + locked * N + roff) rlen) as [xs| |] eqn:E; [|rewrite get_range_ok in E by lia; discriminate..].
      cbn [bind]. destruct (nth_error_range _ _ _ _ 0 E) as [Lx _].
      replace (j * m + A + locked * m) with (A + (locked + j) * m) by lia.
      edestruct (prog_put m C tgt _ Ci A (locked + j) xs Pi) as (C2 & E2 & P2); [lia|nia| |].
      * intros t Ht. rewrite Lx in Ht. unfold tgt. rewrite pos_mod, pos_div by lia. rewrite (R5 t Ht).
        symmetry. rewrite (proj2 (nth_error_range _ _ _ _ t E) ltac:(lia)). now apply HVt.
      * exists C2. split; [exact E2|]. rewrite Lx in P2. eapply prog_ext; [|exact P2]. intros; cbv beta. lia.
    + intros C1 P1. eapply prog_ext; [|exact P1]. intros; cbv beta.
      rewrite (describes_total rows R HR : list_sum (firstn (0 + d_blocks R) (d_lens R)) = _). fold m. lia.
  - intros C' [L P]. cbn [Nat.add] in P. split; auto. split.
    + intros a g c Ha Hc. assert (a < m) by (apply nth_error_Some; congruence). destruct (P (a + c * m)) as [P1 _].
      rewrite pos_mod, pos_div in P1 by lia. rewrite P1 by lia. unfold tgt. now rewrite pos_mod, pos_div, Ha by lia.
    + intros k Hk. apply P. lia.
Qed.
