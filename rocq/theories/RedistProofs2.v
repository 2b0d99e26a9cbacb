(** Redistribution: the packing variant, coinciding layouts, witnesses. *)
From Coq Require Import List Arith Bool ZArith Lia.
Require Import Verif.Base Verif.DistModel Verif.DistSpec Verif.DistProofs Verif.DistProofs2 Verif.FlatModel Verif.FlatSpec.
Require Import Verif.FlatProofs Verif.FlatProofs2 Verif.RedistModel Verif.RedistSpec Verif.RedistProofs.
Import ListNotations.

Section Pack.
Context {T : Type}.
Lemma for_ub {A} (body : nat -> A -> res A) todo i k : forall s, i <= k < i + todo -> (forall s s', body k s <> Ok s') -> forall s', for_ todo i body s <> Ok s'.
Proof.
  revert i. induction todo; intros i s Hk Hb s'; [lia|]. simpl. destruct (body i s) as [s1| |] eqn:E; try discriminate.
  cbn [bind]. destruct (Nat.eq_dec i k) as [->|Ne]; [exfalso; now apply (Hb s s1)|]. apply IHtodo; auto. lia.
Qed.
Lemma pack_ok lds len sd off block (S : list T) : 0 < block -> sd + (off + block - 1) * lds + len <= length S ->
  exists x, pack lds len sd off block S = Ok x.
Proof.
  intros Hb HL. unfold pack.
  destruct (for_run (fun _ _ => True) (fun _ => True) (fun c acc => let! xs := get_range S (sd + c * lds) len in Ok (acc ++ [xs])) block off (@nil (list T))) as (x & E & _); eauto.
  intros c acc Hc _. rewrite get_range_ok by nia. cbn [bind]. eauto.
Qed.
Lemma pack_ub lds len sd off block (S : list T) x : 0 < block -> length S < sd + (off + block - 1) * lds + len ->
  pack lds len sd off block S <> Ok x.
Proof.
  intros Hb HL. unfold pack. apply (for_ub _ _ _ (off + block - 1)); [lia|]. intros s s' E.
  destruct (get_range S (sd + (off + block - 1) * lds) len) as [y| |] eqn:G; try discriminate. apply get_range_inv in G as [G _]. lia.
Qed.

Definition step_pack me (lds : nat -> nat) ldd off block (S : nat -> list T) mine (D : res (list T)) (r : run) : res (list T) :=
  let! D := D in
    if me =? r_dest r then
      let! _ := pack (lds mine) (r_len r) (r_sd r) off block (S mine) in
      move (lds (r_src r)) ldd (r_len r) (r_sd r) (r_dd r) off block (S (r_src r)) D
    else Ok D.
Lemma fold_step_bad me lds ldd off block (S : nat -> list T) mine rs : forall D, (forall x, D <> Ok x) ->
  forall x, fold_left (step_pack me lds ldd off block S mine) rs D <> Ok x.
Proof. induction rs; intros D H x; simpl; auto. apply IHrs. intros y E. unfold step_pack in E. destruct D; try discriminate. now apply (H l). Qed.

Lemma redist_pack_redist rs me lds ldd off block (S : nat -> list T) mine : 
  (forall r, In r rs -> r_dest r = me -> exists x, pack (lds mine) (r_len r) (r_sd r) off block (S mine) = Ok x) ->
  forall D, redist_pack rs me lds ldd off block S mine D = redist rs me lds ldd off block S D.
Proof.
  intros HP D. unfold redist_pack, redist. generalize (Ok D). induction rs as [|r rs IH]; intros D1; simpl; auto.
  rewrite <- IH by (intros r' H1 H2; apply HP; simpl; auto). f_equal. destruct D1; auto. cbn [bind].
  destruct (me =? r_dest r) eqn:B; auto. apply Nat.eqb_eq in B. destruct (HP r (or_introl eq_refl) (eq_sym B)) as [x ->]. reflexivity.
Qed.
Lemma redist_pack_needs rs me lds ldd off block (S : nat -> list T) mine D D' r :
  redist_pack rs me lds ldd off block S mine D = Ok D' -> In r rs -> r_dest r = me ->
  exists x, pack (lds mine) (r_len r) (r_sd r) off block (S mine) = Ok x.
Proof.
  intros E Hr Hd. change (fold_left (step_pack me lds ldd off block S mine) rs (Ok D) = Ok D') in E. revert E. generalize (Ok D).
  induction rs as [|r' rs IH]; [destruct Hr|]. intros D1 E. simpl in E. destruct Hr as [->|Hr]; [|eauto].
  destruct D1 as [d| |].
  - destruct (pack (lds mine) (r_len r) (r_sd r) off block (S mine)) as [x| |] eqn:Ep; [eauto|..]; exfalso; revert E;
      apply fold_step_bad; intros y; unfold step_pack; cbn [bind]; rewrite Hd, Nat.eqb_refl, Ep; discriminate.
  - exfalso. revert E. apply fold_step_bad. intros y. discriminate.
  - exfalso. revert E. apply fold_step_bad. intros y. discriminate.
Qed.

Section Iff.
Variables (N ms ps md pd : nat) (off block K : nat) (V : nat -> nat -> T) (S : nat -> list T).
Hypotheses (Hms : 0 < ms) (Hps : 0 < ps) (Hmd : 0 < md) (Hpd : 0 < pd) (HN : 0 < N).
Let m s := length (owned N ms ps 0 s).
Hypothesis HS : forall s, s < ps -> holds (owned N ms ps 0 s) 0 K (m s) V (S s).
Hypothesis HL : forall s, s < ps -> length (S s) = m s * K.
Hypotheses (Hb : 0 < block) (HK : off + block = K).

Lemma src_bound r : In r (runs N ms ps 0 md pd 0) -> r_src r < ps /\ r_sd r + r_len r <= m (r_src r).
Proof.
  intros Hr. destruct (runs_spec ms ps md pd Hms Hps Hmd Hpd N HN) as [_ F]. rewrite Forall_forall in F. specialize (F r Hr).
  destruct (run_place ms ps md pd Hms Hps Hmd Hpd N r (r_len r - 1) HN Hr ltac:(lia)) as (g & Hg & E1 & E2 & E3 & E4).
  split; [rewrite E2; now apply owner_lt|]. pose proof (lpos_owned N ms ps 0 g Hms Hps Hg) as E. rewrite <- E2, <- E4 in E.
  assert (r_sd r + (r_len r - 1) < m (r_src r)) by (apply nth_error_Some; congruence). lia.
Qed.

Lemma redist_pack_iff : (forall me mine (D : list T), me < pd -> mine < ps -> length (owned N md pd 0 me) * K <= length D ->
    exists D', redist_pack (runs N ms ps 0 md pd 0) me m (length (owned N md pd 0 me)) off block S mine D = Ok D') <->
  (forall s s', s < ps -> s' < ps -> m s = m s').
Proof.
  split.
  - intros X.
    assert (LE : forall s s', s < ps -> s' < ps -> m s' <= m s); [|intros s s' H1 H2; apply Nat.le_antisymm; auto].
    intros s s' H1 H2. destruct (Nat.le_gt_cases (m s') (m s)) as [|G]; auto. exfalso.
    destruct (nth_error (owned N ms ps 0 s') (m s' - 1)) as [g|] eqn:Eg; [|apply nth_error_None in Eg; unfold m in *; lia].
    pose proof (nth_error_In _ _ Eg) as Ig. apply in_owned in Ig as [Hg Og].
    destruct (place_run ms ps md pd Hms Hps Hmd Hpd N g HN Hg) as (r & t & Hr & Ht & E1 & E2 & E3 & E4).
    assert (Es : r_sd r + t = m s' - 1).
    { rewrite E4. pose proof (lpos_owned N ms ps 0 g Hms Hps Hg) as Ep. rewrite Og in Ep.
      eapply (proj1 (NoDup_nth_error (owned N ms ps 0 s'))); [apply owned_NoDup|apply nth_error_Some; congruence|congruence]. }
    assert (Hme : r_dest r < pd) by (rewrite E1; now apply owner_lt).
    destruct (nth_error (S s') 0) as [v|] eqn:Ev.
    + destruct (X (r_dest r) s (repeat v (length (owned N md pd 0 (r_dest r)) * K)) Hme H1) as (D' & E); [rewrite repeat_length; lia|].
      destruct (redist_pack_needs _ _ _ _ _ _ _ _ _ _ _ E Hr eq_refl) as (x & Ex). revert Ex. apply pack_ub; auto. rewrite HL by auto.
      assert (m s * K = m s * (off + block - 1) + m s) by nia. lia.
    + apply nth_error_None in Ev. rewrite HL in Ev by auto. nia.
  - intros EQ me mine D Hme Hmi HD. rewrite redist_pack_redist.
    + destruct (redist_ok N ms ps md pd me off block V S D Hms Hps Hmd Hpd HN) as (D' & E & _); eauto.
      * intros s Hs a g c Ha Hc. apply HS; auto. lia.
      * now rewrite HK.
    + intros r Hr Hd. apply pack_ok; auto. destruct (src_bound r Hr) as [B1 B2]. rewrite HL by auto. rewrite (EQ (r_src r) mine B1 Hmi) in B2.
      assert (m mine * K = m mine * (off + block - 1) + m mine) by nia. lia.
Qed.
Lemma redist_pack_delivers me mine (D D' : list T) : me < pd -> mine < ps -> length (owned N md pd 0 me) * K <= length D ->
  redist_pack (runs N ms ps 0 md pd 0) me m (length (owned N md pd 0 me)) off block S mine D = Ok D' ->
  delivered N md pd me off block V D D'.
Proof.
  intros Hme Hmi HD E. rewrite redist_pack_redist in E.
  - destruct (redist_ok N ms ps md pd me off block V S D Hms Hps Hmd Hpd HN) as (D2 & E2 & DD); auto.
    + intros s Hs a g c Ha Hc. apply HS; auto. lia.
    + now rewrite HK.
    + unfold m in E. congruence.
  - intros r Hr Hd. eapply redist_pack_needs; eauto.
Qed.
End Iff.

Lemma redist_same_ok m off block V (S : nat -> list T) (D : list T) rows me mine :
  length rows = m -> 0 < m -> holds rows off block m V (S me) -> m * (off + block) <= length (S me) -> m * (off + block) <= length D ->
  exists D', redist_same me mine m m off block S D = Ok D' /\ length D' = length D /\ holds rows off block m V D' /\
    (forall k, (k / m < off \/ off + block <= k / m) -> nth_error D' k = nth_error D k).
Proof.
  intros Lr Hm HS LS LD. unfold redist_same. destruct (mine =? me).
  - set (tgt := fun k => match nth_error rows (k mod m) with Some g => Some (V g (k / m)) | None => nth_error D k end).
    destruct (move_spec m m m 0 0 off block (S me) D D tgt (fun _ _ => False)) as (D' & E & L & P); try lia.
    + split; auto. intros k. split; [tauto|auto].
    + intros c t Hc Ht. cbn [Nat.add]. destruct (nth_error rows t) as [g|] eqn:Eg; [|apply nth_error_None in Eg; lia].
      exists (V g c). split; [now apply HS|]. unfold tgt. now rewrite pos_mod, pos_div, Eg by lia.
    + exists D'. split; [exact E|]. split; [exact L|]. split.
      * intros a g c Ha Hc. assert (a < m) by (rewrite <- Lr; apply nth_error_Some; congruence). destruct (P (a + c * m)) as [P1 _].
        rewrite pos_mod, pos_div in P1 by lia. rewrite P1 by lia. unfold tgt. now rewrite pos_mod, pos_div, Ha by lia.
      * intros k Hk. apply P. lia.
  - rewrite get_range_ok by nia. cbn [bind]. set (xs := firstn (block * m) (skipn (off * m) (S me))).
    assert (Ex : get_range (S me) (off * m) (block * m) = Ok xs) by (apply get_range_ok; nia).
    destruct (nth_error_range _ _ _ _ 0 Ex) as [Lx _].
    assert (EP : exists D', put_range D (off * m) xs = Ok D') by (eexists; apply put_range_ok; nia). destruct EP as [D' EP].
    exists D'. split; [exact EP|]. split; [apply put_range_length in EP; lia|]. split.
    + intros a g c Ha Hc. assert (a < m) by (rewrite <- Lr; apply nth_error_Some; congruence).
      rewrite (nth_error_put _ _ _ _ _ EP). rewrite Lx.
      replace (off * m <=? a + c * m) with true by (symmetry; apply Nat.leb_le; nia).
      replace (a + c * m <? off * m + block * m) with true by (symmetry; apply Nat.ltb_lt; nia). cbn [andb].
      rewrite (proj2 (nth_error_range _ _ _ _ _ Ex)) by nia. replace (off * m + (a + c * m - off * m)) with (a + c * m) by nia. now apply HS.
    + intros k Hk. rewrite (nth_error_put _ _ _ _ _ EP). rewrite Lx. pose proof (pos_split k m Hm) as Ek. pose proof (Nat.mod_upper_bound k m ltac:(lia)).
      destruct ((off * m <=? k) && (k <? off * m + block * m)) eqn:B; auto. apply andb_prop in B as [B1 B2].
      apply Nat.leb_le in B1. apply Nat.ltb_lt in B2. nia.
Qed.
End Pack.
