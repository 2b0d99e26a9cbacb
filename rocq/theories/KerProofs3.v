(** Redistribution programs on one communicator. *)
From Coq Require Import List Arith Bool ZArith Lia Permutation.
Require Import Verif.Base Verif.DistModel Verif.DistSpec Verif.DistProofs Verif.DistProofs2 Verif.FlatModel Verif.FlatSpec Verif.FlatProofs Verif.FlatProofs2.
Require Import Verif.RedistModel Verif.RedistSpec Verif.RedistProofs Verif.RedistProofs2 Verif.SpmdModel Verif.SpmdSpec Verif.SpmdProofs Verif.KerModel Verif.KerSpec Verif.KerProofs1.
Import ListNotations.

Lemma for_ext {A} (b1 b2 : nat -> A -> res A) todo : forall i s, (forall k s, i <= k < i + todo -> b1 k s = b2 k s) -> for_ todo i b1 s = for_ todo i b2 s.
Proof.
  induction todo; intros i s H; simpl; auto. rewrite (H i s) by lia. destruct (b2 i s); simpl; auto. apply IHtodo. intros; apply H; lia.
Qed.
Lemma get_range_app {A} (l l' : list A) off n : off + n <= length l -> get_range (l ++ l') off n = get_range l off n.
Proof.
  intros H. rewrite !get_range_ok by (rewrite ?app_length; lia). f_equal. rewrite skipn_app. replace (off - length l) with 0 by lia. cbn [skipn].
  rewrite firstn_app, skipn_length. replace (n - (length l - off)) with 0 by lia. cbn [firstn]. apply app_nil_r.
Qed.
Lemma get_range_end {A} (l xs : list A) : get_range (l ++ xs) (length l) (length xs) = Ok xs.
Proof. rewrite get_range_ok by (rewrite app_length; lia). f_equal. rewrite skipn_app, skipn_all, Nat.sub_diag. cbn. apply firstn_all. Qed.

Section Pack.
Context {T : Type}.

Lemma pack_flat_spec lds len sd off block (S : list T) : (forall c, off <= c < off + block -> sd + c * lds + len <= length S) ->
  exists ys, pack_flat lds len sd off block S = Ok ys /\ (length ys = block * len /\
    forall c, off <= c < off + block -> get_range ys ((c - off) * len) len = get_range S (sd + c * lds) len).
Proof.
  intros HS. unfold pack_flat.
  apply (for_run (fun c acc => length acc = (c - off) * len /\ forall c', off <= c' < c -> get_range acc ((c' - off) * len) len = get_range S (sd + c' * lds) len)).
  - split; [rewrite Nat.sub_diag; reflexivity|intros; lia].
  - intros c acc Hc [L G]. destruct (get_range S (sd + c * lds) len) as [xs| |] eqn:E; [|rewrite get_range_ok in E by (apply HS; lia); discriminate..].
    cbn [bind]. eexists. split; [reflexivity|]. destruct (nth_error_range _ _ _ _ 0 E) as [Lx _]. split.
    + rewrite app_length, L, Lx. nia.
    + intros c' Hc'. destruct (Nat.eq_dec c' c) as [->|Ne].
      * rewrite E, <- L, <- Lx. apply get_range_end.
      * rewrite get_range_app by nia. apply G. lia.
  - intros ys [L G]. rewrite Nat.add_comm, Nat.add_sub in L. split; [exact L|exact G].
Qed.
Lemma unpack_move lds ldd len sd dd off block (S ys D : list T) :
  (forall c, off <= c < off + block -> get_range ys ((c - off) * len) len = get_range S (sd + c * lds) len) ->
  unpack ldd len dd off block ys D = move lds ldd len sd dd off block S D.
Proof. intros H. unfold unpack, move. apply for_ext. intros c D1 Hc. now rewrite H. Qed.

Lemma respond_bcast (add : T -> T -> T) n root cnt (x : nat -> list T) : root < n -> length (x root) = cnt ->
  respond add (map (fun i => ABcast root cnt (x i)) (seq 0 n)) = Some (RNums (x root)).
Proof.
  intros Hr HL. destruct n; [lia|]. unfold respond. cbn [seq map].
  change (ABcast root cnt (x 0) :: map (fun i => ABcast root cnt (x i)) (seq 1 n)) with (map (fun i => ABcast root cnt (x i)) (seq 0 (S n))).
  replace (forallb _ _) with true.
  2:{ symmetry. apply forallb_forall. intros a Ha. apply in_map_iff in Ha as (i & <- & _). simpl. now rewrite !Nat.eqb_refl. }
  rewrite nth_error_map. replace (nth_error (seq 0 (S n)) root) with (Some root); [|symmetry; apply nth_error_seq; lia].
  cbn [option_map]. now rewrite HL, Nat.eqb_refl.
Qed.

Lemma crun_bcast (add : T -> T -> T) c n root (buf : nat -> list T) off dim : root < n -> (Z.of_nat dim < 2 ^ 31)%Z ->
  (forall i, i < n -> off + dim <= length (buf i)) ->
  crun add c n (fun i b => exists xs, get_range (buf root) off dim = Ok xs /\ put_range (buf i) off xs = Ok b) (fun i => bcast c root i (buf i) off dim).
Proof.
  intros Hr Hd HL.
  assert (Hx : forall i, i < n -> get_range (buf i) off dim = Ok (firstn dim (skipn off (buf i)))) by (intros i Hi; apply get_range_ok; auto).
  apply (crun_ext add c n _ (fun i => Call c (ABcast root dim (if i =? root then firstn dim (skipn off (buf i)) else []))
      (fun r => match r with RNums ys => local (put_range (buf i) off ys) | RFlag _ => Bad end))).
  { intros i Hi. unfold bcast. rewrite mpi_count_small by auto. replace (Z.of_nat dim <? 0)%Z with false by (symmetry; apply Z.ltb_ge; lia).
    rewrite Nat2Z.id. now rewrite Hx. }
  assert (Lr : length (firstn dim (skipn off (buf root))) = dim) by (rewrite firstn_length, skipn_length; specialize (HL root Hr); lia).
  eapply crun_call; [apply offers_map|apply respond_bcast; auto; rewrite Nat.eqb_refl; exact Lr|].
  cbn [resume]. rewrite Nat.eqb_refl. apply crun_done. intros i Hi. specialize (HL i Hi). rewrite put_range_ok by lia. cbn [local].
  eexists. split; [reflexivity|]. exists (firstn dim (skipn off (buf root))). split; [now apply Hx|]. apply put_range_ok. lia.
Qed.
End Pack.

Section Redist.
Context {T : Type} (add : T -> T -> T).
Variables (ps : nat) (c : comm) (me off block : nat) (V : nat -> nat -> T) (S : nat -> list T) (D : nat -> list T).
Variables (srows : nat -> list nat) (drows : list nat) (rsch : list run).
Hypotheses (Hps : 0 < ps).
Hypothesis run_ok : forall r, In r rsch -> r_dest r = me -> r_src r < ps /\ 0 < r_len r /\
  forall t, t < r_len r -> exists g, nth_error drows (r_dd r + t) = Some g /\ nth_error (srows (r_src r)) (r_sd r + t) = Some g.
Hypothesis cover : forall a, a < length drows -> exists r, In r rsch /\ r_dest r = me /\ r_dd r <= a < r_dd r + r_len r.
Let m s := length (srows s).
Let n := length drows.
Hypothesis HS : forall s, s < ps -> holds (srows s) off block (m s) V (S s).
Hypothesis HD : forall s, s < ps -> n * (off + block) <= length (D s).
Let tgt s k := match nth_error drows (k mod n) with Some g => Some (V g (k / n)) | None => nth_error (D s) k end.
Let dn (ok : run -> Prop) rs x y := off <= y < off + block /\ exists r, In r rs /\ ok r /\ r_dest r = me /\ r_dd r <= x < r_dd r + r_len r.

Lemma run_src r : In r rsch -> r_dest r = me -> r_src r < ps /\ 0 < r_len r /\ r_sd r + r_len r <= m (r_src r) /\ r_dd r + r_len r <= n.
Proof.
  intros Hr Hd. destruct (run_ok r Hr Hd) as (H1 & H2 & H3). split; auto. split; auto.
  destruct (H3 (r_len r - 1) ltac:(lia)) as (g & E1 & E2).
  assert (r_dd r + (r_len r - 1) < n) by (apply nth_error_Some; congruence).
  assert (r_sd r + (r_len r - 1) < m (r_src r)) by (apply nth_error_Some; congruence). lia.
Qed.
Lemma run_pack r : In r rsch -> r_dest r = me -> exists ys, pack_flat (m (r_src r)) (r_len r) (r_sd r) off block (S (r_src r)) = Ok ys /\ (length ys = block * r_len r /\
    forall c, off <= c < off + block -> get_range ys ((c - off) * r_len r) (r_len r) = get_range (S (r_src r)) (r_sd r + c * m (r_src r)) (r_len r)).
Proof.
  intros Hr Hd. destruct (run_src r Hr Hd) as (H1 & H2 & H3 & _). apply pack_flat_spec. intros c0 Hc.
  pose proof (HS (r_src r) H1) as HH. specialize (HH (r_sd r + (r_len r - 1))).
  destruct (nth_error (srows (r_src r)) (r_sd r + (r_len r - 1))) as [g|] eqn:E.
  - specialize (HH g c0 eq_refl Hc). assert (r_sd r + (r_len r - 1) + c0 * m (r_src r) < length (S (r_src r))) by (apply nth_error_Some; congruence). lia.
  - apply nth_error_None in E. unfold m in H3. lia.
Qed.
Lemma run_move' i r D1 done : i < ps -> In r rsch -> r_dest r = me -> Verif.FlatProofs.prog n (D i) (tgt i) done D1 ->
  exists D2, move (m (r_src r)) n (r_len r) (r_sd r) (r_dd r) off block (S (r_src r)) D1 = Ok D2 /\
    Verif.FlatProofs.prog n (D i) (tgt i) (fun x y => done x y \/ (off <= y < off + block /\ r_dd r <= x < r_dd r + r_len r)) D2.
Proof.
  intros Hi Hr Hd P. destruct (run_src r Hr Hd) as (H1 & H2 & H3 & H4). destruct (run_ok r Hr Hd) as (_ & _ & W).
  apply move_spec; auto; try lia.
  intros c0 t Hc Ht. destruct (W t Ht) as (g & E1 & E2). exists (V g c0). split; [now apply HS|].
  unfold tgt. rewrite pos_mod, pos_div by lia. now rewrite E1.
Qed.
Lemma redist_end' i D' : i < ps -> Verif.FlatProofs.prog n (D i) (tgt i) (dn (fun _ => True) rsch) D' -> only_columns drows off block V (D i) D'.
Proof.
  intros Hi [L P]. split; auto. split.
  - intros a g c0 Ha Hc. assert (La : a < n) by (apply nth_error_Some; congruence). destruct (P (a + c0 * n)) as [P1 _].
    rewrite pos_mod, pos_div in P1 by lia. fold n. rewrite P1; [unfold tgt; now rewrite pos_mod, pos_div, Ha by lia|].
    split; [auto|]. destruct (cover a La) as (r & A1 & A2 & A3). exists r. tauto.
  - intros k Hk. apply P. intros [F _]. fold n in Hk. lia.
Qed.

Lemma dn_snoc ok rs r x y : dn ok (rs ++ [r]) x y <-> dn ok rs x y \/ (off <= y < off + block /\ ok r /\ r_dest r = me /\ r_dd r <= x < r_dd r + r_len r).
Proof.
  unfold dn. split.
  - intros (A1 & r' & A2 & A3). apply in_app_or in A2 as [A2|[A2|[]]]; [left|right; subst; tauto]. split; auto. exists r'. tauto.
  - intros [(A1 & r' & A2 & A3)|(A1 & A2)]; (split; [auto|]); [exists r'|exists r]; rewrite in_app_iff; simpl; tauto.
Qed.

Ltac gdn := repeat match goal with |- context [dn ?a ?b ?x ?y] => generalize (dn a b x y); intro end.
Lemma crun_xfer rs : forall done D1, (forall r, In r rs -> In r rsch) ->
  (forall i, i < ps -> Verif.FlatProofs.prog n (D i) (tgt i) (dn (fun r => r_src r <> i) done) (D1 i)) ->
  crun add c ps (fun i D' => Verif.FlatProofs.prog n (D i) (tgt i) (dn (fun r => r_src r <> i) (done ++ rs)) D')
    (fun i => xfer c me i (m i) n off block (S i) (D1 i) rs).
Proof.
  induction rs as [|r rs IH]; intros done D1 Hin P; cbn [xfer].
  - apply crun_done. intros i Hi. exists (D1 i). rewrite app_nil_r. auto.
  - assert (Hr : In r rsch) by (apply Hin; now left).
    replace (done ++ r :: rs) with ((done ++ [r]) ++ rs) by (rewrite <- app_assoc; reflexivity).
    destruct (me =? r_dest r) eqn:B.
    2:{ apply Nat.eqb_neq in B. apply (IH (done ++ [r]) D1); [intros; apply Hin; now right|]. intros i Hi.
        eapply prog_ext; [|exact (P i Hi)]. intros x y. rewrite dn_snoc. gdn; intuition congruence. }
    apply Nat.eqb_eq in B. destruct (run_src r Hr (eq_sym B)) as (Hs & Hl & _). destruct (run_pack r Hr (eq_sym B)) as (ys & Ey & Ly & Gy).
    assert (HM : forall i, i < ps -> exists D2, unpack n (r_len r) (r_dd r) off block ys (D1 i) = Ok D2 /\
       Verif.FlatProofs.prog n (D i) (tgt i) (fun x y => dn (fun r => r_src r <> i) done x y \/ (off <= y < off + block /\ r_dd r <= x < r_dd r + r_len r)) D2).
    { intros i Hi. rewrite (unpack_move (m (r_src r)) n (r_len r) (r_sd r) (r_dd r) off block (S (r_src r)) ys (D1 i) Gy).
      apply (run_move' i r (D1 i) _ Hi Hr (eq_sym B) (P i Hi)). }
    destruct (fin_choice0 ps _ Hps HM) as [D2 H2].
    apply (crun_ext add c ps _ (fun i => Call c (ABcast (r_src r) (block * r_len r) (if i =? r_src r then ys else []))
      (if i =? r_src r then (fun _ => xfer c me i (m i) n off block (S i) (D1 i) rs)
       else fun re => match re with
                     | RNums ys => pbind (local (unpack n (r_len r) (r_dd r) off block ys (D1 i))) (fun D => xfer c me i (m i) n off block (S i) D rs)
                     | RFlag _ => Bad end))).
    { intros i Hi. destruct (i =? r_src r) eqn:E; [|reflexivity]. apply Nat.eqb_eq in E. subst i. rewrite Ey. reflexivity. }
    eapply crun_call; [apply offers_map|apply (respond_bcast add ps (r_src r) (block * r_len r) (fun i => if i =? r_src r then ys else [])); [exact Hs|cbv beta; rewrite Nat.eqb_refl; exact Ly]|].
    cbv beta. rewrite Nat.eqb_refl. cbn [resume].
    apply (crun_ext add c ps _ (fun i => xfer c me i (m i) n off block (S i) (if i =? r_src r then D1 i else D2 i) rs)).
    { intros i Hi. destruct (i =? r_src r) eqn:E; [reflexivity|]. destruct (H2 i Hi) as [E2 _]. now rewrite E2. }
    apply IH; [intros; apply Hin; now right|]. intros i Hi. destruct (i =? r_src r) eqn:E.
    + apply Nat.eqb_eq in E. subst i. eapply prog_ext; [|apply P; auto]. intros x y. rewrite dn_snoc. gdn; intuition congruence.
    + apply Nat.eqb_neq in E. destruct (H2 i Hi) as [_ P2]. eapply prog_ext; [|exact P2]. intros x y. cbv beta. rewrite dn_snoc. gdn; intuition congruence.
Qed.

Lemma copy_own_ok i rs : i < ps -> forall done D1, (forall r, In r rs -> In r rsch) ->
  Verif.FlatProofs.prog n (D i) (tgt i) (fun x y => dn (fun r => r_src r <> i) rsch x y \/ dn (fun r => r_src r = i) done x y) D1 ->
  exists D', copy_own me i (m i) n off block (S i) D1 rs = Ok D' /\
    Verif.FlatProofs.prog n (D i) (tgt i) (fun x y => dn (fun r => r_src r <> i) rsch x y \/ dn (fun r => r_src r = i) (done ++ rs) x y) D'.
Proof.
  intros Hi. induction rs as [|r rs IH]; intros done D1 Hin P; cbn [copy_own].
  - rewrite app_nil_r. eauto.
  - assert (Hr : In r rsch) by (apply Hin; now left).
    replace (done ++ r :: rs) with ((done ++ [r]) ++ rs) by (rewrite <- app_assoc; reflexivity).
    destruct ((me =? r_dest r) && (i =? r_src r)) eqn:B.
    + apply andb_true_iff in B as [B1 B2]. apply Nat.eqb_eq in B1, B2.
      destruct (run_move' i r D1 _ Hi Hr (eq_sym B1) P) as (D2 & E2 & P2).
      rewrite <- B2 in E2. rewrite E2. cbn [bind]. apply IH; [intros; apply Hin; now right|].
      eapply prog_ext; [|exact P2]. intros x y. cbv beta. rewrite dn_snoc. gdn; intuition congruence.
    + apply IH; [intros; apply Hin; now right|]. eapply prog_ext; [|exact P]. intros x y. cbv beta. rewrite dn_snoc.
      apply andb_false_iff in B. assert (~ (r_src r = i /\ r_dest r = me)); [|gdn; tauto]. intros [E1 E2]. destruct B as [B|B]; apply Nat.eqb_neq in B; congruence.
Qed.

Theorem crun_redist : crun add c ps (fun i D' => only_columns drows off block V (D i) D')
  (fun i => redist_prog c rsch me i (m i) n off block (S i) (D i)).
Proof.
  unfold redist_prog.
  apply (crun_bind add c ps (fun i D' => Verif.FlatProofs.prog n (D i) (tgt i) (dn (fun r => r_src r <> i) rsch) D')); auto.
  - apply (crun_xfer rsch [] D); auto. intros i Hi. split; auto. intros k. split; [|auto]. intros (_ & r & [] & _).
  - intros D1 HD1. apply crun_done. intros i Hi. destruct (copy_own_ok i rsch Hi [] (D1 i)) as (D' & E & P); auto.
    + eapply prog_ext; [|apply (HD1 i Hi)]. intros x y. cbv beta. unfold dn at 3. simpl. split; [tauto|]. intros [H|(_ & r & [] & _)]; auto.
    + rewrite E. exists D'. split; [reflexivity|].
      apply (redist_end' i D' Hi).
      eapply prog_ext; [|exact P]. intros x y. cbv beta. unfold dn. simpl. split.
      * intros [(A1 & r & A2 & _ & A3)|(A1 & r & A2 & _ & A3)]; (split; [auto|exists r; tauto]).
      * intros (A1 & r & A2 & A3). destruct (Nat.eq_dec (r_src r) i); [right|left]; (split; [auto|exists r; tauto]).
Qed.

(** the packing variant *)
Hypothesis HPK : forall i r, i < ps -> In r rsch -> r_dest r = me -> forall c, off <= c < off + block -> r_sd r + c * m i + r_len r <= length (S i).
Hypothesis Hcnt : (Z.of_nat (n * block) < 2 ^ 31)%Z.
Lemma crun_pack_runs rs : forall done D1, (forall r, In r rs -> In r rsch) ->
  (forall i, i < ps -> Verif.FlatProofs.prog n (D i) (tgt i) (dn (fun _ => True) done) (D1 i)) ->
  crun add c ps (fun i D' => Verif.FlatProofs.prog n (D i) (tgt i) (dn (fun _ => True) (done ++ rs)) D')
    (fun i => redist_pack_prog c rs me i (m i) n off block (S i) (D1 i)).
Proof.
  induction rs as [|r rs IH]; intros done D1 Hin P; cbn [redist_pack_prog].
  - apply crun_done. intros i Hi. exists (D1 i). rewrite app_nil_r. auto.
  - assert (Hr : In r rsch) by (apply Hin; now left).
    replace (done ++ r :: rs) with ((done ++ [r]) ++ rs) by (rewrite <- app_assoc; reflexivity).
    destruct (me =? r_dest r) eqn:B.
    2:{ apply Nat.eqb_neq in B. apply (IH (done ++ [r]) D1); [intros; apply Hin; now right|]. intros i Hi.
        eapply prog_ext; [|exact (P i Hi)]. intros x y. rewrite dn_snoc. gdn; intuition congruence. }
    apply Nat.eqb_eq in B. destruct (run_src r Hr (eq_sym B)) as (Hs & Hl & _ & Hln).
    assert (HB : forall i, i < ps -> exists ys, pack_flat (m i) (r_len r) (r_sd r) off block (S i) = Ok ys /\ (length ys = block * r_len r /\
      forall c, off <= c < off + block -> get_range ys ((c - off) * r_len r) (r_len r) = get_range (S i) (r_sd r + c * m i) (r_len r))).
    { intros i Hi. apply pack_flat_spec. apply HPK; auto. }
    destruct (fin_choice0 ps _ Hps HB) as [ys Hys].
    apply (crun_ext add c ps _ (fun i => pbind (bcast c (r_src r) i (ys i) 0 (r_len r * block)) (fun buf =>
        pbind (local (unpack n (r_len r) (r_dd r) off block buf (D1 i))) (fun D => redist_pack_prog c rs me i (m i) n off block (S i) D)))).
    { intros i Hi. destruct (Hys i Hi) as (E & _). now rewrite E. }
    apply (crun_bind add c ps (fun i b => b = ys (r_src r))); auto.
    + eapply crun_mono; [|apply (crun_bcast add c ps (r_src r) ys 0 (r_len r * block)); auto].
      * intros i b Hi (xs & E1 & E2). destruct (Hys i Hi) as (_ & L & _). destruct (Hys _ Hs) as (_ & Ls & _).
        rewrite get_range_ok in E1 by lia. cbn [skipn] in E1. rewrite firstn_all2 in E1 by lia. inversion E1; subst xs.
        rewrite put_range_ok in E2 by lia. cbn [firstn app] in E2. rewrite skipn_all2, app_nil_r in E2 by lia. now inversion E2.
      * assert (r_len r * block <= n * block) by nia. lia.
      * intros i Hi. destruct (Hys i Hi) as (_ & L & _). lia.
    + intros b Hb.
      assert (HM : forall i, i < ps -> exists D2, unpack n (r_len r) (r_dd r) off block (b i) (D1 i) = Ok D2 /\
         Verif.FlatProofs.prog n (D i) (tgt i) (fun x y => dn (fun _ => True) done x y \/ (off <= y < off + block /\ r_dd r <= x < r_dd r + r_len r)) D2).
      { intros i Hi. rewrite (Hb i Hi). destruct (Hys _ Hs) as (_ & _ & Gy).
        rewrite (unpack_move (m (r_src r)) n (r_len r) (r_sd r) (r_dd r) off block (S (r_src r)) (ys (r_src r)) (D1 i) Gy).
        apply (run_move' i r (D1 i) _ Hi Hr (eq_sym B) (P i Hi)). }
      destruct (fin_choice0 ps _ Hps HM) as [D2 H2].
      apply (crun_ext add c ps _ (fun i => redist_pack_prog c rs me i (m i) n off block (S i) (D2 i))).
      { intros i Hi. destruct (H2 i Hi) as [E2 _]. now rewrite E2. }
      apply IH; [intros; apply Hin; now right|]. intros i Hi. destruct (H2 i Hi) as [_ P2].
      eapply prog_ext; [|exact P2]. intros x y. cbv beta. rewrite dn_snoc. gdn; intuition congruence.
Qed.
Theorem crun_redist_pack : crun add c ps (fun i D' => only_columns drows off block V (D i) D')
  (fun i => redist_pack_prog c rsch me i (m i) n off block (S i) (D i)).
Proof.
  eapply crun_mono; [|apply (crun_pack_runs rsch [] D); auto].
  - intros i D' Hi P. apply (redist_end' i D' Hi).
    eapply prog_ext; [|exact P]. intros x y. cbv beta. unfold dn. simpl. split; intros (A1 & r & A2); (split; [auto|exists r; tauto]).
  - intros i Hi. split; auto. intros k. split; [|auto]. intros (_ & r & [] & _).
Qed.
End Redist.
