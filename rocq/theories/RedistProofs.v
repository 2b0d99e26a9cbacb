(** Proofs about the redistribution. *)
From Coq Require Import List Arith Bool Lia.
Require Import Verif.Base Verif.DistModel Verif.DistSpec Verif.DistProofs Verif.DistProofs2 Verif.FlatModel Verif.FlatSpec.
Require Import Verif.FlatProofs Verif.FlatProofs2 Verif.RedistModel Verif.RedistSpec.
Import ListNotations.

Lemma lpos_step nb p g : 0 < nb -> 0 < p -> owner nb p 0 g = owner nb p 0 (g + 1) -> lpos nb p (g + 1) = lpos nb p g + 1.
Proof.
  intros Hnb Hp E. unfold owner in E. rewrite !Nat.add_0_r in E. unfold lpos.
  assert (M := Nat.div_mod g nb ltac:(lia)). assert (B := Nat.mod_upper_bound g nb ltac:(lia)).
  destruct (Nat.eq_dec (g mod nb + 1) nb) as [e|e].
  - assert (D1 : (g + 1) / nb = g / nb + 1) by (symmetry; apply (Nat.div_unique _ _ _ 0); lia).
    assert (M1 : (g + 1) mod nb = 0) by (symmetry; apply (Nat.mod_unique _ _ (g / nb + 1)); lia).
    rewrite D1 in *. rewrite M1. set (a := g / nb) in *.
    destruct (Nat.eq_dec p 1) as [->|Hp1].
    + rewrite !Nat.div_1_r. lia.
    + exfalso. assert (Ma := Nat.div_mod a p ltac:(lia)). assert (Ba := Nat.mod_upper_bound a p ltac:(lia)).
      destruct (Nat.eq_dec (a mod p + 1) p) as [f|f].
      * assert ((a + 1) mod p = 0) by (symmetry; apply (Nat.mod_unique _ _ (a / p + 1)); lia). lia.
      * assert ((a + 1) mod p = a mod p + 1) by (symmetry; apply (Nat.mod_unique _ _ (a / p)); lia). lia.
  - assert (D1 : (g + 1) / nb = g / nb) by (symmetry; apply (Nat.div_unique _ _ _ (g mod nb + 1)); lia).
    assert (M1 : (g + 1) mod nb = g mod nb + 1) by (symmetry; apply (Nat.mod_unique _ _ (g / nb)); lia).
    rewrite D1, M1. lia.
Qed.

Lemma explode_app rs r : explode (rs ++ [r]) = explode rs ++ explode [r].
Proof. unfold explode. now rewrite flat_map_app. Qed.
Lemma explode_grow d s l dd sd : explode [mk_run d s (l + 1) dd sd] = explode [mk_run d s l dd sd] ++ [(d, s, dd + l, sd + l)].
Proof. unfold explode. cbn [flat_map r_len r_dest r_src r_dd r_sd]. rewrite !app_nil_r, seq_app, map_app. reflexivity. Qed.

Section Runs.
Variables (ms ps md pd : nat).
Hypotheses (Hms : 0 < ms) (Hps : 0 < ps) (Hmd : 0 < md) (Hpd : 0 < pd).
Let place g := (owner md pd 0 g, owner ms ps 0 g, lpos md pd g, lpos ms ps g).

Lemma runs_loop_spec todo : forall i cur acc,
  0 < i -> explode (acc ++ [cur]) = map place (seq 0 i) -> Forall (fun r => 0 < r_len r) (acc ++ [cur]) ->
  r_dd cur + r_len cur = lpos md pd (i - 1) + 1 -> r_sd cur + r_len cur = lpos ms ps (i - 1) + 1 ->
  r_dest cur = owner md pd 0 (i - 1) -> r_src cur = owner ms ps 0 (i - 1) ->
  explode (runs_loop ms ps md pd todo i cur acc) = map place (seq 0 (i + todo)) /\
  Forall (fun r => 0 < r_len r) (runs_loop ms ps md pd todo i cur acc).
Proof.
  induction todo; intros i cur acc Hi E F L1 L2 O1 O2; cbn [runs_loop].
  - rewrite Nat.add_0_r. auto.
  - destruct cur as [d s l dd sd]. cbn [r_dest r_src r_len r_dd r_sd] in *.
    replace (i + S todo) with (i + 1 + todo) by lia.
    assert (OD : (i / md) mod pd = owner md pd 0 i) by (unfold owner; now rewrite Nat.add_0_r).
    assert (OS : (i / ms) mod ps = owner ms ps 0 i) by (unfold owner; now rewrite Nat.add_0_r).
    rewrite OD, OS. replace (i + 1 - 1) with i in * by lia.
    destruct ((owner md pd 0 i =? d) && (owner ms ps 0 i =? s)) eqn:B.
    + apply andb_prop in B as [B1 B2]. apply Nat.eqb_eq in B1, B2.
      assert (S1 : lpos md pd i = lpos md pd (i - 1) + 1).
      { replace i with (i - 1 + 1) at 1 by lia. apply lpos_step; auto. replace (i - 1 + 1) with i by lia. congruence. }
      assert (S2 : lpos ms ps i = lpos ms ps (i - 1) + 1).
      { replace i with (i - 1 + 1) at 1 by lia. apply lpos_step; auto. replace (i - 1 + 1) with i by lia. congruence. }
      apply IHtodo; cbn [r_dest r_src r_len r_dd r_sd]; replace (i + 1 - 1) with i by lia; try lia.
      * rewrite explode_app, explode_grow, app_assoc, <- explode_app, E, seq_app, map_app. f_equal. cbn [seq map]. unfold place.
        replace (0 + i) with i by lia. rewrite B1, B2. f_equal. f_equal; [f_equal|]; lia.
      * apply Forall_app in F as [F1 F2]. apply Forall_app. split; auto. constructor; auto. simpl. lia.
    + apply IHtodo; cbn [r_dest r_src r_len r_dd r_sd]; replace (i + 1 - 1) with i by lia; auto; try lia.
      * rewrite explode_app, E, seq_app, map_app. f_equal. cbn. unfold place, lpos. now rewrite !Nat.add_0_r.
      * apply Forall_app. split; auto.
Qed.

Lemma runs_spec N : 0 < N -> explode (runs N ms ps 0 md pd 0) = map place (seq 0 N) /\ Forall (fun r => 0 < r_len r) (runs N ms ps 0 md pd 0).
Proof.
  intros HN. unfold runs. replace N with (1 + (N - 1)) at 2 by lia.
  assert (L0 : forall nb p, 0 < nb -> 0 < p -> lpos nb p 0 = 0) by (intros; unfold lpos; rewrite Nat.mod_0_l, !Nat.div_0_l by lia; reflexivity).
  assert (O0 : forall nb p, 0 < nb -> 0 < p -> owner nb p 0 0 = 0) by (intros; unfold owner; rewrite Nat.div_0_l, Nat.mod_small by lia; auto).
  apply runs_loop_spec; cbn [r_dest r_src r_len r_dd r_sd]; replace (1 - 1) with 0 by lia; rewrite ?L0, ?O0 by auto; auto.
  - cbn. unfold place. now rewrite !L0, !O0 by auto.
  - cbn. constructor; auto.
Qed.
Lemma run_place N r t : 0 < N -> In r (runs N ms ps 0 md pd 0) -> t < r_len r -> exists g, g < N /\ r_dest r = owner md pd 0 g /\ r_src r = owner ms ps 0 g /\
  r_dd r + t = lpos md pd g /\ r_sd r + t = lpos ms ps g.
Proof.
  intros HN Hr Ht. destruct (runs_spec N HN) as [E _].
  assert (I : In (r_dest r, r_src r, r_dd r + t, r_sd r + t) (explode (runs N ms ps 0 md pd 0))).
  { unfold explode. apply in_flat_map. exists r. split; auto. apply in_map_iff. exists t. split; auto. apply in_seq. lia. }
  rewrite E in I. apply in_map_iff in I as (g & Eg & Hg). apply in_seq in Hg. exists g. inversion Eg. split; [lia|]. auto.
Qed.
Lemma place_run N g : 0 < N -> g < N -> exists r t, In r (runs N ms ps 0 md pd 0) /\ t < r_len r /\ r_dest r = owner md pd 0 g /\ r_src r = owner ms ps 0 g /\
  r_dd r + t = lpos md pd g /\ r_sd r + t = lpos ms ps g.
Proof.
  intros HN Hg. destruct (runs_spec N HN) as [E _].
  assert (I : In (owner md pd 0 g, owner ms ps 0 g, lpos md pd g, lpos ms ps g) (explode (runs N ms ps 0 md pd 0))).
  { rewrite E. apply in_map_iff. exists g. split; auto. apply in_seq. lia. }
  unfold explode in I. apply in_flat_map in I as (r & Hr & I). apply in_map_iff in I as (t & Et & Ht). apply in_seq in Ht.
  exists r, t. inversion Et. split; auto. split; [lia|]. auto.
Qed.

End Runs.

Section MoveSpec.
Context {T : Type}.

Lemma move_spec lds ldd len sd dd off block (S D D0 : list T) tgt done :
  prog ldd D0 tgt done D -> 0 < ldd -> dd + len <= ldd -> ldd * (off + block) <= length D0 ->
  (forall c t, off <= c < off + block -> t < len -> exists v, nth_error S (sd + t + c * lds) = Some v /\ tgt (dd + t + c * ldd) = Some v) ->
  0 < len ->
  exists D', move lds ldd len sd dd off block S D = Ok D' /\
    prog ldd D0 tgt (fun x y => done x y \/ (off <= y < off + block /\ dd <= x < dd + len)) D'.
Proof.
  intros P Hl Hd HD HS Hlen. unfold move.
  apply (for_run (fun c D' => prog ldd D0 tgt (fun x y => done x y \/ (off <= y < c /\ dd <= x < dd + len)) D')).
  - eapply prog_ext; [|exact P]. intros; cbv beta. intuition lia.
  - intros c D1 Hc P1.
    assert (BS : sd + c * lds + len <= length S).
    { destruct (HS c (len - 1) Hc ltac:(lia)) as (v & E & _). assert (sd + (len - 1) + c * lds < length S) by (apply nth_error_Some; congruence). lia. }
    destruct (get_range S (sd + c * lds) len) as [xs| |] eqn:E; [|rewrite get_range_ok in E by lia; discriminate..].
    cbn [bind]. destruct (nth_error_range _ _ _ _ 0 E) as [Lx _].
    edestruct (prog_put ldd D0 tgt _ D1 dd c xs P1) as (D2 & E2 & P2); [lia|nia| |].
    + intros t Ht. destruct (HS c t Hc ltac:(lia)) as (v & E1 & ->). symmetry. rewrite (proj2 (nth_error_range _ _ _ _ t E) ltac:(lia)).
      rewrite <- E1. f_equal. lia.
    + exists D2. split; [exact E2|]. eapply prog_ext; [|exact P2]. intros; cbv beta. intuition lia.
  - intros D1 P1. exact P1.
Qed.

(** One process of the destination layout. *)
Section Redist.
Variables (N ms ps md pd : nat) (me : nat) (off block : nat) (V : nat -> nat -> T) (S : nat -> list T) (D : list T).
Hypotheses (Hms : 0 < ms) (Hps : 0 < ps) (Hmd : 0 < md) (Hpd : 0 < pd) (HN : 0 < N).
Let m s := length (owned N ms ps 0 s).
Let n := length (owned N md pd 0 me).
Hypothesis HS : forall s, s < ps -> holds (owned N ms ps 0 s) off block (m s) V (S s).
Hypothesis HD : n * (off + block) <= length D.
Let tgt k := match nth_error (owned N md pd 0 me) (k mod n) with Some g => Some (V g (k / n)) | None => nth_error D k end.
Let dn rs x y := off <= y < off + block /\ exists r, In r rs /\ r_dest r = me /\ r_dd r <= x < r_dd r + r_len r.

Lemma run_move r D1 done : In r (runs N ms ps 0 md pd 0) -> r_dest r = me -> prog n D tgt done D1 ->
  exists D2, move (m (r_src r)) n (r_len r) (r_sd r) (r_dd r) off block (S (r_src r)) D1 = Ok D2 /\
    prog n D tgt (fun x y => done x y \/ (off <= y < off + block /\ r_dd r <= x < r_dd r + r_len r)) D2.
Proof.
  intros Hr Hd P. destruct (runs_spec ms ps md pd Hms Hps Hmd Hpd N HN) as [_ F]. rewrite Forall_forall in F. specialize (F r Hr).
  assert (W : forall t, t < r_len r -> exists g, nth_error (owned N md pd 0 me) (r_dd r + t) = Some g /\
     nth_error (owned N ms ps 0 (r_src r)) (r_sd r + t) = Some g /\ r_src r < ps).
  { intros t Ht. destruct (run_place ms ps md pd Hms Hps Hmd Hpd N r t HN Hr Ht) as (g & Hg & E1 & E2 & E3 & E4). exists g.
    rewrite E3, E4, E2. rewrite <- Hd, E1. split; [apply lpos_owned; auto|]. split; [apply lpos_owned; auto|]. now apply owner_lt. }
  assert (B : r_dd r + r_len r <= n).
  { destruct (W (r_len r - 1) ltac:(lia)) as (g & E & _). assert (r_dd r + (r_len r - 1) < n) by (apply nth_error_Some; congruence). lia. }
  apply move_spec; auto; try lia.
  intros c t Hc Ht. destruct (W t Ht) as (g & E1 & E2 & E3). exists (V g c). split; [now apply HS|].
  unfold tgt. rewrite pos_mod, pos_div by lia. now rewrite E1.
Qed.

Definition delivered (D' : list T) : Prop := length D' = length D /\ holds (owned N md pd 0 me) off block n V D' /\
  (forall k, (k / n < off \/ off + block <= k / n) -> nth_error D' k = nth_error D k).

Lemma redist_end D' : me < pd -> prog n D tgt (dn (runs N ms ps 0 md pd 0)) D' -> delivered D'.
Proof.
  intros Hme [L P]. split; auto. split.
  - intros a g c Ha Hc. assert (La : a < n) by (apply nth_error_Some; congruence). destruct (P (a + c * n)) as [P1 _].
    rewrite pos_mod, pos_div in P1 by lia. rewrite P1; [unfold tgt; now rewrite pos_mod, pos_div, Ha by lia|].
    split; [auto|]. pose proof (nth_error_In _ _ Ha) as Ig. apply in_owned in Ig as [Hg Og].
    destruct (place_run ms ps md pd Hms Hps Hmd Hpd N g HN Hg) as (r & t & Hr & Ht & E1 & E2 & E3 & E4). exists r. split; [auto|]. split; [congruence|].
    assert (r_dd r + t = a); [|lia]. rewrite E3.
    pose proof (lpos_owned N md pd 0 g Hmd Hpd Hg) as Ep. rewrite Og in Ep.
    eapply (proj1 (NoDup_nth_error (owned N md pd 0 me))); [apply owned_NoDup|apply nth_error_Some; congruence|congruence].
  - intros k Hk. apply P. intros [F _]. lia.
Qed.

Lemma redist_ok : me < pd -> exists D', redist (runs N ms ps 0 md pd 0) me m n off block S D = Ok D' /\ delivered D'.
Proof.
  intros Hme. unfold redist.
  assert (G : forall rs done D1, (forall r, In r rs -> In r (runs N ms ps 0 md pd 0)) -> prog n D tgt (dn done) D1 ->
    exists D', fold_left (fun D r => let! D := D in
      if me =? r_dest r then move (m (r_src r)) n (r_len r) (r_sd r) (r_dd r) off block (S (r_src r)) D else Ok D) rs (Ok D1) = Ok D' /\
      prog n D tgt (dn (done ++ rs)) D').
  { induction rs as [|r rs IH]; intros done D1 Hin P; cbn [fold_left].
    - rewrite app_nil_r. eauto.
    - cbn [bind]. destruct (me =? r_dest r) eqn:B.
      + apply Nat.eqb_eq in B. destruct (run_move r D1 _ (Hin r (or_introl eq_refl)) (eq_sym B) P) as (D2 & E2 & P2).
        rewrite E2. destruct (IH (done ++ [r]) D2) as (D' & E' & P'); [intros; apply Hin; now right| |].
        * eapply prog_ext; [|exact P2]. intros x y. cbv beta. unfold dn. split.
          -- intros [(A1 & r' & A2 & A3)|[A1 A2]]; (split; [auto|]); [exists r'|exists r]; rewrite in_app_iff; simpl; auto.
          -- intros (A1 & r' & A2 & A3 & A4). apply in_app_or in A2 as [A2|[A2|[]]]; [left|right; subst; auto]. split; auto. exists r'. auto.
        * exists D'. split; auto. now rewrite <- app_assoc in P'.
      + apply Nat.eqb_neq in B. destruct (IH (done ++ [r]) D1) as (D' & E' & P'); [intros; apply Hin; now right| |].
        * eapply prog_ext; [|exact P]. intros x y. unfold dn. split; intros (A1 & r' & A2 & A3 & A4); (split; [auto|]).
          -- exists r'. rewrite in_app_iff. auto.
          -- apply in_app_or in A2 as [A2|[A2|[]]]; [exists r'; auto|]. congruence.
        * exists D'. split; auto. now rewrite <- app_assoc in P'. }
  destruct (G (runs N ms ps 0 md pd 0) [] D) as (D' & E & P); [auto| |].
  - split; auto. intros k. split; [|auto]. intros (_ & r & [] & _).
  - exists D'. split; [exact E|]. now apply redist_end.
Qed.
End Redist.
End MoveSpec.
