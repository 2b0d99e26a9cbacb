(** Eigenvalues, columns and residuals along solve for a backend whose column swap moves nothing, when the values of each
    Rayleigh-Ritz step come in the order in which the sort of locking leaves them. *)
From Coq Require Import List Arith ZArith Bool Lia Permutation.
Require Import Verif.Base Verif.AlgModel Verif.AlgSpec Verif.AlgProofs1 Verif.AlgProofs2 Verif.AlgProofs3 Verif.AlgProofs4 Verif.AlgKeep.
Import ListNotations.

(** [kernel_keep] with the numbers of [kernel_cols]; swaps leave the columns alone *)
Record kernel_still {F St V} (fo : fops F) (K : kernel F St) (sort_idx : list F -> list nat) (nevex : nat) (cols : St -> list V)
  (J0 : St -> Prop) (J Jf Jr : nat -> St -> Prop) (Rv : F -> V -> Prop) (Rr : F -> V -> F -> Prop) : Prop := {
  kt_keep : kernel_keep fo K nevex cols J0 J Jf Jr;
  kt_len : forall l s, J l s -> length (cols s) = nevex;
  kt_rr : forall l s v s', Jr l s -> l <= nevex -> k_rr K (nevex - l) s = Ok (v, s') ->
            Forall2 Rv v (skipn l (cols s')) /\ forall m, m <= length v -> sort_idx (firstn m v) = seq 0 m;
  kt_resd : forall l v r s s', Jr l s -> l <= nevex -> k_resd K v l s = Ok (r, s') ->
              cols s' = cols s /\ length r = nevex - l /\
              forall i x y z, nth_error v i = Some x -> nth_error (skipn l (cols s)) i = Some y ->
                nth_error r i = Some z -> Rr x y z;
  kt_swap : forall l i j s s', J l s -> i < nevex -> j < nevex -> k_swap K i j s = Ok s' -> J l s' /\ cols s' = cols s;
  kt_end : forall l s s', J l s -> k_end K s = Ok s' -> cols s' = cols s
}.

Section Still.
Context {F St V : Type} (fo : fops F) (K : kernel F St) (sort_idx : list F -> list nat).
Hypothesis Hperm : forall keys, Permutation (sort_idx keys) (seq 0 (length keys)).
Context (nevex : nat) (cols : St -> list V) (J0 : St -> Prop) (J Jf Jr : nat -> St -> Prop)
  (Rv : F -> V -> Prop) (Rr : F -> V -> F -> Prop).
Hypothesis KT : kernel_still fo K sort_idx nevex cols J0 J Jf Jr Rv Rr.
Local Notation KK := (kt_keep _ _ _ _ _ _ _ _ _ _ _ KT).
Local Notation rel3 := (rel3 Rv Rr).
Local Notation pinv := (pinv cols J Rv Rr).

Lemma kswaps_still l n : forall sw s s', in_range n sw -> n <= nevex -> J l s -> kswaps K 0 sw s = Ok s' -> J l s' /\ cols s' = cols s.
Proof.
  induction sw as [|[i j] sw IH]; intros s s' Hr Hn HQ H; simpl in H.
  - inversion H; subst. auto.
  - inversion Hr as [|? ? [Hi Hj] Hr']; subst. simpl in Hi, Hj. apply bind_ok in H as (t & Ht & H).
    apply (kt_swap _ _ _ _ _ _ _ _ _ _ _ KT l) in Ht as (HQt & Et); auto; try lia. apply IH in H as (H1 & H2); auto. split; auto. congruence.
Qed.

Lemma iterate_still cf nr ns ub s s' : nevex = c_nev cf + c_nex cf -> conf_ok cf ->
  book cf nr ns s -> c_nex cf < ss_unconv s -> pinv cf s -> iterate fo K sort_idx cf ub s = Ok s' -> pinv cf s'.
Proof.
  intros Hnv HC HB Hn [PD PJ PL _] H. pose proof HB as [B1 B2 [B3 B3'] [B4 B4'] [B5 B5'] [B6 B6']].
  pose proof (iterate_degs fo K sort_idx cf nr ns ub s s' HC HB Hn PD H) as PD'.
  pose proof (iterate_book fo K sort_idx Hperm cf nr ns ub s s' HB Hn H) as (HB' & _).
  apply iterate_inv in H as (lb0 & la & deg & a & av & k1 & cond & k2 & vals & k3 & ritz & last & rs & k4 & resid & new & l & k5 & H).
  cbv zeta in H. destruct H as (H1 & H2 & H3 & H4 & H5 & H6 & H7 & H8 & H9 & H10 & H11 & Q1 & Q2 & Q3 & Q4 & ->).
  pose proof H2 as H2'. apply (degree_step_degs fo K) in H2' as (D1 & D2 & D3 & D4); auto.
  apply degree_step_len in H2 as (L1 & sw & Hr & E1 & E2 & E3 & E4); auto; [|lia].
  set (lk := ss_locked s) in *. set (un := ss_unconv s) in *.
  apply (kswaps_keep K nevex cols J lk un) in E4 as (Ja & Fa); auto; [|intros ? ? ? ? X1 X2 X3 X4; exact (kk_swap _ _ _ _ _ _ _ _ KK _ _ _ _ _ X1 X2 X3 X4)|lia].
  assert (FA : filter_args lk nevex un deg (cd_deg a)).
  { split; [lia|]. split; [lia|]. split; auto. split; auto. rewrite Forall_forall in *. intros d Hd. specialize (D2 d Hd). specialize (D3 d Hd). tauto. }
  apply (kk_filter _ _ _ _ _ _ _ _ KK lk) in H3 as (J1 & F1); auto.
  apply (kk_qr _ _ _ _ _ _ _ _ KK lk) in H4 as (J2 & F2); auto.
  replace un with (nevex - lk) in H5 by lia.
  pose proof H5 as R3. apply (kt_rr _ _ _ _ _ _ _ _ _ _ _ KT lk) in R3 as (R3 & RS); auto; [|lia].
  apply (kk_rr _ _ _ _ _ _ _ _ KK lk) in H5 as (J3 & F3); auto; [|lia].
  pose proof H8 as R4. apply (kt_resd _ _ _ _ _ _ _ _ _ _ _ KT lk) in R4 as (F4 & L4 & R4); auto; [|lia].
  apply (kk_resd _ _ _ _ _ _ _ _ KK lk) in H8 as (J4 & _); auto; [|lia].
  pose proof (kt_len _ _ _ _ _ _ _ _ _ _ _ KT _ _ (kk_sub _ _ _ _ _ _ _ _ KK _ _ J3)) as Hlen3.
  assert (Lv : length vals = un).
  { apply Forall2_len in R3. rewrite R3, skipn_length. lia. }
  assert (Lrs : length rs = un) by lia.
  assert (Hlr : un <= length ritz).
  { apply put_range_inv in H6 as [X ->]. rewrite !app_length, firstn_length, skipn_length. lia. }
  assert (Hls : un <= length resid).
  { apply put_range_inv in H9 as [X ->]. rewrite !app_length, firstn_length, skipn_length. lia. }
  assert (W1 : firstn un ritz = vals) by (rewrite <- Lv; eapply put_range_0_firstn; eauto).
  assert (W2 : firstn un resid = rs) by (rewrite <- Lrs; eapply put_range_0_firstn; eauto).
  assert (HW : rel3 (firstn un ritz) (skipn lk (cols k4)) (firstn un resid)).
  { rewrite W1, W2, F4. split; [apply Forall2_len in R3; auto|]. split; [rewrite skipn_length; lia|].
    intros i x y z Hx Hy Hz. split.
    - clear - R3 Hx Hy. revert i Hx Hy. induction R3; intros [|i] Hx Hy; simpl in *; try discriminate.
      + congruence. + eapply IHR3; eauto.
    - apply (R4 i x y z); auto. rewrite <- W1 in Hx. rewrite nth_firstn in Hx; auto.
      apply nth_error_lt in Hz. lia. }
  (* locking finds the values in order and moves nothing *)
  assert (LK : new <= un - c_nex cf /\ l = mk_lk ritz resid last k4).
  { unfold locking in H10. cbn [lk_ritz] in H10. rewrite get_range_ok in H10 by (simpl; lia). cbn [bind skipn] in H10.
    assert (EK : firstn (un - c_nex cf) ritz = firstn (un - c_nex cf) vals).
    { rewrite <- W1, firstn_firstn. f_equal. lia. }
    rewrite EK, RS in H10 by lia.
    assert (Hll : un - c_nex cf <= length last).
    { apply min_into_length in H7. rewrite E3, swps_length in H7. lia. }
    destruct (lk_walk_id fo K (c_tol cf) lk (un - c_nex cf) 0 (mk_lk ritz resid last k4)) as (c & E & Hc & _); cbn; try lia.
    rewrite E in H10. injection H10 as <- <-. split; auto; lia. }
  destruct LK as (Hnew & ->). cbn [lk_ritz lk_res lk_last lk_k] in *.
  apply (kk_lock _ _ _ _ _ _ _ _ KK lk) in H11 as (J6 & F6); auto.
  assert (FL : firstn lk (cols k5) = firstn lk (cols (ss_k s))).
  { rewrite F6, F4, F3, F2, F1, Fa. auto. }
  rewrite <- F6 in HW.
  constructor; cbn [ss_locked ss_unconv ss_ritz ss_res ss_k ss_iter fst snd]; auto.
  - replace (firstn (lk + new) (cols k5)) with (firstn lk (cols k5) ++ firstn new (skipn lk (cols k5))).
    + apply rel3_app; [rewrite FL; auto|]. apply (rel3_firstn Rv Rr new) in HW.
      rewrite !firstn_firstn, Nat.min_l in HW by lia. auto.
    + symmetry. apply firstn_plus.
  - intros _. apply (rel3_skipn Rv Rr new) in HW. rewrite skipn_skipn_ in HW.
    rewrite !skipn_firstn_comm in HW. auto.
Qed.

Lemma reach_still cf nr ns ub s t : nevex = c_nev cf + c_nex cf -> conf_ok cf -> ss_iter s <= c_maxiter cf ->
  book cf nr ns s -> pinv cf s -> reach fo K sort_idx cf ub s t -> pinv cf t /\ book cf nr ns t.
Proof.
  intros Hnv HC HI HB HP HR. induction HR; auto.
  destruct IHHR as [P' B']; auto. split.
  - eapply iterate_still; eauto.
  - eapply (iterate_book fo K sort_idx Hperm); eauto.
Qed.

(** what a caller sees: the final sort permutes the values, not the columns *)
Lemma still_pairs fsort cf k ritzv resid o s : nevex = c_nev cf + c_nex cf -> conf_ok cf -> J0 k -> 1 <= c_maxiter cf ->
  solve fo K fsort sort_idx cf k ritzv resid = Ok o -> o_exit o = Some s ->
  exists sw, in_range (c_nev cf) sw /\
    o_ritz o = swps sw (whole (ss_ritz s)) /\ cols (o_k o) = cols (ss_k s) /\ o_res o = whole (ss_res s) /\ length (cols (o_k o)) = nevex /\
    rel3 (firstn nevex (whole (ss_ritz s))) (cols (ss_k s)) (firstn nevex (whole (ss_res s))) /\
    rel3 (firstn (c_nev cf) (o_ritz o)) (swps sw (firstn (c_nev cf) (cols (o_k o)))) (swps sw (firstn (c_nev cf) (o_res o))).
Proof.
  intros Hnv HC HJ Hmi H Hex. unfold solve in H. apply bind_ok in H as ([cont k0] & Hsym & H).
  assert (HJk : J0 k0).
  { destruct (c_symcheck cf); [eapply (kk_sym _ _ _ _ _ _ _ _ KK); eauto|inversion Hsym; subst; auto]. }
  destruct (negb cont); [injection H as E; subst o; discriminate|].
  apply bind_ok in H as ([ub s0] & Hinit & H). apply bind_ok in H as (t & Hloop & H).
  apply bind_ok in H as ([r k'] & Hsort & H). apply bind_ok in H as (k'' & Hend & H). injection H as E. subst o.
  cbn [o_exit] in Hex. injection Hex as E. subst t. cbn [o_ritz o_res o_k].
  pose proof (solve_init_book fo K fsort cf k0 ritzv resid ub s0 Hinit) as (HB & Hi & Hl & X1 & X2 & G1 & G2 & Hpos).
  assert (HP0 : pinv cf s0).
  { destruct (solve_init_keep fo K nevex cols J0 J Jf Jr KK fsort cf k0 ritzv resid ub s0 Hnv HC HJk Hinit) as (Y1 & Y2).
    constructor; auto; rewrite ?Hl, ?Hi; auto; [|lia].
    destruct (bk_r _ _ _ _ HB) as [Lr _]. destruct (bk_s _ _ _ _ HB) as [Ls _]. rewrite Hl in Lr, Ls.
    destruct (fst (ss_ritz s0)); [|discriminate]. destruct (fst (ss_res s0)); [|discriminate].
    split; auto. split; auto. intros [|i']; discriminate. }
  pose proof (solve_loop_reach fo K sort_idx cf ub _ _ _ Hloop) as [HR HX].
  destruct (reach_still cf _ _ ub s0 s Hnv HC ltac:(lia) HB HP0 HR) as [[PD PJ PL PR] HB'].
  assert (Hnev : 1 <= c_nev cf).
  { unfold final_sort in Hsort. destruct (c_nev cf =? 0) eqn:E; [discriminate|]. apply Nat.eqb_neq in E. lia. }
  assert (Hit : 1 <= ss_iter s).
  { inversion HR; subst.
    - destruct HX as [HX|HX]; [|lia]. exfalso. pose proof (bk_sum _ _ _ _ HB'). lia.
    - pose proof (reach_book fo K sort_idx Hperm cf _ _ ub s0 t HB ltac:(lia) H) as (Bt & _).
      pose proof (iterate_book fo K sort_idx Hperm cf _ _ ub t s Bt H0 H2) as (_ & E & _). lia. }
  specialize (PR Hit).
  pose proof HB' as [B1 B2 [B3 B3'] [B4 B4'] _ _].
  assert (HW : rel3 (firstn nevex (whole (ss_ritz s))) (cols (ss_k s)) (firstn nevex (whole (ss_res s)))).
  { assert (HX1 : forall (p : ptr F), length (fst p) = ss_locked s -> firstn nevex (whole p) = fst p ++ firstn (ss_unconv s) (snd p)).
    { intros p Hp. unfold whole. rewrite firstn_app. rewrite (firstn_all2 (fst p)) by lia. f_equal. f_equal. lia. }
    rewrite !HX1 by auto. rewrite <- (firstn_skipn (ss_locked s) (cols (ss_k s))).
    apply rel3_app; auto. }
  apply final_sort_by in Hsort as (_ & sw & Hr & (E1 & E2)); [|rewrite B3'; lia]. cbn [fst snd] in *.
  pose proof (kt_len _ _ _ _ _ _ _ _ _ _ _ KT _ _ PJ) as Hlen.
  apply (kswaps_still (ss_locked s) (c_nev cf)) in E2 as (J2 & S2); auto; [|lia].
  apply (kt_end _ _ _ _ _ _ _ _ _ _ _ KT (ss_locked s)) in Hend as E3; auto.
  exists sw. rewrite E3, S2, E1.
  split; auto. split; auto. split; auto. split; auto. split; auto. split; auto.
  pose proof (rel3_firstn Rv Rr (c_nev cf) _ _ _ HW) as HN.
  rewrite !firstn_firstn, !Nat.min_l in HN by lia.
  apply (rel3_swps Rv Rr (c_nev cf) sw) in HN; auto; [|rewrite firstn_length; lia].
  rewrite <- (firstn_swps sw (c_nev cf) (whole (ss_ritz s))) in HN by (auto; lia).
  exact HN.
Qed.
End Still.
