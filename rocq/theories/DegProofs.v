(** Proofs about degrees in exact real arithmetic. *)
From Coq Require Import List Reals ZArith Bool Lia Lra.
Require Import Verif.Base Verif.AlgModel Verif.AlgSpec Verif.AlgProofs1 Verif.AlgProofs3 Verif.AlgProofs6 Verif.DegSpec.
Import ListNotations.
Local Open Scope R_scope.

Lemma rltb_t x y : x < y -> rltb x y = true.
Proof. intros H. unfold rltb. destruct (Rlt_dec x y); [auto|lra]. Qed.
Lemma rltb_f x y : y <= x -> rltb x y = false.
Proof. intros H. unfold rltb. destruct (Rlt_dec x y); [lra|auto]. Qed.
Lemma reqb_f x y : x <> y -> reqb x y = false.
Proof. intros H. unfold reqb. destruct (Req_EM_T x y); [lra|auto]. Qed.
Lemma reqb_t x y : x = y -> reqb x y = true.
Proof. intros H. unfold reqb. destruct (Req_EM_T x y); [auto|lra]. Qed.

Lemma rceil_bounds x : x <= IZR (rceil x) < x + 1.
Proof. unfold rceil. pose proof (base_Int_part (- x)) as [A B]. rewrite opp_IZR. lra. Qed.
Lemma rceil_le x z : x <= IZR z -> (rceil x <= z)%Z.
Proof. intros H. pose proof (rceil_bounds x) as [_ B]. assert (IZR (rceil x) < IZR (z + 1)) by (rewrite plus_IZR; lra). apply lt_IZR in H0. lia. Qed.
Lemma rceil_ge x z : IZR z <= x -> (z <= rceil x)%Z.
Proof. intros H. pose proof (rceil_bounds x) as [A _]. apply le_IZR. lra. Qed.
Lemma Int_part_IZR z : Int_part (IZR z) = z.
Proof.
  pose proof (base_Int_part (IZR z)) as [A B]. apply le_IZR in A. assert (IZR z < IZR (Int_part (IZR z) + 1)) by (rewrite plus_IZR; lra).
  apply lt_IZR in H. lia.
Qed.

(** ** the rate *)
Section Rate.
Variables (lb ub x : R).
Hypotheses (Hi : lb < ub) (Hx : x < lb).
Local Notation t := (position lb ub x).
Local Notation q := (rate lb ub x).

Lemma position_below : t < - 1.
Proof.
  unfold position. apply Rmult_lt_reg_r with ((ub - lb) / 2); [lra|]. unfold Rdiv at 1. rewrite Rmult_assoc, Rinv_l by lra. lra.
Qed.
Lemma root_pos : 0 < t * t - 1.
Proof. pose proof position_below. nra. Qed.
Lemma rate_eq : q = - t + sqrt (t * t - 1).
Proof. pose proof position_below as H. unfold rate. rewrite Rabs_left by lra. f_equal. f_equal. ring. Qed.
Lemma rate_gt1 : 1 < q.
Proof. rewrite rate_eq. pose proof position_below. pose proof (sqrt_pos (t * t - 1)). lra. Qed.
Lemma rate_inv : / q = - t - sqrt (t * t - 1).
Proof.
  pose proof rate_gt1 as G. apply Rmult_eq_reg_l with q; [|lra]. rewrite Rinv_r by lra. rewrite rate_eq.
  pose proof (sqrt_sqrt (t * t - 1)) as S. pose proof root_pos. assert (sqrt (t * t - 1) * sqrt (t * t - 1) = t * t - 1) by (apply S; lra). nra.
Qed.
Lemma cheb_closed n : cheb_pair n t = (((- q) ^ n + (/ - q) ^ n) / 2, ((- q) ^ S n + (/ - q) ^ S n) / 2).
Proof.
  pose proof rate_gt1 as G. assert (T : 2 * t = - q + / - q). { rewrite <- Ropp_inv_permute by lra. rewrite rate_inv, rate_eq. lra. }
  assert (Z : - q * / - q = 1) by (apply Rinv_r; lra).
  induction n as [|n IH]; [cbn [cheb_pair pow]; f_equal; lra|].
  cbn [cheb_pair]. rewrite IH. f_equal. rewrite T. cbn [pow]. set (z := - q) in *. set (w := / z) in *. clearbody z w.
  transitivity ((z * (z * z ^ n) + w * (w * w ^ n) + (z * w) * w ^ n + (z * w) * z ^ n - z ^ n - w ^ n) / 2); [field|]. rewrite Z. field.
Qed.
Lemma amplification_closed n : amplification lb ub x n = (q ^ n + (/ q) ^ n) / 2.
Proof.
  pose proof rate_gt1 as G. unfold amplification, cheb. rewrite cheb_closed. cbn [fst]. rewrite <- Ropp_inv_permute by lra.
  replace (- q) with (-1 * q) by ring. replace (- / q) with (-1 * / q) by ring. rewrite !Rpow_mult_distr.
  replace (((-1) ^ n * q ^ n + (-1) ^ n * (/ q) ^ n) / 2) with ((-1) ^ n * ((q ^ n + (/ q) ^ n) / 2)) by field.
  rewrite Rabs_mult, pow_1_abs, Rmult_1_l. apply Rabs_right.
  assert (0 < q ^ n) by (apply pow_lt; lra). assert (0 < (/ q) ^ n) by (apply pow_lt; apply Rinv_0_lt_compat; lra). lra.
Qed.
Lemma amplification_bounds n : q ^ n <= 2 * amplification lb ub x n /\ amplification lb ub x n <= q ^ n.
Proof.
  pose proof rate_gt1 as G. rewrite amplification_closed.
  assert (0 < (/ q) ^ n) by (apply pow_lt; apply Rinv_0_lt_compat; lra).
  assert ((/ q) ^ n <= q ^ n).
  { apply pow_incr. split; [left; apply Rinv_0_lt_compat; lra|]. assert (/ q < / 1) by (apply Rinv_lt_contravar; lra). lra. }
  lra.
Qed.
End Rate.

Lemma ln_pow_ x n : 0 < x -> ln (x ^ n) = INR n * ln x.
Proof.
  intros H. induction n as [|n IH]; [cbn; rewrite ln_1; lra|]. cbn [pow]. rewrite ln_mult by (auto; now apply pow_lt). rewrite IH, S_INR. lra.
Qed.
Lemma ln_gt0 q : 1 < q -> 0 < ln q.
Proof. intros. rewrite <- ln_1. apply ln_increasing; lra. Qed.
Lemma ln_le_ x y : 0 < x -> x <= y -> ln x <= ln y.
Proof. intros H [L| ->]; [left; now apply ln_increasing|lra]. Qed.
Lemma ln_le_inv_ x y : 0 < x -> 0 < y -> ln x <= ln y -> x <= y.
Proof. intros Hx Hy H. destruct (Rle_or_lt x y); auto. apply ln_increasing in H0; auto. lra. Qed.

(** the requested degree *)
Definition need (q u : R) : nat := Z.to_nat (rceil (Rabs (ln u / ln q))).
Section Need.
Variables (q u : R).
Hypotheses (Hq : 1 < q) (Hu : 0 < u).
Lemma need_abs : Rabs (ln u / ln q) = Rabs (ln u) / ln q.
Proof. pose proof (ln_gt0 q Hq). unfold Rdiv. rewrite Rabs_mult, (Rabs_right (/ ln q)); auto. left. now apply Rinv_0_lt_compat. Qed.
Lemma need_INR : INR (need q u) = IZR (rceil (Rabs (ln u / ln q))).
Proof.
  unfold need. assert (0 <= rceil (Rabs (ln u / ln q)))%Z.
  { apply le_IZR. pose proof (rceil_bounds (Rabs (ln u / ln q))). pose proof (Rabs_pos (ln u / ln q)). lra. }
  rewrite INR_IZR_INZ, Z2Nat.id by auto. reflexivity.
Qed.
Lemma need_enough : Rabs (ln u) <= INR (need q u) * ln q.
Proof.
  pose proof (ln_gt0 q Hq) as G. pose proof (rceil_bounds (Rabs (ln u / ln q))) as [A _]. rewrite need_INR.
  rewrite need_abs in A at 1. apply Rmult_le_compat_r with (r := ln q) in A; [|lra]. unfold Rdiv in A at 1. rewrite Rmult_assoc, Rinv_l, Rmult_1_r in A by lra. exact A.
Qed.
Lemma need_reaches : u <= q ^ need q u.
Proof.
  apply ln_le_inv_; auto; [apply pow_lt; lra|]. rewrite ln_pow_ by lra. pose proof need_enough. pose proof (Rle_abs (ln u)). lra.
Qed.
Lemma need_least m : 1 <= u -> u <= q ^ m -> (need q u <= m)%nat.
Proof.
  intros H1 H. pose proof (ln_gt0 q Hq) as G. assert (0 <= ln u) by (rewrite <- ln_1; apply ln_le_; lra).
  apply ln_le_ in H; auto. rewrite ln_pow_ in H by lra. unfold need.
  assert (rceil (Rabs (ln u / ln q)) <= Z.of_nat m)%Z; [|lia]. apply rceil_le. rewrite <- INR_IZR_INZ, need_abs, Rabs_right by lra.
  apply Rmult_le_reg_r with (ln q); auto. unfold Rdiv. rewrite Rmult_assoc, Rinv_l, Rmult_1_r by lra. exact H.
Qed.
Lemma need_below k : u * q ^ k <= 1 -> (k <= need q u)%nat.
Proof.
  intros H. pose proof (ln_gt0 q Hq) as G. assert (P : 0 < q ^ k) by (apply pow_lt; lra).
  apply ln_le_ in H; [|now apply Rmult_lt_0_compat]. rewrite ln_mult, ln_pow_, ln_1 in H by lra. unfold need.
  assert (Z.of_nat k <= rceil (Rabs (ln u / ln q)))%Z; [|lia]. apply rceil_ge. rewrite <- INR_IZR_INZ, need_abs.
  apply Rmult_le_reg_r with (ln q); auto. unfold Rdiv. rewrite Rmult_assoc, Rinv_l, Rmult_1_r by lra.
  pose proof (Rle_abs (- ln u)). rewrite Rabs_Ropp in H0. lra.
Qed.
End Need.

(** ** the formula *)
Section Formula.
Variables (huge : R) (gauss : R -> R).
Local Notation fo := (rops huge gauss).

Lemma formula_eq ub lb tol x s : lb < ub -> x < lb -> 0 < tol -> 0 < s ->
  degree_formula fo (Some ub) (Some lb) (Some tol) (Some x) (Some s) =
  if rltb (IZR (rceil (Rabs (ln (s / tol) / ln (rate lb ub x))))) (2 ^ 64) then Some (need (rate lb ub x) (s / tol)) else None.
Proof.
  intros Hi Hx Ht Hs. pose proof (position_below lb ub x Hi Hx) as P. pose proof (rate_gt1 lb ub x Hi Hx) as G.
  pose proof (root_pos lb ub x Hi Hx) as RP. pose proof (ln_gt0 _ G) as LG.
  unfold degree_formula. cbn [f_div f_add f_sub f_two rops x2 xif]. rewrite (reqb_f 2 0) by lra. cbn [negb xif].
  cbn [f_div f_sub rops x2]. rewrite (reqb_f ((ub - lb) / 2) 0) by lra. cbn [negb xif].
  change ((x - (ub + lb) / 2) / ((ub - lb) / 2)) with (position lb ub x). set (t := position lb ub x) in *.
  cbn [f_sqrt f_abs f_sub f_mul f_one f_add rops x1 x2]. rewrite (Rabs_right (t * t - 1)) by lra. rewrite (rltb_f (t * t - 1) 0) by lra. cbn [negb xif x1 x2 f_lt rops].
  assert (SP := sqrt_pos (t * t - 1)).
  assert (SL : sqrt (t * t - 1) <= - t). { apply Rsqr_incr_0_var; [|lra]. unfold Rsqr. rewrite sqrt_sqrt by lra. nra. }
  rewrite (Rabs_left (t - sqrt (t * t - 1))) by lra. rewrite (Rabs_left1 (t + sqrt (t * t - 1))) by lra.
  rewrite rltb_f by lra. replace (- (t - sqrt (t * t - 1))) with (rate lb ub x) by (rewrite rate_eq by auto; fold t; ring).
  cbn [f_log f_div rops x2]. rewrite (reqb_f tol 0) by lra. cbn [negb xif]. rewrite (rltb_t 0 (s / tol)) by (apply Rdiv_lt_0_compat; auto).
  rewrite (rltb_t 0 (rate lb ub x)) by lra. cbn [xif x2]. rewrite (reqb_f (ln (rate lb ub x)) 0) by lra. cbn [negb xif x1 f_ceil f_to_size rops].
  rewrite (rltb_f _ 0). 2:{ pose proof (rceil_bounds (Rabs (ln (s / tol) / ln (rate lb ub x)))). pose proof (Rabs_pos (ln (s / tol) / ln (rate lb ub x))). lra. }
  cbn [negb andb]. rewrite Int_part_IZR. reflexivity.
Qed.
End Formula.

(** ** inside the interval *)
Lemma cheb_cos n x : cheb_pair n (cos x) = (cos (INR n * x), cos (INR (S n) * x)).
Proof.
  induction n as [|n IH]; [cbn [cheb_pair INR]; f_equal; [rewrite Rmult_0_l; now rewrite cos_0|f_equal; lra]|].
  cbn [cheb_pair]. rewrite IH. f_equal. rewrite (S_INR (S n)), (S_INR n).
  replace ((INR n + 1 + 1) * x) with ((INR n + 1) * x + x) by ring. replace (INR n * x) with ((INR n + 1) * x - x) by ring.
  rewrite cos_plus, cos_minus. ring.
Qed.
Lemma amplification_inside lb ub x n : lb < ub -> lb <= x <= ub -> amplification lb ub x n <= 1.
Proof.
  intros Hi Hx. unfold amplification, cheb.
  assert (P : -1 <= position lb ub x <= 1).
  { unfold position. split; apply Rmult_le_reg_r with ((ub - lb) / 2); try lra; unfold Rdiv at 2; unfold Rdiv at 1;
      rewrite ?Rmult_assoc, ?Rinv_l by lra; try lra.
    all: unfold Rdiv at 1; rewrite Rmult_assoc, Rinv_l by lra; lra. }
  rewrite <- (cos_acos (position lb ub x)) by lra. rewrite cheb_cos. cbn [fst]. apply Rabs_le. pose proof (COS_bound (INR n * acos (position lb ub x))). lra.
Qed.

Lemma round_even_ge x : (x <= round_even x <= x + 1)%nat.
Proof. unfold round_even. pose proof (Nat.mod_upper_bound x 2). lia. Qed.
Lemma round_even_mono x y : (x <= y -> round_even x <= round_even y)%nat.
Proof.
  intros H. unfold round_even. destruct (Nat.eq_dec x y) as [->|]; auto. pose proof (Nat.mod_upper_bound x 2). lia.
Qed.

Lemma want_calc huge gauss ub lb tol x s d : lb < ub -> x < lb -> 0 < tol -> 0 < s -> forall cf : conf xr,
  (exists n, degree_formula (rops huge gauss) (Some ub) (Some lb) (Some tol) (Some x) (Some s) = Some n /\
     d = round_even (Nat.min (n + c_degextra cf) (c_maxdeg cf))) ->
  (cut_off cf d \/ s * rate lb ub x ^ c_degextra cf <= 2 * tol * amplification lb ub x d) /\
  (forall m, tol <= s -> s <= tol * rate lb ub x ^ m -> (d <= m + c_degextra cf + 1)%nat) /\
  (forall k, s * rate lb ub x ^ k <= tol -> (Nat.min (k + c_degextra cf) (c_maxdeg cf) <= d)%nat).
Proof.
  intros Hi Hx Ht Hs cf (n & E & ->). rewrite formula_eq in E by auto. destruct (rltb _ _); [|discriminate]. injection E as <-.
  pose proof (rate_gt1 lb ub x Hi Hx) as G. set (q := rate lb ub x) in *. assert (U : 0 < s / tol) by (apply Rdiv_lt_0_compat; auto).
  assert (US : s = tol * (s / tol)) by (field; lra).
  split; [|split].
  - pose proof (need_reaches q (s / tol) G U) as NR. set (n := need q (s / tol)) in *.
    destruct (Nat.le_gt_cases (c_maxdeg cf) (n + c_degextra cf)) as [L|L]; [left; unfold cut_off; f_equal; lia|right].
    rewrite Nat.min_l by lia. pose proof (round_even_ge (n + c_degextra cf)) as RE. set (d := round_even (n + c_degextra cf)) in *.
    destruct (amplification_bounds lb ub x Hi Hx d) as [A _]. fold q in A.
    assert (PE : 0 < q ^ c_degextra cf) by (apply pow_lt; lra).
    assert (s <= tol * q ^ n) by (rewrite US at 1; apply Rmult_le_compat_l; lra).
    assert (q ^ (n + c_degextra cf) <= q ^ d) by (apply Rle_pow; [lra|lia]). rewrite pow_add in H0.
    apply Rle_trans with (tol * q ^ n * q ^ c_degextra cf); [apply Rmult_le_compat_r; lra|].
    apply Rle_trans with (tol * (2 * amplification lb ub x d)); [|lra]. rewrite Rmult_assoc. apply Rmult_le_compat_l; lra.
  - intros m H1 H2. assert (need q (s / tol) <= m)%nat.
    { apply need_least; auto; apply Rmult_le_reg_l with tol; auto; rewrite <- US; lra. }
    pose proof (round_even_ge (Nat.min (need q (s / tol) + c_degextra cf) (c_maxdeg cf))). lia.
  - intros k H. assert (k <= need q (s / tol))%nat.
    { apply need_below; auto. apply Rmult_le_reg_l with tol; auto. rewrite <- Rmult_assoc, <- US. lra. }
    pose proof (round_even_ge (Nat.min (need q (s / tol) + c_degextra cf) (c_maxdeg cf))). lia.
Qed.

Lemma degrees_chosen huge gauss St (K : kernel xr St) cf unc nex ub lb locked a r a' tol :
  (nex < unc)%nat -> (unc <= length (cd_deg a))%nat -> lb < ub -> 0 < tol -> c_tol cf = Some tol ->
  calc_degrees (rops huge gauss) K cf unc nex (Some ub) (Some lb) locked a = Ok (r, a') ->
  exists wanted, joint_degrees K unc locked wanted a a' /\
    forall i x s, (i < unc - nex)%nat -> nth_error (cd_ritz a) i = Some (Some x) -> nth_error (cd_res a) i = Some (Some s) ->
      x < lb -> 0 < s -> exists d, nth_error wanted i = Some d /\
      (cut_off cf d \/ s * rate lb ub x ^ c_degextra cf <= 2 * tol * amplification lb ub x d) /\
      (forall m, tol <= s -> s <= tol * rate lb ub x ^ m -> (d <= m + c_degextra cf + 1)%nat) /\
      (forall k, s * rate lb ub x ^ k <= tol -> (Nat.min (k + c_degextra cf) (c_maxdeg cf) <= d)%nat).
Proof.
  intros H1 H2 Hi Ht Htol H. apply calc_degrees_spec in H as (sw & w & Hr & Hw & HD & D & A1 & A2 & A3 & A4 & _); auto.
  exists w. split; [exists sw; auto 10|]. intros i x s Li Ex Es Hx Hs.
  destruct (HD i) as (d & Ed & WD); [lia|]. exists d. split; auto. unfold want_degree in WD.
  apply Nat.ltb_lt in Li. rewrite Li in WD. destruct WD as (r0 & s0 & n & E1 & E2 & E3 & E4). rewrite Ex in E1. rewrite Es in E2.
  injection E1 as <-. injection E2 as <-. apply (want_calc huge gauss); auto. exists n. rewrite <- Htol. auto.
Qed.

Lemma reaches huge gauss St (K : kernel xr St) cf unc nex ub lb locked a r a' tol :
  (nex < unc)%nat -> (unc <= length (cd_deg a))%nat -> lb < ub -> 0 < tol -> c_tol cf = Some tol ->
  calc_degrees (rops huge gauss) K cf unc nex (Some ub) (Some lb) locked a = Ok (r, a') ->
  exists wanted, joint_degrees K unc locked wanted a a' /\
    forall i x s, (i < unc - nex)%nat -> nth_error (cd_ritz a) i = Some (Some x) -> nth_error (cd_res a) i = Some (Some s) ->
      x < lb -> 0 < s -> exists d, nth_error wanted i = Some d /\
      (cut_off cf d \/ s * rate lb ub x ^ c_degextra cf <= 2 * tol * amplification lb ub x d) /\
      (2 <= rate lb ub x ^ c_degextra cf -> cut_off cf d \/ s <= tol * amplification lb ub x d) /\
      (forall m, tol <= s -> s <= tol * amplification lb ub x m -> (d <= m + c_degextra cf + 1)%nat).
Proof.
  intros H1 H2 Hi Ht Htol H. destruct (degrees_chosen _ _ _ _ _ _ _ _ _ _ _ _ _ _ H1 H2 Hi Ht Htol H) as (w & J & W).
  exists w. split; auto. intros i x s Li Ex Es Hx Hs. destruct (W i x s Li Ex Es Hx Hs) as (d & Ed & A & B & _).
  exists d. split; auto. split; auto. split.
  - intros H3. destruct A as [A|A]; auto. right. assert (s * 2 <= s * rate lb ub x ^ c_degextra cf) by (apply Rmult_le_compat_l; lra). lra.
  - intros m M1 M2. apply B; auto. destruct (amplification_bounds lb ub x Hi Hx m) as [_ AB]. apply Rle_trans with (1 := M2). apply Rmult_le_compat_l; lra.
Qed.

Lemma below_tolerance huge gauss St (K : kernel xr St) cf unc nex ub lb locked a r a' tol :
  (nex < unc)%nat -> (unc <= length (cd_deg a))%nat -> lb < ub -> 0 < tol -> c_tol cf = Some tol ->
  calc_degrees (rops huge gauss) K cf unc nex (Some ub) (Some lb) locked a = Ok (r, a') ->
  exists wanted, joint_degrees K unc locked wanted a a' /\
    forall i x s, (i < unc - nex)%nat -> nth_error (cd_ritz a) i = Some (Some x) -> nth_error (cd_res a) i = Some (Some s) ->
      x < lb -> 0 < s -> exists d, nth_error wanted i = Some d /\
      (forall k, s * rate lb ub x ^ k <= tol -> (Nat.min (k + c_degextra cf) (c_maxdeg cf) <= d)%nat).
Proof.
  intros H1 H2 Hi Ht Htol H. destruct (degrees_chosen _ _ _ _ _ _ _ _ _ _ _ _ _ _ H1 H2 Hi Ht Htol H) as (w & J & W).
  exists w. split; auto. intros i x s Li Ex Es Hx Hs. destruct (W i x s Li Ex Es Hx Hs) as (d & Ed & _ & _ & A). eauto.
Qed.

(** ** degenerate bounds *)
Section Degenerate.
Context {St : Type} (huge : R) (gauss : R -> R) (K : kernel xr St) (sort_idx : list xr -> list nat).
Local Notation fo := (rops huge gauss).

Lemma later_bounds cf (s : sstate (F := xr) (St := St)) x : later_state cf s x ->
  exists la, update_bounds fo (c_nev cf + c_nex cf) s = Ok (Some x, la).
Proof.
  intros ((_ & U1 & U2) & L1 & L2 & Ex & Hr). unfold update_bounds. apply Nat.ltb_lt in U2. rewrite U2. apply Nat.ltb_lt in U2.
  rewrite get_range_ok by (simpl; auto). cbn [bind skipn].
  destruct (min_element_ok fo (firstn (c_nev cf + c_nex cf) (whole (ss_ritz s)))) as (la & ->).
  { intros E. apply (f_equal (@length xr)) in E. rewrite firstn_length_le in E by auto. cbn in E. lia. }
  cbn [bind]. rewrite get_range_ok by (simpl; auto). cbn [bind skipn].
  assert (FA : forallb (fun r : xr => negb (f_lt fo (f_half fo) r)) (firstn (ss_unconv s) (snd (ss_res s))) = true).
  { apply forallb_forall. intros r Hin. apply In_nth_error in Hin as (i & Hn).
    assert (Li : (i < ss_unconv s)%nat). { assert (L : (i < length (firstn (ss_unconv s) (snd (ss_res s))))%nat) by (apply nth_error_Some; congruence). rewrite firstn_length_le in L; auto. }
    rewrite nth_firstn in Hn by auto. destruct (Hr i r Li Hn) as (y & -> & Hy). cbn [f_lt f_half rops]. rewrite rltb_f by lra. reflexivity. }
  rewrite FA. unfold rd. rewrite Ex. cbn [bind]. eauto.
Qed.

Lemma formula_at_bound b ub tol s : degree_formula fo (Some ub) (Some b) tol (Some b) s = None.
Proof.
  unfold degree_formula. cbn [f_div f_add f_sub f_two rops x2 xif]. rewrite (reqb_f 2 0) by lra. cbn [negb xif].
  cbn [f_div f_sub rops x2]. destruct (Req_EM_T ((ub - b) / 2) 0) as [E|E]; [rewrite reqb_t by auto; reflexivity|]. rewrite reqb_f by auto. cbn [negb xif].
  replace ((b - (ub + b) / 2) / ((ub - b) / 2)) with (- 1) by (field; lra).
  cbn [f_sqrt f_abs f_sub f_mul f_one f_add rops x1 x2]. replace (Rabs (-1 * -1 - 1)) with 0 by (rewrite Rabs_right; lra).
  rewrite (rltb_f 0 0) by lra. rewrite sqrt_0. cbn [negb xif x1 x2 f_lt rops]. rewrite (Rabs_left (-1 - 0)), (Rabs_left (-1 + 0)) by lra. rewrite rltb_f by lra.
  replace (- (-1 - 0)) with 1 by ring. cbn [f_log rops]. rewrite (rltb_t 0 1) by lra. rewrite ln_1. cbn [xif]. rewrite (reqb_t 0 0) by reflexivity. reflexivity.
Qed.
Lemma formula_empty b tol r s : degree_formula fo (Some b) (Some b) tol r s = None.
Proof.
  unfold degree_formula. cbn [f_div f_add f_sub f_two rops x2 xif]. rewrite (reqb_f 2 0) by lra. cbn [negb xif].
  rewrite (reqb_t ((b - b) / 2) 0) by lra. reflexivity.
Qed.

Lemma no_extra_undef cf ub (s : sstate (F := xr) (St := St)) x : c_opt cf = true -> c_nex cf = O -> later_state cf s x -> undef_degree fo cf (Some ub) s.
Proof.
  intros Ho Hn HL. destruct (later_bounds cf s x HL) as (la & HB). destruct HL as ((It & U1 & U2) & L1 & L2 & Ex & Hr).
  split; auto. split; auto.
  destruct (nth_error (snd (ss_res s)) (ss_unconv s - 1)) as [y|] eqn:Ey; [|apply nth_error_None in Ey; lia].
  exists (Some x), la, (ss_unconv s - 1)%nat, (Some x), y. split; auto. split; [lia|]. split; auto. split; auto.
  cbn [f_lt rops]. unfold rltb. destruct (Rlt_dec ub x); [apply formula_empty|apply formula_at_bound].
Qed.
Lemma empty_undef cf ub (s : sstate (F := xr) (St := St)) x : c_opt cf = true -> later_state cf s x -> ub <= x -> undef_degree fo cf (Some ub) s.
Proof.
  intros Ho HL Hu. destruct (later_bounds cf s x HL) as (la & HB). destruct HL as ((It & U1 & U2) & L1 & L2 & Ex & Hr).
  split; auto. split; auto.
  destruct (nth_error (snd (ss_res s)) 0) as [y|] eqn:Ey; [|apply nth_error_None in Ey; lia].
  destruct (nth_error (snd (ss_ritz s)) 0) as [r|] eqn:Er.
  2:{ apply nth_error_None in Er. assert ((ss_unconv s - 1 < length (snd (ss_ritz s)))%nat) by (apply nth_error_Some; congruence). lia. }
  exists (Some x), la, O, r, y. split; auto. split; [lia|]. split; auto. split; auto.
  cbn [f_lt rops]. unfold rltb. destruct (Rlt_dec ub x); [apply formula_empty|]. replace x with ub by lra. apply formula_empty.
Qed.

Lemma no_extra_ub cf ub (s : sstate (F := xr) (St := St)) x : c_opt cf = true -> c_nex cf = O -> later_state cf s x -> iterate fo K sort_idx cf (Some ub) s = UB.
Proof. intros. apply iterate_undef. now apply no_extra_undef with x. Qed.
Lemma empty_ub cf ub (s : sstate (F := xr) (St := St)) x : c_opt cf = true -> later_state cf s x -> ub <= x -> iterate fo K sort_idx cf (Some ub) s = UB.
Proof. intros. apply iterate_undef. now apply empty_undef with x. Qed.
Lemma solve_ub fsort cf k ritzv resid ub t x : c_opt cf = true -> comes_to huge gauss K fsort sort_idx cf k ritzv resid (Some ub) t ->
  later_state cf t x -> c_nex cf = O \/ ub <= x -> solve fo K fsort sort_idx cf k ritzv resid = UB.
Proof.
  intros Ho (k0 & s0 & C1 & C2 & C3 & C4 & C5) HL HC. apply overflow_ub. exists k0, (Some ub), s0, t.
  split; [exact C1|]. split; [exact C2|]. split; [exact C3|]. split; [exact C4|]. split; [exact C5|].
  destruct HC as [HC|HC]; [exact (no_extra_undef cf ub t x Ho HC HL)|exact (empty_undef cf ub t x Ho HL HC)].
Qed.
End Degenerate.

(** ** where the degrees are defined *)
Lemma formula_defined huge gauss ub lb tol x s : lb < ub -> x < lb -> 0 < tol -> 0 < s ->
  Rabs (ln (s / tol)) <= (2 ^ 64 - 1) * ln (rate lb ub x) ->
  degree_formula (rops huge gauss) (Some ub) (Some lb) (Some tol) (Some x) (Some s) <> None.
Proof.
  intros Hi Hx Ht Hs Hb. rewrite formula_eq by auto. pose proof (rate_gt1 lb ub x Hi Hx) as G. pose proof (ln_gt0 _ G) as LG.
  rewrite rltb_t; [discriminate|]. rewrite need_abs by auto.
  assert (B : Rabs (ln (s / tol)) / ln (rate lb ub x) <= 2 ^ 64 - 1).
  { apply Rmult_le_reg_r with (ln (rate lb ub x)); auto. unfold Rdiv. rewrite Rmult_assoc, Rinv_l, Rmult_1_r by lra. exact Hb. }
  pose proof (rceil_bounds (Rabs (ln (s / tol)) / ln (rate lb ub x))). lra.
Qed.
Lemma degrees_defined huge gauss St (K : kernel xr St) nevex I0 I : kernel_safe K nevex I0 I -> forall cf unc nex ub lb l a tol,
  (nex < unc)%nat -> (l + unc <= nevex)%nat ->
  (unc <= length (cd_deg a) /\ unc <= length (cd_ritz a) /\ unc <= length (cd_res a) /\ unc <= length (cd_last a))%nat -> I l (cd_k a) ->
  lb < ub -> 0 < tol -> c_tol cf = Some tol ->
  (forall i r s, (i < unc - nex)%nat -> nth_error (cd_ritz a) i = Some r -> nth_error (cd_res a) i = Some s ->
     exists x y, r = Some x /\ s = Some y /\ x < lb /\ 0 < y /\ Rabs (ln (y / tol)) <= (2 ^ 64 - 1) * ln (rate lb ub x)) ->
  exists r a', calc_degrees (rops huge gauss) K cf unc nex (Some ub) (Some lb) l a = Ok (r, a') /\ I l (cd_k a').
Proof.
  intros KS cf unc nex ub lb l a tol H1 H2 HL HI Hi Ht Htol HD. apply (calc_degrees_safe (rops huge gauss) K nevex I0 I KS); auto.
  intros i r s Li Er Es. destruct (HD i r s Li Er Es) as (x & y & -> & -> & Hx & Hy & Hb).
  assert (E : raw_degree (rops huge gauss) (Some ub) (Some lb) (Some tol) (Some x) (Some y) <> None) by (now apply (formula_defined huge gauss)).
  rewrite <- Htol in E. exact E.
Qed.

Lemma formula_zero huge gauss ub lb tol r : degree_formula (rops huge gauss) ub lb tol r (Some 0) = None.
Proof.
  unfold degree_formula. set (rho := if f_lt _ _ _ then _ else _). clearbody rho.
  assert (E : f_log (rops huge gauss) (f_div (rops huge gauss) (Some 0) tol) = None).
  { destruct tol as [t|]; [|reflexivity]. cbn [f_div rops x2]. destruct (Req_EM_T t 0) as [E|E]; [rewrite reqb_t by auto; reflexivity|].
    rewrite reqb_f by auto. cbn [negb xif f_log rops]. replace (0 / t) with 0 by (field; auto). rewrite rltb_f by lra. reflexivity. }
  rewrite E. cbn [f_div rops]. destruct (f_log _ rho) as [y|]; [|reflexivity]. cbn [x2]. destruct (negb _); reflexivity.
Qed.
Lemma zero_ub huge gauss St (K : kernel xr St) sort_idx cf ub (s : sstate (F := xr) (St := St)) i r :
  c_opt cf = true -> (1 <= ss_iter s)%nat -> (c_nev cf + c_nex cf <= length (whole (ss_ritz s)))%nat ->
  (ss_unconv s <= length (snd (ss_res s)))%nat -> (ss_unconv s <= length (snd (ss_ritz s)))%nat ->
  (i < ss_unconv s - c_nex cf)%nat -> (ss_unconv s <= c_nev cf + c_nex cf)%nat ->
  nth_error (snd (ss_ritz s)) i = Some r -> nth_error (snd (ss_res s)) i = Some (Some 0) ->
  iterate (rops huge gauss) K sort_idx cf ub s = UB.
Proof.
  intros Ho It L1 L2 L3 Li Lu Er Es. apply iterate_undef. split; auto. split; auto.
  destruct (update_bounds_safe (rops huge gauss) (c_nev cf + c_nex cf) s) as ([lb la] & HB); auto; try lia.
  exists lb, la, i, r, (Some 0). repeat (split; [assumption|]). apply formula_zero.
Qed.
