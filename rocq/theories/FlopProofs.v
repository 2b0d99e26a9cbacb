(** get_flops and get_filter_flops against the integer counts. *)
From Coq Require Import List ZArith Reals Bool Lia Lra.
From Flocq Require Import Core BinarySingleNaN Relative.
Require Import Verif.Base Verif.FlopModel Verif.FlopSpec.
Import ListNotations.
Local Open Scope Z_scope.

Local Notation fexp := (SpecFloat.fexp 53 1024).
Local Notation rn := (round radix2 fexp ZnearestE).
Local Instance vexp : Valid_exp fexp := fexp_correct 53 1024 p53.

Lemma fmt_int n : Z.abs n < 2 ^ 53 -> generic_format radix2 fexp (IZR n).
Proof.
  intros H. apply (generic_format_FLT radix2 (3 - 1024 - 53) 53). exists (Float radix2 n 0); cbn; [|exact H|lia].
  unfold F2R. cbn. ring.
Qed.
Lemma rn_int n : Z.abs n < 2 ^ 53 -> rn (IZR n) = IZR n.
Proof. intros H. apply round_generic; [apply valid_rnd_N|now apply fmt_int]. Qed.
Lemma big m : (m <= 1023)%Z -> (bpow radix2 m < bpow radix2 1024)%R.
Proof. intros. apply bpow_lt. lia. Qed.

(** rounding a number below 2^k stays at or below it *)
Lemma rn_bound x k : (-1074 <= k)%Z -> (0 <= x <= bpow radix2 k)%R -> (0 <= rn x <= bpow radix2 k)%R.
Proof.
  intros Hk [A B]. split.
  - rewrite <- (round_0 radix2 fexp ZnearestE). now apply round_le; [apply vexp|apply valid_rnd_N|].
  - rewrite <- (round_generic radix2 fexp ZnearestE (bpow radix2 k)).
    + apply round_le; [apply vexp|apply valid_rnd_N|auto].
    + apply generic_format_bpow. unfold SpecFloat.fexp, SpecFloat.emin. lia.
Qed.
Lemma lt_of_bound x k : (-1074 <= k <= 1023)%Z -> (0 <= x <= bpow radix2 k)%R -> Rlt_bool (Rabs (rn x)) (bpow radix2 1024) = true.
Proof.
  intros Hk H. apply Rlt_bool_true. destruct (rn_bound x k (proj1 Hk) H) as [A B]. rewrite Rabs_pos_eq by auto.
  eapply Rle_lt_trans; [exact B|]. apply big. lia.
Qed.

(** [d] is the double nearest to the real [r] *)
Definition is (d : dbl) (r : R) : Prop := is_finite d = true /\ B2R d = r.
Lemma IZR_bpow k : 0 <= k -> bpow radix2 k = IZR (2 ^ k).
Proof. intros. rewrite <- (IZR_Zpower radix2); auto. Qed.
Lemma u2d_is n : 0 <= n <= 2 ^ 64 -> is (u2d n) (rn (IZR n)).
Proof.
  intros H. pose proof (binary_normalize_correct 53 1024 p53 m53 mode_NE n 0 false) as X. cbv zeta in X.
  replace (F2R (Float radix2 n 0)) with (IZR n) in X by (unfold F2R; cbn; ring). cbn [round_mode] in X.
  rewrite (lt_of_bound (IZR n) 64) in X; [|lia|rewrite IZR_bpow by lia; split; apply IZR_le; lia].
  split; apply X.
Qed.
Lemma u2d_exact n : 0 <= n < 2 ^ 53 -> is (u2d n) (IZR n).
Proof. intros H. rewrite <- (rn_int n) by lia. apply u2d_is. lia. Qed.
Lemma dmul_exact a b x y : is a (IZR x) -> is b (IZR y) -> 0 <= x * y < 2 ^ 53 -> is (dmul a b) (IZR (x * y)).
Proof.
  intros [A1 A2] [B1 B2] H. pose proof (Bmult_correct 53 1024 p53 m53 mode_NE a b) as X. cbn [round_mode] in X.
  rewrite A2, B2, <- mult_IZR, rn_int in X by lia. 
  rewrite Rlt_bool_true in X. 2:{ rewrite <- (rn_int (x * y)) by lia. rewrite Rabs_pos_eq; [|rewrite rn_int by lia; apply IZR_le; lia]. rewrite rn_int by lia.
    apply Rlt_trans with (bpow radix2 53); [rewrite IZR_bpow by lia; apply IZR_lt; lia|apply big; lia]. }
  destruct X as (X1 & X2 & _). split; [unfold dmul; rewrite X2, A1, B1; auto|exact X1].
Qed.
Lemma dadd_exact a b x y : is a (IZR x) -> is b (IZR y) -> 0 <= x + y < 2 ^ 53 -> is (dadd a b) (IZR (x + y)).
Proof.
  intros [A1 A2] [B1 B2] H. pose proof (Bplus_correct 53 1024 p53 m53 mode_NE a b A1 B1) as X. cbn [round_mode] in X.
  rewrite A2, B2, <- plus_IZR, rn_int in X by lia. 
  rewrite Rlt_bool_true in X. 2:{ rewrite Rabs_pos_eq; [|apply IZR_le; lia].
    apply Rlt_trans with (bpow radix2 53); [rewrite IZR_bpow by lia; apply IZR_lt; lia|apply big; lia]. }
  destruct X as (X1 & X2 & _). split; [exact X2|exact X1].
Qed.
Lemma d2u_of d r : is d r -> (0 <= r)%R -> 0 <= Zfloor r < 2 ^ 64 -> d2u d = Ok (Zfloor r).
Proof.
  intros [A B] R0 H. assert (T : Btrunc d = Zfloor r).
  { apply eq_IZR. rewrite (Btrunc_correct 53 1024 m53), B. unfold round, F2R, scaled_mantissa, cexp, FIX_exp. cbn.
    rewrite !Rmult_1_r. now rewrite Ztrunc_floor. }
  unfold d2u. rewrite A, T. replace (0 <=? Zfloor r) with true by (symmetry; apply Z.leb_le; lia).
  replace (Zfloor r <? 2 ^ 64) with true by (symmetry; apply Z.ltb_lt; lia). reflexivity.
Qed.
Lemma d2u_exact d n : is d (IZR n) -> 0 <= n < 2 ^ 64 -> d2u d = Ok n.
Proof. intros A H. rewrite (d2u_of d (IZR n)); rewrite ?Zfloor_IZR; auto; try lia. apply IZR_le. lia. Qed.
Lemma add_d_exact c x n : is x (IZR n) -> 0 <= c -> 0 <= n -> c + n < 2 ^ 53 -> add_d c x = Ok (c + n).
Proof.
  intros Hx H1 H2 H3. unfold add_d. apply d2u_exact; [|lia]. apply dadd_exact; auto; [apply u2d_exact; lia|lia].
Qed.

(** the division by 1e9 *)
Lemma ddiv_is a x d : is a x -> (0 <= x <= bpow radix2 64)%R -> 1 <= d < 2 ^ 53 -> is (ddiv a (u2d d)) (rn (x / IZR d)).
Proof.
  intros [A1 A2] Hx Hd. destruct (u2d_exact d) as [D1 D2]; [lia|]. pose proof (Bdiv_correct 53 1024 p53 m53 mode_NE a (u2d d)) as X. cbn [round_mode] in X.
  assert (P : (1 <= IZR d)%R) by (apply IZR_le; lia). rewrite A2, D2 in X.
  assert (Y : (0 <= x / IZR d <= bpow radix2 64)%R).
  { split; [apply Rmult_le_pos; [lra|left; apply Rinv_0_lt_compat; lra]|]. apply Rle_trans with (x / 1)%R; [|lra].
    unfold Rdiv. apply Rmult_le_compat_l; [lra|]. apply Rinv_le; lra. }
  rewrite (lt_of_bound _ 64 ltac:(lia) Y) in X. destruct (X ltac:(lra)) as (X1 & X2 & _). split; [unfold ddiv; rewrite X2; auto|exact X1].
Qed.
(** relative error of one rounding *)
Lemma rn_err x : (x = 0 \/ bpow radix2 (-1022) <= Rabs x)%R -> (Rabs (rn x - x) <= bpow radix2 (-53) * Rabs x)%R.
Proof.
  intros [->|H]. { rewrite round_0 by apply valid_rnd_N. rewrite Rminus_0_r, Rabs_R0. lra. }
  pose proof (relative_error_N_FLT radix2 (-1074) 53 p53 (fun n => negb (Z.even n)) x H) as E.
  replace (/ 2 * bpow radix2 (- (53) + 1))%R with (bpow radix2 (-53)) in E. exact E.
  change (- (53) + 1)%Z with (-53 + 1)%Z. rewrite bpow_plus. change (bpow radix2 1) with 2%R. lra.
Qed.

Lemma div_exact x d : 0 <= x < 2 ^ 53 -> 1 <= d < 2 ^ 53 -> Zfloor (rn (IZR x / IZR d)) = x / d.
Proof.
  intros Hx Hd. assert (P : (1 <= IZR d)%R) by (apply IZR_le; lia). set (y := (IZR x / IZR d)%R).
  pose proof (Z_div_mod_eq_full x d) as Q. pose proof (Z.mod_pos_bound x d ltac:(lia)) as M.
  assert (Yd : (y * IZR d = IZR x)%R) by (unfold y; field; lra).
  assert (X0 : (0 <= IZR x)%R) by (apply IZR_le; lia).
  assert (Y0 : (0 <= y)%R) by (apply Rmult_le_pos; [auto|left; apply Rinv_0_lt_compat; lra]).
  apply Zfloor_imp. split.
  - rewrite <- (rn_int (x / d)). 2:{ rewrite Z.abs_eq by (apply Z.div_pos; lia). apply Z.le_lt_trans with x; [|lia]. apply Z.div_le_upper_bound; [lia|]. clear - Hx Hd. assert (1 * x <= d * x) by (apply Z.mul_le_mono_nonneg_r; lia). lia. }
    apply round_le; [apply vexp|apply valid_rnd_N|]. apply Rmult_le_reg_r with (IZR d); [lra|]. rewrite Yd, <- mult_IZR. apply IZR_le. nia.
  - rewrite plus_IZR. apply Rmult_lt_reg_r with (IZR d); [lra|].
    assert (E : (Rabs (rn y - y) <= bpow radix2 (-53) * Rabs y)%R).
    { apply rn_err. destruct (Z.eq_dec x 0) as [->|Nx]; [left; unfold y; field; lra|]. right. rewrite Rabs_pos_eq by auto.
      apply Rle_trans with (bpow radix2 (-53)); [apply bpow_le; lia|]. apply Rmult_le_reg_r with (IZR d); [lra|]. rewrite Yd.
      apply Rle_trans with (bpow radix2 (-53) * bpow radix2 53)%R.
      - apply Rmult_le_compat_l; [apply bpow_ge_0|]. rewrite IZR_bpow by lia. apply IZR_le. lia.
      - rewrite <- bpow_plus. cbn. apply IZR_le. lia. }
    rewrite (Rabs_pos_eq y) in E by auto. apply Rabs_le_inv in E.
    assert (L : (bpow radix2 (-53) * y * IZR d < 1)%R).
    { rewrite Rmult_assoc, Yd. apply Rlt_le_trans with (bpow radix2 (-53) * bpow radix2 53)%R.
      - apply Rmult_lt_compat_l; [apply bpow_gt_0|]. rewrite IZR_bpow by lia. apply IZR_lt. lia.
      - rewrite <- bpow_plus. cbn. lra. }
    assert (E2 : ((rn y - y) * IZR d <= bpow radix2 (-53) * y * IZR d)%R) by (apply Rmult_le_compat_r; lra).
    assert (I : (IZR x + 1 <= (IZR (x / d) + 1) * IZR d)%R).
    { replace ((IZR (x / d) + 1) * IZR d)%R with (IZR ((x / d + 1) * d)) by (now rewrite mult_IZR, plus_IZR). rewrite <- plus_IZR. apply IZR_le. nia. }
    lra.
Qed.

Lemma giga_exact c : 0 <= c < 2 ^ 53 -> d2u (ddiv (u2d c) (u2d (10 ^ 9))) = Ok (giga c).
Proof.
  intros H. pose proof (ddiv_is (u2d c) (IZR c) (10 ^ 9) (u2d_exact c H)) as D.
  assert (B : (0 <= IZR c <= bpow radix2 64)%R) by (rewrite IZR_bpow by lia; split; apply IZR_le; lia).
  specialize (D B ltac:(lia)). pose proof (div_exact c (10 ^ 9) H ltac:(lia)) as E. unfold giga. rewrite <- E. apply d2u_of; auto.
  - rewrite <- (round_0 radix2 fexp ZnearestE). apply round_le; [apply vexp|apply valid_rnd_N|]. apply Rmult_le_pos; [lra|]. left. apply Rinv_0_lt_compat. apply IZR_lt. lia.
  - rewrite E. split; [apply Z.div_pos; lia|]. apply Z.le_lt_trans with c; [|lia]. apply Z.div_le_upper_bound; lia.
Qed.

(** within one for every 64-bit count *)
Lemma giga_near c : 0 <= c < 2 ^ 64 -> exists q, d2u (ddiv (u2d c) (u2d (10 ^ 9))) = Ok q /\ Z.abs (q - giga c) <= 1.
Proof.
  intros H. assert (Bc : (0 <= IZR c <= bpow radix2 64)%R) by (rewrite IZR_bpow by lia; split; apply IZR_le; lia).
  assert (C64 : (IZR c < IZR (2 ^ 64))%R) by (apply IZR_lt; lia). rewrite IZR_bpow in Bc by lia.
  pose proof (rn_bound (IZR c) 64 ltac:(lia) ltac:(rewrite IZR_bpow by lia; exact Bc)) as B1.
  pose proof (ddiv_is (u2d c) (rn (IZR c)) (10 ^ 9) (u2d_is c ltac:(lia)) B1 ltac:(lia)) as D.
  rewrite IZR_bpow in B1 by lia.
  set (x := rn (IZR c)) in *. set (y := (x / IZR (10 ^ 9))%R) in *. set (z := rn y) in *.
  change (IZR (10 ^ 9)) with 1000000000%R in *. change (IZR (2 ^ 64)) with 18446744073709551616%R in *.
  assert (P53 : bpow radix2 (-53) = (/ 9007199254740992)%R) by reflexivity.
  assert (E1 : (Rabs (x - IZR c) <= 2048)%R).
  { destruct (Z.eq_dec c 0) as [->|N]. { unfold x. rewrite round_0 by apply valid_rnd_N. rewrite Rminus_0_r, Rabs_R0. lra. }
    eapply Rle_trans; [apply rn_err; right; rewrite Rabs_pos_eq by lra; apply Rle_trans with 1%R; [change 1%R with (bpow radix2 0); apply bpow_le; lia|apply IZR_le; lia]|].
    rewrite Rabs_pos_eq, P53 by lra. lra. }
  apply Rabs_le_inv in E1.
  assert (Y : (0 <= y <= 18446744074)%R) by (unfold y; lra).
  assert (E2 : (Rabs (z - y) <= / 100)%R).
  { assert (K : (y = 0 \/ bpow radix2 (-1022) <= Rabs y)%R).
    { destruct (Z.eq_dec c 0) as [->|N]; [left; unfold y, x; rewrite round_0 by apply valid_rnd_N; lra|]. right. rewrite Rabs_pos_eq by lra.
      assert (1 <= x)%R. { unfold x. rewrite <- (rn_int 1) by lia. apply round_le; [apply vexp|apply valid_rnd_N|apply IZR_le; lia]. }
      apply Rle_trans with (bpow radix2 (-53)); [apply bpow_le; lia|]. rewrite P53. unfold y. lra. }
    eapply Rle_trans; [apply rn_err; exact K|]. rewrite Rabs_pos_eq, P53 by lra. lra. }
  apply Rabs_le_inv in E2.
  assert (Z0 : (0 <= z)%R). { unfold z. rewrite <- (round_0 radix2 fexp ZnearestE). apply round_le; [apply vexp|apply valid_rnd_N|lra]. }
  pose proof (Z_div_mod_eq_full c (10 ^ 9)) as Q. pose proof (Z.mod_pos_bound c (10 ^ 9) ltac:(lia)) as M.
  assert (Q' : (IZR c = 1000000000 * IZR (giga c) + IZR (c mod 10 ^ 9))%R).
  { change 1000000000%R with (IZR (10 ^ 9)). rewrite <- mult_IZR, <- plus_IZR. f_equal. exact Q. }
  assert (M1 : (0 <= IZR (c mod 10 ^ 9) <= 999999999)%R) by (split; apply IZR_le; lia).
  assert (F1 : (IZR (giga c) - 1 < z < IZR (giga c) + 2)%R) by (unfold y in *; lra).
  assert (G : 0 <= giga c < 2 ^ 40) by (unfold giga; split; [apply Z.div_pos; lia|apply Z.div_lt_upper_bound; lia]).
  assert (F : giga c - 1 <= Zfloor z <= giga c + 1).
  { pose proof (Zfloor_lb z). pose proof (Zfloor_ub z). split.
    - apply Z.le_trans with (Zfloor (IZR (giga c - 1))); [rewrite Zfloor_IZR; lia|]. apply Zfloor_le. rewrite minus_IZR. lra.
    - apply Z.lt_succ_r. apply lt_IZR. rewrite succ_IZR, plus_IZR. lra. }
  assert (F0 : 0 <= Zfloor z) by (replace 0 with (Zfloor 0) by (apply (Zfloor_IZR 0)); now apply Zfloor_le).
  exists (Zfloor z). split; [apply d2u_of; auto; lia|lia].
Qed.

(** wrap-around of the products *)
Lemma mulw_mul a b c : mulw (mulw a b) c = (a * b * c) mod 2 ^ 64.
Proof. unfold mulw. now rewrite Z.mul_mod_idemp_l by lia. Qed.
Lemma mulw3 a b c d : mulw (mulw (mulw a b) c) d = (a * b * c * d) mod 2 ^ 64.
Proof. rewrite mulw_mul. unfold mulw. rewrite <- Z.mul_assoc, Z.mul_mod_idemp_l by lia. f_equal. ring. Qed.
Lemma filter_near factor N vecs : exists q, get_filter_flops factor N vecs = Ok q /\ Z.abs (q - giga (filter_ops factor N vecs mod 2 ^ 64)) <= 1.
Proof.
  unfold get_filter_flops. rewrite mulw3. replace (2 * factor * N * vecs * N) with (filter_ops factor N vecs) by (unfold filter_ops; ring).
  apply giga_near. apply Z.mod_pos_bound. lia.
Qed.
Lemma filter_exact factor N vecs : 0 <= filter_ops factor N vecs < 2 ^ 53 -> get_filter_flops factor N vecs = Ok (giga (filter_ops factor N vecs)).
Proof.
  intros H. unfold get_filter_flops. rewrite mulw3. replace (2 * factor * N * vecs * N) with (filter_ops factor N vecs) by (unfold filter_ops; ring).
  rewrite Z.mod_small by lia. now apply giga_exact.
Qed.

Lemma dprod a b c n : 0 <= a -> 0 <= b -> 0 <= c -> 2 * a * b * c < 2 ^ 53 -> 0 < a -> 0 < b -> 0 < c -> n = 2 * a * b * c ->
  is (dmul (dmul (dmul (u2d 2) (u2d a)) (u2d b)) (u2d c)) (IZR n).
Proof.
  intros _ _ _ H A B C ->. assert (2 * a <= 2 * a * b) by nia. assert (2 * a * b <= 2 * a * b * c) by nia.
  assert (b <= 2 * a * b) by nia. assert (c <= 2 * a * b * c) by nia.
  apply dmul_exact; [|apply u2d_exact; lia|nia]. apply dmul_exact; [|apply u2d_exact; lia|nia]. apply dmul_exact; [apply u2d_exact; lia|apply u2d_exact; lia|lia].
Qed.

Lemma block_exact N c b : 0 < N -> 0 < b -> 0 <= c -> c + block_ops N b < 2 ^ 53 -> block_flops N c b = Ok (c + block_ops N b).
Proof.
  intros HN Hb Hc H. unfold block_ops in *. rewrite !Z.pow_2_r in *. replace (b ^ 3) with (b * b * b) in * by ring.
  set (x1 := 2 * N * b * b). set (x2 := 2 * b * b * b). set (x3 := 2 * N * b * N). set (x4 := 3 * b * N). set (x5 := N * b). set (x6 := 4 * b * b * b).
  assert (0 < x1 /\ 0 < x2 /\ 0 < x3 /\ 0 < x4 /\ 0 < x5 /\ 0 < x6) as (P1 & P2 & P3 & P4 & P5 & P6).
  { assert (0 < N * b) by nia. assert (0 < b * b) by nia. subst x1 x2 x3 x4 x5 x6. repeat split; nia. }
  assert (T : c + (x1 + x2 + x1 + x3 + x1 + x6 + x1 + x3 + x4 + x5) < 2 ^ 53) by (subst x1 x2 x3 x4 x5 x6; lia).
  unfold block_flops.
  rewrite (add_d_exact c _ x1); try lia. 2:{ apply dprod; subst x1; lia. } cbn [bind].
  rewrite (add_d_exact _ _ x2); try lia. 2:{ apply dprod; subst x2; lia. } cbn [bind].
  rewrite (add_d_exact _ _ x1); try lia. 2:{ apply dprod; subst x1; lia. } cbn [bind]. cbv zeta.
  rewrite !mulw3, !mulw_mul. unfold mulw. fold x3 x1 x4 x5 x6. replace (2 * b * b * N) with x1 by (subst x1; ring).
  rewrite !(Z.mod_small x1), !(Z.mod_small x3), !(Z.mod_small x4), !(Z.mod_small x5), !(Z.mod_small x6) by lia.
  set (c3 := c + x1 + x2 + x1).
  assert (W : forall a b, 0 <= a -> 0 <= b -> a + b < 2 ^ 64 -> addw a b = a + b) by (intros; apply Z.mod_small; lia).
  rewrite (W c3 x3), (W (c3 + x3) x1), (W (c3 + x3 + x1) x6), (W (c3 + x3 + x1 + x6) x1), (W (c3 + x3 + x1 + x6 + x1) x3),
    (W (c3 + x3 + x1 + x6 + x1 + x3) x4), (W (c3 + x3 + x1 + x6 + x1 + x3 + x4) x5) by (unfold c3; lia). unfold c3.
  f_equal. subst x1 x2 x3 x4 x5 x6. ring.
Qed.
Lemma block_pos N b : 0 < N -> 0 < b -> 0 <= block_ops N b.
Proof. intros. unfold block_ops. nia. Qed.
Lemma sum_pos N bs : 0 < N -> Forall (fun b => 0 < b) bs -> 0 <= fold_right Z.add 0 (map (block_ops N) bs).
Proof. intros HN. induction 1 as [|b bs Hb _ IH]; cbn; [lia|]. pose proof (block_pos N b HN Hb). lia. Qed.
Lemma blocks_exact N bs : 0 < N -> Forall (fun b => 0 < b) bs -> forall c, 0 <= c -> c + fold_right Z.add 0 (map (block_ops N) bs) < 2 ^ 53 ->
  blocks_flops N bs c = Ok (c + fold_right Z.add 0 (map (block_ops N) bs)).
Proof.
  intros HN. induction 1 as [|b bs Hb HF IH]; intros c Hc H; cbn [blocks_flops map fold_right] in *; [f_equal; lia|].
  pose proof (block_pos N b HN Hb). pose proof (sum_pos N bs HN HF). rewrite block_exact by lia. cbn [bind]. rewrite IH by lia. f_equal. lia.
Qed.
Lemma flops_exact factor N bs vecs : 0 < factor -> 0 < N -> 0 <= vecs -> Forall (fun b => 0 < b) bs -> all_ops factor N bs vecs < 2 ^ 53 ->
  get_flops factor N bs vecs = Ok (giga (all_ops factor N bs vecs)).
Proof.
  intros Hf HN Hv HF H. unfold all_ops, filter_ops in *. pose proof (sum_pos N bs HN HF) as S. set (s := fold_right Z.add 0 (map (block_ops N) bs)) in *.
  assert (V : 0 <= 2 * N * N * vecs) by nia. set (v := 2 * N * N * vecs) in *.
  assert (s <= factor * s) by nia. assert (v <= factor * v) by nia. unfold get_flops. rewrite (blocks_exact N bs HN HF 0) by (try lia; fold s; lia). cbn [bind]. cbv zeta. fold s.
  rewrite mulw3. replace (2 * N * vecs * N) with v by (unfold v; ring). unfold addw, mulw. rewrite (Z.mod_small v) by lia.
  rewrite (Z.mod_small (0 + s + v)) by lia. rewrite Z.mod_small by nia. rewrite giga_exact by nia. do 2 f_equal. ring.
Qed.
Lemma all_ge_filter factor N bs vecs a f : 0 < factor -> 0 < N -> 0 <= vecs -> Forall (fun b => 0 < b) bs -> all_ops factor N bs vecs < 2 ^ 53 ->
  get_flops factor N bs vecs = Ok a -> get_filter_flops factor N vecs = Ok f -> f <= a.
Proof.
  intros Hf HN Hv HF H A F. rewrite flops_exact in A by auto. injection A as <-. pose proof (sum_pos N bs HN HF).
  assert (B : 0 <= filter_ops factor N vecs <= all_ops factor N bs vecs) by (unfold all_ops, filter_ops in *; nia).
  rewrite filter_exact in F by lia. injection F as <-. unfold giga. apply Z.div_le_mono; lia.
Qed.
