(** Rounding errors of the diagonal when the filter shifts the matrix and shifts it back: IEEE binary formats (Flocq), round to nearest even. *)
From Coq Require Import List Arith ZArith Reals Bool Lia Lra Permutation.
From Flocq Require Import Core BinarySingleNaN Plus_error Relative.
Require Import Verif.Base Verif.AlgModel Verif.AlgSpec Verif.DlaModel Verif.ColModel Verif.ShiftProofs Verif.ShiftRun Verif.FloatSpec.
Import ListNotations.
Local Open Scope R_scope.

Section Err.
Variables prec emax : Z.
Context (Hp : Prec_gt_0 prec) (Hm : Prec_lt_emax prec emax).
Local Notation fl := (binary_float prec emax).
Local Notation u := (unit_roundoff prec).
Implicit Types x y h c : fl.

Lemma u_ge0 : 0 <= u.
Proof. unfold unit_roundoff. apply Rmult_le_pos; [lra|apply bpow_ge_0]. Qed.

Lemma plus_fin x y : is_finite (Bplus mode_NE x y) = true -> is_finite x = true /\ is_finite y = true.
Proof. destruct x as [[]|[]| |], y as [[]|[]| |]; cbn; auto; discriminate. Qed.

Lemma plus_err x y : is_finite (Bplus mode_NE x y) = true -> exists e, Rabs e <= u /\ B2R (Bplus mode_NE x y) = (B2R x + B2R y) * (1 + e).
Proof.
  intros H. destruct (plus_fin _ _ H) as [Fx Fy]. pose proof (Bplus_correct _ _ _ _ mode_NE x y Fx Fy) as X.
  destruct (Rlt_bool _ _).
  - destruct X as [E _]. rewrite E.
    destruct (FLT_plus_error_N_ex radix2 (SpecFloat.emin prec emax) prec (fun n => negb (Z.even n)) (B2R x) (B2R y)) as (e & He & Hr); try apply generic_format_B2R.
    exists e. split; [|exact Hr].
    eapply Rle_trans; [exact He|]. unfold u_ro. fold (unit_roundoff prec). pose proof u_ge0.
    apply Rle_trans with (u / 1); [|lra]. unfold Rdiv. apply Rmult_le_compat_l; auto. apply Rinv_le; lra.
  - destruct X as [E _]. exfalso. destruct (Bplus mode_NE x y) as [| | |]; cbn in E, H; try discriminate; unfold binary_overflow in E; cbn in E; discriminate.
Qed.

(** one shift and back *)
Lemma pair_err h c : let h' := Bplus mode_NE (Bplus mode_NE h (Bopp c)) c in is_finite h' = true ->
  is_finite h = true /\ is_finite c = true /\ Rabs (B2R h' - B2R h) <= ((1 + u) ^ 2 - 1) * (Rabs (B2R h) + Rabs (B2R c)).
Proof.
  intros h' F. destruct (plus_fin _ _ F) as [F1 Fc]. destruct (plus_fin _ _ F1) as [Fh _]. split; [auto|split; auto].
  destruct (plus_err _ _ F1) as (e1 & H1 & E1). destruct (plus_err _ _ F) as (e2 & H2 & E2). unfold h'. rewrite E2, E1, B2R_Bopp.
  set (a := B2R h). set (b := B2R c). pose proof u_ge0 as U.
  replace (((a + - b) * (1 + e1) + b) * (1 + e2) - a) with ((a - b) * e1 * (1 + e2) + a * e2) by ring.
  apply Rle_trans with ((Rabs a + Rabs b) * u * (1 + u) + (Rabs a + Rabs b) * u); [|apply Req_le; ring].
  pose proof (Rabs_pos a). pose proof (Rabs_pos b).
  eapply Rle_trans; [apply Rabs_triang|]. rewrite !Rabs_mult. apply Rplus_le_compat.
  - apply Rmult_le_compat; auto using Rabs_pos.
    + apply Rmult_le_pos; apply Rabs_pos.
    + apply Rmult_le_compat; auto using Rabs_pos. eapply Rle_trans; [apply Rabs_triang|]. rewrite Rabs_Ropp. lra.
    + eapply Rle_trans; [apply Rabs_triang|]. rewrite Rabs_R1. lra.
  - apply Rmult_le_compat; auto using Rabs_pos. lra.
Qed.

(** any number of them *)
Lemma pairs_err : forall cs h, let h' := fold_left (fun h c => Bplus mode_NE (Bplus mode_NE h (Bopp c)) c) cs h in is_finite h' = true ->
  is_finite h = true /\ Forall (fun c => is_finite c = true) cs /\
  forall M, Forall (fun c => Rabs (B2R c) <= M) cs -> 0 <= M -> Rabs (B2R h' - B2R h) <= ((1 + u) ^ (2 * length cs) - 1) * (Rabs (B2R h) + M).
Proof.
  induction cs as [|c cs IH] using rev_ind; intros h h' F.
  - cbn in *. split; [auto|split; [auto|]]. intros M _ HM. unfold Rminus at 1. rewrite Rplus_opp_r, Rabs_R0. lra.
  - unfold h' in *. rewrite fold_left_app in *. cbn [fold_left] in *. set (h1 := fold_left _ cs h) in *.
    destruct (pair_err h1 c F) as (F1 & Fc & E1). destruct (IH h F1) as (Fh & Fcs & E2).
    split; [auto|split; [apply Forall_app; auto|]]. intros M HM M0. apply Forall_app in HM as [HM1 HM2]. inversion HM2 as [|? ? HcM _]; subst.
    specialize (E2 M HM1 M0). rewrite app_length. cbn [length]. replace (2 * (length cs + 1))%nat with (2 * length cs + 2)%nat by lia. rewrite pow_add.
    fold h1 in E2. pose proof u_ge0 as U. set (q := (1 + u) ^ (2 * length cs)) in *. set (p := (1 + u) ^ 2) in *.
    assert (P1 : 1 <= p) by (unfold p; replace 1 with (1 * 1) by ring; cbn [pow]; apply Rmult_le_compat; lra).
    assert (A : Rabs (B2R h1) <= Rabs (B2R h) + (q - 1) * (Rabs (B2R h) + M)).
    { replace (B2R h1) with (B2R h + (B2R h1 - B2R h)) by ring. eapply Rle_trans; [apply Rabs_triang|]. lra. }
    assert (B : Rabs (B2R h1) + Rabs (B2R c) <= q * (Rabs (B2R h) + M)) by lra.
    assert (C : (p - 1) * (Rabs (B2R h1) + Rabs (B2R c)) <= (p - 1) * (q * (Rabs (B2R h) + M))) by (apply Rmult_le_compat_l; lra).
    match goal with |- Rabs (?a - ?b) <= _ => replace (a - b) with ((a - B2R h1) + (B2R h1 - b)) by ring end.
    eapply Rle_trans; [apply Rabs_triang|]. lra.
Qed.
End Err.

Section Solve.
Context {prec emax : Z} {Hp : Prec_gt_0 prec} {Hm : Prec_lt_emax prec emax} {V M G T O : Type}.
Local Notation fl := (binary_float prec emax).
Context (fo : fops fl) (bl : blas fl V M G T) (diag : M -> nat -> fl) (off : M -> O) (IS : ieee_shift fo bl diag off).

Lemma fold_off : forall cs m, off (fold_left (round_trip fo bl) cs m) = off m.
Proof. induction cs as [|c cs IH]; intros m; cbn [fold_left]; auto. rewrite IH. unfold round_trip. now rewrite !(is_off _ _ _ _ IS). Qed.
Lemma fold_diag i : forall cs m, diag (fold_left (round_trip fo bl) cs m) i =
  fold_left (fun h c => Bplus mode_NE (Bplus mode_NE h (Bopp c)) c) cs (diag m i).
Proof. induction cs as [|c cs IH]; intros m; cbn [fold_left]; auto. rewrite IH. unfold round_trip. now rewrite !(is_diag _ _ _ _ IS), (is_neg _ _ _ _ IS). Qed.

Lemma solve_drift {D} qe td (L : dla fl D) (h : D -> M) (DK : dla_keeps L h (b_shift bl)) (cf : conf fl) sort_idx
  (Hperm : forall keys, Permutation (sort_idx keys) (seq 0 (length keys))) (HC : conf_ok cf) fsort k ritzv resid o s :
  let K := cmK fo qe td L (c_nev cf) (c_nex cf) in
  solve fo K fsort sort_idx cf k ritzv resid = Ok o -> o_exit o = Some s ->
  float_drift fo K (fun x => h (cm_dla x)) diag off fsort sort_idx cf k ritzv resid (o_k o) s.
Proof.
  intros K H Ho. destruct (solve_matrix_run fo bl qe td L h DK cf sort_idx Hperm HC fsort k ritzv resid o s H Ho) as (k0 & ub & s0 & hist & A & B & C & E & X).
  exists k0, ub, s0, hist. split; auto. split; auto. split; auto. split; auto. cbv zeta. rewrite X. split; [apply fold_off|].
  intros i. rewrite fold_diag. intros F.
  destruct (pairs_err prec emax Hp Hm _ _ F) as (F0 & Fc & Er). split; auto. rewrite Forall_map, Forall_forall in Fc. split; auto.
  intros b B0 Hb. rewrite map_length in Er.
  replace (ss_iter s) with (length (tl (hist ++ [s]))).
  - apply Er; auto. rewrite Forall_map, Forall_forall. auto.
  - rewrite <- E. destruct hist; cbn; auto. rewrite app_length. cbn. lia.
Qed.
End Solve.

Lemma float_solve : forall (prec emax : Z) (Hp : Prec_gt_0 prec) (Hm : Prec_lt_emax prec emax) (V M G T O : Type)
  (fo : fops (binary_float prec emax)) (bl : blas (binary_float prec emax) V M G T) diag (off : M -> O), ieee_shift fo bl diag off ->
  forall qe td (cf : conf (binary_float prec emax)) sort_idx, (forall keys, Permutation (sort_idx keys) (seq 0 (length keys))) ->
  forall fsort ritzv resid, conf_ok cf -> let n := Nat.add (c_nev cf) (c_nex cf) in
  (forall mpi k o s, let K := cmK fo qe td (colD fo bl mpi n) (c_nev cf) (c_nex cf) in
     solve fo K fsort sort_idx cf k ritzv resid = Ok o -> o_exit o = Some s ->
     float_drift fo K (fun x => cs_H (cm_dla x)) diag off fsort sort_idx cf k ritzv resid (o_k o) s) /\
  (forall k o s, let K := cmK fo qe td (inplD fo bl n) (c_nev cf) (c_nex cf) in
     solve fo K fsort sort_idx cf k ritzv resid = Ok o -> o_exit o = Some s ->
     float_drift fo K (fun x => is_H (cm_dla x)) diag off fsort sort_idx cf k ritzv resid (o_k o) s).
Proof.
  intros prec emax Hp Hm V M G T O fo bl diag off IS qe td cf sort_idx Hperm fsort ritzv resid HC n. split.
  - intros mpi k o s K H Ho. exact (solve_drift fo bl diag off IS qe td _ cs_H (col_keeps fo bl n mpi) cf sort_idx Hperm HC fsort k ritzv resid o s H Ho).
  - intros k o s K H Ho. exact (solve_drift fo bl diag off IS qe td _ is_H (inpl_keeps fo bl n) cf sort_idx Hperm HC fsort k ritzv resid o s H Ho).
Qed.
