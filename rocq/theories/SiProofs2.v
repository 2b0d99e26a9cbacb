(** The in-place backend on arrays: residuals, Rayleigh-Ritz, QR; the whole backend. *)
From Coq Require Import List Arith ZArith Bool Lia.
Require Import Verif.Base Verif.AlgModel Verif.AlgSpec Verif.AlgProofs1 Verif.AlgProofs2 Verif.AlgSim Verif.DlaModel Verif.DlaSim Verif.ColModel Verif.SfModel Verif.SfSpec
  Verif.SfProofs1 Verif.SfProofs2 Verif.SfProofs3 Verif.SfProofs4 Verif.SiModel Verif.SiSpec Verif.SiProofs1.
Import ListNotations.

Section Rel.
Context {F T : Type} (fo : fops F) (lib : flib F T) (N ldh n : nat) (H0 : list T).
Context (N1 : 1 <= N) (NL : N <= ldh) (HL : (N - 1) * ldh + N <= length H0).
Local Notation z := (l_zero lib).
Local Notation bl := (col_blas fo lib N).
Local Notation R := (iflat_rel lib N ldh n H0).
Local Notation pk := (packs (T := T) N).
Local Notation icst := (ist (V := list T) (M := list (list T))).

(** y_i := a_i x_i + y_i and its norm, column after column *)
Lemma resd_loop rv lo unc X xs Y ys : pk X xs -> pk Y ys -> lo + unc <= length xs -> lo + unc <= length ys ->
  rel_res (fun p q => pk (fst p) (fst q) /\ snd p = snd q)
    (for_ unc 0 (fun i p =>
      let! v := rd rv i in
      let! V := axpy lib N (l_inj lib (f_neg fo v)) X (lo * N + N * i) (fst p) (lo * N + N * i) in
      let! x := get_range V (lo * N + N * i) N in
      Ok (V, snd p ++ [l_nrm2 lib x])) (Y, []))
    (let! v := get_range rv 0 unc in
     let b := zip (fun vx y => b_axpy bl (b_inj bl (f_neg fo (fst vx))) (snd vx) y) (combine v (firstn unc (skipn lo xs))) (firstn unc (skipn lo ys)) in
     let! B := put_range ys lo b in Ok (B, map (b_nrm2 bl) b)).
Proof.
  intros HX HY LX LY.
  set (b := firstn unc (skipn lo ys)). set (b2 := firstn unc (skipn lo xs)).
  assert (Lb : length b = unc) by (unfold b; rewrite firstn_length, skipn_length; lia).
  assert (Lb2 : length b2 = unc) by (unfold b2; rewrite firstn_length, skipn_length; lia).
  set (f0 := f_zero fo).
  set (y := fun i => zip (l_axpy lib (l_inj lib (f_neg fo (nth i rv f0)))) (nth i b2 []) (nth i b [])).
  assert (nb : forall i, i < unc -> nth i b [] = nth (lo + i) ys []) by (intros; unfold b; now rewrite nth_firstn, nth_skipn by auto).
  assert (nb2 : forall i, i < unc -> nth i b2 [] = nth (lo + i) xs []) by (intros; unfold b2; now rewrite nth_firstn, nth_skipn by auto).
  assert (Ly : forall i, i < unc -> length (y i) = N).
  { intros i Hi. unfold y. rewrite zip_length, nb, nb2 by auto.
    rewrite (proj1 (Forall_forall _ _) (proj2 HY) (nth (lo + i) ys [])) by (apply nth_In; lia).
    rewrite (proj1 (Forall_forall _ _) (proj2 HX) (nth (lo + i) xs [])) by (apply nth_In; lia). apply Nat.min_id. }
  set (P := fun i (p : list T * list F) => pk (fst p) (firstn lo ys ++ tab i y ++ skipn (lo + i) ys) /\ snd p = tab i (fun i => l_nrm2 lib (y i))).
  set (body := fun i (p : list T * list F) =>
      let! v := rd rv i in
      let! B := axpy lib N (l_inj lib (f_neg fo v)) X (lo * N + N * i) (fst p) (lo * N + N * i) in
      let! x := get_range B (lo * N + N * i) N in
      Ok (B, snd p ++ [l_nrm2 lib x])).
  assert (HP0 : P 0 (Y, [])). { split; auto. cbn [fst tab seq map app]. rewrite Nat.add_0_r, firstn_skipn. exact HY. }
  assert (HS : forall i p, i < unc -> i < length rv -> P i p -> exists p', body i p = Ok p' /\ P (S i) p').
  { intros i [B r] Hi Hr [PB Er]. cbn [fst snd] in *. unfold body. rewrite (rd_nth _ _ f0) by auto. cbn [bind fst snd]. unfold axpy.
    replace (lo * N + N * i) with ((lo + i) * N) by lia.
    destruct (skipn_cons_ ys (lo + i)) as [q Eq]; [lia|].
    assert (Eq' : q = nth (lo + i) ys []). { rewrite <- (Nat.add_0_r (lo + i)), <- nth_skipn, Eq. reflexivity. }
    rewrite Eq in PB. rewrite app_assoc in PB.
    assert (Lf : length (firstn lo ys ++ tab i y) = lo + i) by (rewrite app_length, firstn_length, tab_length; lia).
    rewrite (get1_packs N N1 _ _ _ HX), (rd_nth _ _ []) by lia. cbn [bind].
    rewrite (get1_packs N N1 _ _ _ PB). unfold rd. rewrite nth_error_app2 by lia. rewrite Lf, Nat.sub_diag. cbn [nth_error bind].
    rewrite <- nb2 by auto. rewrite Eq', <- nb by auto. fold (y i).
    pose proof (put1_packs N N1 _ _ (lo + i) (y i) PB (Ly i Hi)) as RP.
    rewrite wr_ok in RP by (rewrite app_length, Lf; cbn [length]; lia). rewrite upd_mid in RP by auto.
    destruct (put_range B ((lo + i) * N) (y i)) as [B'| |]; try easy. cbn [bind]. cbn in RP.
    rewrite (get1_packs N N1 _ _ _ RP). unfold rd. rewrite nth_error_app2 by lia. rewrite Lf, Nat.sub_diag. cbn [nth_error bind].
    eexists. split; [reflexivity|]. split; cbn [fst snd].
    - rewrite tab_app_S. rewrite <- !app_assoc in *. cbn [app] in *. replace (lo + S i) with (S (lo + i)) by lia. exact RP.
    - rewrite tab_app_S. now rewrite Er. }
  destruct (Nat.leb_spec unc (length rv)) as [Lr|Lr].
  - rewrite (get_range_ok rv) by (cbn; lia). cbn [bind skipn].
    destruct (for_inv P body unc 0 (Y, [])) as ([B r] & E & PB & Er); auto.
    { intros i p Hi. apply HS; lia. }
    fold body. rewrite E. cbn [fst snd plus] in *. cbv zeta.
    set (b' := zip _ (combine (firstn unc rv) b2) b).
    assert (Eb : b' = tab unc y).
    { unfold b'. rewrite (zip_tab _ _ _ unc (f0, []) []); auto.
      - apply tab_ext. intros i Hi. rewrite combine_nth by (rewrite firstn_length; lia). cbn [fst snd]. rewrite nth_firstn by auto. reflexivity.
      - rewrite combine_length, firstn_length. lia. }
    rewrite Eb. rewrite put_range_ok by (rewrite tab_length; lia). rewrite tab_length. cbn. split; auto. rewrite map_tab. exact Er.
  - rewrite (get_ub rv) by lia. cbn [bind]. fold body.
    assert (E : for_ unc 0 body (Y, []) = UB).
    { apply (for_ub P body (length rv)); auto; [lia| |].
      - intros j p Hj. apply HS; lia.
      - intros p _. unfold body, rd. replace (nth_error rv (length rv)) with (None (A := F)); auto. symmetry. now apply nth_error_None. }
    rewrite E. exact I.
Qed.

Lemma g_resd_rel rv lo unc f s : R f s -> rel_res (vrel R) (g_resd fo lib N ldh rv lo unc f) (i_resd fo bl rv lo unc s).
Proof.
  intros H. pose proof (rdm_Hi lib N ldh n H0 N1 NL HL _ _ H) as EM. gsp H. unfold g_resd, i_resd.
  pose proof (gemm0_rel lib N ldh N1 true unc _ _ _ _ _ _ (lo * N) (lo * N) lo lo EM HV HW eq_refl eq_refl) as G.
  destruct (Nat.leb_spec (lo + unc) n) as [L|L].
  2:{ rewrite get_ub in G by lia. rewrite get_ub by lia. cbn [bind] in *. now apply (ub_l _ _ _ _ G). }
  rewrite (get_range_ok (is_V1 s)) in * by lia. cbn [bind] in *.
  set (c := firstn unc (skipn lo (is_V1 s))) in *.
  assert (Lc : length c = unc) by (unfold c; rewrite firstn_length, skipn_length; lia).
  change (fun u : list T => tab N (l_mul lib true (is_H s) u)) with (b_mulH bl (is_H s)) in G.
  assert (E2 : exists W, put_range (is_V2 s) lo (map (b_mulH bl (is_H s)) c) = Ok W) by (rewrite put_range_ok by (rewrite map_length; lia); eauto).
  destruct E2 as [W EW]. rewrite EW in G. destruct (gemm0 lib true N unc N (g_H f) 0 ldh (g_V1 f) (lo * N) N (g_V2 f) (lo * N) N) as [V2| |]; try easy. cbn [bind]. cbn in G.
  pose proof (put_range_length _ _ _ _ EW) as LW'.
  pose proof (resd_loop rv lo unc _ _ _ _ HV G ltac:(lia) ltac:(lia)) as GL. fold c in GL.
  pose proof (get_put _ _ _ _ EW) as EG. rewrite map_length, Lc in EG. rewrite get_range_ok in EG by lia. injection EG as EG. rewrite EG in GL.
  destruct (get_cases rv 0 unc) as [[v Ev]|Ev]; rewrite Ev in *; cbn [bind] in *; [|now apply (ub_l _ _ _ _ GL)].
  cbv zeta in GL. set (b := zip _ (combine v c) _) in *.
  assert (Lb : length b = unc). { unfold b. apply get_len in Ev. rewrite zip_length, combine_length, map_length. lia. }
  rewrite (put_put _ _ _ _ _ EW) in GL by (rewrite map_length; lia).
  destruct (put_range (is_V2 s) lo b) as [W2| |] eqn:EW2; cbn [bind] in *.
  - match type of GL with rel_res _ ?x _ => destruct x as [[V2' r]| |]; try easy end. cbn in GL. destruct GL as [G1 G2]. cbn. split; [exact G2|]. cbn [snd].
    apply put_range_length in EW2. gmk.
  - now apply (ub_l _ _ _ _ GL).
  - match type of GL with rel_res _ ?x _ => destruct x as [[V2' r]| |]; easy end.
Qed.

Lemma g_rr_rel blk lo f s : R f s -> rel_res (vrel R) (g_rr lib N ldh n blk lo f) (i_rr bl blk lo s).
Proof.
  intros H. pose proof (rdm_Hi lib N ldh n H0 N1 NL HL _ _ H) as EM. gsp H. unfold g_rr, i_rr.
  pose proof (gemm0_rel lib N ldh N1 true blk _ _ _ _ _ _ (lo * N) (lo * N) lo lo EM HV HW eq_refl eq_refl) as G.
  destruct (Nat.leb_spec (lo + blk) n) as [L|L].
  2:{ rewrite get_ub in G by lia. rewrite get_ub by lia. cbn [bind] in *. now apply (ub_l _ _ _ _ G). }
  rewrite (get_range_ok (is_V1 s)) in * by lia. cbn [bind] in *.
  set (c := firstn blk (skipn lo (is_V1 s))) in *.
  assert (Ec : get_range (is_V1 s) lo blk = Ok c) by (apply get_range_ok; lia).
  assert (Lc : length c = blk) by (unfold c; rewrite firstn_length, skipn_length; lia).
  change (fun u : list T => tab N (l_mul lib true (is_H s) u)) with (b_mulH bl (is_H s)) in G.
  set (w := map (b_mulH bl (is_H s)) c) in *.
  assert (Lw : length w = blk) by (unfold w; now rewrite map_length).
  assert (E2 : exists W, put_range (is_V2 s) lo w = Ok W) by (rewrite put_range_ok by lia; eauto).
  destruct E2 as [W EW]. rewrite EW in G. destruct (gemm0 lib true N blk N (g_H f) 0 ldh (g_V1 f) (lo * N) N (g_V2 f) (lo * N) N) as [V2| |]; try easy. cbn [bind]. cbn in G.
  pose proof (get_put _ _ _ _ EW) as EG. rewrite Lw in EG.
  unfold gemm0 at 1. rewrite (rdm_packs N N1 _ _ _ _ G), EG. cbn [bind]. rewrite (rdm_packs N N1 _ _ _ _ HV), Ec. cbn [bind].
  set (A := b_gram bl w c).
  assert (LA' : length A = blk) by (unfold A; cbn; now rewrite map_length).
  assert (FA : Forall (fun c => length c = blk) A) by (apply Forall_map_len; intros; rewrite tab_length; auto).
  replace (map (fun x => tab blk (l_mul lib true w x)) c) with A by (unfold A; cbn; now rewrite Lw).
  destruct (wrm_corner lib (g_A f) n blk A ltac:(lia) LA LA' FA) as (bA & -> & SA). cbn [bind].
  unfold heevd. rewrite (rdl_corner _ _ _ _ _ SA). cbn [bind].
  set (ev := l_heevd lib (lower lib A)).
  destruct (wrm_corner lib bA n blk (tab2 blk blk (snd ev)) ltac:(lia) (proj1 (proj2 SA)) (tab2_length _ _ _) (tab2_Forall _ _ _)) as (bV & -> & SV).
  cbn [bind]. unfold gemm0. rewrite (rdm_packs N N1 _ _ _ _ HV), Ec. cbn [bind]. rewrite (rdm_corner _ _ _ _ _ SV). cbn [bind].
  set (new := map (fun x => tab N (l_mul lib false c x)) (tab2 blk blk (snd ev))).
  assert (EN : map (b_comb bl c A) (seq 0 blk) = new).
  { unfold new, tab2. rewrite map_tab, map_seq_tab. apply tab_ext. intros j Hj. cbn [b_comb col_blas]. rewrite LA'. reflexivity. }
  rewrite EN.
  assert (FN : Forall (fun c => length c = N) new) by (apply Forall_map_len; intros; apply tab_length).
  assert (LN : length new = blk) by (unfold new; now rewrite map_length, tab2_length).
  pose proof (wrm_packs N N1 _ _ lo new G FN) as G2. rewrite (put_put _ _ _ _ _ EW) in G2 by lia.
  destruct (put_range (is_V2 s) lo new) as [W2| |] eqn:EW2; destruct (wrm V2 (lo * N) N N new) as [V2'| |]; try contradiction; try exact I.
  cbn [bind]. cbn in G2. cbn. split; [reflexivity|]. cbn [snd]. apply put_range_length in EW2. gmk. exact (proj1 (proj2 SV)).
Qed.

(** ** QR *)
Lemma i_set_ok (s : icst) g : length (is_V1 s) = n -> i_set n s g = Ok (mk_ist (is_H s) (map (g (is_V1 s)) (seq 0 n)) (is_V2 s) (is_sw s)).
Proof. intros L. unfold i_set. rewrite get_all by auto. cbn [bind]. rewrite put_all by (rewrite map_length, seq_length; auto). reflexivity. Qed.
Lemma i_factor_ok b (s : icst) : length (is_V1 s) = n -> i_factor bl n b s = Ok (b_potrf bl (if b then b_dshift bl (b_syherk bl (is_V1 s)) else b_syherk bl (is_V1 s))).
Proof. intros L. unfold i_factor. rewrite get_all by auto. reflexivity. Qed.
Ltac save f s H := eapply rel_bind; [exact (g_save_rel lib N ldh n H0 N1 _ f s H)|]; clear H f s; intros f s H.

Lemma g_hhqr_rel lo f s : R f s -> rel_res R (g_hhqr lib N n lo f) (i_hhqr bl n lo s).
Proof.
  intros H. unfold g_hhqr, i_hhqr. save f s H. gsp H. rewrite i_set_ok by auto. unfold geqrf, gqr.
  pose proof (rdm_packs N N1 _ _ 0 n HV) as ER. rewrite get_all in ER by auto. change (0 * N) with 0 in ER. rewrite ER. cbn [bind].
  destruct (wr_full N N1 _ _ (tab2 N n (fst (l_geqrf lib (is_V1 s)))) HV) as (b & -> & Pb); [now rewrite tab2_length|apply tab2_Forall|]. cbn [bind].
  pose proof (rdm_packs N N1 _ _ 0 n Pb) as E. rewrite get_all in E by apply tab2_length. change (0 * N) with 0 in E. rewrite E. cbn [bind].
  destruct (wr_full N N1 _ _ (tab2 N n (l_gqr lib (tab2 N n (fst (l_geqrf lib (is_V1 s)))) (snd (l_geqrf lib (is_V1 s))))) Pb) as (b' & -> & Pb');
    [now rewrite !tab2_length|apply tab2_Forall|]. cbn. unfold set_VA.
  rewrite LV in *. gmk. rewrite map_length, seq_length. reflexivity.
Qed.

Ltac sy H L LAx := let A := fresh "A" in let HA := fresh "HA" in
  destruct (syherk_ok fo lib N ldh n H0 N1 NL HL _ _ _ H L LAx) as (A & -> & HA); cbn [bind].
Ltac po HA := let A := fresh "A" in let HA' := fresh "HA" in destruct (potrf_ok fo lib N ldh n H0 N1 NL HL _ _ HA) as (A & -> & HA'); cbn [bind].
Ltac tr HA HC L := let C := fresh "C" in let HC' := fresh "HC" in destruct (trsm_ok fo lib N ldh n H0 N1 NL HL _ _ _ _ HA HC L) as (C & -> & HC'); cbn [bind].
Ltac fin HA := cbn; split; [reflexivity|]; cbn [snd]; unfold set_VA; gmk; try apply map_seq_len; try apply HA.

Lemma g_chol1_rel lo f s : R f s -> rel_res (vrel R) (g_chol1 lib N n lo f) (i_chol1 bl n lo s).
Proof.
  intros H. unfold g_chol1, i_chol1. save f s H. gsp H. rewrite i_factor_ok by auto. cbn [bind].
  sy HV LV LA. po HA. destruct (b_potrf bl (b_syherk bl (is_V1 s))) as [info G]. cbn [fst snd] in *.
  destruct (negb (info =? 0)%Z).
  - fin HA0.
  - rewrite i_set_ok by auto. cbn [bind]. tr HA0 HV LV. fin HA0.
Qed.
Lemma g_chol2_rel lo f s : R f s -> rel_res (vrel R) (g_chol2 lib N n lo f) (i_chol2 bl n lo s).
Proof.
  intros H. unfold g_chol2, i_chol2. save f s H. gsp H. rewrite i_factor_ok by auto. cbn [bind].
  sy HV LV LA. po HA. destruct (b_potrf bl (b_syherk bl (is_V1 s))) as [info G]. cbn [fst snd] in *.
  destruct (negb (info =? 0)%Z).
  - fin HA0.
  - rewrite i_set_ok by auto. cbn [bind]. tr HA0 HV LV.
    rewrite i_factor_ok by apply map_seq_len. cbn [bind is_V1]. sy HC (map_seq_len n (b_trsm bl G (is_V1 s))) (proj1 HA0). po HA1.
    destruct (b_potrf bl (b_syherk bl (map (b_trsm bl G (is_V1 s)) (seq 0 n)))) as [info2 G2]. cbn [fst snd] in *.
    tr HA2 HC (map_seq_len n (b_trsm bl G (is_V1 s))). rewrite i_set_ok by apply map_seq_len. fin HA2.
Qed.
Lemma g_schol2_rel lo f s : R f s -> rel_res (vrel R) (g_schol2 fo lib N n lo f) (i_schol2 bl n lo s).
Proof.
  intros H. unfold g_schol2, i_schol2. save f s H. gsp H. rewrite i_factor_ok by auto. cbn [bind].
  sy HV LV LA. destruct (dshift_ok fo lib N ldh n H0 N1 NL HL _ _ HA) as (nrmf & As & -> & ES & HAs). cbn [bind]. rewrite ES. cbn [bind]. po HAs.
  destruct (b_potrf bl (b_dshift bl (b_syherk bl (is_V1 s)))) as [info G]. cbn [fst snd] in *.
  destruct (negb (info =? 0)%Z).
  - fin HA0.
  - rewrite i_set_ok by auto. cbn [bind]. tr HA0 HV LV.
    rewrite i_factor_ok by apply map_seq_len. cbn [bind is_V1]. sy HC (map_seq_len n (b_trsm bl G (is_V1 s))) (proj1 HA0). po HA1.
    set (c1 := map (b_trsm bl G (is_V1 s)) (seq 0 n)) in *.
    destruct (b_potrf bl (b_syherk bl c1)) as [info2 G2]. cbn [fst snd] in *.
    destruct (negb (info2 =? 0)%Z).
    + fin HA2.
    + tr HA2 HC (map_seq_len n (b_trsm bl G (is_V1 s))). rewrite i_set_ok by apply map_seq_len. cbn [bind is_V1 is_H is_V2 is_sw].
      set (c2 := map (b_trsm bl G2 c1) (seq 0 n)) in *.
      rewrite i_factor_ok by apply map_seq_len. cbn [bind is_V1]. sy HC0 (map_seq_len n (b_trsm bl G2 c1)) (proj1 HA2). po HA3.
      destruct (b_potrf bl (b_syherk bl c2)) as [info3 G3]. cbn [fst snd] in *.
      tr HA4 HC0 (map_seq_len n (b_trsm bl G2 c1)). rewrite i_set_ok by apply map_seq_len. fin HA4.
Qed.

(** ** the whole backend *)
Theorem iflat_dla : dla_rel (iflatD fo lib N ldh n) (inplD fo bl n) R.
Proof.
  split; cbn [iflatD inplD d_shift d_apply d_hhqr d_chol1 d_chol2 d_schol2 d_lockcopy d_rr d_swap d_mlanczos d_dos]; intros.
  - now apply g_shift_rel.
  - now apply g_apply_rel.
  - now apply g_hhqr_rel.
  - now apply g_chol1_rel.
  - now apply g_chol2_rel.
  - now apply g_schol2_rel.
  - now apply g_lockcopy_rel.
  - now apply g_rr_rel.
  - now apply g_swap_rel.
  - now apply g_mlanczos_rel.
  - now apply g_dos_rel.
Qed.

Context (qe : qr_env F) (td : tridiag F) (nev nex : nat).
Theorem iflat_kernel : kernel_rel (cmK fo qe td (iflatD fo lib N ldh n) nev nex) (cmK fo qe td (inplD fo bl n) nev nex) (cmR R).
Proof.
  pose proof (cm_core_rel fo qe td nev nex _ _ _ iflat_dla) as C.
  split; cbn [cmK k_sym k_start k_end k_init k_shift k_hemm k_qr k_rr k_resd k_swap k_lock k_lanczos1 k_lanczos2 k_dos].
  - intros s t [E H]. apply lift_v_rel; auto. now apply g_sym_rel with (n := n) (H0 := H0).
  - intros s t [E H]. cbn. split; auto.
  - intros s t [E H]. apply lift_rel; auto.
  - intros r s t [E H]. unfold cm_init. apply lift_rel; auto. eapply rel_bind with (R := R).
    + destruct r; [now apply g_initrnd_rel|exact H].
    + intros. now apply g_init_rel.
  - intros. now apply (kr_shift _ _ _ C).
  - intros. now apply (kr_hemm _ _ _ C).
  - intros. now apply (kr_qr _ _ _ C).
  - intros. now apply (kr_rr _ _ _ C).
  - intros v l s t [E H]. rewrite E. apply lift_v_rel; auto. now apply g_resd_rel.
  - intros. now apply (kr_swap _ _ _ C).
  - intros. now apply (kr_lock _ _ _ C).
  - intros. now apply (kr_lanczos1 _ _ _ C).
  - intros. now apply (kr_lanczos2 _ _ _ C).
  - intros. now apply (kr_dos _ _ _ C).
Qed.
End Rel.
