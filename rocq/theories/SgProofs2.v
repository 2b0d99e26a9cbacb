(** The single-GPU backend on arrays: the whole backend, whole runs. *)
From Coq Require Import List Arith ZArith Bool Lia Permutation.
Require Import Verif.Base Verif.AlgModel Verif.AlgSpec Verif.AlgProofs1 Verif.AlgProofs2 Verif.AlgProofs6 Verif.AlgSim Verif.DlaModel Verif.DlaSim Verif.ColModel Verif.ColSpec Verif.ColProofs1
  Verif.ColProofs3 Verif.GpuModel Verif.GpuSpec Verif.GpuProofs1 Verif.GpuProofs2 Verif.GpuProofs3 Verif.SfModel Verif.SfSpec
  Verif.SfProofs1 Verif.SfProofs2 Verif.SfProofs3 Verif.SfProofs4 Verif.SfProofs5 Verif.SiModel Verif.SiSpec Verif.SiProofs1 Verif.SiProofs2 Verif.SgModel Verif.SgSpec Verif.SgProofs1.
Import ListNotations.

Ltac gs H := destruct H as (EH0 & EHh & HVh & LVh & HD & Erz & Lrz & Lrs).
Ltac gk := unfold gflat_rel, with_d; cbn [u_H u_V u_d u_ritz u_res GpuModel.g_H GpuModel.g_V1 g_dev g_ritz];
  split; [gta|split; [gta|split; [gta|split; [gta|split; [gta|split; [gta|split; [gta|gta]]]]]]].

Section Rel.
Context {F T : Type} (fo : fops F) (lib : flib F T) (N ldh n : nat) (H0 : list T).
Context (N1 : 1 <= N) (NL : N <= ldh) (HL : (N - 1) * ldh + N <= length H0).
Local Notation z := (l_zero lib).
Local Notation Hz := (repeat z (N * N)).
Local Notation bl := (col_blas fo lib N).
Local Notation RI := (iflat_rel lib N N n Hz).
Local Notation R := (gflat_rel lib N ldh n H0).
Local Notation pk := (packs (T := T) N).
Local Notation nl := (Nat.le_refl N).
Local Notation hz := (HLz lib N N1).

Lemma on_d_rel x y f s : R f s -> rel_res RI x y -> rel_res R (on_d f x) (on_dev s y).
Proof. intros H G. gs H. unfold on_d, on_dev. eapply rel_bind; [exact G|]. intros a b Hab. cbn. gk. Qed.
Lemma on_dv_rel {X} (x : res (X * ifst)) y f s : R f s -> rel_res (vrel RI) x y -> rel_res (vrel R) (on_dv f x) (on_dev_v s y).
Proof. intros H G. gs H. unfold on_dv, on_dev_v. eapply rel_bind; [exact G|]. intros [v a] [w b] [E Hab]. cbn in *. split; [exact E|]. cbn [snd]. gk. Qed.

Lemma rdm_host : rdm H0 0 ldh N N = Ok (window lib N ldh H0).
Proof.
  pose (f := mk_fs H0 (repeat z (N * n)) [] [] [] (repeat z (n * n)) true).
  pose (s := mk_cst (window lib N ldh H0) (repeat (repeat z N) n) [] [] [] true).
  apply (rdm_H lib N ldh n H0 N1 NL HL f s). unfold flat_rel. cbn.
  split; [auto|]. split; [auto|]. split; [auto|]. split; [apply packs_zero|]. split; [apply repeat_length|]. split; [split; auto|].
  split; [split; auto|]. split; [split; auto|]. split; [apply repeat_length|auto].
Qed.

Lemma u_sym_rel f s : R f s -> rel_res (vrel R) (u_sym lib N ldh f) (GpuModel.g_sym bl s).
Proof.
  intros H. unfold u_sym, GpuModel.g_sym.
  pose (f' := mk_fs H0 (repeat z (N * n)) [] [] [] (repeat z (n * n)) true).
  pose (s' := mk_cst (window lib N ldh H0) (repeat (repeat z N) n) [] [] [] true).
  assert (RS : flat_rel lib N ldh n H0 f' s').
  { unfold flat_rel. cbn. split; [auto|]. split; [auto|]. split; [auto|]. split; [apply packs_zero|]. split; [apply repeat_length|]. split; [split; auto|].
    split; [split; auto|]. split; [split; auto|]. split; [apply repeat_length|auto]. }
  pose proof (sym_rel fo lib N ldh n H0 N1 NL HL _ _ RS) as G. unfold c_sym in G.
  assert (E : s_sym lib N ldh (mk_fs (u_H f) [] [] [] [] [] true) = let! (b, _) := s_sym lib N ldh f' in Ok (b, mk_fs (u_H f) [] [] [] [] [] true)).
  { unfold s_sym. rewrite (proj1 H). cbn [f_H f']. rewrite !bind_assoc.
    repeat match goal with |- bind ?x _ = _ => destruct x; cbn [bind]; auto; rewrite ?bind_assoc end. }
  rewrite E. destruct (s_sym lib N ldh f') as [[b f2]| |]; try easy. destruct G as [G _]. cbn in G. cbn. split; [|exact H]. cbn [fst].
  rewrite G. gs H. rewrite EHh. reflexivity.
Qed.

Lemma u_initrnd_rel f s : R f s -> rel_res R (u_initrnd lib N n f) (GpuModel.g_initrnd bl n s).
Proof.
  intros H. unfold u_initrnd, GpuModel.g_initrnd, on_dev, i_initrnd. gs H. gsp HD.
  pose proof (put_packs N N1 _ _ 0 _ _ HV (tab_packs N n (l_rnd lib))) as G. change (0 * N) with 0 in G.
  change (map (b_rnd bl) (seq 0 n)) with (map (fun j => tab N (fun i => l_rnd lib (j * N + i))) (seq 0 n)).
  destruct (put_range (is_V1 (g_dev s)) 0 _) as [v| |] eqn:E; destruct (put_range (g_V1 (u_d f)) 0 _) as [V| |]; try easy.
  cbn in *. apply put_range_length in E. gk. unfold set_VA. gmk.
Qed.

(** the copy of the matrix to the device *)
Lemma upload d (cols : list (list T)) : length d = N * N -> length cols = N -> Forall (fun c => length c = N) cols ->
  exists d', wrm d 0 N N cols = Ok d' /\ length d' = N * N /\ window lib N N d' = cols.
Proof.
  intros L LC FC. destruct (wrm_rect lib d N N N cols nl nl L LC FC) as (d' & E & L' & ER). exists d'. split; [exact E|]. split; [exact L'|].
  unfold rdm in ER. destruct (area_ok d' 0 N N N) eqn:EA; [|discriminate]. injection ER as ER. rewrite <- ER. unfold window, tab2.
  rewrite map_seq_tab. apply tab_ext. intros j Hj. rewrite (sub_tab _ _ _ z) by nia. apply tab_ext. intros i Hi. f_equal. lia.
Qed.

Lemma u_init_rel f s : R f s -> rel_res R (u_init N ldh n f) (GpuModel.g_init n s).
Proof.
  intros H. unfold u_init, GpuModel.g_init, i_init. gs H. gsp HD.
  pose proof (cpy_rel N N1 _ _ _ _ 0 0 (n * N) 0 0 n HW HV eq_refl eq_refl eq_refl) as G. rewrite get_all in * by auto. cbn [bind] in *. rewrite put_all in * by lia. cbn [bind].
  destruct (cpy (g_V2 (u_d f)) 0 (g_V1 (u_d f)) 0 (n * N)) as [V2| |]; try easy. cbn [bind]. cbn in G. rewrite EH0, rdm_host. cbn [bind].
  destruct (upload (g_H (u_d f)) (window lib N ldh H0)) as (d' & -> & L' & EW); [now rewrite HlH, repeat_length|apply tab2_length|apply tab2_Forall|].
  cbn. gk. gmk.
  - now rewrite repeat_length.
  - intros p Hp. assert (Q : N * N <= p).
    { destruct (Nat.le_gt_cases (N * N) p) as [|Q]; auto. exfalso. apply (Hp (p mod N) (p / N)).
      - apply Nat.mod_upper_bound. lia.
      - apply Nat.div_lt_upper_bound; lia.
      - rewrite Nat.add_comm, Nat.mul_comm. apply Nat.div_mod. lia. }
    rewrite !nth_overflow; auto; rewrite ?repeat_length; lia.
Qed.

Lemma u_rr_rel blk lo f s : R f s -> rel_res (vrel R) (u_rr lib N n blk lo f) (GpuModel.g_rr bl blk lo s).
Proof.
  intros H. unfold u_rr, GpuModel.g_rr. gs H.
  pose proof (g_rr_rel fo lib N N n Hz N1 nl hz blk lo _ _ HD) as G.
  assert (LV : forall v d, i_rr bl blk lo (g_dev s) = Ok (v, d) -> length v = blk).
  { unfold i_rr. intros v d E. apply bind_ok in E as (c & _ & E). apply bind_ok in E as (V2 & _ & E). injection E as <- _. now rewrite map_length, seq_length. }
  destruct (i_rr bl blk lo (g_dev s)) as [[v d]| |]; destruct (g_rr lib N N n blk lo (u_d f)) as [[w d']| |]; try easy. cbn [bind].
  destruct G as [E G]. cbn in E, G. subst w. specialize (LV _ _ eq_refl). rewrite Erz.
  destruct (put_range (g_ritz s) 0 v) as [r| |] eqn:EP; cbn [bind]; try easy.
  pose proof (get_put _ _ _ _ EP) as EG. rewrite LV in EG. rewrite EG. cbn. split; [reflexivity|]. cbn [snd]. apply put_range_length in EP. gk.
Qed.

Lemma u_resd_rel rv lo unc f s : R f s -> rel_res (vrel R) (u_resd fo lib N rv lo unc f) (GpuModel.g_resd fo bl rv lo unc s).
Proof.
  intros H. unfold u_resd, GpuModel.g_resd, on_dev_v, dv_resd. gs H. pose proof (rdm_Hi lib N N n Hz N1 nl hz _ _ HD) as EM. pose proof HD as HD'. gsp HD'.
  pose proof (gemm0_rel lib N N N1 true unc _ _ _ _ _ _ (lo * N) (lo * N) lo lo EM HV HW eq_refl eq_refl) as G.
  destruct (Nat.leb_spec (lo + unc) n) as [L|L].
  2:{ rewrite get_ub in G by lia. rewrite get_ub by lia. cbn [bind] in *. now apply (ub_l _ _ _ _ G). }
  rewrite (get_range_ok (is_V1 (g_dev s))) in * by lia. cbn [bind] in *.
  set (c := firstn unc (skipn lo (is_V1 (g_dev s)))) in *.
  assert (Lc : length c = unc) by (unfold c; rewrite firstn_length, skipn_length; lia).
  change (fun u : list T => tab N (l_mul lib true (is_H (g_dev s)) u)) with (b_mulH bl (is_H (g_dev s))) in G.
  set (w := map (b_mulH bl (is_H (g_dev s))) c) in *.
  assert (Lw : length w = unc) by (unfold w; now rewrite map_length).
  assert (E2 : exists W, put_range (is_V2 (g_dev s)) lo w = Ok W) by (rewrite put_range_ok by lia; eauto).
  destruct E2 as [W EW]. rewrite EW in *. destruct (gemm0 lib true N unc N _ 0 N _ (lo * N) N _ (lo * N) N) as [V2| |]; try easy. cbn [bind]. cbn in G.
  rewrite (get_range_ok (g_ritz s)) by lia. cbn [bind skipn]. pose proof (put_range_length _ _ _ _ EW) as LW'.
  pose proof (get_put _ _ _ _ EW) as EG. rewrite Lw in EG. rewrite get_range_ok in EG by lia. injection EG as EG.
  set (f0 := f_zero fo).
  set (y := fun i => l_nrm2 lib (zip (l_axpy lib (l_inj lib (f_neg fo (nth i (g_ritz s) f0)))) (nth i c []) (nth i w []))).
  assert (EF : exists r, for_ unc 0 (fun i r =>
      let! v := rd (u_ritz f) i in
      let! x := get_range (g_V1 (u_d f)) (lo * N + i * N) N in
      let! y := get_range V2 (lo * N + i * N) N in
      wr r i (l_nrm2 lib (zip (l_axpy lib (l_inj lib (f_neg fo v))) x y))) (u_res f) = Ok r /\ length r = n /\ firstn unc r = tab unc y).
  { destruct (for_inv (fun i r => length r = n /\ firstn i r = tab i y) (fun i r =>
      let! v := rd (u_ritz f) i in
      let! x := get_range (g_V1 (u_d f)) (lo * N + i * N) N in
      let! y := get_range V2 (lo * N + i * N) N in
      wr r i (l_nrm2 lib (zip (l_axpy lib (l_inj lib (f_neg fo v))) x y))) unc 0 (u_res f)) as (r & E & P); [now split| |eauto].
    intros i r Hi [Lr Er]. rewrite Erz, (rd_nth _ _ f0) by lia. cbn [bind]. rewrite <- Nat.mul_add_distr_r.
    rewrite (get1_packs N N1 _ _ _ HV), (rd_nth _ _ []) by lia. cbn [bind]. rewrite (get1_packs N N1 _ _ _ G), (rd_nth _ _ []) by lia. cbn [bind].
    rewrite wr_ok by lia. eexists. split; [reflexivity|]. rewrite upd_length. split; auto. rewrite tab_app_S, <- Er. rewrite upd_firstn by lia.
    rewrite firstn_app, firstn_firstn, firstn_length. rewrite Nat.min_r by lia. rewrite Nat.min_l by lia. replace (S i - i) with 1 by lia. cbn [app firstn]. f_equal. f_equal.
    unfold y. do 2 f_equal.
    - unfold c. now rewrite nth_firstn, nth_skipn by lia.
    - rewrite <- EG. now rewrite nth_firstn, nth_skipn by lia. }
  destruct EF as (r & -> & Lr & Er). cbn [bind]. rewrite get_range_ok by lia. cbn [skipn bind]. rewrite Er. cbn. split.
  - cbn [fst]. rewrite (zip_tab _ _ _ unc (f0, []) []); [|rewrite combine_length, firstn_length; lia|auto]. rewrite map_tab. apply tab_ext. intros i Hi.
    rewrite combine_nth by (rewrite firstn_length; lia). cbn [fst snd]. rewrite nth_firstn by auto. reflexivity.
  - cbn [snd]. gk. gmk.
Qed.

Lemma u_mlanczos_rel M nv f s : R f s -> rel_res (vrel R) (u_mlanczos fo lib N M nv f) (GpuModel.g_mlanczos fo bl M nv s).
Proof.
  intros H. unfold u_mlanczos, GpuModel.g_mlanczos. gs H. pose proof (ud_mlanczos_rel fo lib N n N1 M nv _ _ HD) as G.
  destruct (ud_mlanczos fo lib N M nv (u_d f)) as [[[[x e] b] d]| |]; destruct (dv_mlanczos fo bl M nv (g_dev s)) as [[[[x' e'] b'] d']| |]; try easy.
  destruct G as [E G]. cbn in *. split; [exact E|]. cbn [snd]. gk.
Qed.

Lemma u_end_rel f s : R f s -> rel_res R (u_end N n f) (g_end n s).
Proof.
  intros H. unfold u_end, g_end. gs H. pose proof HD as HD'. gsp HD'. rewrite <- bind_assoc.
  pose proof (cpy_rel N N1 _ _ _ _ 0 0 (n * N) 0 0 n HVh HV eq_refl eq_refl eq_refl) as G.
  destruct (let! x := get_range (is_V1 (g_dev s)) 0 n in put_range (GpuModel.g_V1 s) 0 x) as [W| |] eqn:EC; destruct (cpy (u_V f) 0 _ 0 (n * N)) as [V| |]; try easy.
  cbn in *. apply bind_ok in EC as (a & _ & EC). apply put_range_length in EC. gk.
Qed.

(** ** the whole backend *)
Theorem gflat_dla : dla_rel (gflatD fo lib N ldh n) (gpuD fo bl n) R.
Proof.
  split; cbn [gflatD gpuD d_shift d_apply d_hhqr d_chol1 d_chol2 d_schol2 d_lockcopy d_rr d_swap d_mlanczos d_dos]; intros.
  all: try (apply on_d_rel; [assumption|]); try (apply on_dv_rel; [assumption|]); try match goal with H : R _ _ |- _ => pose proof (proj1 (proj2 (proj2 (proj2 (proj2 H))))) end.
  - now apply (g_shift_rel fo lib N N n Hz N1 nl hz).
  - now apply (g_apply_rel fo lib N N n Hz N1 nl hz).
  - now apply (g_hhqr_rel fo lib N N n Hz N1).
  - now apply (g_chol1_rel fo lib N N n Hz N1 nl hz).
  - now apply ud_chol2_rel.
  - now apply ud_schol2_rel.
  - now apply (g_lockcopy_rel lib N N n Hz N1).
  - now apply u_rr_rel.
  - now apply (g_swap_rel lib N N n Hz N1).
  - now apply u_mlanczos_rel.
  - now apply ud_dos_rel.
Qed.

Context (qe : qr_env F) (td : tridiag F) (nev nex : nat).
Theorem gflat_kernel : kernel_rel (cmK fo qe td (gflatD fo lib N ldh n) nev nex) (cmK fo qe td (gpuD fo bl n) nev nex) (cmR R).
Proof.
  pose proof (cm_core_rel fo qe td nev nex _ _ _ gflat_dla) as C.
  split; cbn [cmK k_sym k_start k_end k_init k_shift k_hemm k_qr k_rr k_resd k_swap k_lock k_lanczos1 k_lanczos2 k_dos].
  - intros s t [E H]. apply lift_v_rel; auto. now apply u_sym_rel.
  - intros s t [E H]. cbn. split; auto.
  - intros s t [E H]. apply lift_rel; auto. now apply u_end_rel.
  - intros r s t [E H]. unfold cm_init. apply lift_rel; auto. eapply rel_bind with (R := R).
    + destruct r; [now apply u_initrnd_rel|exact H].
    + intros. now apply u_init_rel.
  - intros. now apply (kr_shift _ _ _ C).
  - intros. now apply (kr_hemm _ _ _ C).
  - intros. now apply (kr_qr _ _ _ C).
  - intros. now apply (kr_rr _ _ _ C).
  - intros v l s t [E H]. rewrite E. apply lift_v_rel; auto. now apply u_resd_rel.
  - intros. now apply (kr_swap _ _ _ C).
  - intros. now apply (kr_lock _ _ _ C).
  - intros. now apply (kr_lanczos1 _ _ _ C).
  - intros. now apply (kr_lanczos2 _ _ _ C).
  - intros. now apply (kr_dos _ _ _ C).
Qed.
End Rel.
