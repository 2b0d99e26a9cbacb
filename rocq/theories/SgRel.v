(** Related BLAS operations give related single-GPU backends. *)
From Coq Require Import List Arith ZArith Bool Lia.
Require Import Verif.Base Verif.AlgModel Verif.AlgProofs2 Verif.AlgSim Verif.DlaModel Verif.DlaSim Verif.ColModel Verif.ColSpec Verif.ColRel Verif.GpuModel Verif.SxRel Verif.AlgSim4.
Import ListNotations.

Section Rel.
Context {F V1 V2 M1 M2 G1 G2 T : Type} (fo : fops F) (b1 : blas F V1 M1 G1 T) (b2 : blas F V2 M2 G2 T).
Context (RV : V1 -> V2 -> Prop) (RM : M1 -> M2 -> Prop) (RG : G1 -> G2 -> Prop) (BR : blas_rel b1 b2 RV RM RG).
Notation RL := (Forall2 RV).
Notation RI := (istR RV RM).
Definition gstR (s : gst (F := F) (V := V1) (M := M1)) (t : gst (F := F) (V := V2) (M := M2)) : Prop :=
  RM (g_H s) (g_H t) /\ RL (g_V1 s) (g_V1 t) /\ RI (g_dev s) (g_dev t) /\ g_ritz s = g_ritz t.
Context (n : nat).
Notation L1 := (gpuD fo b1 n).
Notation L2 := (gpuD fo b2 n).
Notation IR := (inpl_rel fo b1 b2 RV RM RG BR n).

Lemma on_dev_rel x y s t : gstR s t -> rel_res RI x y -> rel_res gstR (on_dev s x) (on_dev t y).
Proof. intros (A & B & C & D) H. unfold on_dev. eapply rel_bind; [exact H|]. intros. cbn. unfold gstR. cbn. auto. Qed.
Lemma on_dev_v_rel {X} (x : res (X * _)) y s t : gstR s t -> rel_res (vrel RI) x y -> rel_res (vrel gstR) (on_dev_v s x) (on_dev_v t y).
Proof. intros (A & B & C & D) H. unfold on_dev_v. eapply rel_bind; [exact H|]. intros [v a] [w b] [E K]. cbn in *. unfold vrel, gstR. cbn. auto 8. Qed.

Ltac gr := eapply rel_bind; [apply get_rel; eassumption|]; intros ? ? ?; cbn beta iota.
Ltac pt := eapply rel_bind; [apply put_rel; eassumption|]; intros ? ? ?; cbn beta iota.
Ltac fin := cbn; unfold istR; cbn; auto 8.

Lemma dv_resd_rel v l k s t : RI s t -> rel_res (vrel RI) (dv_resd fo b1 v l k s) (dv_resd fo b2 v l k t).
Proof.
  intros (HH & H1 & H2 & E). unfold dv_resd. eapply rel_bind; [apply get_rel; eassumption|]. intros x y Hxy. eapply rel_bind; [apply rel_eq|]. intros w ? <-. cbv zeta.
  assert (E3 : RL (map (b_mulH b1 (is_H s)) x) (map (b_mulH b2 (is_H t)) y)).
  { eapply f2_map; [|eassumption]. intros. now apply (br_mulH _ _ _ _ _ BR). }
  pt. cbn. unfold vrel. cbn. split; [|fin]. apply (map_nrm_rel _ _ _ _ _ BR). eapply (axpys'_rel _ _ _ _ _ _ BR); eauto.
Qed.

Ltac fa U U' HU := eapply rel_bind; [apply (i_factor_rel b1 b2 RV RM RG BR); eassumption|]; let i := fresh "i" in let i' := fresh "i'" in let Ei := fresh in
  intros [i U] [i' U'] [Ei HU]; cbn [fst snd] in *; subst i'.
Ltac tr H := eapply rel_bind; [apply (i_trsm_rel b1 b2 RV RM RG BR); eassumption|]; intros ? ? H.
Lemma dv_chol2_rel l s t : RI s t -> rel_res (vrel RI) (dv_chol2 b1 n l s) (dv_chol2 b2 n l t).
Proof.
  intros H. unfold dv_chol2. eapply rel_bind; [apply (i_save_rel RV RM); eassumption|]. intros s0 t0 H0. fa U U' HU. destruct (negb _); [cbn; unfold vrel; auto|].
  tr H1. fa U2 U2' HU2. tr H2. cbn. unfold vrel. auto.
Qed.
Lemma dv_schol2_rel l s t : RI s t -> rel_res (vrel RI) (dv_schol2 b1 n l s) (dv_schol2 b2 n l t).
Proof.
  intros H. unfold dv_schol2. eapply rel_bind; [apply (i_save_rel RV RM); eassumption|]. intros s0 t0 H0. fa U U' HU. destruct (negb _); [cbn; unfold vrel; auto|].
  tr H1. fa U2 U2' HU2. destruct (negb _); [cbn; unfold vrel; auto|]. tr H2. fa U3 U3' HU3. tr H3. cbn. unfold vrel. auto.
Qed.

Lemma axpy_batch_rel a l l' m m' : RL l l' -> RL m m' -> RL (axpy_batch b1 a l m) (axpy_batch b2 a l' m').
Proof. intros H K. unfold axpy_batch. destruct a; auto. eapply f2_zip; [|eassumption|eassumption]. intros. now apply (br_axpy _ _ _ _ _ BR). Qed.
Notation mR := (mlR (F := F) RV).
Lemma g_body_rel H H' sec Mn nv k s t : RM H H' -> mR s t ->
  rel_res (fun x y => mR (fst x) (fst y) /\ RL (snd x) (snd y)) (g_body fo b1 H sec Mn nv k s) (g_body fo b2 H' sec Mn nv k t).
Proof.
  intros HH (HC & H0 & H1 & Ed & Ee & Eb). unfold g_body. cbv zeta.
  assert (E2 : RL (map (b_mulN b1 H) (ml_v1 s)) (map (b_mulN b2 H') (ml_v1 t))).
  { eapply f2_map; [|eassumption]. intros. now apply (br_mulN _ _ _ _ _ BR). }
  eapply rel_bind with (R := RL).
  { destruct sec; [exact HC|]. apply rel_for; auto. intros i a b Hab. eapply rel_bind; [apply rd_rel; eassumption|]. intros. now apply wr_rel. }
  intros C C' HC'. rewrite (map_dot_rel _ _ _ _ _ BR _ _ _ _ H1 E2).
  assert (EN : forall l, map (b_tneg b1) l = map (b_tneg b2) l) by (intros; apply map_ext, (br_tneg _ _ _ _ _ BR)).
  rewrite EN. set (al := map (b_tneg b2) _). clearbody al. rewrite Ed.
  eapply rel_bind with (R := eq).
  { apply rel_for; auto. intros i a b <-. destruct (rd al i); cbn; auto. rewrite (br_tneg _ _ _ _ _ BR), (br_re _ _ _ _ _ BR).
    apply rel_eq. }
  intros d ? <-. rewrite Eb.
  pose proof (axpy_batch_rel al _ _ _ _ H1 E2) as E3.
  match goal with |- rel_res _ (Ok (_, ?x)) (Ok (_, ?y)) => assert (E4 : RL x y) end.
  { destruct (k =? 0); auto. rewrite (map_ext _ (fun b => b_inj b2 (f_neg fo b))) by (intros; apply (br_inj _ _ _ _ _ BR)). now apply axpy_batch_rel. }
  cbn [rel_res fst snd]. split; [|exact E4].
  unfold mlR. cbn. rewrite (map_nrm_rel _ _ _ _ _ BR _ _ E4). repeat split; auto.
Qed.
Lemma g_loop_rel H H' sec Mn nv : RM H H' -> forall todo k s t, mR s t -> rel_res mR (g_loop fo b1 todo k H sec Mn nv s) (g_loop fo b2 todo k H' sec Mn nv t).
Proof.
  intros HH. induction todo as [|todo IH]; intros k s t Hs; cbn [g_loop]; [exact Hs|].
  eapply rel_bind; [now apply g_body_rel|]. intros [s1 v] [t1 v'] [Hs1 Hv]. cbn [fst snd] in *.
  destruct todo; [exact Hs1|]. eapply rel_bind; [now apply (ml_next_rel fo b1 b2 RV RM RG BR)|]. auto.
Qed.
Lemma g_lanczos_rel H H' Mn nv C C' : RM H H' -> RL C C' -> rel_res (vrel RL) (g_lanczos fo b1 H Mn nv C) (g_lanczos fo b2 H' Mn nv C').
Proof.
  intros HH HC. unfold g_lanczos. destruct (match nv with None => _ | Some _ => _ end) as [sec k].
  eapply rel_bind; [apply get_rel; eassumption|]. intros st st' Hst. cbv zeta.
  eapply rel_bind with (R := mR).
  - apply g_loop_rel; auto. unfold mlR. cbn [ml_C ml_v0 ml_v1 ml_d ml_e ml_b]. split; auto. split; [apply f2_repeat, (br_zero _ _ _ _ _ BR)|]. split; auto.
    eapply f2_map; [|exact Hst]. intros a b Hab. rewrite (br_nrm2 _ _ _ _ _ BR _ _ Hab), (br_inj _ _ _ _ _ BR). now apply (br_scal _ _ _ _ _ BR).
  - intros s t (HC' & H0 & H1 & Ed & Ee & Eb). eapply rel_bind with (R := RL).
    + destruct sec; [exact HC'|]. now apply put_rel.
    + intros. cbn. unfold vrel. cbn. rewrite Ed, Ee, Eb. auto.
Qed.

Lemma gpu_rel : dla_rel L1 L2 gstR.
Proof.
  split; cbn [gpuD d_shift d_apply d_hhqr d_chol1 d_chol2 d_schol2 d_lockcopy d_rr d_swap d_mlanczos d_dos]; intros.
  all: match goal with H : gstR _ _ |- _ => pose proof (proj1 (proj2 (proj2 H))) as HD end.
  - apply on_dev_rel; auto. now apply (dr_shift _ _ _ IR).
  - apply on_dev_rel; auto. now apply (dr_apply _ _ _ IR).
  - apply on_dev_rel; auto. now apply (dr_hhqr _ _ _ IR).
  - apply on_dev_v_rel; auto. now apply (dr_chol1 _ _ _ IR).
  - apply on_dev_v_rel; auto. now apply dv_chol2_rel.
  - apply on_dev_v_rel; auto. now apply dv_schol2_rel.
  - apply on_dev_rel; auto. now apply (dr_lockcopy _ _ _ IR).
  - destruct H as (A & B & _ & D). unfold g_rr. eapply rel_bind; [now apply (dr_rr _ _ _ IR)|]. intros [v d] [w d'] [E K]. cbn [fst snd] in *. subst w.
    rewrite D. eapply rel_bind; [apply rel_eq|]. intros r ? <-. cbn. unfold vrel, gstR. cbn. auto.
  - apply on_dev_rel; auto. now apply (dr_swap _ _ _ IR).
  - destruct H as (A & B & _ & D). unfold g_mlanczos, dv_mlanczos. destruct HD as (HH & H1 & H2 & E). rewrite !bind_assoc.
    eapply rel_bind; [apply g_lanczos_rel; eassumption|].
    intros [[[d e] b] x] [[[d' e'] b'] x'] [X Y]. cbn [fst snd] in *. injection X as <- <- <-. cbn. unfold vrel. cbn. split; auto. unfold gstR, istR. cbn. auto 8.
  - apply on_dev_rel; auto. now apply (dr_dos _ _ _ IR).
Qed.

Context (qe : qr_env F) (td : tridiag F) (nev nex : nat).
Lemma gpu_kernel : kernel_rel (cmK fo qe td L1 nev nex) (cmK fo qe td L2 nev nex) (cmR gstR).
Proof.
  pose proof (cm_core_rel fo qe td nev nex L1 L2 gstR gpu_rel) as CR. destruct CR.
  split; try assumption.
  - intros s t [E H]. apply lift_v_rel; auto. cbn. unfold vrel. cbn. split; auto. destruct H as (HH & _). apply (br_veq _ _ _ _ _ BR).
    + apply (br_mulN _ _ _ _ _ BR); auto. apply (br_test _ _ _ _ _ BR).
    + apply (br_mulH _ _ _ _ _ BR); auto. apply (br_test _ _ _ _ _ BR).
  - intros s t [E H]. cbn. split; auto.
  - intros s t [E H]. cbn [cmK k_end]. apply lift_rel; auto. cbn. unfold g_end. destruct H as (A & B & (HH & H1 & H2 & Es) & D). gr. pt. cbn. unfold gstR, istR. cbn. auto 8.
  - intros r s t [E H]. cbn [cmK k_init]. unfold cm_init. apply lift_rel; auto. eapply rel_bind with (R := gstR).
    + destruct r; [|exact H]. cbn. unfold g_initrnd. apply on_dev_rel; auto. destruct H as (_ & _ & (HH & H1 & H2 & Es) & _). unfold i_initrnd.
      eapply rel_bind; [apply put_rel; [eassumption|]|].
      { apply f2_seq. apply (br_rnd _ _ _ _ _ BR). }
      intros. fin.
    + intros a b (A & B & (HH & H1 & H2 & Es) & D). cbn. unfold g_init, i_init. rewrite !bind_assoc. gr. rewrite !bind_assoc. pt. cbn. unfold gstR, istR. cbn. auto 8.
  - intros v l s t [E H]. cbn [cmK k_resd]. rewrite E. apply lift_v_rel; auto. cbn. unfold g_resd. apply on_dev_v_rel; auto. destruct H as (_ & _ & HD & Er). rewrite Er. now apply dv_resd_rel.
Qed.
End Rel.
