(** The backends with two exchangeable blocks (in place on the CPU, or on one GPU): a run depends on the matrix and (with
    approximate vectors) on the current block only. *)
From Coq Require Import List Arith ZArith Bool Lia Permutation.
Require Import Verif.Base Verif.AlgModel Verif.AlgSpec Verif.AlgProofs1 Verif.AlgProofs2 Verif.AlgSim Verif.AlgSim2 Verif.AlgSim4 Verif.DlaSim
  Verif.DlaModel Verif.ColModel Verif.ColSpec Verif.ColProofs1 Verif.ColProofs2 Verif.MgpuSpec Verif.MgpuProofs1 Verif.GpuModel Verif.GpuProofs1 Verif.GpuProofs2 Verif.ReuseBase Verif.ReuseSpec.
Import ListNotations.

Section Inpl.
Context {F V M G T : Type} (fo : fops F) (bl : blas F V M G T) (qe : qr_env F) (td : tridiag F) (dev : bool) (nev nex : nat) (BZ : beta_zero fo bl) (apx : bool).
Local Notation n := (nev + nex).
Definition istD (dev : bool) (n : nat) : dla F (ist (V := V) (M := M)) := if dev then devD fo bl n else inplD fo bl n.
Local Notation L := (istD dev n).
Local Notation K := (cmK fo qe td (istD dev (nev + nex)) nev nex).
Local Notation istT := (ist (V := V) (M := M)).

Definition ilens (s t : istT) : Prop := is_H s = is_H t /\ length (is_V1 s) = n /\ length (is_V2 s) = n /\ length (is_V1 t) = n /\ length (is_V2 t) = n.
Definition eR (s t : istT) : Prop := ilens s t /\ is_V1 s = is_V1 t.
(** after an odd number of products the vectors are in the second block *)
Definition eF (p : bool) (lo hi : nat) (s t : istT) : Prop := ilens s t /\
  if p then is_V2 s = is_V2 t /\ agree lo hi (is_V1 s) (is_V1 t) else is_V1 s = is_V1 t /\ agree lo hi (is_V2 s) (is_V2 t).
(** the first l columns are saved *)
Definition eQ (l : nat) (s t : istT) : Prop := eR s t /\ agree 0 l (is_V2 s) (is_V2 t).
Definition eS (s t : istT) : Prop := eR s t /\ is_V2 s = is_V2 t.

Lemma i_apply_two p a b off k l lo hi s t : (eF p lo hi s t /\ lo <= l + off /\ l + off + k <= hi) \/ (eR s t /\ b = f_zero fo /\ p = false) ->
  rel_res (eF (negb p) (l + off) (l + off + k)) (i_apply bl a b off k l s) (i_apply bl a b off k l t).
Proof.
  intros HH. unfold i_apply.
  assert (X : ilens s t /\ get_range (is_V1 s) (l + off) k = get_range (is_V1 t) (l + off) k /\ (p = false -> is_V1 s = is_V1 t) /\
    (p = true -> is_V2 s = is_V2 t /\ agree (l + off) (l + off + k) (is_V1 s) (is_V1 t)) /\
    forall x, length x = k -> rel_res (fun y y' => length y = k /\ zip (b_gemmN bl (is_H s) a b) x y = zip (b_gemmN bl (is_H s) a b) x y')
      (get_range (is_V2 s) (l + off) k) (get_range (is_V2 t) (l + off) k)).
  { destruct HH as [(((EH & L1 & L2 & L3 & L4) & HF) & Hlo & Hhi)|(((EH & L1 & L2 & L3 & L4) & E1) & -> & ->)].
    - assert (Y : get_range (is_V1 s) (l + off) k = get_range (is_V1 t) (l + off) k /\ get_range (is_V2 s) (l + off) k = get_range (is_V2 t) (l + off) k).
      { destruct p; destruct HF as [E A]; split; try (now rewrite E); apply (agree_get lo hi); auto. }
      destruct Y as [Y1 Y2]. split; [repeat split; auto|]. split; [exact Y1|]. split; [intros ->; apply HF|]. split.
      + intros ->. destruct HF as [E A]. split; auto. eapply agree_sub; [| |exact A]; auto.
      + intros x LX. rewrite Y2. destruct (get_range (is_V2 t) (l + off) k) as [y| |] eqn:E; simpl; auto. apply get_len in E as [E _]. auto.
    - split; [repeat split; auto|]. split; [now rewrite E1|]. split; auto. split; [discriminate|]. intros x LX.
      eapply rel_mono; [|apply (get_rel_len (is_V2 s) (is_V2 t)); lia]. intros y y' [P1 P2]. split; auto. apply zip_ext_r; [lia|]. intros. apply BZ. }
  clear HH. destruct X as ((EH & L1 & L2 & L3 & L4) & X1 & XF & XT & XY). rewrite <- X1, <- EH.
  destruct (get_range (is_V1 s) (l + off) k) as [x| |] eqn:EX; cbn [bind]; try exact I. apply get_len in EX as [LX HX].
  eapply rel_bind; [apply (XY x LX)|]. intros y y' [LY EZ]. rewrite <- EZ.
  assert (LZ : length (zip (b_gemmN bl (is_H s) a b) x y) = k) by (rewrite zip_length; lia).
  destruct p; cbn [negb].
  - destruct (XT eq_refl) as [E2 A1]. rewrite <- E2.
    destruct (put_range (is_V2 s) _ _) as [v| |] eqn:EP; cbn [bind]; try exact I. apply put_range_length in EP.
    cbn. split; [repeat split; cbn; auto; lia|]. split; cbn; auto.
  - pose proof (agree_put_win (is_V2 s) (is_V2 t) (l + off) (zip (b_gemmN bl (is_H s) a b) x y) ltac:(lia)) as HP. rewrite LZ in HP.
    destruct (put_range (is_V2 s) _ _) as [v| |] eqn:EP; destruct (put_range (is_V2 t) _ _) as [v'| |] eqn:EP'; simpl in HP |- *; try easy.
    apply put_range_length in EP, EP'. split; [repeat split; cbn; auto; lia|]. split; cbn; auto.
Qed.

Lemma i_rr_two l s t : l <= n -> eQ l s t -> rel_res (vrel eR) (i_rr bl (n - l) l s) (i_rr bl (n - l) l t).
Proof.
  intros HL (((EH & L1 & L2 & L3 & L4) & E1) & A). unfold i_rr. rewrite <- E1, <- EH. rb. cbv zeta.
  match goal with |- rel_res _ (bind (put_range _ _ ?z) _) _ => assert (LZ : length z = n - l) by (rewrite map_length, seq_length; auto);
    pose proof (agree_put_here 0 l (is_V2 s) (is_V2 t) l z A ltac:(lia)) as HP end. rewrite LZ in HP. replace (Nat.max l (l + (n - l))) with n in HP by lia.
  destruct (put_range (is_V2 s) _ _) as [v| |] eqn:EP; destruct (put_range (is_V2 t) _ _) as [v'| |] eqn:EP'; simpl in HP |- *; try easy.
  apply put_range_length in EP, EP'. apply agree_all in HP; [|lia]. subst v'. split; auto. repeat split; cbn; auto; lia.
Qed.

Lemma i_resd_two v l k s t : eR s t -> rel_res (vrel eR) (i_resd fo bl v l k s) (i_resd fo bl v l k t).
Proof.
  intros ((EH & L1 & L2 & L3 & L4) & E1). unfold i_resd. rewrite <- E1, <- EH. rb. rb.
  eapply rel_bind; [apply (put_rel_len (is_V2 s) (is_V2 t)); lia|]. intros x y [P1 P2]. cbn. split; auto. repeat split; cbn; auto; lia.
Qed.
Lemma dv_resd_two v l k s t : eR s t -> rel_res (vrel eR) (dv_resd fo bl v l k s) (dv_resd fo bl v l k t).
Proof.
  intros ((EH & L1 & L2 & L3 & L4) & E1). unfold dv_resd. rewrite <- E1, <- EH. rb. rb. cbv zeta.
  eapply rel_bind; [apply (put_rel_len (is_V2 s) (is_V2 t)); lia|]. intros x y [P1 P2]. cbn. split; auto. repeat split; cbn; auto; lia.
Qed.

Lemma eQ_less m k s t : m <= k -> eQ k s t -> eQ m s t.
Proof. intros H [X Y]. split; auto. eapply agree_sub; [| |exact Y]; auto. Qed.
Lemma eQ_0 s t : eR s t -> eQ 0 s t.
Proof. intros H. split; auto. destruct H as ((_ & _ & L2 & _ & L4) & _). split; [lia|]. lia. Qed.
Lemma i_save_two m l s t : eQ m s t -> rel_res (eQ (Nat.max m l)) (i_save l s) (i_save l t).
Proof.
  intros (((EH & L1 & L2 & L3 & L4) & E1) & A). unfold i_save. rewrite <- E1.
  destruct (get_range (is_V1 s) 0 l) as [x| |] eqn:EX; cbn [bind]; try exact I. apply get_len in EX as [LX HX].
  pose proof (agree_put_here 0 m (is_V2 s) (is_V2 t) 0 x A ltac:(lia)) as HP. rewrite LX in HP. cbn [Nat.add] in HP.
  destruct (put_range (is_V2 s) _ _) as [v| |] eqn:EP; destruct (put_range (is_V2 t) _ _) as [v'| |] eqn:EP'; simpl in HP |- *; try easy.
  apply put_range_length in EP, EP'. split; [|exact HP]. repeat split; cbn; auto; lia.
Qed.
Lemma i_set_two l f s t : eQ l s t -> rel_res (eQ l) (i_set n s f) (i_set n t f).
Proof.
  intros (((EH & L1 & L2 & L3 & L4) & E1) & A). unfold i_set. rewrite <- E1. rb.
  destruct (put_range (is_V1 s) _ _) as [v| |] eqn:EP; cbn [bind]; try exact I. apply put_range_length in EP. cbn. split; [|exact A]. repeat split; cbn; auto; lia.
Qed.
Lemma i_factor_two sh s t : eR s t -> i_factor bl n sh s = i_factor bl n sh t.
Proof. intros (_ & E1). unfold i_factor. now rewrite E1. Qed.
Ltac fac H := rewrite <- (i_factor_two _ _ _ (proj1 H)); rb; match goal with |- context [let '(_, _) := ?p in _] => destruct p as [? ?] end; cbn beta iota.
Ltac qdone := cbn; unfold vrel; cbn; auto.
Ltac st := eapply rel_bind; [apply i_set_two; eauto|]; intros ? ? ?.
Lemma i_hhqr_two m l s t : eQ m s t -> rel_res (eQ (Nat.max m l)) (i_hhqr bl n l s) (i_hhqr bl n l t).
Proof. intros H. unfold i_hhqr. eapply rel_bind; [apply i_save_two; eauto|]. intros s0 t0 H0. now apply i_set_two. Qed.
Lemma i_chol1_two m l s t : eQ m s t -> rel_res (vrel (eQ (Nat.max m l))) (i_chol1 bl n l s) (i_chol1 bl n l t).
Proof. intros H. unfold i_chol1. eapply rel_bind; [apply i_save_two; eauto|]. intros s0 t0 H0. fac H0. destruct (negb _); [qdone|]. st. qdone. Qed.
Lemma i_chol2_two m l s t : eQ m s t -> rel_res (vrel (eQ (Nat.max m l))) (i_chol2 bl n l s) (i_chol2 bl n l t).
Proof.
  intros H. unfold i_chol2. eapply rel_bind; [apply i_save_two; eauto|]. intros s0 t0 H0. fac H0. destruct (negb _); [qdone|].
  eapply rel_bind; [apply i_set_two; eauto|]. intros s1 t1 H1. fac H1. st. qdone.
Qed.
Lemma dv_chol2_two m l s t : eQ m s t -> rel_res (vrel (eQ (Nat.max m l))) (dv_chol2 bl n l s) (dv_chol2 bl n l t).
Proof.
  intros H. unfold dv_chol2. eapply rel_bind; [apply i_save_two; eauto|]. intros s0 t0 H0. fac H0. destruct (negb _); [qdone|].
  eapply rel_bind; [apply i_set_two; eauto|]. intros s1 t1 H1. fac H1. st. qdone.
Qed.
Lemma i_schol2_two m l s t : eQ m s t -> rel_res (vrel (eQ (Nat.max m l))) (i_schol2 bl n l s) (i_schol2 bl n l t).
Proof.
  intros H. unfold i_schol2. eapply rel_bind; [apply i_save_two; eauto|]. intros s0 t0 H0. fac H0. destruct (negb _); [qdone|].
  eapply rel_bind; [apply i_set_two; eauto|]. intros s1 t1 H1. fac H1. destruct (negb _); [qdone|].
  eapply rel_bind; [apply i_set_two; eauto|]. intros s2 t2 H2. fac H2. st. qdone.
Qed.
Lemma dv_schol2_two m l s t : eQ m s t -> rel_res (vrel (eQ (Nat.max m l))) (dv_schol2 bl n l s) (dv_schol2 bl n l t).
Proof.
  intros H. unfold dv_schol2. eapply rel_bind; [apply i_save_two; eauto|]. intros s0 t0 H0. fac H0. destruct (negb _); [qdone|].
  eapply rel_bind; [apply i_set_two; eauto|]. intros s1 t1 H1. fac H1. destruct (negb _); [qdone|].
  eapply rel_bind; [apply i_set_two; eauto|]. intros s2 t2 H2. fac H2. st. qdone.
Qed.
Lemma i_lockcopy_two m l b s t : l <= m -> eQ m s t -> rel_res (eQ m) (i_lockcopy l b s) (i_lockcopy l b t).
Proof.
  intros HM (((EH & L1 & L2 & L3 & L4) & E1) & A). unfold i_lockcopy. rewrite <- E1, <- (agree_get 0 m _ _ 0 l (le_n _) HM A). rb.
  destruct (put_range (is_V1 s) _ _) as [v| |] eqn:EP; cbn [bind]; try exact I. apply put_range_length in EP. cbn. split; [|exact A]. repeat split; cbn; auto; lia.
Qed.
Lemma i_swap_two i j s t : eR s t -> rel_res eR (i_swap i j s) (i_swap i j t).
Proof.
  intros ((EH & L1 & L2 & L3 & L4) & E1). unfold i_swap. rewrite <- E1.
  destruct (swap_ (is_V1 s) i j) as [v| |] eqn:EP; cbn [bind]; try exact I. apply swap_len in EP as (LP & _). cbn. repeat split; cbn; auto; lia.
Qed.
Lemma i_swap_start i j s t : eS s t -> rel_res eS (i_swap i j s) (i_swap i j t).
Proof.
  intros (((EH & L1 & L2 & L3 & L4) & E1) & E2). unfold i_swap. rewrite <- E1.
  destruct (swap_ (is_V1 s) i j) as [v| |] eqn:EP; cbn [bind]; try exact I. apply swap_len in EP as (LP & _). cbn. repeat split; cbn; auto; lia.
Qed.
Lemma i_dos_two i m rv s t : eS s t -> rel_res eS (i_dos bl i m rv s) (i_dos bl i m rv t).
Proof.
  intros (((EH & L1 & L2 & L3 & L4) & E1) & E2). unfold i_dos. rewrite <- E1, <- E2. rb. rb.
  destruct (put_range (is_V2 s) _ _) as [v| |] eqn:EP; cbn [bind]; try exact I. apply put_range_length in EP. rb.
  destruct (put_range (is_V1 s) _ _) as [w| |] eqn:EP'; cbn [bind]; try exact I. apply put_range_length in EP'. cbn. repeat split; cbn; auto; lia.
Qed.
Lemma i_mlanczos_two m nv s t : eS s t -> rel_res (vrel eS) (i_mlanczos fo bl m nv s) (i_mlanczos fo bl m nv t).
Proof.
  intros (((EH & L1 & L2 & L3 & L4) & E1) & E2). unfold i_mlanczos. rewrite <- E1, <- EH.
  destruct (mlanczos fo bl (is_H s) m nv (is_V1 s)) as [[[[x e] b] C']| |] eqn:E; cbn [bind]; try exact I. apply mlanczos_len in E.
  cbn. split; auto. repeat split; cbn; auto; lia.
Qed.
Lemma dv_mlanczos_two m nv s t : eS s t -> rel_res (vrel eS) (dv_mlanczos fo bl m nv s) (dv_mlanczos fo bl m nv t).
Proof.
  intros (((EH & L1 & L2 & L3 & L4) & E1) & E2). unfold dv_mlanczos. rewrite <- E1, <- EH.
  destruct (g_lanczos fo bl (is_H s) m nv (is_V1 s)) as [[[[x e] b] C']| |] eqn:E; cbn [bind]; try exact I. apply g_lanczos_len in E.
  cbn. split; auto. repeat split; cbn; auto; lia.
Qed.

Local Notation cmT := (cm (D := ist (V := V) (M := M))).
Definition eRf (p : bool) (l off m : nat) (s t : cmT) : Prop := kk (eF p (l + off) (l + off + m)) l s t.
Definition eRa (s t : cmT) : Prop := same_problem2 n apx s t /\ cm_locked s = 0 /\ cm_locked t = 0.
Definition eRq (l : nat) : cmT -> cmT -> Prop := kk (eQ l) l.

Lemma i_qr_two m l f c s t : kk (eQ m) l s t -> rel_res (kk (eQ (Nat.max m l)) l) (cm_qr fo qe L f c s) (cm_qr fo qe L f c t).
Proof.
  intros (E1 & E2 & H).
  refine (cm_qr_two fo qe L L l (eQ m) (eQ (Nat.max m l)) (eQ (Nat.max m l)) _ _ _ _ _ f c s t E1 E2 H); unfold istD; destruct dev; cbn [devD inplD d_hhqr d_chol1 d_chol2 d_schol2 d_lockcopy]; intros;
    try (now apply i_hhqr_two); try (apply i_lockcopy_two; [lia|assumption]);
    (eapply rel_mono; [|first [apply i_chol1_two|apply i_chol2_two|apply i_schol2_two|apply dv_chol2_two|apply dv_schol2_two]; eauto]; intros a b' [X Y]; split; auto; split; auto; intros; eapply eQ_less; [|exact Y]; lia).
Qed.

Lemma i_init_two s t : eRa s t -> rel_res (kk eS 0) (cm_init L (negb apx) s) (cm_init L (negb apx) t).
Proof.
  intros ((EH & LC & LC' & EC & L2 & L2') & E1 & E2). unfold cm_init, lift. rewrite E1, E2.
  eapply rel_bind with (R := eS); [|intros; cbn; split; auto].
  eapply rel_bind with (R := eR).
  - destruct apx; cbn [negb].
    + cbn. repeat split; auto.
    + unfold istD. assert (X : rel_res eR (i_initrnd bl n (cm_dla s)) (i_initrnd bl n (cm_dla t))); [|destruct dev; exact X].
      unfold i_initrnd. rewrite !put_full by (rewrite map_length, seq_length; auto). cbn. repeat split; cbn; auto; now rewrite map_length, seq_length.
  - intros a b ((X1 & X2 & X3 & X4 & X5) & X6). assert (X : rel_res eS (i_init n a) (i_init n b)); [|unfold istD; destruct dev; exact X].
    unfold i_init. rewrite <- X6, (get_full (is_V1 a) n X2). cbn [bind]. rewrite !put_full by lia. cbn. repeat split; cbn; auto; congruence.
Qed.

Theorem ist_paced : paced fo K K n (negb apx) (same_problem2 n apx) eRa (kk eS 0) (kk eR) eRf (kk eR) eRq (fun s t => eR (cm_dla s) (cm_dla t)).
Proof.
  split; cbn [cmK k_sym k_start k_end k_init k_shift k_hemm k_qr k_rr k_resd k_swap k_lock k_lanczos1 k_lanczos2 k_dos].
  - intros s t H. assert (X : rel_res (vrel (fun a b => a = cm_dla s /\ b = cm_dla t)) (i_sym bl (cm_dla s)) (i_sym bl (cm_dla t))).
    { cbn. split; cbn; auto. destruct H as (E & _). now rewrite E. }
    unfold lift_v. eapply rel_bind; [unfold istD; destruct dev; exact X|]. intros [v a] [v' b] [Y [Y1 Y2]]. cbn [fst snd] in *. subst. cbn. split; auto.
  - intros s t H. unfold istD. destruct dev; cbn; split; auto.
  - intros s t H. eapply rel_bind; [apply i_init_two; eauto|]. intros s' t' H'. destruct (negb apx); [|exact H'].
    eapply rel_mono; [|apply (i_qr_two n 0)].
    + intros a b (Y1 & Y2 & [Y3 Y4]). split; auto. split; auto. split; auto. apply (agree_all (Nat.max n 0)); auto. destruct Y3 as ((_ & _ & Z & _) & _). lia.
    + destruct H' as (Y1 & Y2 & (Y3 & Y4)). split; auto. split; auto. split; auto. rewrite Y4. apply agree_refl.
  - split; cbn [starter cmK k_sym k_start k_end k_init k_shift k_hemm k_qr k_rr k_resd k_swap k_lock k_lanczos1 k_lanczos2 k_dos]; try (intros; exact I);
      intros; destruct (negb apx); try exact I; pose proof H as (E1 & E2 & HD).
    + apply kk_lift; auto. unfold istD; destruct dev; now apply i_swap_start.
    + eapply lanczos1_two; eauto. unfold istD; destruct dev; [now apply dv_mlanczos_two|now apply i_mlanczos_two].
    + eapply lanczos2_two; eauto. unfold istD; destruct dev; [now apply dv_mlanczos_two|now apply i_mlanczos_two].
    + apply kk_lift; auto. unfold istD; destruct dev; now apply i_dos_two.
  - intros s t (E1 & E2 & H & _). split; auto.
  - intros l c s t (E1 & E2 & H). apply kk_lift; auto. assert (X : rel_res eR (i_shift bl c false (cm_dla s)) (i_shift bl c false (cm_dla t))); [|unfold istD; destruct dev; exact X].
    destruct H as ((X1 & X2) & X3). cbn. split; auto. split; cbn; auto. congruence.
  - intros l m a s t (E1 & E2 & H) _. rewrite E1, E2. apply kk_lift; auto.
    pose proof (i_apply_two false a (f_zero fo) 0 m l 0 0 _ _ (or_intror (conj H (conj eq_refl eq_refl)))) as X. unfold istD; destruct dev; exact X.
  - intros p l off m off' m' a b s t (E1 & E2 & H) H1 H2. rewrite E1, E2. apply kk_lift; auto.
    assert (B : l + off <= l + off' /\ l + off' + m' <= l + off + m) by lia.
    pose proof (i_apply_two p a b off' m' l (l + off) (l + off + m) _ _ (or_introl (conj H B))) as X. unfold istD; destruct dev; exact X.
  - intros l off m c s t (E1 & E2 & H). apply kk_lift; auto. assert (X : rel_res eR (i_shift bl c true (cm_dla s)) (i_shift bl c true (cm_dla t))); [|unfold istD; destruct dev; exact X].
    destruct H as ((X1 & X2) & X3 & _). cbn. split; auto. split; cbn; auto. congruence.
  - intros l c s t (E1 & E2 & H). eapply rel_mono; [|apply (i_qr_two 0 l); split; auto; split; auto; now apply eQ_0]. intros a b (Y1 & Y2 & Y). split; auto.
  - intros l s t (E1 & E2 & H) HL. rewrite E1, E2. apply kk_lift_v; auto. unfold istD; destruct dev; now apply i_rr_two.
  - intros l v s t (E1 & E2 & H). rewrite E1, E2. apply kk_lift_v; auto. unfold istD; destruct dev; [now apply dv_resd_two|now apply i_resd_two].
  - intros l i j s t (E1 & E2 & H). apply kk_lift; auto. unfold istD; destruct dev; now apply i_swap_two.
  - intros l m s t (E1 & E2 & H) _. cbn. repeat split; cbn; auto; try apply H; lia.
  - intros l s t (E1 & E2 & H). unfold istD; destruct dev; exact H.
Qed.
End Inpl.

Lemma ist_same_run {F V M G T} (fo : fops F) (bl : blas F V M G T) qe td dev (cf : conf F) sort_idx fsort ritzv resid :
  (forall keys, Permutation (sort_idx keys) (seq 0 (length keys))) -> conf_ok cf -> beta_zero fo bl ->
  let n := c_nev cf + c_nex cf in let K := cmK fo qe td (istD fo bl dev n) (c_nev cf) (c_nex cf) in
  forall s t, same_problem2 n (c_approx cf) s t ->
  same_run is_H is_V1 is_H is_V1 (solve fo K fsort sort_idx cf s ritzv resid) (solve fo K fsort sort_idx cf t ritzv resid).
Proof.
  intros Hp CF BZ n K s t H.
  pose proof (solve_paced fo K K cf _ _ _ _ _ _ _ _ sort_idx Hp CF (ist_paced fo bl qe td dev (c_nev cf) (c_nex cf) BZ (c_approx cf)) fsort s t ritzv resid H) as X.
  unfold same_run. destruct (solve fo K fsort sort_idx cf s ritzv resid) as [a| |]; destruct (solve fo K fsort sort_idx cf t ritzv resid) as [b| |]; try exact X.
  destruct X as (E1 & E2 & E3). split; [exact E1|]. split; [exact E2|].
  destruct (o_exit a), (o_exit b); try easy; (split; [split; easy|]).
  - destruct E3 as [_ ((EH & _) & EC)]. auto.
  - split; [apply E3|]. easy.
Qed.
