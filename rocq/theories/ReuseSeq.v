(** Seq and Mpi: a run depends on the matrix and (with approximate vectors) on the block only. *)
From Coq Require Import List Arith ZArith Bool Lia Permutation.
Require Import Verif.Base Verif.AlgModel Verif.AlgSpec Verif.AlgProofs1 Verif.AlgProofs2 Verif.AlgSim Verif.AlgSim2 Verif.AlgSim4 Verif.DlaSim
  Verif.DlaModel Verif.ColModel Verif.ColSpec Verif.ColProofs1 Verif.ColProofs2 Verif.MgpuSpec Verif.MgpuProofs1 Verif.ReuseBase Verif.ReuseSpec.
Import ListNotations.

Section Seq.
Context {F V M G T : Type} (fo : fops F) (bl : blas F V M G T) (qe : qr_env F) (td : tridiag F) (mpi : bool) (nev nex : nat) (BZ : beta_zero fo bl) (apx : bool).
Local Notation n := (nev + nex).
Local Notation L := (colD fo bl mpi (nev + nex)).
Local Notation K := (cmK fo qe td (colD fo bl mpi (nev + nex)) nev nex).
Local Notation cstT := (cst (V := V) (M := M)).

Definition lens (s t : cstT) : Prop := cs_H s = cs_H t /\ length (cs_B s) = length (cs_B t) /\ length (cs_B2 s) = length (cs_B2 t).
(** [d]: the direction flag *)
Definition dR (d : bool) (s t : cstT) : Prop :=
  lens s t /\ cs_C s = cs_C t /\ length (cs_C s) = n /\ agree 0 n (cs_C2 s) (cs_C2 t) /\ cs_bAc s = d /\ cs_bAc t = d.

Lemma c_shift_two d c u s t : dR d s t -> rel_res (dR d) (c_shift bl c u s) (c_shift bl c u t).
Proof. intros ((E & L1 & L2) & H). cbn. split; [split; cbn; [congruence|auto]|exact H]. Qed.

Lemma c_apply_two d a b off k l s t : dR d s t -> agree (l + off) (l + off + k) (cs_B s) (cs_B t) \/ (b = f_zero fo /\ d = true) ->
  rel_res (fun s' t' => dR (negb d) s' t' /\ agree (l + off) (l + off + k) (cs_B s') (cs_B t')) (c_apply bl a b off k l s) (c_apply bl a b off k l t).
Proof.
  intros ((EH & L1 & L2) & EC & LC & A2 & D1 & D2) HB. unfold c_apply. rewrite <- EC, D1, D2, <- EH.
  destruct (get_range (cs_C s) (l + off) k) as [x| |] eqn:EX; cbn [bind]; try exact I. apply get_len in EX as [LX HX].
  assert (HY : rel_res (fun y y' => length y = k /\ zip (b_gemmH bl (cs_H s) a b) x y = zip (b_gemmH bl (cs_H s) a b) x y' /\ (d = false -> y = y'))
      (get_range (cs_B s) (l + off) k) (get_range (cs_B t) (l + off) k)).
  { destruct HB as [HB|[-> ->]].
    - rewrite (agree_get _ _ _ _ (l + off) k (le_n _) (le_n _) HB). destruct (get_range (cs_B t) (l + off) k) as [y| |] eqn:E; simpl; auto.
      apply get_len in E as [E _]. auto.
    - eapply rel_mono; [|apply get_rel_len; exact L1]. intros y y' [E1 E2]. split; auto. split; [|discriminate].
      apply zip_ext_r; [lia|]. intros. apply BZ. }
  eapply rel_bind; [exact HY|]. clear HY. intros y y' (LY & EZ & EY). destruct d.
  - rewrite <- EZ. assert (LZ : length (zip (b_gemmH bl (cs_H s) a b) x y) = k) by (rewrite zip_length; lia).
    eapply rel_bind; [apply (agree_put_win (cs_B s) (cs_B t) (l + off)); exact L1|]. intros B B' AB. rewrite LZ in AB. cbn. split; auto.
    repeat split; cbn; auto; try apply AB; try apply A2.
  - rewrite EY by auto. destruct (put_range (cs_C s) _ _) as [C'| |] eqn:EP; cbn [bind]; try exact I. apply put_range_length in EP.
    destruct HB as [HB|[_ HB]]; [|discriminate]. cbn. split; auto. repeat split; cbn; auto; try apply A2; lia.
Qed.

Lemma c_gather_two l k s t : dR true s t ->
  rel_res (fun s' t' => dR true s' t' /\ cs_C2 s' = cs_C2 s /\ cs_C2 t' = cs_C2 t /\ l + k <= n /\ agree l (l + k) (cs_B s') (cs_B t') /\ agree l (l + k) (cs_B2 s') (cs_B2 t'))
    (c_gather bl l k s) (c_gather bl l k t).
Proof.
  intros ((EH & L1 & L2) & EC & LC & A2 & D1 & D2). unfold c_gather. rewrite <- EC, <- EH, D1, D2.
  destruct (get_range (cs_C s) l k) as [x| |] eqn:EX; cbn [bind]; try exact I. apply get_len in EX as [LX HX].
  eapply rel_bind; [apply (agree_put_win (cs_B s) (cs_B t) l); exact L1|]. intros B B' AB. rewrite map_length, LX in AB.
  rewrite <- (agree_get 0 n _ _ l k (Nat.le_0_l _) ltac:(lia) A2).
  destruct (get_range (cs_C2 s) l k) as [y| |] eqn:EY; cbn [bind]; try exact I. apply get_len in EY as [LY HY].
  eapply rel_bind; [apply (agree_put_win (cs_B2 s) (cs_B2 t) l); exact L2|]. intros B2 B2' AB2. rewrite LY in AB2.
  cbn. repeat split; cbn; auto; try apply AB; try apply AB2; try apply A2. lia.
Qed.

Lemma c_rr_two k l s t : dR true s t -> rel_res (vrel (dR true)) (c_rr bl mpi n k l s) (c_rr bl mpi n k l t).
Proof.
  intros H. unfold c_rr. destruct (mpi && _); [exact I|].
  eapply rel_bind; [apply c_gather_two; eauto|]. intros s' t' (((EH & L1 & L2) & EC & LC & A2 & D1 & D2) & _ & _ & HL & AB & AB2).
  rewrite <- (agree_get _ _ _ _ l k (le_n _) (le_n _) AB), <- (agree_get _ _ _ _ l k (le_n _) (le_n _) AB2),
    <- (agree_get 0 n _ _ l k (Nat.le_0_l _) ltac:(lia) A2), <- EC, <- EH, D1, D2. rb. rb. rb. cbv zeta.
  destruct (put_range (cs_C s') _ _) as [C'| |] eqn:EP; cbn [bind]; try exact I. apply put_range_length in EP.
  eapply rel_bind; [apply agree_put; exact A2|]. intros C2 C2' A2'. cbn. split; auto. repeat split; cbn; auto; try apply A2'; lia.
Qed.

Lemma c_resd_two v l k s t : dR true s t -> rel_res (vrel (dR true)) (c_resd fo bl v l k s) (c_resd fo bl v l k t).
Proof.
  intros H. unfold c_resd.
  eapply rel_bind; [apply c_gather_two; eauto|]. intros s' t' (((EH & L1 & L2) & EC & LC & A2 & D1 & D2) & _ & _ & HL & AB & AB2).
  rewrite <- (agree_get _ _ _ _ l k (le_n _) (le_n _) AB), <- (agree_get _ _ _ _ l k (le_n _) (le_n _) AB2), <- EC, <- EH, D1, D2. rb. rb. rb.
  eapply rel_bind; [apply put_rel_len; exact L1|]. intros B B' [LB _]. cbn. split; auto. repeat split; cbn; auto; apply A2.
Qed.

Lemma set_C_two d f s t : dR d s t -> rel_res (dR d) (set_C n s f) (set_C n t f).
Proof.
  intros ((EH & L1 & L2) & EC & LC & A2 & D1 & D2). unfold set_C. rewrite <- EC. rb.
  destruct (put_range (cs_C s) _ _) as [C'| |] eqn:EP; cbn [bind]; try exact I. apply put_range_length in EP. cbn. repeat split; cbn; auto; try apply A2; lia.
Qed.
Lemma c_factor_two d sh s t : dR d s t -> c_factor bl n sh s = c_factor bl n sh t.
Proof. intros (_ & EC & _). unfold c_factor. now rewrite EC. Qed.
Lemma c_hhqr_two l s t : dR true s t -> rel_res (dR true) (c_hhqr bl mpi n l s) (c_hhqr bl mpi n l t).
Proof.
  intros H. unfold c_hhqr. eapply rel_bind; [apply set_C_two; eauto|]. intros s' t' ((EH & L1 & L2) & EC & LC & A2 & D1 & D2).
  cbn. rewrite D1, D2, orb_true_r. repeat split; cbn; auto; apply A2.
Qed.
Ltac fac H := rewrite <- (c_factor_two _ _ _ _ H); rb; match goal with |- context [let '(_, _) := ?p in _] => destruct p as [? ?] end; cbn beta iota.
Ltac qdone := cbn; unfold vrel; cbn; auto.
Lemma c_chol1_two d l s t : dR d s t -> rel_res (vrel (dR d)) (c_chol1 bl n l s) (c_chol1 bl n l t).
Proof.
  intros H. unfold c_chol1. fac H. destruct (negb _); [qdone|]. eapply rel_bind; [apply set_C_two; eauto|]. intros. qdone.
Qed.
Lemma c_chol2_two d l s t : dR d s t -> rel_res (vrel (dR d)) (c_chol2 bl n l s) (c_chol2 bl n l t).
Proof.
  intros H. unfold c_chol2. fac H. destruct (negb _); [qdone|]. eapply rel_bind; [apply set_C_two; eauto|]. intros s1 t1 H1.
  fac H1. eapply rel_bind; [apply set_C_two; eauto|]. intros. qdone.
Qed.
Lemma c_schol2_two d l s t : dR d s t -> rel_res (vrel (dR d)) (c_schol2 bl mpi n l s) (c_schol2 bl mpi n l t).
Proof.
  intros H. unfold c_schol2. fac H. destruct (negb _); [qdone|]. eapply rel_bind; [apply set_C_two; eauto|]. intros s1 t1 H1.
  fac H1. destruct (mpi && _); [qdone|]. eapply rel_bind; [apply set_C_two; eauto|]. intros s2 t2 H2. fac H2.
  eapply rel_bind; [apply set_C_two; eauto|]. intros. qdone.
Qed.
Lemma c_lockcopy_two d l b s t : dR d s t -> rel_res (dR d) (c_lockcopy n l b s) (c_lockcopy n l b t).
Proof.
  intros ((EH & L1 & L2) & EC & LC & A2 & D1 & D2). unfold c_lockcopy. rewrite <- EC.
  destruct (Nat.le_gt_cases l n) as [HL|HL].
  - rewrite <- (agree_get 0 n _ _ 0 l (le_n _) HL A2). rb.
    destruct (put_range (cs_C s) _ _) as [C'| |] eqn:EP; cbn [bind]; try exact I. apply put_range_length in EP.
    rb. eapply rel_bind; [apply agree_put; exact A2|]. intros. cbn. destruct H as [? ?]. repeat split; cbn; auto; lia.
  - destruct A2 as [LA _]. eapply rel_bind; [apply get_rel_len; exact LA|]. intros x y [E1 E2].
    unfold put_range. rewrite LC. replace (_ <=? _) with false by (symmetry; apply Nat.leb_gt; lia).
    replace (_ <=? _) with false by (symmetry; apply Nat.leb_gt; lia). exact I.
Qed.
Lemma c_swap_two d i j s t : dR d s t -> rel_res (dR d) (c_swap mpi i j s) (c_swap mpi i j t).
Proof.
  intros ((EH & L1 & L2) & EC & LC & A2 & D1 & D2). unfold c_swap. rewrite <- EC.
  destruct (swap_ (cs_C s) i j) as [C'| |] eqn:EP; cbn [bind]; try exact I. apply swap_len in EP as (LP & Pi & Pj).
  destruct mpi.
  - destruct (swap_ C' i j) as [C''| |] eqn:EP'; cbn [bind]; try exact I. apply swap_len in EP' as (LP' & _).
    cbn. repeat split; cbn; auto; try apply A2; lia.
  - eapply rel_bind; [apply (agree_swap n); auto; lia|]. intros C2 C2' A2'. cbn. repeat split; cbn; auto; try apply A2'; lia.
Qed.
Lemma c_dos_two d i m rv s t : dR d s t -> rel_res (dR d) (c_dos bl i m rv s) (c_dos bl i m rv t).
Proof.
  intros ((EH & L1 & L2) & EC & LC & A2 & D1 & D2). unfold c_dos. rewrite <- EC. rb.
  destruct (get_range (cs_C s) 0 m) as [x| |] eqn:EX; cbn [bind]; try exact I. apply get_len in EX as [LX HX].
  eapply rel_bind; [apply agree_put; exact A2|]. intros C2 C2' A2'. rewrite <- (agree_get 0 n _ _ 0 m (le_n _) ltac:(lia) A2'). rb.
  destruct (put_range (cs_C s) _ _) as [C'| |] eqn:EP; cbn [bind]; try exact I. apply put_range_length in EP.
  cbn. repeat split; cbn; auto; try apply A2'; lia.
Qed.
Lemma c_mlanczos_two d m nv s t : dR d s t -> rel_res (vrel (dR d)) (c_mlanczos fo bl m nv s) (c_mlanczos fo bl m nv t).
Proof.
  intros ((EH & L1 & L2) & EC & LC & A2 & D1 & D2). unfold c_mlanczos. rewrite <- EC, <- EH.
  destruct (mlanczos fo bl (cs_H s) m nv (cs_C s)) as [[[[x e] b] C']| |] eqn:E; cbn [bind]; try exact I. apply mlanczos_len in E.
  cbn. split; auto. repeat split; cbn; auto; try apply A2; lia.
Qed.

Local Notation cmT := (cm (D := cst (V := V) (M := M))).
Local Notation kR := (kk (dR true)).
Definition kRf (p : bool) (l off m : nat) (s t : cmT) : Prop :=
  cm_locked s = l /\ cm_locked t = l /\ dR (negb p) (cm_dla s) (cm_dla t) /\ agree (l + off) (l + off + m) (cs_B (cm_dla s)) (cs_B (cm_dla t)).
Definition kRa (s t : cmT) : Prop := same_problem n apx s t /\ cm_locked s = 0 /\ cm_locked t = 0.

Lemma c_qr_two l f c s t : kR l s t -> rel_res (kR l) (cm_qr fo qe L f c s) (cm_qr fo qe L f c t).
Proof.
  intros (E1 & E2 & H).
  refine (cm_qr_two fo qe L L l (dR true) (dR true) (dR true) _ _ _ _ _ f c s t E1 E2 H); cbn [colD d_hhqr d_chol1 d_chol2 d_schol2 d_lockcopy]; intros.
  - now apply c_hhqr_two.
  - eapply rel_mono; [|apply c_chol1_two; eauto]. intros a b [X Y]. split; auto.
  - eapply rel_mono; [|apply c_chol2_two; eauto]. intros a b [X Y]. split; auto.
  - eapply rel_mono; [|apply c_schol2_two; eauto]. intros a b [X Y]. split; auto.
  - now apply c_lockcopy_two.
Qed.

Lemma c_init_two s t : kRa s t -> rel_res (kR 0) (cm_init L (negb apx) s) (cm_init L (negb apx) t).
Proof.
  intros ((EH & LC & LC' & EC & LB & L2 & LB2) & E1 & E2). unfold cm_init, lift. rewrite E1, E2.
  eapply rel_bind with (R := dR true); [|intros; cbn; split; auto].
  eapply rel_bind with (R := fun a b : cstT => lens a b /\ cs_C a = cs_C b /\ length (cs_C a) = n /\ length (cs_C2 a) = length (cs_C2 b)).
  - destruct apx; cbn [negb colD d_initrnd].
    + cbn. repeat split; auto.
    + unfold c_initrnd. rewrite !put_full by (rewrite map_length, seq_length; auto). cbn. repeat split; auto. now rewrite map_length, seq_length.
  - intros a b ((X1 & X2 & X3) & X4 & X5 & X6). cbn [colD d_init]. unfold c_init. rewrite <- X4. rewrite (get_full (cs_C a) n X5). cbn [bind].
    eapply rel_bind; [apply (agree_put_win (cs_C2 a) (cs_C2 b) 0); exact X6|]. intros C2 C2' A. rewrite X5 in A. cbn. repeat split; cbn; auto; apply A.
Qed.


Theorem seq_paced : paced fo K K n (negb apx) (same_problem n apx) kRa (kR 0) kR kRf kR kR (fun s t => dR true (cm_dla s) (cm_dla t)).
Proof.
  split; cbn [cmK k_sym k_start k_end k_init k_shift k_hemm k_qr k_rr k_resd k_swap k_lock k_lanczos1 k_lanczos2 k_dos].
  - intros s t H. cbn. split; cbn; [|exact H]. destruct H as (E & _). now rewrite E.
  - intros s t H. cbn. split; auto.
  - intros s t H. eapply rel_bind; [apply c_init_two; eauto|]. intros s' t' H'. destruct (negb apx); [|exact H']. now apply c_qr_two.
  - split; cbn [starter cmK k_sym k_start k_end k_init k_shift k_hemm k_qr k_rr k_resd k_swap k_lock k_lanczos1 k_lanczos2 k_dos]; try (intros; exact I);
      intros; destruct (negb apx); try exact I; pose proof H as (E1 & E2 & HD).
    + apply kk_lift; auto. now apply c_swap_two.
    + eapply lanczos1_two; eauto. now apply c_mlanczos_two.
    + eapply lanczos2_two; eauto. now apply c_mlanczos_two.
    + apply kk_lift; auto. now apply c_dos_two.
  - auto.
  - intros l c s t (E1 & E2 & H). apply kk_lift; auto. now apply c_shift_two.
  - intros l m a s t (E1 & E2 & H) _. unfold lift. rewrite E1, E2. eapply rel_bind; [apply (c_apply_two true); eauto|]. intros s' t' [X Y]. cbn. repeat split; auto; try apply X; try apply Y.
  - intros p l off m off' m' a b s t (E1 & E2 & H & HB) H1 H2. unfold lift. rewrite E1, E2.
    eapply rel_bind; [apply (c_apply_two (negb p)); eauto; left; eapply agree_sub; [| |exact HB]; lia|]. intros s' t' [X Y].
    cbn. split; auto.
  - intros l off m c s t (E1 & E2 & H & HB). apply kk_lift; auto. now apply c_shift_two.
  - intros l c s t H. now apply c_qr_two.
  - intros l s t (E1 & E2 & H) HL. rewrite E1, E2. apply kk_lift_v; auto. now apply c_rr_two.
  - intros l v s t (E1 & E2 & H). rewrite E1, E2. apply kk_lift_v; auto. now apply c_resd_two.
  - intros l i j s t (E1 & E2 & H). apply kk_lift; auto. now apply c_swap_two.
  - intros l m s t (E1 & E2 & H) _. cbn. repeat split; cbn; auto; try apply H; lia.
  - intros l s t (E1 & E2 & H). exact H.
Qed.
End Seq.

Lemma seq_same_run {F V M G T} (fo : fops F) (bl : blas F V M G T) qe td mpi (cf : conf F) sort_idx fsort ritzv resid :
  (forall keys, Permutation (sort_idx keys) (seq 0 (length keys))) -> conf_ok cf -> beta_zero fo bl ->
  let n := c_nev cf + c_nex cf in let K := cmK fo qe td (colD fo bl mpi n) (c_nev cf) (c_nex cf) in
  forall s t, same_problem n (c_approx cf) s t ->
  same_run cs_H cs_C cs_H cs_C (solve fo K fsort sort_idx cf s ritzv resid) (solve fo K fsort sort_idx cf t ritzv resid).
Proof.
  intros Hp CF BZ n K s t H.
  pose proof (solve_paced fo K K cf _ _ _ _ _ _ _ _ sort_idx Hp CF (seq_paced fo bl qe td mpi (c_nev cf) (c_nex cf) BZ (c_approx cf)) fsort s t ritzv resid H) as X.
  unfold same_run. destruct (solve fo K fsort sort_idx cf s ritzv resid) as [a| |]; destruct (solve fo K fsort sort_idx cf t ritzv resid) as [b| |]; try exact X.
  destruct X as (E1 & E2 & E3). split; [exact E1|]. split; [exact E2|].
  destruct (o_exit a), (o_exit b); try easy; (split; [split; easy|]).
  - destruct E3 as [_ ((EH & _) & EC & _)]. auto.
  - split; [apply E3|]. easy.
Qed.
