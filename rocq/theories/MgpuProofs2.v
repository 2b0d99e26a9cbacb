(** The multi-GPU backend: whole runs. *)
From Coq Require Import List Arith ZArith Bool Lia Permutation.
Require Import Verif.Base Verif.AlgModel Verif.AlgSpec Verif.AlgProofs1 Verif.AlgProofs2 Verif.AlgProofs3 Verif.AlgKeep Verif.AlgSim Verif.AlgSim2 Verif.AlgSim3 Verif.DlaSim
  Verif.DlaModel Verif.ColModel Verif.ColSpec Verif.ColProofs1 Verif.ColProofs2 Verif.ColProofs3 Verif.MgpuModel Verif.MgpuSpec Verif.MgpuProofs1.
Import ListNotations.

Section Run.
Context {F V M G T : Type} (fo : fops F) (bl : blas F V M G T) (loc : bool -> M -> F -> F -> V -> V -> V) (qe : qr_env F) (td : tridiag F).
Context (nev nex : nat) (H0 : M) (BZ : beta_zero fo bl) (NL : no_late_failure bl (nev + nex)).
Local Notation n := (nev + nex).
Local Notation L := (mgpuD fo bl loc false (nev + nex)).
Local Notation L' := (colD fo bl true (nev + nex)).
Local Notation K1 := (cmK fo qe td (mgpuD fo bl loc false (nev + nex)) nev nex).
Local Notation K2 := (cmK fo qe td (colD fo bl true (nev + nex)) nev nex).
Local Notation mR := (mR nev nex H0).
Local Notation mR0 := (mR0 nev nex H0).
Local Notation st1 := (cm (D := mst (V := V) (M := M))).
Local Notation st2 := (cm (D := cst (V := V) (M := M))).
Definition kF (off m : nat) (s : st1) (t : st2) : Prop := cm_locked s = cm_locked t /\ mF nev nex H0 (cm_locked s + off) m (cm_dla s) (cm_dla t).
Definition kQ (s : st1) (t : st2) : Prop := cm_locked s = cm_locked t /\ mQ nev nex H0 (cm_locked s) (cm_dla s) (cm_dla t).

Lemma mgpu_qr f c s t : cmR mR s t -> rel_res kQ (cm_qr fo qe L f c s) (cm_qr fo qe L' f c t).
Proof.
  intros [E H]. unfold cm_qr. cbv zeta. rewrite E.
  eapply rel_bind with (R := fun a b => fst a = fst b /\ mR (snd a) (snd b) /\
    exists h, m_hh (snd a) = Some h /\ (h = false -> m_dC (snd a) = m_C (snd a))).
  - destruct (_ =? 1)%Z.
    + eapply rel_bind; [apply (m_hhqr_rel bl nev nex H0); eauto|]. intros s' t' (X & X1). cbn. split; [auto|]. split; [auto|]. exists true. split; auto. discriminate.
    + eapply rel_bind with (R := cholR nev nex H0).
      * destruct (f_lt _ _ _); [now apply (m_schol2_rel bl nev nex H0)|]. destruct (f_lt _ _ _); [now apply (m_chol1_rel bl nev nex H0)|now apply (m_chol2_rel bl nev nex H0)].
      * intros [i d] [i' d'] (X & Y & Y1 & Y2). cbn [fst snd] in *. subst i'. destruct (Z.eqb_spec i 0).
        -- cbn. split; [auto|]. split; [auto|]. exists false. auto.
        -- eapply rel_bind; [apply (m_hhqr_rel bl nev nex H0); eauto|]. intros s' t' (X & X1). cbn. split; [auto|]. split; [auto|]. exists true. split; auto. discriminate.
  - intros [h d] [h' d'] (X & Y & h1 & Y1 & Y2). cbn [fst snd] in *. subst h'.
    unfold lift. eapply rel_bind; [apply (m_lockcopy_rel nev nex H0); eauto|]. intros s' t' (A1 & A2 & A3 & A4 & A5). cbn. split; auto. cbn [cm_dla cm_locked].
    rewrite E. split; auto. exists h1. split; [congruence|]. intros Hh. unfold dC_ok. rewrite A4, A5, Y2; auto.
Qed.

Theorem mgpu_staged : staged fo K1 K2 n (cmR mR0) (cmR mR) kF kQ (cmR mR).
Proof.
  split; cbn [cmK k_sym k_start k_end k_init k_shift k_hemm k_qr k_rr k_resd k_swap k_lock k_lanczos1 k_lanczos2 k_dos].
  - intros s t [E H]. cbn. split; cbn; [|split; auto; apply H]. destruct H as ((_ & _ & _ & _ & _ & X & _) & Y). now rewrite X, Y.
  - intros s t [E H]. cbn. split; auto.
  - intros r s t [E H]. unfold cm_init. apply lift_rel; auto. eapply rel_bind with (R := mR0).
    + destruct r; [now apply (m_initrnd_rel bl nev nex H0)|exact H].
    + intros s' t' X. now apply (m_init_rel nev nex H0).
  - intros c u s t [E H]. apply lift_rel; auto. now apply (m_shift_rel bl nev nex H0).
  - intros m a s t [E H]. unfold lift. rewrite E. eapply rel_bind; [apply (m_apply_rel fo bl loc nev nex H0); eauto|]. intros s' t' X. cbn. split; auto; cbn [cm_dla cm_locked]; rewrite E; exact X.
  - intros off m off' m' a b s t [E [H HB]] H1 H2. unfold lift. rewrite E. eapply rel_bind.
    + apply (m_apply_rel fo bl loc nev nex H0); eauto. left. rewrite E in HB. destruct H as ((_ & _ & _ & _ & _ & _ & L1 & L2 & L3 & L4 & L5 & L6) & _).
      unfold dB_ok, dC_ok in *. destruct (m_bAc (cm_dla s)); (eapply get_eq_sub; [lia|exact HB|lia|lia]).
    + intros s' t' X. cbn. split; auto; cbn [cm_dla cm_locked]; rewrite E; exact X.
  - intros off m s t [E [H _]]. split; auto.
  - intros l c s t H. now apply mgpu_qr.
  - intros s t [E [H _]]. split; auto.
  - intros m s t [E H]. unfold lift_v. rewrite <- E. eapply rel_bind; [apply (m_rr_rel fo bl loc nev nex H0); eauto|].
    intros [v s'] [v' t'] (X & X1 & X2 & X3). cbn [fst snd] in *. cbn. split; auto. split; [split; auto|]. intros w l _ ->.
    cbn [fst snd cm_locked cm_dla mgpuD colD d_resd].
    eapply rel_bind; [apply (m_resd_rel fo bl loc nev nex H0); auto|]. intros [r s2] [r' t2] [Y Y1]. cbn in *. split; [exact Y|split; [reflexivity|exact Y1]].
  - split; cbn [loose cmK k_sym k_start k_end k_init k_shift k_hemm k_qr k_rr k_resd k_swap k_lock k_lanczos1 k_lanczos2 k_dos]; try (intros; exact I).
    + intros i j s t [E H]. apply lift_rel; auto. now apply (m_swap_rel nev nex H0).
    + intros m s t [E H]. cbn. split; cbn; auto.
    + intros m s t [E H]. unfold cm_lanczos1. eapply rel_bind; [apply (m_mlanczos_rel fo bl nev nex H0); eauto|].
      intros [[[d e] b] x] [[[d' e'] b'] x'] [X Y]. cbn [fst snd] in *. injection X as <- <- <-. cbv zeta. rb. rb. rb. cbn. repeat split; auto; apply Y.
    + intros m nv s t [E H]. unfold cm_lanczos2. eapply rel_bind; [apply (m_mlanczos_rel fo bl nev nex H0); eauto|].
      intros [[[d e] b] x] [[[d' e'] b'] x'] [X Y]. cbn [fst snd] in *. injection X as <- <- <-.
      eapply rel_bind; [apply rel_eq|]. intros [[th ta] rv] ? <-. rb. rb. rb. rb. cbn. repeat split; auto; apply Y.
    + intros i m rv s t [E H]. apply lift_rel; auto. now apply (m_dos_rel bl nev nex H0).
  - intros s t [E H]. cbn. split; auto.
Qed.
End Run.

Section W.
Context {F V M G T : Type} (fo : fops F) (bl : blas F V M G T) (loc : bool -> M -> F -> F -> V -> V -> V) (qe : qr_env F) (td : tridiag F) (cf : conf F).
Local Notation n := (c_nev cf + c_nex cf).
Local Notation mK := (cmK fo qe td (mgpuD fo bl loc false (c_nev cf + c_nex cf)) (c_nev cf) (c_nex cf)).
Local Notation cK := (cmK fo qe td (colD fo bl true (c_nev cf + c_nex cf)) (c_nev cf) (c_nex cf)).
Context (sort_idx : list F -> list nat) (Hperm : forall keys, Permutation (sort_idx keys) (seq 0 (length keys))) (fsort : list F -> list F).
Context (BZ : beta_zero fo bl) (NL : no_late_failure bl n).

Lemma sizes_R0 (g : cm (D := mst (V := V) (M := M))) : mgpu_sizes n (cm_dla g) -> cmR (mR0 (c_nev cf) (c_nex cf) (m_H (cm_dla g))) g (mk_cm (cm_locked g) (host (cm_dla g))).
Proof. intros (A1 & A2 & A3 & A4 & A5 & A6). split; auto. unfold mR0, mL. cbn. repeat split; auto. Qed.

(** the same outcome (value, UB or out of fuel), the same values, residuals and vectors *)
Lemma mgpu_same g ritzv resid : mgpu_sizes n (cm_dla g) ->
  rel_res (fun a b => o_ritz a = o_ritz b /\ o_res a = o_res b /\ m_C (cm_dla (o_k a)) = cs_C (cm_dla (o_k b)) /\
      (o_exit a = None <-> o_exit b = None) /\ m_H (cm_dla (o_k a)) = m_H (cm_dla g) /\ mgpu_sizes n (cm_dla (o_k a)))
    (solve fo mK fsort sort_idx cf g ritzv resid)
    (solve fo cK fsort sort_idx cf (mk_cm (cm_locked g) (host (cm_dla g))) ritzv resid).
Proof.
  intros HG. eapply rel_mono; [|apply (solve_staged fo mK cK cf _ _ _ _ _ sort_idx Hperm (mgpu_staged fo bl loc qe td (c_nev cf) (c_nex cf) (m_H (cm_dla g)) BZ NL) fsort g _ ritzv resid (sizes_R0 g HG))].
  intros a b (E1 & E2 & E3). split; [auto|]. split; [auto|].
  assert (X : mL (c_nev cf) (c_nex cf) (m_H (cm_dla g)) (cm_dla (o_k a)) (cm_dla (o_k b)) /\ (o_exit a = None <-> o_exit b = None)).
  { destruct (o_exit a), (o_exit b); try easy; (split; [|easy]).
    - destruct E3 as (_ & _ & (X & _)). exact X.
    - destruct E3 as (_ & (X & _)). exact X. }
  destruct X as ((A1 & A2 & A3 & A4 & A5 & A6 & A7 & A8 & A9 & A10 & A11 & A12) & HX). repeat split; auto; apply HX.
Qed.

Lemma mgpu_locked g : mgpu_sizes n (cm_dla g) -> conf_ok cf -> forall k0 ritzv resid ub s0 s t,
  (if c_symcheck cf then k_sym mK g else Ok (true, g)) = Ok (true, k0) ->
  solve_init fo mK fsort cf k0 ritzv resid = Ok (ub, s0) ->
  reach fo mK sort_idx cf ub s0 s -> reach fo mK sort_idx cf ub s t ->
  length (fst (ss_ritz s)) = ss_locked s /\ length (fst (ss_res s)) = ss_locked s /\ ss_locked s <= ss_locked t /\
  firstn (ss_locked s) (fst (ss_ritz t)) = fst (ss_ritz s) /\
  firstn (ss_locked s) (fst (ss_res t)) = fst (ss_res s) /\
  firstn (ss_locked s) (m_C (cm_dla (ss_k t))) = firstn (ss_locked s) (m_C (cm_dla (ss_k s))).
Proof.
  intros HG HC k0 ritzv resid ub s0 s t Hs Hi W1 W2. set (H0 := m_H (cm_dla g)). set (bare := mk_cm (cm_locked g) (host (cm_dla g))).
  pose proof (mgpu_staged fo bl loc qe td (c_nev cf) (c_nex cf) H0 BZ NL) as SG. pose proof (sizes_R0 g HG) as R0g. fold H0 bare in R0g.
  assert (X : exists k0', (if c_symcheck cf then k_sym cK bare else Ok (true, bare)) = Ok (true, k0') /\ cmR (mR0 (c_nev cf) (c_nex cf) H0) k0 k0').
  { destruct (c_symcheck cf).
    - pose proof (sg_sym _ _ _ _ _ _ _ _ _ SG g bare R0g) as X. rewrite Hs in X. destruct (k_sym cK bare) as [[b k']| |]; try easy.
      destruct X as [Eb X]. cbn in Eb. subst b. exists k'. auto.
    - injection Hs as <-. exists bare. auto. }
  destruct X as (k0' & Hs' & HR0).
  pose proof (solve_init_staged fo mK cK cf _ _ _ _ _ SG fsort k0 k0' ritzv resid HR0) as X. rewrite Hi in X.
  destruct (solve_init fo cK fsort cf k0' ritzv resid) as [[ub' s0']| |] eqn:Hi'; try easy. destruct X as [Eu HS0]. cbn in Eu, HS0. subst ub'.
  pose proof (solve_init_book fo mK fsort cf k0 ritzv resid ub s0 Hi) as (HB & Hit & _).
  destruct (reach_staged fo mK cK cf _ _ _ _ _ sort_idx Hperm SG _ _ ub s0 s0' s HB ltac:(lia) HS0 W1) as (s' & W1' & HSs).
  pose proof (reach_book fo mK sort_idx Hperm cf _ _ ub s0 s HB ltac:(lia) W1) as (HBs & _ & Hits & _).
  destruct (reach_staged fo mK cK cf _ _ _ _ _ sort_idx Hperm SG _ _ ub s s' t HBs ltac:(lia) HSs W2) as (t' & W2' & HSt).
  assert (J0 : sJ0 fo bl (c_nev cf) (c_nex cf) H0 n bare).
  { split; [|constructor]. destruct HG as (A1 & A2 & A3 & A4 & _). unfold clen. cbn. auto. }
  pose proof (run_keep fo cK sort_idx Hperm _ _ _ _ _ _ (mpi_keep fo bl qe td cf H0 n (le_n n)) fsort cf _ _ _ _ _ _ _ _ eq_refl HC J0 Hs' Hi' W1' W2') as X. cbn beta in X.
  destruct HSs as ((_ & (Ds & _) & _) & A1 & A2 & _ & _ & A5 & _). destruct HSt as ((_ & (Dt & _) & _) & B1 & B2 & _ & _ & B5 & _).
  rewrite Ds, Dt, A1, A2, A5, B1, B2, B5. exact X.
Qed.

Lemma mgpu_safe g ritzv resid : mgpu_sizes n (cm_dla g) -> conf_ok cf -> (forall l, length (fsort l) = length l) ->
  n <= length ritzv -> n <= length resid -> 2 <= c_N cf -> 1 <= c_lanczositer cf -> c_approx cf = true ->
  (exists o, solve fo mK fsort sort_idx cf g ritzv resid = Ok o) \/
  (solve fo mK fsort sort_idx cf g ritzv resid = UB /\
   degree_overflow fo cK sort_idx fsort cf (mk_cm (cm_locked g) (host (cm_dla g))) ritzv resid).
Proof.
  intros HG HC Hf L1 L2 HN HL HA. pose proof (mgpu_same g ritzv resid HG) as X. destruct HG as (A1 & A2 & A3 & A4 & _).
  destruct (dla_solve_safe fo qe td cf sort_idx Hperm fsort Hf (colD fo bl true n) (clen n n) (col_dla_safe fo bl true n n (le_n n))
     (mk_cm (cm_locked g) (host (cm_dla g))) ritzv resid HC L1 L2 HN HL)
    as [(o & Y)|(Y & Z')].
  - unfold clen. cbn. auto.
  - rewrite HA. discriminate.
  - left. rewrite Y in X. destruct (solve fo mK fsort sort_idx cf g ritzv resid); try easy. eauto.
  - right. split; auto. rewrite Y in X. destruct (solve fo mK fsort sort_idx cf g ritzv resid); easy.
Qed.
End W.
