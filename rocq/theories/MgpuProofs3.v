(** The multi-GPU backend built with ScaLAPACK. *)
From Coq Require Import List Arith ZArith Bool Lia Permutation.
Require Import Verif.Base Verif.AlgModel Verif.AlgSpec Verif.AlgProofs1 Verif.AlgProofs2 Verif.AlgProofs3 Verif.AlgProofs4 Verif.AlgSim Verif.AlgSim2 Verif.DlaSim
  Verif.DlaModel Verif.ColModel Verif.ColSpec Verif.ColProofs1 Verif.ColProofs2 Verif.MgpuModel Verif.MgpuSpec Verif.MgpuProofs1 Verif.CawSpec Verif.CawProofs.
Import ListNotations.

Section Scal.
Context {F V M G T : Type} (fo : fops F) (bl : blas F V M G T) (loc : bool -> M -> F -> F -> V -> V -> V).
Context (qe : qr_env F) (td : tridiag F) (cf : conf F).
Local Notation n := (c_nev cf + c_nex cf).
Local Notation L := (mgpuD fo bl loc true n).
Local Notation K := (cmK fo qe td L (c_nev cf) (c_nex cf)).
Local Notation mstT := (mst (V := V) (M := M)).

(** the same state, and the flag was never set *)
Definition unset (s t : mstT) : Prop := s = t /\ m_hh s = None.
Lemma keep_unset (f : mstT -> res mstT) s t : (forall x y, f x = Ok y -> m_hh y = m_hh x) -> unset s t -> rel_res unset (f s) (f t).
Proof. intros Hf [<- H]. destruct (f s) eqn:E; cbn; auto. split; auto. rewrite (Hf _ _ E). auto. Qed.

Lemma mlanczos_unset m nv s y : m_mlanczos fo bl m nv s = Ok y -> m_hh (snd y) = m_hh s.
Proof. unfold m_mlanczos. intros H. apply bind_ok in H as ([[[d e] b] C] & _ & H). injection H as <-. reflexivity. Qed.

(** with Cholesky QR disabled the QR kernel is the Householder QR *)
Lemma qr_off l c s : ~ chol_on qe -> cm_qr fo qe L l c s = (let! d := d_hhqr L (cm_locked s) (cm_dla s) in lift s (d_lockcopy L (cm_locked s) true d)).
Proof.
  intros HC. unfold cm_qr. cbv zeta. destruct (_ =? 1)%Z eqn:E.
  - destruct (d_hhqr L (cm_locked s) (cm_dla s)); reflexivity.
  - exfalso. apply HC. apply Z.eqb_neq in E. unfold chol_on. destruct (q_disable qe); auto. destruct (q_chol qe); auto.
Qed.

(** the kernel with a Rayleigh-Ritz step that never returns *)
Definition no_rr {S} (K : kernel F S) : kernel F S := {|
  k_sym := k_sym K; k_start := k_start K; k_end := k_end K; k_init := k_init K; k_shift := k_shift K; k_hemm := k_hemm K; k_qr := k_qr K;
  k_rr := fun _ _ => UB; k_resd := k_resd K; k_swap := k_swap K; k_lock := k_lock K; k_lanczos1 := k_lanczos1 K; k_lanczos2 := k_lanczos2 K;
  k_dos := k_dos K |}.
Lemma iterate_no_rr {S} (K : kernel F S) sort_idx ub s s' : iterate fo (no_rr K) sort_idx cf ub s = Ok s' -> False.
Proof.
  unfold iterate. cbv zeta. intros H. apply bind_ok in H as ([? ?] & _ & H). apply bind_ok in H as ([? ?] & _ & H). apply bind_ok in H as ([? ?] & _ & H).
  do 6 apply bind_ok in H as (? & _ & H). cbn [no_rr k_rr bind] in H. discriminate.
Qed.

Ltac inv H := repeat (apply bind_ok in H as (? & _ & H)).
Lemma core_unset : ~ chol_on qe -> kernel_rel (core K) (core (no_rr K)) (cmR unset).
Proof.
  intros HC. split; cbn [core no_rr cmK k_sym k_start k_end k_init k_shift k_hemm k_qr k_rr k_resd k_swap k_lock k_lanczos1 k_lanczos2 k_dos];
    try (intros; exact I).
  - intros c u s t [E H]. apply lift_rel; auto. apply keep_unset; auto. cbn. intros x y X. injection X as <-. reflexivity.
  - intros m a b off s t [E H]. rewrite E. apply lift_rel; auto. apply keep_unset; auto. cbn. intros x y X. unfold m_apply in X.
    destruct (m_bAc x); inv X; injection X as <-; reflexivity.
  - intros l c s t [E H]. rewrite !qr_off by auto. rewrite E. eapply rel_bind with (R := unset).
    + apply keep_unset; auto. cbn. intros x y X. unfold m_hhqr in X. inv X. injection X as <-. reflexivity.
    + intros x y Hxy. apply lift_rel; auto. apply keep_unset; auto. cbn. intros x' y' X. unfold m_lockcopy in X. inv X. injection X as <-. reflexivity.
  - intros m s t [E [E1 H]]. rewrite E, E1. rewrite E1 in H. cbn. unfold m_rr. rewrite H. unfold lift_v. destruct (negb _); exact I.
  - intros i j s t [E H]. apply lift_rel; auto. apply keep_unset; auto. cbn. intros x y X. unfold m_swap in X. inv X. injection X as <-. reflexivity.
  - intros m s t [E H]. cbn. split; cbn; auto.
  - intros m s t [E [E1 H]]. unfold cm_lanczos1. rewrite E1. rewrite E1 in H. cbn [mgpuD d_mlanczos]. destruct (m_mlanczos _ _ _ _ _) as [[[[d e] b] x]| |] eqn:X; [|exact I|exact I].
    apply mlanczos_unset in X. cbn [bind]. cbv zeta. rb. rb. rb. cbn. repeat split; auto. cbn. cbn in X. congruence.
  - intros m nv s t [E [E1 H]]. unfold cm_lanczos2. rewrite E1. rewrite E1 in H. cbn [mgpuD d_mlanczos]. destruct (m_mlanczos _ _ _ _ _) as [[[[d e] b] x]| |] eqn:X; [|exact I|exact I].
    apply mlanczos_unset in X. cbn [bind]. eapply rel_bind; [apply rel_eq|]. intros [[th ta] rv] ? <-. rb. rb. rb. rb. cbn. repeat split; auto. cbn. cbn in X. congruence.
  - intros i m rv s t [E H]. apply lift_rel; auto. apply keep_unset; auto. cbn. intros x y X. unfold m_dos in X. inv X. injection X as <-. reflexivity.
Qed.

Lemma run_unset : ~ chol_on qe -> run_rel K (no_rr K) n (cmR unset) (cmR unset) (cmR unset).
Proof.
  intros HC. split.
  - intros s t [E [E1 H]]. cbn. repeat split; auto. cbn. congruence.
  - intros s t [E H]. cbn. split; cbn; auto.
  - intros r s t [E H]. cbn [no_rr cmK k_init]. unfold cm_init. apply lift_rel; auto. eapply rel_bind with (R := unset).
    + destruct r; [|exact H]. apply keep_unset; auto. cbn. intros x y X. unfold m_initrnd in X. inv X. injection X as <-. reflexivity.
    + intros x y Hxy. apply keep_unset; auto. cbn. intros x' y' X. unfold m_init in X. inv X. injection X as <-. reflexivity.
  - now apply core_unset.
  - intros m s t [E [E1 H]]. cbn. unfold lift_v, m_rr. rewrite E1 in *. rewrite H. destruct (negb _); exact I.
  - intros s t [E H]. cbn. split; cbn; auto.
Qed.

Context (sort_idx : list F -> list nat) (fsort : list F -> list F).

(** a fresh object with Cholesky QR disabled reads the flag before it was ever written *)
Lemma scal_fresh_no_result g ritzv resid o : ~ chol_on qe -> m_hh (cm_dla g) = None -> 1 <= c_nev cf -> 1 <= c_maxiter cf ->
  solve fo K fsort sort_idx cf g ritzv resid = Ok o -> o_exit o = None.
Proof.
  intros HC H0 H1 H2 H. destruct (o_exit o) eqn:E; auto. exfalso.
  destruct (solve_iterates _ _ _ _ _ _ _ _ _ _ H1 H2 H E) as (k0 & ub & s0 & s1 & HS & HI & HT).
  assert (U0 : cmR unset k0 k0).
  { split; auto. split; auto. destruct (c_symcheck cf); [|congruence]. cbn in HS. injection HS as _ <-. cbn. auto. }
  pose proof (solve_init_run fo K (no_rr K) cf _ _ _ (run_unset HC) fsort k0 k0 ritzv resid U0) as X. rewrite HI in X.
  destruct (solve_init fo (no_rr K) fsort cf k0 ritzv resid) as [[ub' s0']| |]; try easy. destruct X as [_ X]. cbn in X.
  assert (HB : ss_locked s0 + ss_unconv s0 = n).
  { destruct (solve_init_book fo K fsort cf k0 ritzv resid ub s0 HI) as (HB & _). exact (bk_sum _ _ _ _ HB). }
  pose proof (iterate_run fo K (no_rr K) cf _ _ _ sort_idx (run_unset HC) ub s0 s0' HB X) as Y. rewrite HT in Y.
  destruct (iterate fo (no_rr K) sort_idx cf ub s0') eqn:Z'; try easy. now apply iterate_no_rr in Z'.
Qed.
End Scal.
