(** The CUDA-aware backend with ScaLAPACK and without Cholesky QR runs like the CPU backend. *)
From Coq Require Import List Arith ZArith Bool Lia Permutation.
Require Import Verif.Base Verif.AlgModel Verif.AlgSpec Verif.AlgProofs1 Verif.AlgProofs2 Verif.AlgSim Verif.AlgSim2 Verif.AlgSim4 Verif.DlaSim
  Verif.DlaModel Verif.ColModel Verif.ColSpec Verif.ColProofs1 Verif.ColProofs2 Verif.MgpuModel Verif.MgpuSpec Verif.MgpuProofs1
  Verif.CawModel Verif.CawSpec Verif.CawProofs Verif.ReuseBase Verif.ReuseSpec Verif.ReuseSeq.
Import ListNotations.

Lemma vrel_refl {X D} (x : res (X * D)) : rel_res (vrel eq) x x.
Proof. destruct x as [[? ?]| |]; simpl; auto. split; auto. Qed.
Lemma kernel_refl {F S} (K : kernel F S) : kernel_rel K K eq.
Proof. split; intros; subst; try apply rel_eq; try apply vrel_refl. Qed.

Section Caw2.
Context {F V M G T : Type} (fo : fops F) (bl : blas F V M G T) (qe : qr_env F) (td : tridiag F) (nev nex : nat).
Local Notation n := (nev + nex).
Local Notation wstT := (wst (F := F) (V := V) (M := M)).
Local Notation cstT := (cst (V := V) (M := M)).

(** the residuals computed with the values handed over *)
Definition w_resd2 (ritzv : list F) (locked unc : nat) (s : wstT) : res (list F * wstT) :=
  let! d := c_gather bl locked unc (w_dev s) in
  let! v := get_range ritzv 0 unc in
  let! b := get_range (cs_B d) locked unc in
  let! b2 := get_range (cs_B2 d) locked unc in
  on_w_v s (Ok (map (b_nrm2 bl) (zip (fun vx y => b_axpy bl (b_inj bl (f_neg fo (fst vx))) (snd vx) y) (combine v b2) b), d)).
Definition cawD2 : dla F wstT := let L := cawD fo bl true nev nex in {|
  d_sym := d_sym L; d_start := d_start L; d_end := d_end L; d_initrnd := d_initrnd L; d_init := d_init L; d_shift := d_shift L; d_apply := d_apply L;
  d_hhqr := d_hhqr L; d_chol1 := d_chol1 L; d_chol2 := d_chol2 L; d_schol2 := d_schol2 L; d_lockcopy := d_lockcopy L; d_rr := d_rr L; d_resd := w_resd2;
  d_swap := d_swap L; d_mlanczos := d_mlanczos L; d_dos := d_dos L |}.
Local Notation K1 := (cmK fo qe td (cawD fo bl true nev nex) nev nex).
Local Notation K2 := (cmK fo qe td cawD2 nev nex).

Lemma c_rr_vals mpi blk l (s : cstT) v d : c_rr bl mpi n blk l s = Ok (v, d) -> length v = blk.
Proof.
  unfold c_rr. destruct (mpi && _); [discriminate|]. intros H.
  repeat (let x := fresh in apply bind_ok in H as (x & _ & H)). revert H. cbv zeta. intros H.
  repeat (let x := fresh in apply bind_ok in H as (x & _ & H)). injection H as <- _. now rewrite map_length, seq_length.
Qed.

Lemma caw_values_run : run_rel K1 K2 n eq eq eq.
Proof.
  split; try (intros; subst; try apply rel_eq; apply vrel_refl).
  - exact (kernel_refl (core K1)).
  - intros m s t <-. cbn [cmK k_rr cawD2 cawD d_rr]. unfold lift_v, w_rr.
    destruct (c_rr bl true n m (cm_locked s) (w_dev (cm_dla s))) as [[v d]| |] eqn:E; cbn [bind]; try exact I. apply c_rr_vals in E.
    destruct (put_range (w_ritz (cm_dla s)) 0 v) as [r| |] eqn:EP; cbn [bind]; try exact I. cbn [rel_res fst snd]. split; auto. split; auto.
    intros v' l EV El. cbn [cmK k_resd cawD d_resd cawD2]. unfold w_resd, w_resd2. cbn [cm_dla w_dev w_ritz cm_locked].
    replace (get_range r 0 (n - l)) with (get_range v' 0 (n - l)); [apply vrel_refl|].
    apply put_get in EP. rewrite E, El in EP. rewrite EP.
    rewrite E, El in EV. rewrite get_range_ok; [cbn [skipn]; now rewrite EV|]. apply (f_equal (@length F)) in EV. rewrite firstn_length in EV. lia.
Qed.

(** ** against the CPU backend *)
Context (BZ : beta_zero fo bl) (HC : ~ chol_on qe) (apx : bool).
Local Notation K := (cmK fo qe td (colD fo bl true n) nev nex).
Local Notation dR := (dR nev nex).
Local Notation wlen := (caw_len n).
Definition xR (d : bool) (s : wstT) (t : cstT) : Prop := wlen s /\ dR d (w_dev s) t.

Lemma on_w_two (P : cstT -> cstT -> Prop) s x y : wlen s -> rel_res P x y -> rel_res (fun (a : wstT) b => wlen a /\ P (w_dev a) b) (on_w s x) y.
Proof. intros L H. unfold on_w. destruct x, y; simpl in *; auto. Qed.
Lemma on_w_v_two {X} (P : cstT -> cstT -> Prop) s (x y : res (X * cstT)) : wlen s -> rel_res (vrel P) x y ->
  rel_res (vrel (fun (a : wstT) b => wlen a /\ P (w_dev a) b)) (on_w_v s x) y.
Proof. intros L H. unfold on_w_v. destruct x as [[? ?]| |], y as [[? ?]| |]; simpl in *; auto. destruct H. split; auto. Qed.

Lemma w_hhqr_two l s t : xR true s t -> rel_res (xR true) (w_hhqr bl true nev nex l s) (c_hhqr bl true n l t).
Proof.
  intros ((LW & LR) & (EH & L1 & L2) & EC & LC & A2 & D1 & D2). unfold w_hhqr, c_hhqr, set_C. rewrite (copy_to _ _ n LW), <- EC, (get_full _ n LC). cbn [bind]. cbv zeta.
  assert (LM : length (map (b_hh bl (cs_C (w_dev s))) (seq 0 n)) = n) by (rewrite map_length, seq_length; auto).
  rewrite set_full by exact LC. cbn [bind].
  rewrite (copy_to _ _ n LC), (get_full _ n LM), put_full by lia. cbn. repeat split; cbn; auto; try apply A2.
Qed.

Lemma w_lockcopy_two l s t : xR true s t -> rel_res (xR true) (w_lockcopy nev nex l true s) (c_lockcopy n l true t).
Proof. intros [LW H]. unfold w_lockcopy. cbn [negb]. apply on_w_two; auto. now apply c_lockcopy_two. Qed.

Lemma w_qr_two l f c s t : kk (xR true) l s t -> rel_res (kk (xR true) l) (cm_qr fo qe cawD2 f c s) (cm_qr fo qe (colD fo bl true n) f c t).
Proof.
  intros (E1 & E2 & H). unfold cm_qr. cbv zeta. rewrite E1, E2.
  assert (ED : (match q_disable qe with Some z => z | None => if q_chol qe then 0 else 1 end =? 1)%Z = true).
  { unfold chol_on in HC. destruct (q_disable qe) as [z|]; [apply Z.eqb_eq; lia|]. destruct (q_chol qe); auto. }
  rewrite ED. rewrite !bind_assoc.
  eapply rel_bind; [apply w_hhqr_two; exact H|]. intros s' t' H'. cbn [bind]. apply kk_lift; auto. now apply w_lockcopy_two.
Qed.

Lemma w_apply_two d a b off k l s t : xR d s t -> agree (l + off) (l + off + k) (cs_B (w_dev s)) (cs_B t) \/ (b = f_zero fo /\ d = true) ->
  rel_res (fun s' t' => wlen s' /\ (dR (negb d) (w_dev s') t' /\ agree (l + off) (l + off + k) (cs_B (w_dev s')) (cs_B t')))
    (on_w s (c_apply bl a b off k l (w_dev s))) (c_apply bl a b off k l t).
Proof. intros [LW H] HB. refine (on_w_two (fun x y => dR (negb d) x y /\ agree (l + off) (l + off + k) (cs_B x) (cs_B y)) s _ _ LW _). now apply (c_apply_two fo bl nev nex BZ). Qed.

Lemma w_rr_two k l s t : xR true s t -> l + k <= n -> rel_res (vrel (xR true)) (w_rr bl nev nex k l s) (c_rr bl true n k l t).
Proof.
  intros [[LW LR] H] HL. unfold w_rr. pose proof (c_rr_two bl true nev nex k l _ _ H) as X.
  destruct (c_rr bl true n k l (w_dev s)) as [[v d]| |] eqn:E; destruct (c_rr bl true n k l t) as [[v' d']| |]; simpl in X; try easy.
  destruct X as [X1 X2]. cbn in X1, X2. subst v'. apply c_rr_vals in E. cbn [bind].
  destruct (put_ok (w_ritz s) 0 v) as (r & -> & Lr); [lia|]. cbn. split; auto. split; [split; cbn; auto; lia|exact X2].
Qed.

Lemma w_mlanczos_two d m nv s t : xR d s t -> rel_res (vrel (xR d)) (d_mlanczos cawD2 m nv s) (c_mlanczos fo bl m nv t).
Proof.
  intros [LW H]. cbn [cawD2 cawD d_mlanczos]. pose proof (c_mlanczos_two fo bl nev nex d m nv _ _ H) as X.
  destruct (c_mlanczos fo bl m nv (w_dev s)) as [[[[a e] b] x]| |]; destruct (c_mlanczos fo bl m nv t) as [[[[a' e'] b'] x']| |]; simpl in X |- *; try easy.
  destruct X as [X1 X2]. split; [exact X1|]. split; auto.
Qed.
Lemma w_resd_two v l k s t : xR true s t -> rel_res (vrel (xR true)) (w_resd2 v l k s) (c_resd fo bl v l k t).
Proof.
  intros [LW H]. unfold w_resd2, c_resd.
  eapply rel_bind; [apply (c_gather_two bl nev nex); eauto|]. intros s' t' (((EH & L1 & L2) & EC & LC & A2 & D1 & D2) & _ & _ & HL & AB & AB2).
  rewrite <- (agree_get _ _ _ _ l k (le_n _) (le_n _) AB), <- (agree_get _ _ _ _ l k (le_n _) (le_n _) AB2), <- EC, <- EH, D2.
  destruct (get_range v 0 k) as [x| |] eqn:Ex; cbn [bind]; try exact I. apply get_len in Ex as [Lx _].
  destruct (get_range (cs_B s') l k) as [y| |] eqn:Ey; cbn [bind]; try exact I. apply get_len in Ey as [Ly Hy].
  destruct (get_range (cs_B2 s') l k) as [z| |] eqn:Ez; cbn [bind]; try exact I. apply get_len in Ez as [Lz _]. cbv zeta.
  match goal with |- context [put_range (cs_B t') l ?q] => destruct (put_ok (cs_B t') l q) as (B & -> & LB) end.
  { rewrite zip_length, combine_length. lia. }
  cbn. split; auto. split; [exact LW|]. repeat split; cbn; auto; try apply A2; try congruence; lia.
Qed.

Local Notation kR := (kk (xR true)).
Definition xRf (p : bool) (l off m : nat) (s : cm (D := wstT)) (t : cm (D := cstT)) : Prop :=
  cm_locked s = l /\ cm_locked t = l /\ xR (negb p) (cm_dla s) (cm_dla t) /\ agree (l + off) (l + off + m) (cs_B (w_dev (cm_dla s))) (cs_B (cm_dla t)).
Local Notation same_caw := (caw_same_problem (F := F) (V := V) (M := M) n apx).
Definition xRa s t : Prop := same_caw s t /\ cm_locked s = 0 /\ cm_locked t = 0.
Definition xRe (s : cm (D := wstT)) (t : cm (D := cstT)) : Prop := length (cs_C (cm_dla t)) = n /\ firstn nev (w_C (cm_dla s)) = firstn nev (cs_C (cm_dla t)).

Lemma w_init_two s t : xRa s t -> rel_res (kR 0) (cm_init cawD2 (negb apx) s) (cm_init (colD fo bl true n) (negb apx) t).
Proof.
  intros ((LW & EH & LC & LC' & EC & LB & L2 & LB2) & E1 & E2). unfold cm_init, lift. rewrite E1, E2.
  eapply rel_bind with (R := xR true); [|intros; cbn; split; auto].
  eapply rel_bind with (R := fun (a : wstT) (b : cstT) => wlen a /\ w_H a = cs_H b /\ length (cs_B (w_dev a)) = length (cs_B b) /\ length (cs_B2 (w_dev a)) = length (cs_B2 b) /\
      cs_C (w_dev a) = cs_C b /\ length (cs_C b) = n /\ length (cs_C2 (w_dev a)) = length (cs_C2 b)).
  - destruct apx; cbn [negb colD cawD2 cawD d_initrnd].
    + cbn. repeat split; auto; apply LW.
    + unfold on_w, c_initrnd. rewrite !put_full by (rewrite map_length, seq_length; auto). cbn. repeat split; auto; try apply LW. now rewrite map_length, seq_length.
  - intros a b (X0 & X1 & X2 & X3 & X4 & X5 & X6). cbn [colD cawD2 cawD d_init]. unfold w_init, on_w, c_init. rewrite X4, (get_full (cs_C b) n X5). cbn [bind]. rewrite !bind_assoc.
    eapply rel_bind; [apply (agree_put_win (cs_C2 (w_dev a)) (cs_C2 b) 0); exact X6|]. intros C2 C2' A. rewrite X5 in A. cbn. repeat split; cbn; auto; try apply A; apply X0.
Qed.

Lemma w_end_two s t : xR true s t -> rel_res (fun a b => length (cs_C b) = n /\ firstn nev (w_C a) = firstn nev (cs_C b)) (w_end nev s) (Ok t).
Proof.
  intros ((LW & LR) & _ & EC & LC & _). unfold w_end, copy_cols.
  destruct (get_ok (cs_C (w_dev s)) 0 nev) as (c & Ec & Lc); [lia|]. rewrite Ec. cbn [bind].
  destruct (put_ok (w_C s) 0 c) as (x & Ex & Lx); [lia|]. rewrite Ex. cbn. split; [congruence|]. apply put_get in Ex. rewrite Lc in Ex.
  rewrite get_range_ok in Ex by lia. rewrite get_range_ok in Ec by lia. cbn in Ex, Ec. rewrite <- EC. congruence.
Qed.

Theorem caw_paced : paced fo K2 K n (negb apx) same_caw xRa (kR 0) kR xRf kR kR xRe.
Proof.
  split; cbn [cmK k_sym k_start k_end k_init k_shift k_hemm k_qr k_rr k_resd k_swap k_lock k_lanczos1 k_lanczos2 k_dos].
  - intros s t H. cbn. split; cbn; [|exact H]. destruct H as (_ & E & _). now rewrite E.
  - intros s t H. cbn. split; auto.
  - intros s t H. eapply rel_bind; [apply w_init_two; eauto|]. intros s' t' H'. destruct (negb apx); [|exact H']. now apply w_qr_two.
  - split; cbn [starter cmK k_sym k_start k_end k_init k_shift k_hemm k_qr k_rr k_resd k_swap k_lock k_lanczos1 k_lanczos2 k_dos]; try (intros; exact I);
      intros; destruct (negb apx); try exact I; pose proof H as (E1 & E2 & LW & HD).
    + apply kk_lift; auto. apply on_w_two; auto. now apply c_swap_two.
    + eapply lanczos1_two; eauto. now apply w_mlanczos_two.
    + eapply lanczos2_two; eauto. now apply w_mlanczos_two.
    + apply kk_lift; auto. apply on_w_two; auto. now apply c_dos_two.
  - auto.
  - intros l c s t (E1 & E2 & LW & H). apply kk_lift; auto. apply on_w_two; auto. now apply c_shift_two.
  - intros l m a s t (E1 & E2 & H) _. unfold lift. rewrite E1, E2. eapply rel_bind; [apply (w_apply_two true); eauto|]. intros s' t' (Z & X & Y).
    cbn. split; auto. split; auto. split; [split; auto|exact Y].
  - intros p l off m off' m' a b s t (E1 & E2 & H & HB) H1 H2. unfold lift. rewrite E1, E2.
    eapply rel_bind; [apply (w_apply_two (negb p)); eauto; left; eapply agree_sub; [| |exact HB]; lia|]. intros s' t' (Z & X & Y).
    cbn. split; auto. split; auto. split; [split; auto|exact Y].
  - intros l off m c s t (E1 & E2 & (LW & H) & HB). apply kk_lift; auto. apply on_w_two; auto. now apply c_shift_two.
  - intros l c s t H. now apply w_qr_two.
  - intros l s t (E1 & E2 & H) HL. rewrite E1, E2. apply kk_lift_v; auto. apply w_rr_two; auto. lia.
  - intros l v s t (E1 & E2 & H). rewrite E1, E2. apply kk_lift_v; auto. now apply w_resd_two.
  - intros l i j s t (E1 & E2 & LW & H). apply kk_lift; auto. apply on_w_two; auto. now apply c_swap_two.
  - intros l m s t (E1 & E2 & H) _. cbn. split; cbn; [lia|]. split; cbn; [lia|exact H].
  - intros l s t (E1 & E2 & H). unfold lift. eapply rel_bind; [apply (w_end_two _ _ H)|]. intros. exact H0.
Qed.
End Caw2.

Section W.
Context {F V M G T : Type} (fo : fops F) (bl : blas F V M G T) (qe : qr_env F) (td : tridiag F) (cf : conf F).
Context (sort_idx : list F -> list nat) (Hperm : forall keys, Permutation (sort_idx keys) (seq 0 (length keys))) (CF : conf_ok cf) (BZ : beta_zero fo bl) (HC : ~ chol_on qe).
Lemma caw_as_mpi fsort ritzv resid s t : caw_same_problem (c_nev cf + c_nex cf) (c_approx cf) s t ->
  rel_res (fun a b => o_ritz a = o_ritz b /\ o_res a = o_res b /\ (o_exit a = None <-> o_exit b = None) /\
      (o_exit a <> None -> firstn (c_nev cf) (w_C (cm_dla (o_k a))) = firstn (c_nev cf) (cs_C (cm_dla (o_k b)))))
    (solve fo (cmK fo qe td (cawD fo bl true (c_nev cf) (c_nex cf)) (c_nev cf) (c_nex cf)) fsort sort_idx cf s ritzv resid)
    (solve fo (cmK fo qe td (colD fo bl true (c_nev cf + c_nex cf)) (c_nev cf) (c_nex cf)) fsort sort_idx cf t ritzv resid).
Proof.
  intros H.
  pose proof (solve_run fo _ _ cf _ _ _ sort_idx Hperm (caw_values_run fo bl qe td (c_nev cf) (c_nex cf)) fsort s s ritzv resid eq_refl) as X.
  pose proof (solve_paced fo _ _ cf _ _ _ _ _ _ _ _ sort_idx Hperm CF (caw_paced fo bl qe td (c_nev cf) (c_nex cf) BZ HC (c_approx cf)) fsort s t ritzv resid H) as Y.
  revert X Y. match goal with |- rel_res _ ?x ?y -> rel_res _ _ ?z -> _ => destruct x as [a| |], y as [b| |]; simpl; intros X; try easy; destruct z as [c| |]; simpl; intros Y; try easy end.
  destruct X as (A1 & A2 & A3), Y as (B1 & B2 & B3). split; [congruence|]. split; [congruence|].
  destruct (o_exit a), (o_exit b); try easy; destruct (o_exit c); try easy; (split; [split; easy|]).
  intros _. destruct A3 as [_ A3]. destruct B3 as [_ [_ B3]]. rewrite A3. exact B3.
Qed.
End W.
