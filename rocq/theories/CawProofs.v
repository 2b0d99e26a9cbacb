(** The CUDA-aware multi-GPU backend. *)
From Coq Require Import List Arith ZArith Bool Lia Permutation.
Require Import Verif.Base Verif.AlgModel Verif.AlgSpec Verif.AlgProofs1 Verif.AlgProofs2 Verif.AlgSim Verif.AlgSim2 Verif.DlaSim
  Verif.DlaModel Verif.ColModel Verif.ColSpec Verif.ColProofs1 Verif.ColProofs2 Verif.MgpuModel Verif.MgpuSpec Verif.MgpuProofs1 Verif.CawModel Verif.CawSpec.
Import ListNotations.

(** a solve that gets past the symmetry check performs an iteration *)
Lemma solve_iterates {F St} (fo : fops F) (K : kernel F St) fsort sort_idx cf k ritzv resid o s : 1 <= c_nev cf -> 1 <= c_maxiter cf ->
  solve fo K fsort sort_idx cf k ritzv resid = Ok o -> o_exit o = Some s ->
  exists k0 ub s0 s1, (if c_symcheck cf then k_sym K k else Ok (true, k)) = Ok (true, k0) /\
    solve_init fo K fsort cf k0 ritzv resid = Ok (ub, s0) /\ iterate fo K sort_idx cf ub s0 = Ok s1.
Proof.
  intros Hn Hm H He. unfold solve in H. apply bind_ok in H as ([b k0] & H1 & H). destruct b; cbn [negb] in H; [|injection H as <-; discriminate].
  apply bind_ok in H as ([ub s0] & H2 & H). apply bind_ok in H as (s' & H3 & H).
  assert (Eu : ss_unconv s0 = c_nev cf + c_nex cf /\ ss_iter s0 = 0).
  { unfold solve_init in H2. repeat (apply bind_ok in H2 as (? & _ & H2); repeat match type of H2 with context [let '(_, _) := ?p in _] => destruct p end).
    injection H2 as _ <-. auto. }
  destruct Eu as [Eu Ei]. destruct (c_maxiter cf) as [|m] eqn:Em; [lia|]. cbn [solve_loop] in H3. rewrite Eu, Ei, Em in H3.
  destruct (Nat.ltb_spec (c_nex cf) (c_nev cf + c_nex cf)); [|lia]. cbn [andb Nat.ltb Nat.leb] in H3.
  apply bind_ok in H3 as (s1 & H3 & _). eauto 8.
Qed.

Lemma iterate_qr {F St} (fo : fops F) (K : kernel F St) sort_idx cf ub s s' : iterate fo K sort_idx cf ub s = Ok s' ->
  exists l c k k', k_qr K l c k = Ok k'.
Proof.
  unfold iterate. cbv zeta. intros H. apply bind_ok in H as ([? ?] & _ & H). apply bind_ok in H as ([? ?] & _ & H). apply bind_ok in H as ([? ?] & _ & H).
  do 5 apply bind_ok in H as (? & _ & H). apply bind_ok in H as (? & H & _). eauto.
Qed.

Section Caw.
Context {F V M G T : Type} (fo : fops F) (bl : blas F V M G T) (scal : bool) (qe : qr_env F) (td : tridiag F) (nev nex : nat).
Local Notation n := (nev + nex).
Local Notation L := (cawD fo bl scal nev nex).

(** some factorisation was attempted on device columns and failed *)
Lemma caw_qr_failed l c s s' : chol_on qe -> cm_qr fo qe L l c s = Ok s' ->
  exists cs sh, fst (b_potrf bl (if sh : bool then b_dshift bl (b_syherk bl cs) else b_syherk bl cs)) <> 0%Z.
Proof.
  intros HC H. unfold cm_qr in H. cbv zeta in H. apply bind_ok in H as ([hh d] & H1 & H2).
  assert (Hh : hh = true).
  { unfold lift in H2. apply bind_ok in H2 as (? & H2 & _). cbn in H2. unfold w_lockcopy in H2. destruct hh; auto. discriminate. }
  subst hh. destruct (_ =? 1)%Z eqn:E.
  { exfalso. apply Z.eqb_eq in E. unfold chol_on in HC. destruct (q_disable qe); [auto|]. rewrite HC in E. discriminate. }
  apply bind_ok in H1 as ([i d'] & H1 & H3). destruct (i =? 0)%Z eqn:Ei; [discriminate|]. apply Z.eqb_neq in Ei.
  assert (X : forall sh x y, c_factor bl n sh x = Ok y -> fst y <> 0%Z ->
      exists cs sh, fst (b_potrf bl (if sh : bool then b_dshift bl (b_syherk bl cs) else b_syherk bl cs)) <> 0%Z).
  { intros sh x y Hf Hy. unfold c_factor in Hf. apply bind_ok in Hf as (cs & _ & Hf). injection Hf as <-. exists cs, sh. exact Hy. }
  destruct (f_lt fo (q_upper qe) c); [|destruct (f_lt fo c _)]; cbn [cawD d_schol2 d_chol1 d_chol2] in H1.
  - unfold on_w_v in H1. apply bind_ok in H1 as ([i' x] & H1 & HI). injection HI as -> _. unfold c_schol2 in H1.
    apply bind_ok in H1 as ([i1 R] & F1 & H1). destruct (i1 =? 0)%Z eqn:E1; cbn [negb] in H1; [|apply Z.eqb_neq in E1; eapply X; eauto].
    apply bind_ok in H1 as (s1 & _ & H1). apply bind_ok in H1 as ([i2 R2] & F2 & H1). cbn [andb] in H1.
    destruct (i2 =? 0)%Z eqn:E2; cbn [negb] in H1; [|apply Z.eqb_neq in E2; eapply X; eauto].
    apply bind_ok in H1 as (s2 & _ & H1). apply bind_ok in H1 as ([i3 R3] & F3 & H1). apply bind_ok in H1 as (s3 & _ & H1). injection H1 as <- _.
    apply Z.eqb_eq in E2. congruence.
  - unfold on_w_v in H1. apply bind_ok in H1 as ([i' x] & H1 & HI). injection HI as -> _. unfold c_chol1 in H1.
    apply bind_ok in H1 as ([i1 R] & F1 & H1). destruct (i1 =? 0)%Z eqn:E1; cbn [negb] in H1; [|apply Z.eqb_neq in E1; eapply X; eauto].
    apply bind_ok in H1 as (s1 & _ & H1). injection H1 as <- _. apply Z.eqb_eq in E1. congruence.
  - unfold w_chol2 in H1. cbv zeta in H1.
    apply bind_ok in H1 as ([i1 R] & F1 & H1). destruct (i1 =? 0)%Z eqn:E1; cbn [negb] in H1; [|apply Z.eqb_neq in E1; eapply X; eauto].
    apply bind_ok in H1 as (s1 & _ & H1). apply bind_ok in H1 as ([i2 R2] & F2 & H1). apply bind_ok in H1 as (s2 & _ & H1).
    unfold on_w_v in H1. cbn in H1. injection H1 as <- _. congruence.
Qed.

Lemma caw_no_result cf fsort sort_idx g ritzv resid o : chol_on qe -> 1 <= c_nev cf -> 1 <= c_maxiter cf ->
  (forall a, fst (b_potrf bl a) = 0%Z) ->
  solve fo (cmK fo qe td L nev nex) fsort sort_idx cf g ritzv resid = Ok o -> o_exit o = None.
Proof.
  intros HC H1 H2 HP H. destruct (o_exit o) eqn:E; auto. exfalso.
  destruct (solve_iterates _ _ _ _ _ _ _ _ _ _ H1 H2 H E) as (k0 & ub & s0 & s1 & _ & _ & HI).
  destruct (iterate_qr _ _ _ _ _ _ _ HI) as (l & c & k & k' & HQ). destruct (caw_qr_failed l c k k' HC HQ) as (cs & sh & X). apply X, HP.
Qed.

(** the run does not see the caller's vectors nor, without ScaLAPACK, the Householder QR *)
Context (h : list V -> nat -> V) (HH : scal = false \/ h = b_hh bl).
Local Notation L' := (cawD fo (swap_hh bl h) scal nev nex).
Local Notation wstT := (wst (F := F) (V := V) (M := M)).

Definition wR (s t : wstT) : Prop :=
  w_H s = w_H t /\ w_dev s = w_dev t /\ w_ritz s = w_ritz t /\ length (w_C s) = n /\ length (w_C t) = n.
(** before init the device matrices may differ *)
Definition wR0 (s t : wstT) : Prop :=
  w_H s = w_H t /\ w_ritz s = w_ritz t /\ length (w_C s) = n /\ length (w_C t) = n /\
  cs_C (w_dev s) = cs_C (w_dev t) /\ cs_B (w_dev s) = cs_B (w_dev t) /\ cs_C2 (w_dev s) = cs_C2 (w_dev t) /\ cs_B2 (w_dev s) = cs_B2 (w_dev t) /\
  cs_bAc (w_dev s) = cs_bAc (w_dev t).
Definition wRe (s t : wstT) : Prop := w_H s = w_H t /\ firstn nev (w_C s) = firstn nev (w_C t) /\ w_dev s = w_dev t /\ length (w_C s) = n /\ length (w_C t) = n.

Lemma on_w_rel s t x : wR s t -> rel_res wR (on_w s x) (on_w t x).
Proof. intros (A & B & C & D & E). unfold on_w. rb. cbn. repeat split; auto. Qed.
Lemma on_w_v_rel {X} s t (x : res (X * cst)) : wR s t -> rel_res (vrel wR) (on_w_v s x) (on_w_v t x).
Proof. intros (A & B & C & D & E). unfold on_w_v. eapply rel_bind; [apply rel_eq|]. intros [? ?] ? <-. cbn. repeat split; auto. Qed.

Lemma copy_to (a b : list V) k : length b = k -> copy_cols a b 0 k = get_range a 0 k.
Proof.
  intros Lb. unfold copy_cols. destruct (Nat.le_gt_cases k (length a)).
  - destruct (get_ok a 0 k) as (c & -> & Lc); [lia|]. cbn [bind]. apply put_full. lia.
  - now rewrite !get_bad by lia.
Qed.
Lemma w_hhqr_rel l s t : wR s t -> rel_res wR (w_hhqr bl scal nev nex l s) (w_hhqr (swap_hh bl h) scal nev nex l t).
Proof.
  intros (A & B & C & D & E). unfold w_hhqr. rewrite B, A, C, !copy_to by auto.
  destruct (get_range (cs_C (w_dev t)) 0 n) as [c| |] eqn:Ec; [|exact I|exact I]. cbn [bind].
  assert (Lc : length c = n) by (eapply get_range_len; eauto). rewrite !set_full by auto. cbn [bind].
  destruct scal eqn:Es.
  - destruct HH as [X|X]; [discriminate|]. cbn [swap_hh b_hh]. rewrite X. rb. cbn [rel_res]. unfold wR. cbn [w_H w_C w_dev w_ritz]. rewrite map_length, seq_length. repeat split; auto.
  - cbn [rel_res]. unfold wR. cbn [w_H w_C w_dev w_ritz]. rewrite !map_length, !seq_length. repeat split; auto.
Qed.

Lemma caw_dla_rel : dla_rel L L' wR.
Proof.
  split; cbn [cawD d_shift d_apply d_hhqr d_chol1 d_chol2 d_schol2 d_lockcopy d_rr d_swap d_mlanczos d_dos].
  - intros c u s t H. pose proof H as (_ & -> & _). exact (on_w_rel s t _ H).
  - intros a b off blk l s t H. pose proof H as (_ & -> & _). exact (on_w_rel s t _ H).
  - exact w_hhqr_rel.
  - intros l s t H. pose proof H as (_ & -> & _). exact (on_w_v_rel s t _ H).
  - intros l s t H. unfold w_chol2. pose proof H as (_ & -> & _). cbv zeta.
    change (c_factor (swap_hh bl h) n) with (c_factor bl n).
    eapply rel_bind; [apply rel_eq|]. intros [i R] ? <-. destruct (negb _); [cbn; split; auto|].
    change (b_trsm (swap_hh bl h)) with (b_trsm bl). rb.
    eapply rel_bind; [apply rel_eq|]. intros [i2 R2] ? <-. rb. exact (on_w_v_rel s t _ H).
  - intros l s t H. pose proof H as (_ & -> & _). exact (on_w_v_rel s t _ H).
  - intros l b s t H. unfold w_lockcopy. destruct (negb b); [exact I|]. pose proof H as (_ & -> & _). exact (on_w_rel s t _ H).
  - intros blk l s t H. unfold w_rr. pose proof H as (E1 & E2 & E3 & E4 & E5). rewrite E1, E2, E3.
    change (c_rr (swap_hh bl h)) with (c_rr bl). eapply rel_bind; [apply rel_eq|]. intros [v d] ? <-. rb. cbn. repeat split; auto.
  - intros i j s t H. pose proof H as (_ & -> & _). exact (on_w_rel s t _ H).
  - intros m nv s t H. pose proof H as (E1 & E2 & E3 & E4 & E5). rewrite E1, E2, E3.
    change (c_mlanczos fo (swap_hh bl h)) with (c_mlanczos fo bl). eapply rel_bind; [apply rel_eq|]. intros [[[a e] b] d] ? <-. cbn. repeat split; auto.
  - intros i m rv s t H. pose proof H as (_ & -> & _). exact (on_w_rel s t _ H).
Qed.

Lemma w_resd_rel v l u s t : wR s t -> rel_res (vrel wR) (w_resd fo bl v l u s) (w_resd fo (swap_hh bl h) v l u t).
Proof.
  intros H. unfold w_resd. pose proof H as (_ & E2 & E3 & _). rewrite E2, E3. change (c_gather (swap_hh bl h)) with (c_gather bl).
  rb. rb. rb. rb. exact (on_w_v_rel s t _ H).
Qed.

Local Notation K := (cmK fo qe td L nev nex).
Local Notation K' := (cmK fo qe td L' nev nex).
Lemma w_init_rel s t : wR0 s t -> rel_res wR (w_init nev nex s) (w_init nev nex t).
Proof.
  intros (E1 & E2 & E3 & E4 & E5 & E6 & E7 & E8 & E9). unfold w_init, c_init. rewrite E1, E5, E6, E7, E8.
  destruct (get_range _ 0 n) as [c| |]; [|exact I|exact I]. cbn [bind]. destruct (put_range _ 0 c) as [C2| |]; [|exact I|exact I].
  cbn. repeat split; auto.
Qed.

Lemma caw_run : run_rel K K' n (cmR wR0) (cmR wR) (cmR wRe).
Proof.
  split.
  - intros s t [E H]. cbn [cmK k_sym]. apply lift_v_rel; auto. cbn [cawD d_sym]. unfold w_sym. pose proof H as (E1 & _). rewrite E1. cbn [rel_res]. split; auto.
  - intros s t [E H]. cbn. split; cbn; auto.
  - intros r s t [E H]. cbn [cmK k_init]. unfold cm_init. apply lift_rel; auto. cbn [cawD d_initrnd d_init].
    destruct r; [|cbn [bind]; now apply w_init_rel].
    destruct H as (E1 & E2 & E3 & E4 & E5 & E6 & E7 & E8 & E9). unfold on_w, c_initrnd. rewrite E5.
    change (b_rnd (swap_hh bl h)) with (b_rnd bl). destruct (put_range (cs_C (w_dev (cm_dla t))) 0 _) as [C| |]; [|exact I|exact I]. cbn [bind].
    apply w_init_rel. repeat split; cbn; auto.
  - apply cm_core_rel, caw_dla_rel.
  - intros m s t [E H]. cbn [cmK k_rr]. rewrite E. eapply rel_mono; [|apply lift_v_rel; [auto|apply (dr_rr _ _ _ caw_dla_rel); exact H]].
    intros [a x] [b y] [E1 E2]. cbn [fst snd] in *. split; auto. split; auto. intros v l _ _. cbn [cmK k_resd]. destruct E2 as [E2 E2'].
    rewrite E2. apply lift_v_rel; auto. apply w_resd_rel; auto.
  - intros s t [E H]. cbn [cmK k_end]. apply lift_rel; auto. destruct H as (E1 & E2 & E3 & E4 & E5). cbn [cawD d_end]. unfold w_end. rewrite E1, E2, E3.
    unfold copy_cols. destruct (get_range _ 0 nev) as [c| |] eqn:Ec; [|exact I|exact I]. cbn [bind].
    assert (Lc : length c = nev) by (eapply get_range_len; eauto).
    destruct (put_ok (w_C (cm_dla s)) 0 c) as (x & Ex & Lx); [lia|]. destruct (put_ok (w_C (cm_dla t)) 0 c) as (y & Ey & Ly); [lia|].
    rewrite Ex, Ey. cbn. split; auto. cbn. split; [|repeat split; congruence]. apply put_get in Ex, Ey. rewrite Lc in *.
    rewrite get_range_ok in Ex by lia. rewrite get_range_ok in Ey by lia. cbn in Ex, Ey. congruence.
Qed.
End Caw.

Section W.
Context {F V M G T : Type} (fo : fops F) (bl : blas F V M G T) (scal : bool) (qe : qr_env F) (td : tridiag F) (cf : conf F).
Local Notation n := (c_nev cf + c_nex cf).
Context (sort_idx : list F -> list nat) (Hperm : forall keys, Permutation (sort_idx keys) (seq 0 (length keys))) (fsort : list F -> list F).
Context (h : list V -> nat -> V) (HH : scal = false \/ h = b_hh bl).

Lemma caw_ignores l (H hm hm' : M) (U U' dC dB dC2 dB2 : list V) b r ritzv resid o : length U = n -> length U' = n ->
  solve fo (cmK fo qe td (cawD fo bl scal (c_nev cf) (c_nex cf)) (c_nev cf) (c_nex cf)) fsort sort_idx cf
    (mk_cm l (mk_wst H U (mk_cst hm dC dB dC2 dB2 b) r)) ritzv resid = Ok o ->
  exists o', solve fo (cmK fo qe td (cawD fo (swap_hh bl h) scal (c_nev cf) (c_nex cf)) (c_nev cf) (c_nex cf)) fsort sort_idx cf
    (mk_cm l (mk_wst H U' (mk_cst hm' dC dB dC2 dB2 b) r)) ritzv resid = Ok o' /\ o_ritz o' = o_ritz o /\ o_res o' = o_res o /\
    (o_exit o <> None -> firstn (c_nev cf) (w_C (cm_dla (o_k o'))) = firstn (c_nev cf) (w_C (cm_dla (o_k o)))).
Proof.
  intros HU HU' Hs.
  pose proof (solve_run fo _ _ cf _ _ _ sort_idx Hperm (caw_run fo bl scal qe td (c_nev cf) (c_nex cf) h HH) fsort
    (mk_cm l (mk_wst H U (mk_cst hm dC dB dC2 dB2 b) r)) (mk_cm l (mk_wst H U' (mk_cst hm' dC dB dC2 dB2 b) r)) ritzv resid) as X.
  destruct (rel_ok_r _ _ _ _ (X ltac:(repeat split; cbn; auto)) Hs) as (o' & Ho & E1 & E2 & E3). exists o'. repeat split; auto.
  intros He. destruct (o_exit o); [|congruence]. destruct (o_exit o'); [|contradiction]. destruct E3 as (_ & _ & (_ & E & _)). auto.
Qed.

(** only the first nev columns of the caller's array hold results *)
End W.
