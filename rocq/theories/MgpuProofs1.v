(** The multi-GPU backend follows the CPU backend along the calls of the solver, whatever the devices hold. *)
From Coq Require Import List Arith ZArith Bool Lia Permutation.
Require Import Verif.Base Verif.AlgModel Verif.AlgSpec Verif.AlgProofs1 Verif.AlgProofs2 Verif.AlgSim Verif.AlgSim2 Verif.AlgSim3 Verif.DlaSim
  Verif.DlaModel Verif.ColModel Verif.ColSpec Verif.ColProofs1 Verif.ColProofs2 Verif.MgpuModel Verif.MgpuSpec.
Import ListNotations.

(** ranges *)
Lemma skipn2 {A} : forall b a (l : list A), skipn a (skipn b l) = skipn (a + b) l.
Proof. induction b; intros a [|x l]; cbn; rewrite ?skipn_nil, ?Nat.add_0_r; auto. rewrite Nat.add_succ_r. apply IHb. Qed.
Lemma get_bad {A} (l : list A) off k : length l < off + k -> get_range l off k = UB.
Proof. intros H. unfold get_range. destruct (Nat.leb_spec (off + k) (length l)); auto; lia. Qed.
Lemma get_full {A} (l : list A) k : length l = k -> get_range l 0 k = Ok l.
Proof. intros H. rewrite get_range_ok by lia. cbn. now rewrite firstn_all2 by lia. Qed.
Lemma put_full {A} (l x : list A) : length x = length l -> put_range l 0 x = Ok x.
Proof. intros H. rewrite put_range_ok by lia. cbn. rewrite skipn_all2, app_nil_r by lia. auto. Qed.
Lemma put_get {A} (l l' x : list A) off : put_range l off x = Ok l' -> get_range l' off (length x) = Ok x.
Proof.
  intros H. pose proof (put_range_length _ _ _ _ H) as L. apply put_range_split in H as H'. apply put_range_inv in H as [H _].
  rewrite get_range_ok by lia. f_equal. apply H'.
Qed.
Lemma get_eq_sub {A} (a b : list A) off m off' m' : length a = length b -> get_range a off m = get_range b off m ->
  off <= off' -> off' + m' = off + m -> get_range a off' m' = get_range b off' m'.
Proof.
  intros L H H1 H2. destruct (Nat.le_gt_cases (off + m) (length a)); [|rewrite !get_bad by lia; auto].
  rewrite get_range_ok in H by lia. rewrite get_range_ok in H by lia. injection H as H.
  rewrite !get_range_ok by lia. f_equal. replace off' with ((off' - off) + off) by lia. rewrite <- !skipn2.
  replace m' with (m - (off' - off)) by lia. rewrite <- !skipn_firstn_comm. now rewrite H.
Qed.
Lemma get_eq_full {A} (a b : list A) k : length a = k -> length b = k -> get_range a 0 k = get_range b 0 k -> a = b.
Proof. intros. rewrite !get_full in H1 by auto. congruence. Qed.

Section Copy.
Context {V : Type}.
Lemma copy_bad (a b : list V) off k : length a < off + k -> copy_cols a b off k = UB.
Proof. intros. unfold copy_cols. now rewrite get_bad. Qed.
Lemma copy_ok (a b : list V) off k : off + k <= length a -> length b = length a ->
  exists d, copy_cols a b off k = Ok d /\ length d = length b /\ get_range d off k = get_range a off k.
Proof.
  intros H L. unfold copy_cols. destruct (get_ok a off k H) as (x & E & Lx). rewrite E. cbn [bind].
  destruct (put_ok b off x) as (d & Ed & Ld); [lia|]. exists d. repeat split; auto. apply put_get in Ed. congruence.
Qed.
Lemma copy_full (a b : list V) k : length a = k -> length b = k -> copy_cols a b 0 k = Ok a.
Proof. intros H1 H2. unfold copy_cols. rewrite get_full by auto. cbn [bind]. apply put_full. lia. Qed.
Lemma set_full k (l : list V) f : length l = k -> set_cols k l f = Ok (map (f l) (seq 0 k)).
Proof. intros H. unfold set_cols. rewrite get_full by auto. cbn [bind]. apply put_full. rewrite map_length, seq_length. lia. Qed.
End Copy.

Section Sim.
Context {F V M G T : Type} (fo : fops F) (bl : blas F V M G T) (loc : bool -> M -> F -> F -> V -> V -> V) (nev nex : nat) (H0 : M).
Local Notation n := (nev + nex).
Local Notation L := (mgpuD fo bl loc false (nev + nex)).
Local Notation L' := (colD fo bl true (nev + nex)).
Local Notation mstT := (mst (V := V) (M := M)).
Local Notation cstT := (cst (V := V) (M := M)).

(** host blocks equal, all blocks have n columns, the caller's matrix is intact *)
Definition mL (s : mstT) (t : cstT) : Prop :=
  m_C s = cs_C t /\ m_B s = cs_B t /\ m_C2 s = cs_C2 t /\ m_B2 s = cs_B2 t /\ m_bAc s = cs_bAc t /\ m_H s = H0 /\
  length (m_C s) = n /\ length (m_B s) = n /\ length (m_C2 s) = n /\ length (m_B2 s) = n /\ length (m_dC s) = n /\ length (m_dB s) = n.
Definition mR0 (s : mstT) (t : cstT) : Prop := mL s t /\ cs_H t = H0.
Definition mR (s : mstT) (t : cstT) : Prop := mL s t /\ m_dH s = cs_H t.
(** the device copy of the columns from off on (k columns) *)
Definition dC_ok off k (s : mstT) : Prop := get_range (m_dC s) off k = get_range (m_C s) off k.
Definition dB_ok off k (s : mstT) : Prop := get_range (m_dB s) off k = get_range (m_B s) off k.
Definition mF (off k : nat) (s : mstT) (t : cstT) : Prop := mR s t /\ if m_bAc s then dB_ok off k s else dC_ok off k s.
Definition mQ (l : nat) (s : mstT) (t : cstT) : Prop := mR s t /\ exists h, m_hh s = Some h /\ (h = false -> dC_ok l (n - l) s).

Ltac ds := repeat match goal with
  | s : mstT |- _ => destruct s as [mH dH C dC B dB C2 B2 nx hh]
  | t : cstT |- _ => destruct t as [tH tC tB tC2 tB2 tnx] end;
  unfold mQ, mF, mR, mR0, mL, dC_ok, dB_ok in *; cbn [m_H m_dH m_C m_dC m_B m_dB m_C2 m_B2 m_bAc m_hh cs_H cs_C cs_B cs_C2 cs_B2 cs_bAc] in *.
Ltac eqs := repeat match goal with
  | H : _ /\ _ |- _ => destruct H
  | H : ?a = ?b |- _ => is_var a; is_var b; subst b
  | H : ?a = _ |- _ => is_var a; match type of a with M => subst a end end.

Ltac cc := cbn [m_H m_dH m_C m_dC m_B m_dB m_C2 m_B2 m_bAc m_hh cs_H cs_C cs_B cs_C2 cs_B2 cs_bAc with_C with_hh bind] in *.
Lemma m_init_rel s t : mR0 s t -> rel_res mR (m_init n s) (c_init n t).
Proof.
  intros H. ds. eqs. unfold m_init, c_init. cc.
  rewrite copy_full, get_full by auto. cbn [bind]. rewrite put_full by lia. cbn. unfold mR, mL. cbn. repeat split; auto.
Qed.
Lemma m_initrnd_rel s t : mR0 s t -> rel_res mR0 (m_initrnd bl n s) (c_initrnd bl n t).
Proof.
  intros H. ds. eqs. unfold m_initrnd, c_initrnd, with_C. cc.
  assert (X : length (map (b_rnd bl) (seq 0 n)) = n) by (rewrite map_length, seq_length; auto).
  rewrite !put_full by lia. cbn [bind]. rewrite copy_full by lia. cbn. unfold mR0, mL. cbn. repeat split; auto.
Qed.
Lemma m_shift_rel c u s t : mR s t -> rel_res mR (m_shift bl c u s) (c_shift bl c u t).
Proof. intros H. ds. eqs. cbn. unfold mR, mL. cbn. repeat split; auto. Qed.

Lemma m_apply_rel a b off k l s t : mR s t ->
  ((if m_bAc s then dB_ok (l + off) k s else dC_ok (l + off) k s) \/ (b = f_zero fo /\ beta_zero fo bl)) ->
  rel_res (mF (l + off) k) (m_apply bl loc a b off k l s) (c_apply bl a b off k l t).
Proof.
  intros H HB. ds. eqs. unfold m_apply, c_apply. cc.
  destruct (Nat.le_gt_cases (l + off + k) n) as [Hr|Hr].
  2:{ destruct nx; rewrite copy_bad by lia; rewrite !get_bad by lia; cbn; auto. }
  destruct (get_ok C (l + off) k) as (c & Ec & Lc); [lia|]. destruct (get_ok B (l + off) k) as (bb & Eb & Lb); [lia|]. rewrite Ec, Eb. cbn [bind].
  destruct nx.
  - destruct (copy_ok C dC (l + off) k) as (d & -> & Ld & Ed); [lia|lia|]. cbn [bind]. rewrite Ed, Ec. cbn [bind].
    destruct (get_ok dB (l + off) k) as (b' & Eb' & Lb'); [lia|]. rewrite Eb'. cbn [bind].
    assert (X : zip (b_gemmH bl dH a b) c b' = zip (b_gemmH bl dH a b) c bb).
    { destruct HB as [HB|[-> HB]]; [congruence|]. clear -HB Lc Lb Lb'. revert k b' bb Lc Lb Lb'.
      induction c as [|x c IH]; intros k [|y b'] [|y' bb] E1 E2 E3; cbn in *; subst; auto; try discriminate.
      unfold zip in *. cbn. f_equal; [apply HB|]. eapply IH; eauto. }
    rewrite X. destruct (put_ok B (l + off) (zip (b_gemmH bl dH a b) c bb)) as (B' & -> & LB); [rewrite zip_length; lia|]. cbn [bind].
    destruct (put_ok dB (l + off) (zip (loc true dH a b) c b')) as (dB' & -> & LB'); [rewrite zip_length; lia|]. cbn.
    unfold mF, mR, mL, dC_ok. cbn. repeat split; auto; try lia.
  - destruct (copy_ok B dB (l + off) k) as (d & -> & Ld & Ed); [lia|lia|]. cbn [bind]. rewrite Ed, Eb. cbn [bind].
    destruct (get_ok dC (l + off) k) as (c' & Ec' & Lc'); [lia|]. rewrite Ec'. cbn [bind].
    assert (X : zip (b_gemmN bl dH a b) bb c' = zip (b_gemmN bl dH a b) bb c).
    { destruct HB as [HB|[-> HB]]; [congruence|]. clear -HB Lc Lb Lc'. revert k c' c Lc Lb Lc'.
      induction bb as [|x bb IH]; intros k [|y b'] [|y' c] E1 E2 E3; cbn in *; subst; auto; try discriminate.
      unfold zip in *. cbn. f_equal; [apply HB|]. eapply IH; eauto. }
    rewrite X. destruct (put_ok C (l + off) (zip (b_gemmN bl dH a b) bb c)) as (C' & -> & LC); [rewrite zip_length; lia|]. cbn [bind].
    destruct (put_ok dC (l + off) (zip (loc false dH a b) bb c')) as (dC' & -> & LC'); [rewrite zip_length; lia|]. cbn.
    unfold mF, mR, mL, dB_ok. cbn. repeat split; auto; try lia.
Qed.

Lemma m_gather_rel l k cp s t : mR s t -> (cp = true -> dC_ok l k s) ->
  rel_res (fun s' t' => mR s' t' /\ dC_ok l k s' /\ m_hh s' = m_hh s /\ l + k <= n) (m_gather fo bl loc l k cp s) (c_gather bl l k t).
Proof.
  intros H HC. ds. eqs. unfold m_gather, c_gather. cc.
  destruct (Nat.le_gt_cases (l + k) n) as [Hr|Hr].
  2:{ rewrite !get_bad by lia. cbn. auto. }
  destruct (get_ok C l k) as (c & Ec & Lc); [lia|]. destruct (get_ok C2 l k) as (c2 & Ec2 & Lc2); [lia|]. rewrite Ec, Ec2. cbn [bind].
  destruct (put_ok B l (map (b_mulH bl dH) c)) as (B' & EB & LB); [rewrite map_length; lia|]. rewrite EB. cbn [bind].
  destruct (put_ok B2 l c2) as (B2' & -> & LB2); [lia|]. cbn [bind].
  assert (X : exists d, (if cp then Ok dC else copy_cols C dC l k) = Ok d /\ length d = n /\ get_range d l k = Ok c).
  { destruct cp; [exists dC; repeat split; auto; rewrite HC; auto|]. destruct (copy_ok C dC l k) as (d & E & Ld & Ed); [lia|lia|].
    exists d. repeat split; auto; [lia|congruence]. }
  destruct X as (d & -> & Ld & Ed). cbn [bind]. rewrite Ed. cbn [bind].
  destruct (get_ok dB l k) as (b & -> & Lb); [lia|]. cbn [bind]. rewrite EB. cbn [bind].
  match goal with |- context [put_range dB l ?x] => destruct (put_ok dB l x) as (dB' & -> & LdB); [rewrite zip_length; lia|] end. cbn.
  unfold mR, mL, dC_ok. cbn. repeat split; auto; try lia. congruence.
Qed.

Lemma m_resd_rel v l k s t : mR s t -> dC_ok l k s -> rel_res (vrel mR) (m_resd fo bl loc v l k s) (c_resd fo bl v l k t).
Proof.
  intros H HC. unfold m_resd, c_resd. eapply rel_bind; [eapply (m_gather_rel l k true); eauto|].
  intros s1 t1 (X & _ & _ & Hr). clear H HC s t. ds. eqs. rb. rb. eapply rel_bind; [apply rel_eq|]. intros x ? <-. cbv zeta.
  match goal with |- context [put_range ?B ?o ?x] => destruct (put_range B o x) as [B'| |] eqn:E; cbn [bind]; simpl; auto end.
  apply put_range_length in E. split; [reflexivity|]. unfold mR, mL. cbn. repeat split; auto. lia.
Qed.

Lemma m_rr_rel k l s t : mQ l s t ->
  rel_res (fun a b => fst a = fst b /\ mR (snd a) (snd b) /\ l + k = n /\ dC_ok l k (snd a)) (m_rr fo bl loc n k l s) (c_rr bl true n k l t).
Proof.
  intros (H & h & Hh & HC). unfold m_rr, c_rr. cbn [andb]. destruct (Nat.eqb_spec (l + k) n) as [E|E]; cbn [negb]; [|simpl; auto].
  rewrite Hh. eapply rel_bind.
  { apply (m_gather_rel l k (negb h)); auto. intros X. replace k with (n - l) by lia. apply HC. now destruct h. }
  intros s1 t1 (X & X1 & _ & Hr). clear H Hh HC s t. ds. eqs.
  destruct (copy_ok B dB l k) as (d & -> & Ld & Ed); [lia|lia|]. cbn [bind]. rewrite Ed.
  destruct (get_ok B l k) as (b & -> & Lb); [lia|]. destruct (get_ok B2 l k) as (b2 & -> & Lb2); [lia|]. cbn [bind]. cbv zeta.
  destruct (get_ok C2 l k) as (c2 & -> & Lc2); [lia|]. cbn [bind].
  set (new := map (b_comb bl c2 (b_gram bl b2 b)) (seq 0 k)). assert (Ln : length new = k) by (unfold new; rewrite map_length, seq_length; auto).
  destruct (put_ok dC l new) as (dC' & EdC & LdC); [lia|]. rewrite EdC. cbn [bind]. apply put_get in EdC. rewrite Ln in EdC.
  unfold copy_cols. rewrite EdC. cbn [bind].
  destruct (put_ok C l new) as (C' & EC & LC); [lia|]. rewrite EC. cbn [bind]. apply put_get in EC. rewrite Ln in EC. rewrite EC. cbn [bind].
  destruct (put_ok C2 l new) as (C2' & -> & LC2); [lia|]. cbn. split; [reflexivity|]. split; [|split; [auto|]]; unfold mR, mL, dC_ok; cbn; repeat split; auto; try lia; congruence.
Qed.

Lemma m_hhqr_rel l s t : mR s t -> rel_res (fun s' t' => mR s' t' /\ m_hh s' = Some true) (m_hhqr bl false n l s) (c_hhqr bl true n l t).
Proof.
  intros H. ds. eqs. unfold m_hhqr, c_hhqr, set_C. cc.
  rewrite set_full by auto. rewrite get_full by auto. cbn [bind]. rewrite put_full by (rewrite map_length, seq_length; lia). cbn.
  unfold mR, mL. cbn. repeat split; auto. rewrite map_length, seq_length. auto.
Qed.

(** after a Cholesky variant: success leaves the same columns on both sides *)
Definition cholR (a : Z * mstT) (b : Z * cstT) : Prop :=
  fst a = fst b /\ mR (snd a) (snd b) /\ m_hh (snd a) = Some false /\ (fst a = 0%Z -> m_dC (snd a) = m_C (snd a)).

Ltac fin := unfold cholR, mR, mL; cbn; repeat split; auto; rewrite ?map_length, ?seq_length; auto.
Lemma m_factor_full sh (s : mstT) : length (m_dC s) = n ->
  m_factor bl n sh s = Ok (b_potrf bl (if sh then b_dshift bl (b_syherk bl (m_dC s)) else b_syherk bl (m_dC s))).
Proof. intros E. unfold m_factor. rewrite get_full by auto. reflexivity. Qed.
Lemma c_factor_full sh (t : cstT) : length (cs_C t) = n ->
  c_factor bl n sh t = Ok (b_potrf bl (if sh then b_dshift bl (b_syherk bl (cs_C t)) else b_syherk bl (cs_C t))).
Proof. intros E. unfold c_factor. rewrite get_full by auto. reflexivity. Qed.
Lemma set_C_full f (t : cstT) : length (cs_C t) = n ->
  set_C n t f = Ok (mk_cst (cs_H t) (map (f (cs_C t)) (seq 0 n)) (cs_B t) (cs_C2 t) (cs_B2 t) (cs_bAc t)).
Proof. intros E. unfold set_C. rewrite get_full by auto. cbn [bind]. rewrite put_full by (rewrite map_length, seq_length; auto). reflexivity. Qed.
Lemma m_trsm_full R last (s : mstT) : length (m_dC s) = n -> length (m_C s) = n ->
  m_trsm bl n R last s = Ok (with_C s (if last then map (b_trsm bl R (m_dC s)) (seq 0 n) else m_C s) (map (b_trsm bl R (m_dC s)) (seq 0 n))).
Proof.
  intros E E'. unfold m_trsm. rewrite set_full by auto. cbn [bind]. destruct last; [|reflexivity].
  rewrite copy_full by (rewrite ?map_length, ?seq_length; auto). reflexivity.
Qed.
Lemma m_up_full (s : mstT) : length (m_dC s) = n -> length (m_C s) = n -> m_up n s = Ok (with_C s (m_C s) (m_C s)).
Proof. intros E E'. unfold m_up. rewrite copy_full by auto. reflexivity. Qed.

Lemma m_chol1_rel l s t : mR s t -> rel_res cholR (m_chol1 bl n l s) (c_chol1 bl n l t).
Proof.
  intros H. ds. eqs. unfold m_chol1, c_chol1. rewrite m_up_full by (cbn; auto). cc. rewrite m_factor_full, c_factor_full by (cbn; auto). cc.
  destruct (b_potrf bl _) as [i R]. destruct (Z.eqb_spec i 0) as [->|Hi]; cbn [negb].
  - rewrite m_trsm_full, set_C_full by (cbn; auto). fin.
  - fin; intros; contradiction.
Qed.
Lemma m_chol2_rel l s t : no_late_failure bl n -> mR s t -> rel_res cholR (m_chol2 bl n l s) (c_chol2 bl n l t).
Proof.
  intros NL H. ds. eqs. unfold m_chol2, c_chol2. rewrite m_up_full by (cbn; auto). cc. rewrite m_factor_full, c_factor_full by (cbn; auto). cc.
  destruct (b_potrf bl _) as [i R] eqn:E. destruct (Z.eqb_spec i 0) as [->|Hi]; cbn [negb].
  - assert (X : length (map (b_trsm bl R C) (seq 0 n)) = n) by (rewrite map_length, seq_length; auto).
    rewrite m_trsm_full, set_C_full by (cbn; auto). cc. rewrite m_factor_full, c_factor_full by (cbn; auto). cc.
    assert (Y : fst (b_potrf bl (b_syherk bl (map (b_trsm bl R C) (seq 0 n)))) = 0%Z) by (eapply (NL C false); eauto).
    destruct (b_potrf bl (b_syherk bl (map (b_trsm bl R C) (seq 0 n)))) as [i2 R2]. cbn in Y. subst i2.
    rewrite m_trsm_full, set_C_full by (cbn; auto). fin.
  - fin; intros; contradiction.
Qed.
Lemma m_schol2_rel l s t : no_late_failure bl n -> mR s t -> rel_res cholR (m_schol2 bl n l s) (c_schol2 bl true n l t).
Proof.
  intros NL H. ds. eqs. unfold m_schol2, c_schol2. rewrite m_up_full by (cbn; auto). cc. rewrite m_factor_full, c_factor_full by (cbn; auto). cc.
  destruct (b_potrf bl _) as [i R] eqn:E. destruct (Z.eqb_spec i 0) as [->|Hi]; cbn [negb].
  - assert (X : length (map (b_trsm bl R C) (seq 0 n)) = n) by (rewrite map_length, seq_length; auto).
    rewrite m_trsm_full, set_C_full by (cbn; auto). cc. rewrite m_factor_full, c_factor_full by (cbn; auto). cc.
    assert (Y : fst (b_potrf bl (b_syherk bl (map (b_trsm bl R C) (seq 0 n)))) = 0%Z) by (eapply (NL C true); eauto).
    destruct (b_potrf bl (b_syherk bl (map (b_trsm bl R C) (seq 0 n)))) as [i2 R2]. cbn in Y. subst i2. cbn [Z.eqb negb andb].
    rewrite m_trsm_full, set_C_full by (cbn; auto). cc.
    assert (X2 : length (map (b_trsm bl R2 (map (b_trsm bl R C) (seq 0 n))) (seq 0 n)) = n) by (rewrite map_length, seq_length; auto).
    rewrite m_factor_full, c_factor_full by (cbn; auto). cc.
    destruct (b_potrf bl (b_syherk bl (map (b_trsm bl R2 (map (b_trsm bl R C) (seq 0 n))) (seq 0 n)))) as [i3 R3].
    rewrite m_trsm_full, set_C_full by (cbn; auto). fin.
  - fin; intros; contradiction.
Qed.

Lemma m_lockcopy_rel l b s t : mR s t -> rel_res (fun s' t' => mR s' t' /\ l <= n /\ m_hh s' = m_hh s /\ m_dC s' = m_dC s /\
    get_range (m_C s') l (n - l) = get_range (m_C s) l (n - l)) (m_lockcopy n l b s) (c_lockcopy n l b t).
Proof.
  intros H. ds. eqs. unfold m_lockcopy, c_lockcopy. cc.
  destruct (Nat.le_gt_cases l n) as [Hr|Hr].
  2:{ rewrite copy_bad by (cbn; lia). rewrite (get_bad C2 0 l) by (cbn; lia). cbn. auto. }
  unfold copy_cols. destruct (get_ok C2 0 l) as (a & -> & La); [lia|]. cbn [bind]. destruct (put_ok C 0 a) as (C' & EC & LC); [lia|]. rewrite EC. cbn [bind].
  destruct (get_ok C' l (n - l)) as (b' & Eb & Lb); [lia|]. rewrite Eb. cbn [bind]. destruct (put_ok C2 l b') as (C2' & -> & LC2); [lia|]. cbn.
  unfold mR, mL. cbn. repeat split; auto; try lia. apply put_range_split in EC as (_ & _ & EC). rewrite La in EC.
  rewrite !get_range_ok by lia. cbn in EC; now rewrite EC.
Qed.
Lemma m_swap_rel i j s t : mR s t -> rel_res mR (m_swap i j s) (c_swap true i j t).
Proof.
  intros H. ds. eqs. unfold m_swap, c_swap. cc.
  destruct (swap_ C i j) as [C'| |] eqn:E; cbn [bind]; simpl; auto. destruct (swap_ C' i j) as [C''| |] eqn:E'; cbn [bind]; simpl; auto.
  apply AlgProofs1.swap_inv in E as (_ & _ & ->). apply AlgProofs1.swap_inv in E' as (_ & _ & ->). unfold mR, mL. cbn. rewrite !swp_length. repeat split; auto.
Qed.
Lemma m_dos_rel i m rv s t : mR s t -> rel_res mR (m_dos bl i m rv s) (c_dos bl i m rv t).
Proof.
  intros H. ds. eqs. unfold m_dos, c_dos, copy_cols. cc.
  rb. rb. destruct (put_range C2 0 _) as [C2'| |] eqn:E; cbn [bind]; simpl; auto. destruct (get_range C2' 0 m) as [x| |] eqn:E1; cbn [bind]; simpl; auto.
  destruct (put_range C 0 x) as [C'| |] eqn:E2; cbn [bind]; simpl; auto. apply put_range_length in E, E2. unfold mR, mL. cbn. repeat split; auto; lia.
Qed.
Lemma m_mlanczos_rel m nv s t : mR s t -> rel_res (vrel mR) (m_mlanczos fo bl m nv s) (c_mlanczos fo bl m nv t).
Proof.
  intros H. ds. eqs. unfold m_mlanczos, c_mlanczos. cc. destruct (mlanczos fo bl dH m nv C) as [[[[d e] b] C']| |] eqn:E; cbn [bind]; simpl; auto.
  apply mlanczos_len in E. split; [reflexivity|]. unfold mR, mL. cbn. repeat split; auto; lia.
Qed.
End Sim.
