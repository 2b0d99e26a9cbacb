(** The calls of the multi-GPU backend on the asynchronous machine are those of MgpuModel. *)
From Coq Require Import List Arith ZArith Bool Lia.
Require Import Verif.Base Verif.AlgModel Verif.AlgSim Verif.AlgSimLe Verif.DlaModel Verif.DlaSim Verif.DlaSimLe Verif.ColModel Verif.ColProofs1 Verif.MgpuModel
  Verif.AsyncModel Verif.AsyncSpec Verif.AsyncProofs Verif.AsyncGpu Verif.AmgModel Verif.AmgSpec.
Import ListNotations.

Section P.
Context {F V M G T : Type} (fo : fops F) (bl : blas F V M G T).
Context (loc : bool -> M -> F -> F -> V -> V -> V) (locv : M -> V -> V) (locS : list V -> G) (locR : list V -> list V -> G) (red : V -> V) (redG : G -> G).
Context (HS : sums fo bl loc locv locS locR red redG) (scal : bool) (n : nat).
Local Notation dev := (mdev (F := F) (V := V) (M := M) (G := G)).
Local Notation host_ := (mhost (V := V) (M := M)).
Local Notation mk := (mmakes (F := F) (V := V) (M := M) (G := G) n).

(** a program with a continuation reaches the continuation in [h'], [d'] *)
Definition mdoes {X} (p : prog dev (X * host_)) (d : dev) (r : res (X * mst)) : Prop :=
  forall x s', r = Ok (x, s') -> exists h' d', in_order p d = Ok ((x, h'), d') /\ mk h' d' s'.
Definition mdoes_ (p : prog dev host_) (d : dev) (r : res mst) : Prop :=
  forall s', r = Ok s' -> exists h' d', in_order p d = Ok (h', d') /\ mk h' d' s'.

Ltac inv := repeat match goal with
  | H : Ok _ = Ok _ |- _ => injection H as ?; subst
  | H : UB = Ok _ |- _ => discriminate
  | H : Fuel = Ok _ |- _ => discriminate
  | H : bind ?x _ = Ok _ |- _ => let E := fresh "E" in destruct x eqn:E; cbn [bind fst snd] in H; try discriminate
  | H : (let '(_, _) := ?x in _) = Ok _ |- _ => destruct x
  end.
Ltac fields := cbn [x_H x_C x_B x_C2 x_B2 x_A x_ritz x_info x_v x_w y_H y_C y_B y_C2 y_B2 y_bAc y_hh sx_H sx_C sx_B sx_C2 sx_B2 sx_A sx_ritz sx_info sx_v sx_w
  sy_C sy_B sy_C2 sy_B2 sy_next sy_hh m_H m_dH m_C m_dC m_B m_dB m_C2 m_B2 m_bAc m_hh with_C with_hh bind in_order AsyncModel.host fst snd] in *.
Ltac rew := repeat (match goal with E : _ = Ok _ |- _ => rewrite E; cbn [bind AsyncModel.host in_order] end).
Ltac fin := do 2 eexists; (split; [reflexivity|]); (split; [reflexivity|]); fields; repeat split; auto.

Lemma map_zip {A B C D} (g : C -> D) (f : A -> B -> C) (f' : A -> B -> D) l m : (forall a b, g (f a b) = f' a b) -> map g (zip f l m) = zip f' l m.
Proof. intros H. unfold zip. rewrite map_map. apply map_ext. intros [a b]. apply H. Qed.
Lemma zip_fst {A B C} (f : A -> B -> C) (g : A -> C) l m : (forall a b, f a b = g a) -> length l = length m -> zip f l m = map g l.
Proof.
  intros H. unfold zip. revert m. induction l as [|a l IH]; intros [|b m] L; try discriminate; auto. cbn. rewrite H. f_equal. apply IH. now injection L.
Qed.
Lemma copy_inv (src dst r : list V) off k : copy_cols src dst off k = Ok r -> exists c, get_range src off k = Ok c /\ put_range dst off c = Ok r /\ length r = length dst.
Proof. unfold copy_cols. intros H. inv. eexists. split; [reflexivity|]. split; [exact H|]. eapply put_range_length; eauto. Qed.

Lemma m_does_initrnd h d s : mk h d s -> mdoes_ (x_initrnd bl n h) d (m_initrnd bl n s).
Proof.
  intros (-> & L) s' H. unfold m_initrnd in H. inv. fields. apply copy_inv in E0 as (c & E1 & E2 & _). unfold x_initrnd. fields. rew. fields. rew. fields. fin; tauto.
Qed.
Lemma m_does_init h d s : mk h d s -> mdoes_ (x_init n h) d (m_init n s).
Proof.
  intros (-> & L) s' H. unfold m_init in H. inv. fields. unfold x_init. rew. fields. apply copy_inv in E as (c & _ & _ & E2). fin; try tauto. rewrite E2. tauto.
Qed.
Lemma m_does_shift c u h d s : mk h d s -> mdoes_ (x_shift bl c u h) d (m_shift bl c u s).
Proof. intros (-> & L) s' H. unfold m_shift in H. inv. fields. unfold x_shift. fields. fin; tauto. Qed.
Lemma m_does_apply a b off blk l h d s : mk h d s -> mdoes_ (x_apply loc red a b off blk l h) d (m_apply bl loc a b off blk l s).
Proof.
  intros (-> & L) s' H. unfold m_apply in H. fields. unfold x_apply. destruct (y_bAc h) eqn:B0; fields; inv.
  - apply copy_inv in E as (c0 & E4 & E5 & _). unfold up_C, x_prodB. rew. fields. rew.
    assert (G1 : get_range l4 (l + off) blk = Ok (zip (loc true (x_H d) a b) l1 l2)).
    { eapply get_put_; eauto. rewrite zip_length, (get_range_len _ _ _ _ E0), (get_range_len _ _ _ _ E1). lia. }
    fields. rewrite G1. fields. rewrite (map_zip red _ (b_gemmH bl (x_H d) a b)) by apply (sum_H _ _ _ _ _ _ _ _ HS). rew. fields. fin; tauto.
  - apply copy_inv in E as (c0 & E4 & E5 & _). unfold up_B, x_prodC. rew. fields. rew.
    assert (G1 : get_range l4 (l + off) blk = Ok (zip (loc false (x_H d) a b) l1 l2)).
    { eapply get_put_; eauto. rewrite zip_length, (get_range_len _ _ _ _ E0), (get_range_len _ _ _ _ E1). lia. }
    fields. rewrite G1. fields. rewrite (map_zip red _ (b_gemmN bl (x_H d) a b)) by apply (sum_N _ _ _ _ _ _ _ _ HS). rew. fields. fin; tauto.
Qed.

Lemma gather_run locked blk copied h d s s1 : mk h d s -> m_gather fo bl loc locked blk copied s = Ok s1 ->
  exists h1 d1, mk h1 d1 s1 /\ forall A (K : host_ -> prog dev A), in_order (x_gather fo loc red locked blk copied h K) d = in_order (K h1) d1.
Proof.
  intros (-> & L1 & L2 & L3) H. unfold m_gather in H. fields. inv. unfold x_gather.
  rename l into c2, l0 into B2, l1 into dC, l2 into c, l3 into b, l4 into B, l5 into dB.
  assert (W : get_range dB locked blk = Ok (zip (loc true (x_H d) (f_one fo) (f_zero fo)) c b)).
  { eapply get_put_; eauto. rewrite zip_length, (get_range_len _ _ _ _ E2), (get_range_len _ _ _ _ E3). lia. }
  assert (R : map red (zip (loc true (x_H d) (f_one fo) (f_zero fo)) c b) = map (b_mulH bl (x_H d)) c).
  { rewrite (map_zip red _ (b_gemmH bl (x_H d) (f_one fo) (f_zero fo))) by apply (sum_H _ _ _ _ _ _ _ _ HS).
    apply zip_fst; [intros; apply (sum_mul _ _ _ _ _ _ _ _ HS)|]. now rewrite (get_range_len _ _ _ _ E2), (get_range_len _ _ _ _ E3). }
  exists (sy_B (sy_B2 h B2) B), (sx_B (sx_C d dC) dB). split.
  - split; [reflexivity|]. fields. rewrite (put_range_length _ _ _ _ E0). auto.
  - intros A K. destruct copied.
    + injection E1 as <-. rew. unfold x_prodB. fields. rew. fields. rewrite W. fields. rewrite R. rew. destruct d; reflexivity.
    + apply copy_inv in E1 as (c0 & E6 & E7 & _). rew. unfold up_C, x_prodB. rew. fields. rew. fields. rewrite W. fields. rewrite R. rew. reflexivity.
Qed.
Lemma m_does_rr blk l h d s : mk h d s -> mdoes (x_rr fo bl loc locR red redG n blk l h) d (m_rr fo bl loc n blk l s).
Proof.
  intros MK x s' H. unfold m_rr in H. unfold x_rr. destruct (negb (l + blk =? n)) eqn:EN; [discriminate|].
  assert (Eh : m_hh s = y_hh h) by (destruct MK as (-> & _); reflexivity). rewrite Eh in H. destruct (y_hh h) as [f|]; [|discriminate].
  destruct (m_gather fo bl loc l blk (negb f) s) as [s1| |] eqn:EG; cbn [bind] in H; try discriminate.
  destruct (gather_run _ _ _ _ _ _ _ MK EG) as (h1 & d1 & (-> & L1 & L2 & L3) & R). rewrite R. clear R EG MK Eh.
  fields. inv.
  rename l0 into dB, l1 into b, l2 into b2, l3 into c2, l4 into dC, l5 into C, l6 into C2.
  apply copy_inv in E as (b0 & E7 & E8 & _). apply copy_inv in E4 as (c & E9 & E10 & _). pose proof (copy_inv _ _ _ _ _ E5) as (c' & _ & _ & LC2).
  assert (Lb2 : length b2 = blk) by (eapply get_range_len; eauto). assert (Lc2 : length c2 = blk) by (eapply get_range_len; eauto).
  destruct (put_ok (x_B2 d1) l b2) as (X2 & P2 & Q2). { rewrite L2. apply get_range_inv in E1. lia. }
  destruct (put_ok (x_C2 d1) l c2) as (Y2 & P3 & Q3). { rewrite L1. apply get_range_inv in E2. lia. }
  assert (G2 : get_range X2 l blk = Ok b2) by (eapply get_put_; eauto). assert (G3 : get_range Y2 l blk = Ok c2) by (eapply get_put_; eauto).
  set (ev := map (b_eval bl (b_gram bl b2 b)) (seq 0 blk)). assert (Lev : length ev = blk) by (subst ev; now rewrite map_length, seq_length).
  destruct (put_ok (x_ritz d1) 0 ev) as (rz & P4 & Q4). { apply negb_false_iff, Nat.eqb_eq in EN. lia. }
  assert (G4 : get_range rz 0 blk = Ok ev) by (eapply get_put_; eauto).
  pose proof (sum_gram _ _ _ _ _ _ _ _ HS b2 b) as SG.
  unfold up_B, up_B2, up_C2. rew. fields. rew. fields. rew. fields. rewrite SG. fold ev. rew. fields. rew. fields. rew. fields. rewrite E9. fields. rew. fields.
  do 2 eexists. split; [reflexivity|]. split; [reflexivity|]. fields. rewrite LC2. repeat split; lia.
Qed.
Lemma m_does_resd v l u h d s : mk h d s -> mdoes (x_resd fo bl loc red v l u h) d (m_resd fo bl loc v l u s).
Proof.
  intros MK x s' H. unfold m_resd in H. unfold x_resd.
  destruct (m_gather fo bl loc l u true s) as [s1| |] eqn:EG; cbn [bind] in H; try discriminate.
  destruct (gather_run _ _ _ _ _ _ _ MK EG) as (h1 & d1 & (-> & L1 & L2 & L3) & R). rewrite R. clear R EG MK.
  fields. inv. fields. rewrite E2. fields. fin.
Qed.
Lemma m_does_hhqr l h d s : mk h d s -> mdoes_ (x_hhqr bl scal n l h) d (m_hhqr bl scal n l s).
Proof.
  intros (-> & L) s' H. unfold m_hhqr in H. inv. fields. unfold x_hhqr. rew. fields. destruct scal; inv; fin; tauto.
Qed.
Lemma up_run h d s s1 : mk h d s -> m_up n s = Ok s1 -> exists d1, mk h d1 s1 /\ forall A (K : prog dev A), in_order (up_C h 0 n K) d = in_order K d1.
Proof.
  intros (-> & L) H. unfold m_up in H. inv. fields. apply copy_inv in E as (c & E1 & E2 & _). exists (sx_C d l). split; [split; [reflexivity|exact L]|].
  intros A K. unfold up_C. rew. reflexivity.
Qed.
Lemma factor_run h d s sh z R : mk h d s -> m_factor bl n sh s = Ok (z, R) -> exists d1, mk h d1 s /\ x_A d1 = R /\ forall isinfo A (K : Z -> prog dev A),
  in_order (x_factor bl locS redG n sh isinfo K) d = in_order (K (if isinfo then z else 0%Z)) d1.
Proof.
  intros (-> & L) H. unfold m_factor in H. fields. inv. pose proof (sum_syherk _ _ _ _ _ _ _ _ HS l) as SS.
  exists (sx_info (sx_A d R) z). split; [split; [reflexivity|exact L]|]. split; [reflexivity|]. intros isinfo A K. unfold x_factor. fields. rew. fields.
  rewrite SS. rewrite H. fields. destruct isinfo; reflexivity.
Qed.
Lemma trsm_run h d s R last s1 : mk h d s -> x_A d = R -> m_trsm bl n R last s = Ok s1 -> exists h1 d1, mk h1 d1 s1 /\ forall A (K : host_ -> prog dev A),
  in_order (x_trsm bl n last h K) d = in_order (K h1) d1.
Proof.
  intros (-> & L) <- H. unfold m_trsm in H. fields. inv. destruct last.
  - apply copy_inv in E0 as (c & E1 & E2 & _). exists (sy_C h l0), (sx_C d l). split; [split; [reflexivity|exact L]|]. intros A K. unfold x_trsm. fields. rew. fields. rew. reflexivity.
  - injection E0 as <-. exists h, (sx_C d l). split; [split; [reflexivity|exact L]|]. intros A K. unfold x_trsm. fields. rew. reflexivity.
Qed.
Lemma mk_hh h (d : dev) s b : mk h d s -> mk (sy_hh h b) d (with_hh s b).
Proof. intros (-> & L). split; [reflexivity|exact L]. Qed.
Ltac ret := do 2 eexists; split; [reflexivity|eassumption].
Lemma m_does_chol1 l h d s : mk h d s -> mdoes (x_chol1 bl locS redG n l h) d (m_chol1 bl n l s).
Proof.
  intros MK x s' H. unfold m_chol1 in H. unfold x_chol1. cbv zeta. apply (mk_hh _ _ _ (Some false)) in MK. inv.
  destruct (up_run _ _ _ _ MK E) as (d1 & M1 & R1). rewrite R1. destruct (factor_run _ _ _ _ _ _ M1 E0) as (d2 & M2 & <- & R2). rewrite R2.
  destruct (negb (z =? 0)%Z); inv; [ret|]. destruct (trsm_run _ _ _ _ _ _ M2 eq_refl E1) as (h3 & d3 & M3 & R3). rewrite R3. ret.
Qed.
Lemma m_does_chol2 l h d s : mk h d s -> mdoes (x_chol2 bl locS redG n l h) d (m_chol2 bl n l s).
Proof.
  intros MK x s' H. unfold m_chol2 in H. unfold x_chol2. cbv zeta. apply (mk_hh _ _ _ (Some false)) in MK. inv.
  destruct (up_run _ _ _ _ MK E) as (d1 & M1 & R1). rewrite R1. destruct (factor_run _ _ _ _ _ _ M1 E0) as (d2 & M2 & <- & R2). rewrite R2.
  destruct (negb (z =? 0)%Z); inv; [ret|]. destruct (trsm_run _ _ _ _ _ _ M2 eq_refl E1) as (h3 & d3 & M3 & R3). rewrite R3.
  destruct (factor_run _ _ _ _ _ _ M3 E2) as (d4 & M4 & <- & R4). rewrite R4. destruct (trsm_run _ _ _ _ _ _ M4 eq_refl E3) as (h5 & d5 & M5 & R5). rewrite R5. ret.
Qed.
Lemma m_does_schol2 l h d s : mk h d s -> mdoes (x_schol2 bl locS redG n l h) d (m_schol2 bl n l s).
Proof.
  intros MK x s' H. unfold m_schol2 in H. unfold x_schol2. cbv zeta. apply (mk_hh _ _ _ (Some false)) in MK. inv.
  destruct (up_run _ _ _ _ MK E) as (d1 & M1 & R1). rewrite R1. destruct (factor_run _ _ _ _ _ _ M1 E0) as (d2 & M2 & <- & R2). rewrite R2.
  destruct (negb (z =? 0)%Z); inv; [ret|]. destruct (trsm_run _ _ _ _ _ _ M2 eq_refl E1) as (h3 & d3 & M3 & R3). rewrite R3.
  destruct (factor_run _ _ _ _ _ _ M3 E2) as (d4 & M4 & <- & R4). rewrite R4. cbv iota. destruct (negb (z0 =? 0)%Z); inv; [ret|].
  destruct (trsm_run _ _ _ _ _ _ M4 eq_refl E3) as (h5 & d5 & M5 & R5). rewrite R5. destruct (factor_run _ _ _ _ _ _ M5 E4) as (d6 & M6 & <- & R6). rewrite R6.
  destruct (trsm_run _ _ _ _ _ _ M6 eq_refl E5) as (h7 & d7 & M7 & R7). rewrite R7. ret.
Qed.
Lemma m_does_lockcopy l b h d s : mk h d s -> mdoes_ (x_lockcopy n l b h) d (m_lockcopy n l b s).
Proof.
  intros (-> & L1 & L2) s' H. unfold m_lockcopy in H. inv. fields. inv. unfold x_lockcopy. rew. pose proof (copy_inv _ _ _ _ _ E0) as (c & _ & _ & Lc). fin; try tauto. congruence.
Qed.
Lemma m_does_swap i j h d s : mk h d s -> mdoes_ (x_swap i j h) d (m_swap i j s).
Proof. intros (-> & L) s' H. unfold m_swap in H. inv. fields. inv. unfold x_swap. rew. fin; tauto. Qed.
Lemma m_does_dos i m rv h d s : mk h d s -> mdoes_ (x_dos bl i m rv h) d (m_dos bl i m rv s).
Proof.
  intros (-> & L1 & L2) s' H. unfold m_dos in H. inv. fields. inv. unfold x_dos. rew. pose proof (put_range_length _ _ _ _ E1) as Lc. fin; try tauto. congruence.
Qed.

(** mLanczos *)
Definition same (d d' : dev) : Prop := x_H d' = x_H d /\ x_C d' = x_C d /\ x_B d' = x_B d /\ x_C2 d' = x_C2 d /\ x_B2 d' = x_B2 d /\ x_ritz d' = x_ritz d.
Lemma same_trans a b c : same a b -> same b c -> same a c.
Proof. intros (A1 & A2 & A3 & A4 & A5 & A6) (B1 & B2 & B3 & B4 & B5 & B6). repeat split; congruence. Qed.
Lemma xbody_run second Mn nv k d s s1 v2 : ml_body fo bl (x_H d) second Mn nv k s = Ok (s1, v2) ->
  exists d1, same d d1 /\ forall A (K : _ -> _ -> prog dev A), in_order (x_body fo bl locv red second Mn nv k s K) d = in_order (K s1 v2) d1.
Proof.
  intros H. unfold ml_body in H. set (v := map (b_mulH bl (x_H d)) (ml_v1 s)) in *.
  assert (R : map red (map (locv (x_H d)) (ml_v1 s)) = v) by (unfold v; rewrite map_map; apply map_ext; intros x; apply (sum_vec _ _ _ _ _ _ _ _ HS)).
  destruct (if second then _ else _) as [C| |] eqn:EC; cbn [bind] in H; try discriminate.
  exists (sx_w (sx_v d (ml_v1 s)) (map (locv (x_H d)) (ml_v1 s))). split; [repeat split|].
  intros A K. unfold x_body. rewrite EC. fields. rewrite R. unfold ml_after.
  destruct (for_ nv 0 _ (ml_d s)) as [ds| |]; cbn [bind] in H; try discriminate. injection H as <- <-. reflexivity.
Qed.
Lemma xloop_run t : forall k second Mn nv d s s', ml_loop fo bl t k (x_H d) second Mn nv s = Ok s' ->
  exists d1, same d d1 /\ forall A (K : _ -> prog dev A), in_order (x_loop fo bl locv red t k second Mn nv s K) d = in_order (K s') d1.
Proof.
  induction t as [|t IH]; intros k second Mn nv d s s' H.
  - injection H as <-. exists d. split; [repeat split|reflexivity].
  - cbn [ml_loop] in H. destruct (ml_body _ _ _ _ _ _ _ _) as [[s1 v2]| |] eqn:EB; cbn [bind] in H; try discriminate.
    destruct (xbody_run _ _ _ _ _ _ _ _ EB) as (d1 & S1 & R1). destruct t.
    + injection H as <-. exists d1. split; [exact S1|]. intros A K. cbn [x_loop]. rewrite R1. reflexivity.
    + destruct (ml_next _ _ _ _ _ _ _) as [s2| |] eqn:EN; cbn [bind] in H; try discriminate.
      assert (EH : x_H d1 = x_H d) by apply S1. rewrite <- EH in H.
      destruct (IH _ _ _ _ _ _ _ H) as (d2 & S2 & R2). exists d2. split; [eapply same_trans; eauto|]. intros A K.
      change (x_loop fo bl locv red (S (S t)) k second Mn nv s K) with (x_body fo bl locv red second Mn nv k s (fun s1 v2 =>
        AsyncModel.host (ml_next fo bl Mn nv k s1 v2) (fun s2 => x_loop fo bl locv red (S t) (k + 1) second Mn nv s2 K))).
      rewrite R1, EN. cbn [AsyncModel.host]. apply R2.
Qed.
Lemma m_does_mlanczos Mn nv h d s : mk h d s -> mdoes (x_mlanczos fo bl locv red Mn nv h) d (m_mlanczos fo bl Mn nv s).
Proof.
  intros (-> & L) [[ds es] bs] s' H. unfold m_mlanczos, mlanczos in H. unfold x_mlanczos. fields.
  destruct (match nv with None => _ | Some _ => _ end) as [second m]. cbv zeta in *.
  destruct (get_range (y_C h) 0 m) as [st| |] eqn:E1; cbn [bind AsyncModel.host] in *; try discriminate.
  destruct (ml_loop _ _ _ _ _ _ _ _ _) as [s| |] eqn:E2; cbn [bind] in H; try discriminate.
  destruct (if second then _ else _) as [C| |] eqn:E3; cbn [bind] in H; try discriminate. injection H as <- <- <- <-.
  destruct (xloop_run _ _ _ _ _ _ _ _ E2) as (d1 & (S1 & S2 & S3 & S4 & S5 & S6) & R1). rewrite R1, E3. cbn [AsyncModel.host in_order].
  do 2 eexists. split; [reflexivity|]. split; [fields; now rewrite S1, S2, S3|]. fields. now rewrite S4, S5, S6.
Qed.

(** all on the default stream *)
Context (sch : nat -> list nat).
Definition deft (s : stream) : Prop := s = Legacy.
Lemma deft_line : one_line deft.
Proof. intros a b -> ->. reflexivity. Qed.
Definition mfine {A} (p : prog dev A) : Prop := uses deft p /\ guarded false p.
Lemma mguarded_up {A} (p : prog dev A) : guarded false p -> guarded true p.
Proof. induction p; cbn; auto. intros [E _]. discriminate. Qed.
Lemma mfine_ret {A} (a : A) : mfine (Ret a). Proof. split; exact I. Qed.
Lemma mfine_bad {A} : mfine (@Bad dev A). Proof. split; exact I. Qed.
Lemma mfine_dev {A} f (k : prog dev A) : mfine k -> mfine (Dev Legacy f k).
Proof. intros [A1 A2]. repeat split; assumption. Qed.
Lemma mfine_get {A X} (f : dev -> res X) (k : X -> prog dev A) : (forall x, mfine (k x)) -> mfine (Get Legacy f k).
Proof. intros HK. split; cbn; [split; [reflexivity|]; intros x; apply HK|]. intros x. apply mguarded_up. apply HK. Qed.
Lemma mfine_host {A X} (r : res X) (k : X -> prog dev A) : (forall x, mfine (k x)) -> mfine (AsyncModel.host r k).
Proof. intros HK. destruct r; cbn; [apply HK|apply mfine_bad|apply mfine_bad]. Qed.
Ltac mfn := repeat first
  [ match goal with
    | |- mfine (Ret _) => apply mfine_ret
    | |- mfine Bad => apply mfine_bad
    | |- mfine (Dev _ _ _) => apply mfine_dev
    | |- mfine (Get _ _ _) => apply mfine_get; intros ?
    | |- mfine (AsyncModel.host _ _) => apply mfine_host; intros ?
    end
  | match goal with |- mfine (if ?b then _ else _) => destruct b end
  | match goal with |- mfine (match ?b with Some _ => _ | None => _ end) => destruct b end
  | progress unfold up_C, up_B, up_B2, up_C2, x_gather, x_factor, x_trsm; cbv zeta ].
Lemma mfine_loop t : forall k second Mn nv s A (K : _ -> prog dev A), (forall s, mfine (K s)) -> mfine (x_loop fo bl locv red t k second Mn nv s K).
Proof.
  induction t as [|t IH]; intros k second Mn nv s A K HK; [apply HK|]. cbn [x_loop]. unfold x_body. mfn; first [apply HK|apply (IH _ _ _ _ _ _ _ HK)].
Qed.
Local Notation L1 := (amgD fo bl loc locv locS locR red redG scal n sch).
Local Notation L2 := (mgpuD fo bl loc scal n).
Local Notation stands := (mstands n).
Lemma mact_le p r (s : amst (F := F) (V := V) (M := M) (G := G)) : mfine (p (mt_obj s)) ->
  forall g, stands s g -> (forall d, mk (mt_obj s) d g -> mdoes_ (p (mt_obj s)) d r) -> rel_le stands (mact sch s p) r.
Proof.
  intros [HU HG] g (d & E & Q & MU) H. apply le_intro. intros g' Hr. destruct (H d MU g' Hr) as (h' & d' & R1 & MU').
  destruct (exec_ok deft deft_line sch (p (mt_obj s)) (mt_now s) (mt_cfg s) _ _ _ HU HG Q E R1) as (t' & c' & E' & Fc & Qc).
  unfold mact. rewrite E'. cbn [bind]. eexists. split; [reflexivity|]. exists d'. cbn [mt_cfg mt_obj]. auto.
Qed.
Lemma mact_v_le {X} (p : _ -> prog dev (X * mhost)) r (s : amst (F := F) (V := V) (M := M) (G := G)) : mfine (p (mt_obj s)) ->
  forall g, stands s g -> (forall d, mk (mt_obj s) d g -> mdoes (p (mt_obj s)) d r) -> rel_le (vrel stands) (mact_v sch s p) r.
Proof.
  intros [HU HG] g (d & E & Q & MU) H. apply le_intro. intros [x g'] Hr. destruct (H d MU x g' Hr) as (h' & d' & R1 & MU').
  destruct (exec_ok deft deft_line sch (p (mt_obj s)) (mt_now s) (mt_cfg s) _ _ _ HU HG Q E R1) as (t' & c' & E' & Fc & Qc).
  unfold mact_v. rewrite E'. cbn [bind fst snd]. eexists. split; [reflexivity|]. split; [reflexivity|]. exists d'. cbn [mt_cfg mt_obj snd]. auto.
Qed.
Lemma amg_le : dla_le L1 L2 stands.
Proof.
  split; cbn [amgD mgpuD d_sym d_start d_end d_initrnd d_init d_shift d_apply d_hhqr d_chol1 d_chol2 d_schol2 d_lockcopy d_rr d_resd d_swap d_mlanczos d_dos].
  - intros s g Hs. pose proof Hs as (d & _ & _ & -> & _). cbn. split; [reflexivity|exact Hs].
  - intros s g Hs. exact Hs.
  - intros s g Hs. exact Hs.
  - intros s g Hs. eapply mact_le; eauto; [unfold x_initrnd; mfn|]. intros d MU. now apply m_does_initrnd.
  - intros s g Hs. eapply mact_le; eauto; [unfold x_init; mfn|]. intros d MU. now apply m_does_init.
  - intros c u s g Hs. eapply (mact_le (fun h => x_shift bl c u h)); eauto; [unfold x_shift; mfn|]. intros d MU. now apply m_does_shift.
  - intros a b off blk l s g Hs. eapply (mact_le (fun h => x_apply loc red a b off blk l h)); eauto; [unfold x_apply; mfn|]. intros d MU. now apply m_does_apply.
  - intros l s g Hs. eapply (mact_le (fun h => x_hhqr bl scal n l h)); eauto; [unfold x_hhqr; mfn|]. intros d MU. now apply m_does_hhqr.
  - intros l s g Hs. eapply (mact_v_le (fun h => x_chol1 bl locS redG n l h)); eauto; [unfold x_chol1; mfn|]. intros d MU. now apply m_does_chol1.
  - intros l s g Hs. eapply (mact_v_le (fun h => x_chol2 bl locS redG n l h)); eauto; [unfold x_chol2; mfn|]. intros d MU. now apply m_does_chol2.
  - intros l s g Hs. eapply (mact_v_le (fun h => x_schol2 bl locS redG n l h)); eauto; [unfold x_schol2; mfn|]. intros d MU. now apply m_does_schol2.
  - intros l b s g Hs. eapply (mact_le (fun h => x_lockcopy n l b h)); eauto; [unfold x_lockcopy; mfn|]. intros d MU. now apply m_does_lockcopy.
  - intros blk l s g Hs. eapply (mact_v_le (fun h => x_rr fo bl loc locR red redG n blk l h)); eauto; [unfold x_rr; mfn|]. intros d MU. now apply m_does_rr.
  - intros v l u s g Hs. eapply (mact_v_le (fun h => x_resd fo bl loc red v l u h)); eauto; [unfold x_resd; mfn|]. intros d MU. now apply m_does_resd.
  - intros i j s g Hs. eapply (mact_le (fun h => x_swap i j h)); eauto; [unfold x_swap; mfn|]. intros d MU. now apply m_does_swap.
  - intros m nv s g Hs. eapply (mact_v_le (fun h => x_mlanczos fo bl locv red m nv h)); eauto.
    + unfold x_mlanczos. destruct (match nv with None => _ | Some _ => _ end). mfn. apply mfine_loop. intros. mfn.
    + intros d MU. now apply m_does_mlanczos.
  - intros i m rv s g Hs. eapply (mact_le (fun h => x_dos bl i m rv h)); eauto; [unfold x_dos; mfn|]. intros d MU. now apply m_does_dos.
Qed.

Context (qe : qr_env F) (td : tridiag F) (cf : conf F).
Local Notation K1 := (cmK fo qe td L1 (c_nev cf) (c_nex cf)).
Local Notation K2 := (cmK fo qe td L2 (c_nev cf) (c_nex cf)).
Lemma amg_solve fsort si s g ritzv resid o :
  cm_locked s = cm_locked g -> stands (cm_dla s) (cm_dla g) ->
  solve fo K2 fsort si cf g ritzv resid = Ok o ->
  exists o', solve fo K1 fsort si cf s ritzv resid = Ok o' /\ o_ritz o' = o_ritz o /\ o_res o' = o_res o /\
    (o_exit o' = None <-> o_exit o = None) /\
    y_C (mt_obj (cm_dla (o_k o'))) = m_C (cm_dla (o_k o)) /\ y_H (mt_obj (cm_dla (o_k o'))) = m_H (cm_dla (o_k o)) /\
    cm_locked (o_k o') = cm_locked (o_k o) /\ stands (cm_dla (o_k o')) (cm_dla (o_k o)).
Proof.
  intros EL Hs H.
  pose proof (cm_le fo qe td (c_nev cf) (c_nex cf) L1 L2 stands amg_le) as KL.
  pose proof (solve_le fo _ _ _ KL fsort si cf s g ritzv resid (conj EL Hs)) as Q.
  destruct (le_ok _ _ _ _ Q H) as (o' & E' & ((EL' & HS') & E1 & E2 & E3)).
  exists o'. split; [exact E'|]. split; [exact E1|]. split; [exact E2|]. split.
  - destruct (o_exit o'), (o_exit o); try contradiction; split; intros; congruence.
  - pose proof HS' as (d & _ & _ & MU & _). rewrite MU. repeat split; auto. rewrite <- MU. exact HS'.
Qed.
End P.
