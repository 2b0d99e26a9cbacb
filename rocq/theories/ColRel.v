(** Related BLAS operations give related column-level backends, and related runs of the solver on them. *)
From Coq Require Import List Arith ZArith Bool Lia.
Require Import Verif.Base Verif.AlgModel Verif.AlgSpec Verif.AlgProofs1 Verif.AlgProofs2 Verif.AlgSim Verif.AlgSim2 Verif.DlaModel Verif.DlaSim Verif.ColModel.
Import ListNotations.

Record blas_rel {F V1 V2 M1 M2 G1 G2 T} (b1 : blas F V1 M1 G1 T) (b2 : blas F V2 M2 G2 T)
  (RV : V1 -> V2 -> Prop) (RM : M1 -> M2 -> Prop) (RG : G1 -> G2 -> Prop) : Prop := {
  br_gemmN : forall H H' a b x x' y y', RM H H' -> RV x x' -> RV y y' -> RV (b_gemmN b1 H a b x y) (b_gemmN b2 H' a b x' y');
  br_gemmH : forall H H' a b x x' y y', RM H H' -> RV x x' -> RV y y' -> RV (b_gemmH b1 H a b x y) (b_gemmH b2 H' a b x' y');
  br_mulN : forall H H' x x', RM H H' -> RV x x' -> RV (b_mulN b1 H x) (b_mulN b2 H' x');
  br_mulH : forall H H' x x', RM H H' -> RV x x' -> RV (b_mulH b1 H x) (b_mulH b2 H' x');
  br_shift : forall H H' c, RM H H' -> RM (b_shift b1 H c) (b_shift b2 H' c);
  br_rnd : forall j, RV (b_rnd b1 j) (b_rnd b2 j);
  br_test : RV (b_test b1) (b_test b2);
  br_veq : forall x x' y y', RV x x' -> RV y y' -> b_veq b1 x y = b_veq b2 x' y';
  br_zero : RV (b_zero b1) (b_zero b2);
  br_hh : forall l l' c, Forall2 RV l l' -> RV (b_hh b1 l c) (b_hh b2 l' c);
  br_syherk : forall l l', Forall2 RV l l' -> RG (b_syherk b1 l) (b_syherk b2 l');
  br_dshift : forall g g', RG g g' -> RG (b_dshift b1 g) (b_dshift b2 g');
  br_potrf : forall g g', RG g g' -> fst (b_potrf b1 g) = fst (b_potrf b2 g') /\ RG (snd (b_potrf b1 g)) (snd (b_potrf b2 g'));
  br_trsm : forall g g' l l' c, RG g g' -> Forall2 RV l l' -> RV (b_trsm b1 g l c) (b_trsm b2 g' l' c);
  br_gram : forall l l' m m', Forall2 RV l l' -> Forall2 RV m m' -> RG (b_gram b1 l m) (b_gram b2 l' m');
  br_eval : forall g g' i, RG g g' -> b_eval b1 g i = b_eval b2 g' i;
  br_comb : forall l l' g g' j, Forall2 RV l l' -> RG g g' -> RV (b_comb b1 l g j) (b_comb b2 l' g' j);
  br_combl : forall l l' rv j, Forall2 RV l l' -> RV (b_combl b1 l rv j) (b_combl b2 l' rv j);
  br_inj : forall x, b_inj b1 x = b_inj b2 x;
  br_re : forall x, b_re b1 x = b_re b2 x;
  br_tneg : forall x, b_tneg b1 x = b_tneg b2 x;
  br_dot : forall x x' y y', RV x x' -> RV y y' -> b_dot b1 x y = b_dot b2 x' y';
  br_axpy : forall a x x' y y', RV x x' -> RV y y' -> RV (b_axpy b1 a x y) (b_axpy b2 a x' y');
  br_scal : forall a x x', RV x x' -> RV (b_scal b1 a x) (b_scal b2 a x');
  br_nrm2 : forall x x', RV x x' -> b_nrm2 b1 x = b_nrm2 b2 x'
}.

(** ** lists *)
Lemma f2_length {A B} (R : A -> B -> Prop) l l' : Forall2 R l l' -> length l = length l'.
Proof. induction 1; cbn; auto. Qed.
Lemma f2_firstn {A B} (R : A -> B -> Prop) k : forall l l', Forall2 R l l' -> Forall2 R (firstn k l) (firstn k l').
Proof. induction k; intros l l' H; cbn; [constructor|]. destruct H; constructor; auto. Qed.
Lemma f2_skipn {A B} (R : A -> B -> Prop) k : forall l l', Forall2 R l l' -> Forall2 R (skipn k l) (skipn k l').
Proof. induction k; intros l l' H; cbn; auto. destruct H; auto. Qed.
Lemma f2_map {A B A' B'} (R : A -> B -> Prop) (Q : A' -> B' -> Prop) f g : (forall a b, R a b -> Q (f a) (g b)) ->
  forall l l', Forall2 R l l' -> Forall2 Q (map f l) (map g l').
Proof. intros H. induction 1; cbn; constructor; auto. Qed.
Lemma f2_eq {A} (l : list A) : Forall2 eq l l.
Proof. induction l; constructor; auto. Qed.
Lemma f2_eq_inv {A} (l l' : list A) : Forall2 eq l l' -> l = l'.
Proof. induction 1; congruence. Qed.
Lemma f2_zip {A B A' B' C D} (R : A -> A' -> Prop) (Q : B -> B' -> Prop) (S : C -> D -> Prop) f g :
  (forall a a' b b', R a a' -> Q b b' -> S (f a b) (g a' b')) ->
  forall l l', Forall2 R l l' -> forall m m', Forall2 Q m m' -> Forall2 S (zip f l m) (zip g l' m').
Proof.
  intros H. unfold zip. induction 1 as [|a a' l l' Ha _ IH]; intros m m' Hm; cbn; [constructor|].
  destruct Hm; cbn; constructor; cbn; auto.
Qed.
Lemma f2_combine {A B A' B'} (R : A -> A' -> Prop) (Q : B -> B' -> Prop) :
  forall l l', Forall2 R l l' -> forall m m', Forall2 Q m m' -> Forall2 (fun p q => R (fst p) (fst q) /\ Q (snd p) (snd q)) (combine l m) (combine l' m').
Proof. induction 1 as [|a a' l l' Ha _ IH]; intros m m' Hm; cbn; [constructor|]. destruct Hm; cbn; constructor; cbn; auto. Qed.
Lemma f2_repeat {A B} (R : A -> B -> Prop) a b k : R a b -> Forall2 R (repeat a k) (repeat b k).
Proof. induction k; cbn; constructor; auto. Qed.
Lemma f2_seq {A B} (R : A -> B -> Prop) f g : (forall i : nat, R (f i) (g i)) -> forall l, Forall2 R (map f l) (map g l).
Proof. intros H. induction l; cbn; constructor; auto. Qed.

Lemma get_rel {A B} (R : A -> B -> Prop) l l' a n : Forall2 R l l' -> rel_res (Forall2 R) (get_range l a n) (get_range l' a n).
Proof.
  intros H. unfold get_range. rewrite (f2_length _ _ _ H). destruct (_ <=? _); cbn; auto. now apply f2_firstn, f2_skipn.
Qed.
Lemma put_rel {A B} (R : A -> B -> Prop) l l' a x x' : Forall2 R l l' -> Forall2 R x x' -> rel_res (Forall2 R) (put_range l a x) (put_range l' a x').
Proof.
  intros H Hx. unfold put_range. rewrite (f2_length _ _ _ H), (f2_length _ _ _ Hx). destruct (_ <=? _); cbn; auto.
  repeat apply Forall2_app; auto using f2_firstn, f2_skipn.
Qed.
Lemma rd_rel {A B} (R : A -> B -> Prop) l l' i : Forall2 R l l' -> rel_res R (rd l i) (rd l' i).
Proof. intros H. revert i. unfold rd. induction H; intros [|i]; cbn; auto. Qed.
Lemma upd_rel {A B} (R : A -> B -> Prop) l l' i x x' : Forall2 R l l' -> R x x' -> Forall2 R (upd l i x) (upd l' i x').
Proof. intros H Hx. revert i. induction H; intros [|i]; cbn; auto. Qed.
Lemma wr_rel {A B} (R : A -> B -> Prop) l l' i x x' : Forall2 R l l' -> R x x' -> rel_res (Forall2 R) (wr l i x) (wr l' i x').
Proof. intros H Hx. unfold wr. rewrite (f2_length _ _ _ H). destruct (_ <? _); cbn; auto. now apply upd_rel. Qed.
Lemma swap_rel {A B} (R : A -> B -> Prop) l l' i j : Forall2 R l l' -> rel_res (Forall2 R) (swap_ l i j) (swap_ l' i j).
Proof.
  intros H. unfold swap_. eapply rel_bind; [apply rd_rel; eassumption|]. intros x x' Hx. eapply rel_bind; [apply rd_rel; eassumption|]. intros y y' Hy.
  eapply rel_bind; [apply wr_rel; eassumption|]. intros. now apply wr_rel.
Qed.

Section Rel.
Context {F V1 V2 M1 M2 G1 G2 T : Type} (fo : fops F) (b1 : blas F V1 M1 G1 T) (b2 : blas F V2 M2 G2 T).
Context (RV : V1 -> V2 -> Prop) (RM : M1 -> M2 -> Prop) (RG : G1 -> G2 -> Prop) (BR : blas_rel b1 b2 RV RM RG).
Notation RL := (Forall2 RV).

Definition mlR (s : ml (F := F) (V := V1)) (t : ml (F := F) (V := V2)) : Prop :=
  RL (ml_C s) (ml_C t) /\ RL (ml_v0 s) (ml_v0 t) /\ RL (ml_v1 s) (ml_v1 t) /\ ml_d s = ml_d t /\ ml_e s = ml_e t /\ ml_b s = ml_b t.

Lemma map_dot_rel l l' m m' : RL l l' -> RL m m' -> zip (b_dot b1) l m = zip (b_dot b2) l' m'.
Proof. intros. apply f2_eq_inv. eapply f2_zip with (R := RV) (Q := RV); eauto. apply (br_dot _ _ _ _ _ BR). Qed.
Lemma map_nrm_rel l l' : RL l l' -> map (b_nrm2 b1) l = map (b_nrm2 b2) l'.
Proof. intros. apply f2_eq_inv. eapply f2_map with (R := RV); eauto. apply (br_nrm2 _ _ _ _ _ BR). Qed.
Lemma axpys_rel l l' m m' (a : list T) : RL l l' -> RL m m' ->
  RL (zip (fun av y => b_axpy b1 (fst av) (snd av) y) (combine a l) m) (zip (fun av y => b_axpy b2 (fst av) (snd av) y) (combine a l') m').
Proof.
  intros Hl Hm. eapply f2_zip; [|eapply (f2_combine eq RV); eauto using f2_eq|exact Hm].
  intros [x v] [x' v'] y y' [E Hv] Hy. cbn in *. subst. now apply (br_axpy _ _ _ _ _ BR).
Qed.
Lemma axpys'_rel l l' m m' (a : list F) : RL l l' -> RL m m' ->
  RL (zip (fun av y => b_axpy b1 (b_inj b1 (f_neg fo (fst av))) (snd av) y) (combine a l) m)
     (zip (fun av y => b_axpy b2 (b_inj b2 (f_neg fo (fst av))) (snd av) y) (combine a l') m').
Proof.
  intros Hl Hm. eapply f2_zip; [|eapply (f2_combine eq RV); eauto using f2_eq|exact Hm].
  intros [x v] [x' v'] y y' [E Hv] Hy. cbn in *. subst. rewrite (br_inj _ _ _ _ _ BR). now apply (br_axpy _ _ _ _ _ BR).
Qed.

Lemma ml_body_rel H H' sec Mn nv k s t : RM H H' -> mlR s t ->
  rel_res (fun x y => mlR (fst x) (fst y) /\ RL (snd x) (snd y)) (ml_body fo b1 H sec Mn nv k s) (ml_body fo b2 H' sec Mn nv k t).
Proof.
  intros HH (HC & H0 & H1 & Ed & Ee & Eb). unfold ml_body. cbv zeta.
  assert (E2 : RL (map (b_mulH b1 H) (ml_v1 s)) (map (b_mulH b2 H') (ml_v1 t))).
  { eapply f2_map; [|exact H1]. intros. now apply (br_mulH _ _ _ _ _ BR). }
  eapply rel_bind with (R := RL).
  { destruct sec; [exact HC|]. apply rel_for; auto. intros i a b Hab. eapply rel_bind; [apply rd_rel; eassumption|]. intros. now apply wr_rel. }
  intros C C' HC'. rewrite (map_dot_rel _ _ _ _ H1 E2).
  assert (EN : map (b_tneg b1) (zip (b_dot b2) (ml_v1 t) (map (b_mulH b2 H') (ml_v1 t))) = map (b_tneg b2) (zip (b_dot b2) (ml_v1 t) (map (b_mulH b2 H') (ml_v1 t)))).
  { apply map_ext. apply (br_tneg _ _ _ _ _ BR). }
  rewrite EN. set (al := map (b_tneg b2) _). clearbody al. rewrite Ed.
  eapply rel_bind with (R := eq).
  { apply rel_for; auto. intros i a b <-. destruct (rd al i); cbn; auto. rewrite (br_tneg _ _ _ _ _ BR), (br_re _ _ _ _ _ BR).
    apply rel_eq. }
  intros d ? <-. rewrite Eb.
  pose proof (axpys_rel _ _ _ _ al H1 E2) as E3.
  match goal with |- rel_res _ (Ok (_, ?x)) (Ok (_, ?y)) => assert (E4 : RL x y) end.
  { destruct (k =? 0); auto. now apply axpys'_rel. }
  cbn [rel_res fst snd]. split; [|exact E4].
  unfold mlR. cbn. rewrite (map_nrm_rel _ _ E4). repeat split; auto.
Qed.

Lemma ml_next_rel Mn nv k s t v v' : mlR s t -> RL v v' -> rel_res mlR (ml_next fo b1 Mn nv k s v) (ml_next fo b2 Mn nv k t v').
Proof.
  intros (HC & H0 & H1 & Ed & Ee & Eb) Hv. unfold ml_next. cbv zeta. rewrite Eb, Ee. eapply rel_bind; [apply rel_eq|]. intros e ? <-. cbn. unfold mlR. cbn. repeat split; auto.
  eapply (f2_zip eq RV); [|apply f2_eq|exact Hv]. intros c ? x x' <- Hx. rewrite (br_inj _ _ _ _ _ BR). now apply (br_scal _ _ _ _ _ BR).
Qed.
Lemma ml_loop_rel H H' sec Mn nv : RM H H' -> forall todo k s t, mlR s t -> rel_res mlR (ml_loop fo b1 todo k H sec Mn nv s) (ml_loop fo b2 todo k H' sec Mn nv t).
Proof.
  intros HH. induction todo as [|todo IH]; intros k s t Hs; cbn [ml_loop]; [exact Hs|].
  eapply rel_bind; [now apply ml_body_rel|]. intros [s1 v] [t1 v'] [Hs1 Hv]. cbn [fst snd] in *.
  destruct todo; [exact Hs1|]. eapply rel_bind; [now apply ml_next_rel|]. auto.
Qed.
Lemma mlanczos_rel H H' Mn nv C C' : RM H H' -> RL C C' -> rel_res (vrel RL) (mlanczos fo b1 H Mn nv C) (mlanczos fo b2 H' Mn nv C').
Proof.
  intros HH HC. unfold mlanczos. destruct (match nv with None => _ | Some _ => _ end) as [sec k].
  eapply rel_bind; [apply get_rel; eassumption|]. intros st st' Hst. cbv zeta.
  eapply rel_bind with (R := mlR).
  - apply ml_loop_rel; auto. unfold mlR. cbn [ml_C ml_v0 ml_v1 ml_d ml_e ml_b]. split; auto. split; [apply f2_repeat, (br_zero _ _ _ _ _ BR)|]. split; auto.
    eapply f2_map; [|exact Hst]. intros a b Hab. rewrite (br_inj _ _ _ _ _ BR), (br_nrm2 _ _ _ _ _ BR a b Hab). now apply (br_scal _ _ _ _ _ BR).
  - intros s t (E1 & E2 & E3 & E4 & E5 & E6). eapply rel_bind with (R := RL).
    + destruct sec; [exact E1|]. now apply put_rel.
    + intros D D' HD. cbn. rewrite E4, E5, E6. split; auto.
Qed.

Definition cstR (s : cst (V := V1) (M := M1)) (t : cst (V := V2) (M := M2)) : Prop :=
  RM (cs_H s) (cs_H t) /\ RL (cs_C s) (cs_C t) /\ RL (cs_B s) (cs_B t) /\ RL (cs_C2 s) (cs_C2 t) /\ RL (cs_B2 s) (cs_B2 t) /\ cs_bAc s = cs_bAc t.

Context (mpi : bool) (n : nat).
Notation L1 := (colD fo b1 mpi n).
Notation L2 := (colD fo b2 mpi n).

Ltac gr := eapply rel_bind; [apply get_rel; eassumption|]; intros ? ? ?; cbn beta iota.
Ltac fin := cbn; unfold cstR; cbn; auto 8.

Lemma c_gather_rel l k s t : cstR s t -> rel_res cstR (c_gather b1 l k s) (c_gather b2 l k t).
Proof.
  intros (HH & HC & HB & HC2 & HB2 & E). unfold c_gather. gr. eapply rel_bind; [apply put_rel; [eassumption|]|].
  { eapply f2_map; [|eassumption]. intros. now apply (br_mulH _ _ _ _ _ BR). }
  intros. gr. eapply rel_bind; [apply put_rel; eassumption|]. intros. fin.
Qed.
Lemma set_C_rel s t f g : cstR s t -> (forall l l' i, RL l l' -> RV (f l i) (g l' i)) -> rel_res cstR (set_C n s f) (set_C n t g).
Proof.
  intros (HH & HC & HB & HC2 & HB2 & E) Hf. unfold set_C. gr. eapply rel_bind; [apply put_rel; [eassumption|]|].
  { apply f2_seq. auto. }
  intros. fin.
Qed.
Lemma c_factor_rel sh s t : cstR s t -> rel_res (fun x y => fst x = fst y /\ RG (snd x) (snd y)) (c_factor b1 n sh s) (c_factor b2 n sh t).
Proof.
  intros (HH & HC & _). unfold c_factor. gr. cbn. apply (br_potrf _ _ _ _ _ BR).
  destruct sh; [apply (br_dshift _ _ _ _ _ BR)|]; now apply (br_syherk _ _ _ _ _ BR).
Qed.

Lemma col_sym_rel s t : cstR s t -> rel_res (vrel cstR) (d_sym L1 s) (d_sym L2 t).
Proof.
  intros H. cbn. unfold vrel. cbn. split; auto. destruct H as (HH & _). apply (br_veq _ _ _ _ _ BR).
  - apply (br_mulN _ _ _ _ _ BR); auto. apply (br_test _ _ _ _ _ BR).
  - apply (br_mulH _ _ _ _ _ BR); auto. apply (br_test _ _ _ _ _ BR).
Qed.
Lemma col_initrnd_rel s t : cstR s t -> rel_res cstR (d_initrnd L1 s) (d_initrnd L2 t).
Proof.
  intros (HH & HC & HB & HC2 & HB2 & E). cbn. unfold c_initrnd. eapply rel_bind; [apply put_rel; [eassumption|]|].
  { apply f2_seq. apply (br_rnd _ _ _ _ _ BR). }
  intros. fin.
Qed.
Lemma col_init_rel s t : cstR s t -> rel_res cstR (d_init L1 s) (d_init L2 t).
Proof.
  intros (HH & HC & HB & HC2 & HB2 & E). cbn. unfold c_init. gr. eapply rel_bind; [apply put_rel; eassumption|]. intros. fin.
Qed.
Lemma col_resd_rel v l k s t : cstR s t -> rel_res (vrel cstR) (d_resd L1 v l k s) (d_resd L2 v l k t).
Proof.
  intros H. cbn. unfold c_resd. eapply rel_bind; [now apply c_gather_rel|]. intros s1 t1 (HH & HC & HB & HC2 & HB2 & E). rb. gr. gr. cbv zeta.
  match goal with |- rel_res _ (bind (put_range _ _ ?x) _) (bind (put_range _ _ ?y) _) => assert (E4 : RL x y) by (apply axpys'_rel; auto) end.
  eapply rel_bind; [apply put_rel; eassumption|]. intros. cbn. unfold vrel. cbn. rewrite (map_nrm_rel _ _ E4). split; auto. fin.
Qed.

Lemma col_rel : dla_rel L1 L2 cstR.
Proof.
  split; cbn [colD d_sym d_start d_end d_initrnd d_init d_shift d_apply d_hhqr d_chol1 d_chol2 d_schol2 d_lockcopy d_rr d_resd d_swap d_mlanczos d_dos].
  - intros c u s t (HH & HC & HB & HC2 & HB2 & E). cbn. unfold cstR. cbn. split; auto. now apply (br_shift _ _ _ _ _ BR).
  - intros a b off k l s t (HH & HC & HB & HC2 & HB2 & E). unfold c_apply. gr. gr. rewrite E. destruct (cs_bAc t).
    + eapply rel_bind; [apply put_rel; [eassumption|]|].
      { eapply f2_zip; [|eassumption|eassumption]. intros. now apply (br_gemmH _ _ _ _ _ BR). }
      intros. fin.
    + eapply rel_bind; [apply put_rel; [eassumption|]|].
      { eapply f2_zip; [|eassumption|eassumption]. intros. now apply (br_gemmN _ _ _ _ _ BR). }
      intros. fin.
  - intros l s t H. unfold c_hhqr. eapply rel_bind; [apply set_C_rel; [eassumption|apply (br_hh _ _ _ _ _ BR)]|].
    intros s1 t1 (HH & HC & HB & HC2 & HB2 & E). cbn. unfold cstR. cbn. rewrite E. auto 8.
  - intros l s t H. unfold c_chol1. eapply rel_bind; [now apply c_factor_rel|]. intros [i U] [i' U'] [Ei HU]. cbn [fst snd] in *. subst i'.
    destruct (negb _); [cbn; unfold vrel; auto|]. eapply rel_bind; [apply set_C_rel; [eassumption|]|].
    { intros. now apply (br_trsm _ _ _ _ _ BR). }
    intros. cbn. unfold vrel. auto.
  - intros l s t H. unfold c_chol2. eapply rel_bind; [now apply c_factor_rel|]. intros [i U] [i' U'] [Ei HU]. cbn [fst snd] in *. subst i'.
    destruct (negb _); [cbn; unfold vrel; auto|]. eapply rel_bind; [apply set_C_rel; [eassumption|]|].
    { intros. now apply (br_trsm _ _ _ _ _ BR). }
    intros s1 t1 H1. eapply rel_bind; [now apply c_factor_rel|]. intros [i2 U2] [i2' U2'] [Ei HU2]. cbn [fst snd] in *. subst i2'.
    eapply rel_bind; [apply set_C_rel; [eassumption|]|].
    { intros. now apply (br_trsm _ _ _ _ _ BR). }
    intros. cbn. unfold vrel. auto.
  - intros l s t H. unfold c_schol2. eapply rel_bind; [now apply c_factor_rel|]. intros [i U] [i' U'] [Ei HU]. cbn [fst snd] in *. subst i'.
    destruct (negb _); [cbn; unfold vrel; auto|]. eapply rel_bind; [apply set_C_rel; [eassumption|]|].
    { intros. now apply (br_trsm _ _ _ _ _ BR). }
    intros s1 t1 H1. eapply rel_bind; [now apply c_factor_rel|]. intros [i2 U2] [i2' U2'] [Ei HU2]. cbn [fst snd] in *. subst i2'.
    destruct (_ && _); [cbn; unfold vrel; auto|]. eapply rel_bind; [apply set_C_rel; [eassumption|]|].
    { intros. now apply (br_trsm _ _ _ _ _ BR). }
    intros s2 t2 H2. eapply rel_bind; [now apply c_factor_rel|]. intros [i3 U3] [i3' U3'] [Ei HU3]. cbn [fst snd] in *. subst i3'.
    eapply rel_bind; [apply set_C_rel; [eassumption|]|].
    { intros. now apply (br_trsm _ _ _ _ _ BR). }
    intros. cbn. unfold vrel. auto.
  - intros l b s t (HH & HC & HB & HC2 & HB2 & E). unfold c_lockcopy. gr. eapply rel_bind; [apply put_rel; eassumption|]. intros. gr.
    eapply rel_bind; [apply put_rel; eassumption|]. intros. fin.
  - intros k l s t H. unfold c_rr. destruct (_ && _); [exact I|]. eapply rel_bind; [now apply c_gather_rel|].
    intros s1 t1 (HH & HC & HB & HC2 & HB2 & E). gr. gr. cbv zeta. gr.
    match goal with |- context [b_gram b1 ?x ?y] => match goal with |- context [b_gram b2 ?z ?w] => assert (HG : RG (b_gram b1 x y) (b_gram b2 z w)) by now apply (br_gram _ _ _ _ _ BR) end end.
    match goal with |- rel_res _ (bind (put_range _ _ ?x) _) (bind (put_range _ _ ?y) _) => assert (HN : RL x y) end.
    { apply f2_seq. intros. now apply (br_comb _ _ _ _ _ BR). }
    eapply rel_bind; [apply put_rel; eassumption|]. intros. eapply rel_bind; [apply put_rel; eassumption|]. intros. cbn. unfold vrel. cbn. split; [|fin].
    apply map_ext. intros. now apply (br_eval _ _ _ _ _ BR).
  - intros i j s t (HH & HC & HB & HC2 & HB2 & E). unfold c_swap. eapply rel_bind; [apply swap_rel; eassumption|]. intros. destruct mpi.
    + eapply rel_bind; [apply swap_rel; eassumption|]. intros. fin.
    + eapply rel_bind; [apply swap_rel; eassumption|]. intros. fin.
  - intros m nv s t (HH & HC & HB & HC2 & HB2 & E). unfold c_mlanczos. eapply rel_bind; [apply mlanczos_rel; eassumption|].
    intros [[[d e] b] x] [[[d' e'] b'] x'] [X Y]. cbn [fst snd] in *. injection X as <- <- <-. cbn. unfold vrel. cbn. split; auto. fin.
  - intros i m rv s t (HH & HC & HB & HC2 & HB2 & E). unfold c_dos. rb. gr. eapply rel_bind; [apply put_rel; [eassumption|]|].
    { apply f2_seq. intros. now apply (br_combl _ _ _ _ _ BR). }
    intros. gr. eapply rel_bind; [apply put_rel; eassumption|]. intros. fin.
Qed.

(** ** the whole class *)
Context (qe : qr_env F) (td : tridiag F) (nev nex : nat).
Notation K1 := (cmK fo qe td L1 nev nex).
Notation K2 := (cmK fo qe td L2 nev nex).
Lemma cm_rel : kernel_rel K1 K2 (cmR cstR).
Proof.
  pose proof (cm_core_rel fo qe td nev nex L1 L2 cstR col_rel) as CR. destruct CR.
  split; try assumption.
  - intros s t [E H]. apply lift_v_rel; auto. now apply col_sym_rel.
  - intros s t [E H]. cbn. split; auto.
  - intros s t [E H]. cbn. split; auto.
  - intros r s t [E H]. cbn [cmK k_init]. unfold cm_init. apply lift_rel; auto.
    eapply rel_bind with (R := cstR); [destruct r; [now apply col_initrnd_rel|exact H]|]. intros. now apply col_init_rel.
  - intros v l s t [E H]. cbn [cmK k_resd]. rewrite E. apply lift_v_rel; auto. now apply col_resd_rel.
Qed.
End Rel.
