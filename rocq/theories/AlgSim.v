(** Relational lemma: related kernels give related runs of every function of the algorithm layer.  Used for call
    logging, the performance decorator and for comparing backends. *)
From Coq Require Import List Arith ZArith Bool Lia.
Require Import Verif.Base Verif.AlgModel Verif.AlgSpec Verif.AlgProofs1 Verif.AlgProofs2.
Import ListNotations.

Lemma rel_bind {A B C D} (R : A -> B -> Prop) (Q : C -> D -> Prop) x y f g :
  rel_res R x y -> (forall a b, R a b -> rel_res Q (f a) (g b)) -> rel_res Q (bind x f) (bind y g).
Proof. destruct x, y; simpl; intros H Hf; try easy. auto. Qed.
Lemma rel_eq {A} (x : res A) : rel_res eq x x.
Proof. destruct x; simpl; auto. Qed.
Lemma rel_mono {A B} (R Q : A -> B -> Prop) x y : (forall a b, R a b -> Q a b) -> rel_res R x y -> rel_res Q x y.
Proof. destruct x, y; simpl; auto. Qed.
Lemma rel_ok_l {A B} (R : A -> B -> Prop) x y b : rel_res R x y -> y = Ok b -> exists a, x = Ok a /\ R a b.
Proof. intros H ->. destruct x; simpl in H; try easy. eauto. Qed.
Lemma rel_ok_r {A B} (R : A -> B -> Prop) x y a : rel_res R x y -> x = Ok a -> exists b, y = Ok b /\ R a b.
Proof. intros H ->. destruct y; simpl in H; try easy. eauto. Qed.

(** pairs: equal value, related state *)
Definition vrel {X S1 S2} (R : S1 -> S2 -> Prop) (a : X * S1) (b : X * S2) : Prop := fst a = fst b /\ R (snd a) (snd b).

Record kernel_rel {F S1 S2} (K1 : kernel F S1) (K2 : kernel F S2) (R : S1 -> S2 -> Prop) : Prop := {
  kr_sym : forall s t, R s t -> rel_res (vrel R) (k_sym K1 s) (k_sym K2 t);
  kr_start : forall s t, R s t -> rel_res R (k_start K1 s) (k_start K2 t);
  kr_end : forall s t, R s t -> rel_res R (k_end K1 s) (k_end K2 t);
  kr_init : forall r s t, R s t -> rel_res R (k_init K1 r s) (k_init K2 r t);
  kr_shift : forall c u s t, R s t -> rel_res R (k_shift K1 c u s) (k_shift K2 c u t);
  kr_hemm : forall n a b off s t, R s t -> rel_res R (k_hemm K1 n a b off s) (k_hemm K2 n a b off t);
  kr_qr : forall l c s t, R s t -> rel_res R (k_qr K1 l c s) (k_qr K2 l c t);
  kr_rr : forall n s t, R s t -> rel_res (vrel R) (k_rr K1 n s) (k_rr K2 n t);
  kr_resd : forall v l s t, R s t -> rel_res (vrel R) (k_resd K1 v l s) (k_resd K2 v l t);
  kr_swap : forall i j s t, R s t -> rel_res R (k_swap K1 i j s) (k_swap K2 i j t);
  kr_lock : forall n s t, R s t -> rel_res R (k_lock K1 n s) (k_lock K2 n t);
  kr_lanczos1 : forall m s t, R s t -> rel_res (vrel R) (k_lanczos1 K1 m s) (k_lanczos1 K2 m t);
  kr_lanczos2 : forall m nv s t, R s t -> rel_res (vrel R) (k_lanczos2 K1 m nv s) (k_lanczos2 K2 m nv t);
  kr_dos : forall i m rv s t, R s t -> rel_res R (k_dos K1 i m rv s) (k_dos K2 i m rv t)
}.

Ltac rb := eapply rel_bind; [apply rel_eq|]; intros ? ? <-; cbn beta iota.
Ltac rv H := eapply rel_bind; [eapply H; eauto|]; intros [? ?] [? ?] [? ?]; cbn [fst snd] in *; subst; cbn beta iota.
Ltac rs H := eapply rel_bind; [eapply H; eauto|]; intros ? ? ?; cbn beta iota.

Section Sim.
Context {F S1 S2 : Type} (fo : fops F) (K1 : kernel F S1) (K2 : kernel F S2) (R : S1 -> S2 -> Prop).
Context (KR : kernel_rel K1 K2 R).

Lemma rel_for {A B} (Q : A -> B -> Prop) f g : (forall i a b, Q a b -> rel_res Q (f i a) (g i b)) ->
  forall n i a b, Q a b -> rel_res Q (for_ n i f a) (for_ n i g b).
Proof.
  intros H. induction n; intros i a b Hab; simpl; auto.
  eapply rel_bind; [apply H; auto|]. intros; auto.
Qed.

Definition cdR (a : @cd_arrays F S1) (b : @cd_arrays F S2) : Prop :=
  cd_deg a = cd_deg b /\ cd_ritz a = cd_ritz b /\ cd_res a = cd_res b /\ cd_last a = cd_last b /\ R (cd_k a) (cd_k b).
Lemma cd_exchange_rel l j k a b : cdR a b -> rel_res cdR (cd_exchange K1 l j k a) (cd_exchange K2 l j k b).
Proof.
  intros H. pose proof H as (E1 & E2 & E3 & E4 & HR). unfold cd_exchange. rewrite E1, E2, E3, E4. rb. rb.
  match goal with |- context [if ?c then _ else _] => destruct c end; [|exact H].
  rb. rb. rb. rb. eapply rel_bind; [eapply kr_swap; eauto|]. intros. simpl. repeat split; auto.
Qed.
Lemma calc_degrees_rel cf u nex ub lb l a b : cdR a b ->
  rel_res (fun x y => fst x = fst y /\ cdR (snd x) (snd y)) (calc_degrees fo K1 cf u nex ub lb l a) (calc_degrees fo K2 cf u nex ub lb l b).
Proof.
  intros (E1 & E2 & E3 & E4 & HR). unfold calc_degrees. rewrite E1, E2, E3, E4. rb. rb. rb.
  eapply rel_bind with (R := cdR).
  - unfold cd_sort. apply rel_for; [|repeat split; auto]. intros. apply rel_for; auto. intros. now apply cd_exchange_rel.
  - intros x y H. pose proof H as (F1 & _). rewrite F1. rb. simpl. auto.
Qed.

Definition lkR (a : @lk_arrays F S1) (b : @lk_arrays F S2) : Prop :=
  lk_ritz a = lk_ritz b /\ lk_res a = lk_res b /\ lk_last a = lk_last b /\ R (lk_k a) (lk_k b).
Lemma lk_walk_rel tol l : forall index c a b, lkR a b ->
  rel_res (fun x y => fst x = fst y /\ lkR (snd x) (snd y)) (lk_walk fo K1 tol l index c a) (lk_walk fo K2 tol l index c b).
Proof.
  induction index; intros c x y H; cbn [lk_walk]; [simpl; auto|].
  pose proof H as (E1 & E2 & E3 & HR). rewrite E2, E3. rb. rb.
  destruct (lk_stop _ _ _ _); [simpl; auto|].
  eapply rel_bind with (R := lkR); [|intros; auto].
  destruct (negb _); [|exact H].
  rb. rb. rewrite E1. rb. eapply rel_bind; [eapply kr_swap; eauto|]. intros. simpl. repeat split; auto.
Qed.
Lemma locking_rel si n tol l a b : lkR a b ->
  rel_res (fun x y => fst x = fst y /\ lkR (snd x) (snd y)) (locking fo K1 si n tol l a) (locking fo K2 si n tol l b).
Proof. intros H. unfold locking. pose proof H as (E1 & _). rewrite E1. rb. now apply lk_walk_rel. Qed.

Definition fsR (a : @fstate F S1) (b : @fstate F S2) : Prop :=
  fs_sigma a = fs_sigma b /\ fs_off a = fs_off b /\ fs_unproc a = fs_unproc b /\ fs_deg a = fs_deg b /\
  fs_Av a = fs_Av b /\ fs_num a = fs_num b /\ R (fs_k a) (fs_k b).
Lemma filter_rel u deg dg la lo up k1 k2 : R k1 k2 ->
  rel_res (vrel R) (filter_ fo K1 u deg dg la lo up k1) (filter_ fo K2 u deg dg la lo up k2).
Proof.
  intros H. unfold filter_. cbv zeta. rs (kr_shift _ _ _ KR). rs (kr_hemm _ _ _ KR).
  eapply rel_bind; [apply rel_eq|]. intros [[dg' un] off] ? <-.
  eapply rel_bind with (R := fsR).
  - apply rel_for; [|repeat split; auto]. intros i x y (E1 & E2 & E3 & E4 & E5 & E6 & HR).
    unfold filter_step. cbv zeta. rewrite E1, E2, E3, E4, E5, E6. rs (kr_hemm _ _ _ KR).
    eapply rel_bind; [apply rel_eq|]. intros [[dg2 un2] off2] ? <-. simpl. repeat split; auto.
  - intros x y (E1 & E2 & E3 & E4 & E5 & E6 & HR). rewrite E5. rs (kr_shift _ _ _ KR). simpl. split; auto.
Qed.

Lemma lanczos_rel fsort N nv m nevex mode r k1 k2 : R k1 k2 ->
  rel_res (vrel R) (lanczos fo K1 fsort N nv m nevex mode r k1) (lanczos fo K2 fsort N nv m nevex mode r k2).
Proof.
  intros H. unfold lanczos. destruct (m =? 0); [simpl; auto|]. destruct (negb mode).
  - eapply rel_bind; [eapply kr_lanczos1; eauto|]. intros [u s] [u' s'] [E HR]. cbn [fst snd] in *. subst. simpl. split; auto.
  - eapply rel_bind; [eapply kr_lanczos2; eauto|]. intros [[[[u th] ta] rv] s] [[[[u' th'] ta'] rv'] s'] [E HR].
    cbn [fst snd] in *. injection E as <- <- <- <-. cbv zeta. rb. rb.
    match goal with |- context [match ?x with Some _ => _ | None => _ end] => destruct x end; [|simpl; auto]. rb.
    eapply rel_bind with (R := R); [destruct (0 <? _)%Z; [eapply kr_dos; eauto|exact HR]|]. intros.
    rb. eapply rel_bind with (R := vrel R).
    + unfold lz_intersperse. apply rel_for; [|split; auto]. intros i [p q] [p' q'] [E' HR']. cbn [fst snd] in *. subst p'.
      rs (kr_swap _ _ _ KR). rb. simpl. split; auto.
    + intros [p q] [p' q'] [E' HR']. cbn [fst snd] in *. subst p'. simpl. split; auto.
Qed.

Definition ssR (a : @sstate F S1) (b : @sstate F S2) : Prop :=
  R (ss_k a) (ss_k b) /\ ss_ritz a = ss_ritz b /\ ss_res a = ss_res b /\ ss_last a = ss_last b /\ ss_deg a = ss_deg b /\
  ss_locked a = ss_locked b /\ ss_unconv a = ss_unconv b /\ ss_iter a = ss_iter b /\
  ss_lowerb a = ss_lowerb b /\ ss_lambda a = ss_lambda b /\ ss_d a = ss_d b.

Lemma iterate_rel si cf ub a b : ssR a b -> rel_res ssR (iterate fo K1 si cf ub a) (iterate fo K2 si cf ub b).
Proof.
  destruct a as [ak a1 a2 a3 a4 a5 a6 a7 a8 a9 a10], b as [bk b1 b2 b3 b4 b5 b6 b7 b8 b9 b10]. intros (H & E). cbn in *.
  destruct E as (<- & <- & <- & <- & <- & <- & <- & <- & <- & <-).
  unfold iterate. cbv zeta. cbn [ss_k ss_ritz ss_res ss_last ss_deg ss_locked ss_unconv ss_iter ss_lowerb ss_lambda ss_d].
  eapply rel_bind with (R := eq); [unfold update_bounds; cbn; apply rel_eq|]. intros [lb0 la] ? <-.
  eapply rel_bind with (R := fun x y => fst x = fst y /\ cdR (snd x) (snd y)).
  { destruct (_ && _); [apply calc_degrees_rel; repeat split; auto|]. simpl. repeat split; auto. }
  intros [dg a] [dg' b] [E (E1 & E2 & E3 & E4 & HR)]. cbn [fst snd] in E, E1, E2, E3, E4, HR. subst dg'.
  rewrite E1, E2, E3, E4.
  eapply rel_bind; [apply filter_rel; eauto|]. intros [av k1] [av' k1'] [_ HR1]. cbn [fst snd] in *.
  rb. rb. rb. rb. rb. rs (kr_qr _ _ _ KR).
  eapply rel_bind; [eapply kr_rr; eauto|]. intros [vals k3] [vals' k3'] [E' HR3]. cbn [fst snd] in *. subst vals'.
  rb. rb.
  eapply rel_bind; [eapply kr_resd; eauto|]. intros [rs k4] [rs' k4'] [E' HR4]. cbn [fst snd] in *. subst rs'.
  rb. eapply rel_bind; [apply locking_rel; repeat split; eauto|].
  intros [new l] [new' l'] [E' (L1 & L2 & L3 & HR5)]. cbn [fst snd] in *. subst new'. rewrite L1, L2, L3.
  rs (kr_lock _ _ _ KR). rb. rb. rb. rb. simpl. repeat split; auto.
Qed.

Lemma solve_loop_rel si cf ub : forall fuel a b, ssR a b ->
  rel_res ssR (solve_loop fo K1 fuel si cf ub a) (solve_loop fo K2 fuel si cf ub b).
Proof.
  induction fuel; intros a b H; pose proof H as (_ & _ & _ & _ & _ & _ & E1 & E2 & _); cbn [solve_loop]; rewrite E1, E2;
    destruct (_ && _); try exact H; [simpl; auto|].
  eapply rel_bind; [apply iterate_rel; eauto|]. auto.
Qed.

Lemma final_sort_rel nev r k1 k2 : R k1 k2 -> rel_res (vrel R) (final_sort fo K1 nev r k1) (final_sort fo K2 nev r k2).
Proof.
  intros H. unfold final_sort. destruct (nev =? 0); [simpl; auto|].
  apply rel_for; [|split; auto]. intros i a b Hab. apply rel_for; auto. clear r k1 k2 a b H Hab. intros j [r k] [r' k'] [E HR].
  cbn [fst snd] in *. subst r'. unfold final_exchange. rb. rb.
  destruct (f_lt _ _ _); [|simpl; split; auto]. rb. rs (kr_swap _ _ _ KR). simpl. split; auto.
Qed.

Lemma solve_init_rel fsort cf k1 k2 ritzv resid : R k1 k2 ->
  rel_res (fun x y => fst x = fst y /\ ssR (snd x) (snd y)) (solve_init fo K1 fsort cf k1 ritzv resid) (solve_init fo K2 fsort cf k2 ritzv resid).
Proof.
  intros H. unfold solve_init. cbv zeta. rs (kr_start _ _ _ KR). rb. rs (kr_init _ _ _ KR).
  eapply rel_bind with (R := R); [destruct (negb _); [eapply kr_qr; eauto|simpl; auto]|]. intros.
  eapply rel_bind; [eapply lanczos_rel; eauto|]. intros [[[i u] r] s] [[[i' u'] r'] s'] [E HR]. cbn [fst snd] in *.
  injection E as <- <- <-. rb. rb. rb. simpl. repeat split; auto.
Qed.

Definition outR (a : @outcome F S1) (b : @outcome F S2) : Prop :=
  R (o_k a) (o_k b) /\ o_ritz a = o_ritz b /\ o_res a = o_res b /\
  match o_exit a, o_exit b with Some s, Some t => ssR s t | None, None => True | _, _ => False end.

Theorem solve_rel fsort si cf k1 k2 ritzv resid : R k1 k2 ->
  rel_res outR (solve fo K1 fsort si cf k1 ritzv resid) (solve fo K2 fsort si cf k2 ritzv resid).
Proof.
  intros H. unfold solve.
  eapply rel_bind with (R := vrel R).
  { destruct (c_symcheck cf); [eapply kr_sym; eauto|]. simpl. split; auto. }
  intros [b s] [b' s'] [E HR]. cbn [fst snd] in *. subst b'. destruct (negb b); [simpl; repeat split; auto|].
  eapply rel_bind; [apply solve_init_rel; eauto|]. intros [u x] [u' y] [E HS]. cbn [fst snd] in *. subst u'.
  eapply rel_bind; [apply solve_loop_rel; eauto|]. intros x' y' HS'.
  pose proof HS' as (HK & E1 & E2 & _). rewrite E1, E2.
  eapply rel_bind; [apply final_sort_rel; eauto|]. intros [r k] [r' k'] [E HR']. cbn [fst snd] in *. subst r'.
  rs (kr_end _ _ _ KR). simpl. repeat split; auto; apply HS'.
Qed.
End Sim.
