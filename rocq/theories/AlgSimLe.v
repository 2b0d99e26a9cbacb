(** One-sided version of AlgSim: if the second kernel's run is defined then so is the first one's, and they are related.
    Used when the first system may notice an error later than the second (asynchronous execution). *)
From Coq Require Import List Arith ZArith Bool Lia.
Require Import Verif.Base Verif.AlgModel Verif.AlgSpec Verif.AlgProofs1 Verif.AlgProofs2 Verif.AlgSim Verif.DlaModel.
Import ListNotations.

Definition rel_le {A B} (R : A -> B -> Prop) (x : res A) (y : res B) : Prop :=
  match y, x with Ok b, Ok a => R a b | Ok _, _ => False | _, _ => True end.
Lemma le_bind {A B C D} (R : A -> B -> Prop) (Q : C -> D -> Prop) x y f g :
  rel_le R x y -> (forall a b, R a b -> rel_le Q (f a) (g b)) -> rel_le Q (bind x f) (bind y g).
Proof. destruct x, y; simpl; intros H Hf; try easy. auto. Qed.
Lemma le_eq {A} (x : res A) : rel_le eq x x.
Proof. destruct x; simpl; auto. Qed.
Lemma le_ok {A B} (R : A -> B -> Prop) x y b : rel_le R x y -> y = Ok b -> exists a, x = Ok a /\ R a b.
Proof. intros H ->. destruct x; simpl in H; try easy. eauto. Qed.
Lemma le_intro {A B} (R : A -> B -> Prop) x y : (forall b, y = Ok b -> exists a, x = Ok a /\ R a b) -> rel_le R x y.
Proof. intros H. destruct y; simpl; auto. destruct (H _ eq_refl) as (a' & -> & HR). exact HR. Qed.

Record kernel_le {F S1 S2} (K1 : kernel F S1) (K2 : kernel F S2) (R : S1 -> S2 -> Prop) : Prop := {
  kl_sym : forall s t, R s t -> rel_le (vrel R) (k_sym K1 s) (k_sym K2 t);
  kl_start : forall s t, R s t -> rel_le R (k_start K1 s) (k_start K2 t);
  kl_end : forall s t, R s t -> rel_le R (k_end K1 s) (k_end K2 t);
  kl_init : forall r s t, R s t -> rel_le R (k_init K1 r s) (k_init K2 r t);
  kl_shift : forall c u s t, R s t -> rel_le R (k_shift K1 c u s) (k_shift K2 c u t);
  kl_hemm : forall n a b off s t, R s t -> rel_le R (k_hemm K1 n a b off s) (k_hemm K2 n a b off t);
  kl_qr : forall l c s t, R s t -> rel_le R (k_qr K1 l c s) (k_qr K2 l c t);
  kl_rr : forall n s t, R s t -> rel_le (vrel R) (k_rr K1 n s) (k_rr K2 n t);
  kl_resd : forall v l s t, R s t -> rel_le (vrel R) (k_resd K1 v l s) (k_resd K2 v l t);
  kl_swap : forall i j s t, R s t -> rel_le R (k_swap K1 i j s) (k_swap K2 i j t);
  kl_lock : forall n s t, R s t -> rel_le R (k_lock K1 n s) (k_lock K2 n t);
  kl_lanczos1 : forall m s t, R s t -> rel_le (vrel R) (k_lanczos1 K1 m s) (k_lanczos1 K2 m t);
  kl_lanczos2 : forall m nv s t, R s t -> rel_le (vrel R) (k_lanczos2 K1 m nv s) (k_lanczos2 K2 m nv t);
  kl_dos : forall i m rv s t, R s t -> rel_le R (k_dos K1 i m rv s) (k_dos K2 i m rv t)
}.

Ltac rb := eapply le_bind; [apply le_eq|]; intros ? ? <-; cbn beta iota.
Ltac rv H := eapply le_bind; [eapply H; eauto|]; intros [? ?] [? ?] [? ?]; cbn [fst snd] in *; subst; cbn beta iota.
Ltac rs H := eapply le_bind; [eapply H; eauto|]; intros ? ? ?; cbn beta iota.

Section SimLe.
Context {F S1 S2 : Type} (fo : fops F) (K1 : kernel F S1) (K2 : kernel F S2) (R : S1 -> S2 -> Prop).
Context (KR : kernel_le K1 K2 R).

Lemma le_for {A B} (Q : A -> B -> Prop) f g : (forall i a b, Q a b -> rel_le Q (f i a) (g i b)) ->
  forall n i a b, Q a b -> rel_le Q (for_ n i f a) (for_ n i g b).
Proof.
  intros H. induction n; intros i a b Hab; simpl; auto.
  eapply le_bind; [apply H; auto|]. intros; auto.
Qed.

Lemma cd_exchange_le l j k a b : (cdR R) a b -> rel_le (cdR R) (cd_exchange K1 l j k a) (cd_exchange K2 l j k b).
Proof.
  intros H. pose proof H as (E1 & E2 & E3 & E4 & HR). unfold cd_exchange. rewrite E1, E2, E3, E4. rb. rb.
  match goal with |- context [if ?c then _ else _] => destruct c end; [|exact H].
  rb. rb. rb. rb. eapply le_bind; [eapply kl_swap; eauto|]. intros. simpl. repeat split; auto.
Qed.
Lemma calc_degrees_le cf u nex ub lb l a b : (cdR R) a b ->
  rel_le (fun x y => fst x = fst y /\ (cdR R) (snd x) (snd y)) (calc_degrees fo K1 cf u nex ub lb l a) (calc_degrees fo K2 cf u nex ub lb l b).
Proof.
  intros (E1 & E2 & E3 & E4 & HR). unfold calc_degrees. rewrite E1, E2, E3, E4. rb. rb. rb.
  eapply le_bind with (R := (cdR R)).
  - unfold cd_sort. apply le_for; [|repeat split; auto]. intros. apply le_for; auto. intros. now apply cd_exchange_le.
  - intros x y H. pose proof H as (F1 & _). rewrite F1. rb. simpl. auto.
Qed.

Lemma lk_walk_le tol l : forall index c a b, (lkR R) a b ->
  rel_le (fun x y => fst x = fst y /\ (lkR R) (snd x) (snd y)) (lk_walk fo K1 tol l index c a) (lk_walk fo K2 tol l index c b).
Proof.
  induction index; intros c x y H; cbn [lk_walk]; [simpl; auto|].
  pose proof H as (E1 & E2 & E3 & HR). rewrite E2, E3. rb. rb.
  destruct (lk_stop _ _ _ _); [simpl; auto|].
  eapply le_bind with (R := (lkR R)); [|intros; auto].
  destruct (negb _); [|exact H].
  rb. rb. rewrite E1. rb. eapply le_bind; [eapply kl_swap; eauto|]. intros. simpl. repeat split; auto.
Qed.
Lemma locking_le si n tol l a b : (lkR R) a b ->
  rel_le (fun x y => fst x = fst y /\ (lkR R) (snd x) (snd y)) (locking fo K1 si n tol l a) (locking fo K2 si n tol l b).
Proof. intros H. unfold locking. pose proof H as (E1 & _). rewrite E1. rb. now apply lk_walk_le. Qed.

Lemma filter_le u deg dg la lo up k1 k2 : R k1 k2 ->
  rel_le (vrel R) (filter_ fo K1 u deg dg la lo up k1) (filter_ fo K2 u deg dg la lo up k2).
Proof.
  intros H. unfold filter_. cbv zeta. rs (kl_shift _ _ _ KR). rs (kl_hemm _ _ _ KR).
  eapply le_bind; [apply le_eq|]. intros [[dg' un] off] ? <-.
  eapply le_bind with (R := (fsR R)).
  - apply le_for; [|repeat split; auto]. intros i x y (E1 & E2 & E3 & E4 & E5 & E6 & HR).
    unfold filter_step. cbv zeta. rewrite E1, E2, E3, E4, E5, E6. rs (kl_hemm _ _ _ KR).
    eapply le_bind; [apply le_eq|]. intros [[dg2 un2] off2] ? <-. simpl. repeat split; auto.
  - intros x y (E1 & E2 & E3 & E4 & E5 & E6 & HR). rewrite E5. rs (kl_shift _ _ _ KR). simpl. split; auto.
Qed.

Lemma lanczos_le fsort N nv m nevex mode r k1 k2 : R k1 k2 ->
  rel_le (vrel R) (lanczos fo K1 fsort N nv m nevex mode r k1) (lanczos fo K2 fsort N nv m nevex mode r k2).
Proof.
  intros H. unfold lanczos. destruct (m =? 0); [simpl; auto|]. destruct (negb mode).
  - eapply le_bind; [eapply kl_lanczos1; eauto|]. intros [u s] [u' s'] [E HR]. cbn [fst snd] in *. subst. simpl. split; auto.
  - eapply le_bind; [eapply kl_lanczos2; eauto|]. intros [[[[u th] ta] rv] s] [[[[u' th'] ta'] rv'] s'] [E HR].
    cbn [fst snd] in *. injection E as <- <- <- <-. cbv zeta. rb. rb.
    match goal with |- context [match ?x with Some _ => _ | None => _ end] => destruct x end; [|simpl; auto]. rb.
    eapply le_bind with (R := R); [destruct (0 <? _)%Z; [eapply kl_dos; eauto|exact HR]|]. intros.
    rb. eapply le_bind with (R := vrel R).
    + unfold lz_intersperse. apply le_for; [|split; auto]. intros i [p q] [p' q'] [E' HR']. cbn [fst snd] in *. subst p'.
      rs (kl_swap _ _ _ KR). rb. simpl. split; auto.
    + intros [p q] [p' q'] [E' HR']. cbn [fst snd] in *. subst p'. simpl. split; auto.
Qed.


Lemma iterate_le si cf ub a b : (ssR R) a b -> rel_le (ssR R) (iterate fo K1 si cf ub a) (iterate fo K2 si cf ub b).
Proof.
  destruct a as [ak a1 a2 a3 a4 a5 a6 a7 a8 a9 a10], b as [bk b1 b2 b3 b4 b5 b6 b7 b8 b9 b10]. intros (H & E). cbn in *.
  destruct E as (<- & <- & <- & <- & <- & <- & <- & <- & <- & <-).
  unfold iterate. cbv zeta. cbn [ss_k ss_ritz ss_res ss_last ss_deg ss_locked ss_unconv ss_iter ss_lowerb ss_lambda ss_d].
  eapply le_bind with (R := eq); [unfold update_bounds; cbn; apply le_eq|]. intros [lb0 la] ? <-.
  eapply le_bind with (R := fun x y => fst x = fst y /\ (cdR R) (snd x) (snd y)).
  { destruct (_ && _); [apply calc_degrees_le; repeat split; auto|]. simpl. repeat split; auto. }
  intros [dg a] [dg' b] [E (E1 & E2 & E3 & E4 & HR)]. cbn [fst snd] in E, E1, E2, E3, E4, HR. subst dg'.
  rewrite E1, E2, E3, E4.
  eapply le_bind; [apply filter_le; eauto|]. intros [av k1] [av' k1'] [_ HR1]. cbn [fst snd] in *.
  rb. rb. rb. rb. rb. rs (kl_qr _ _ _ KR).
  eapply le_bind; [eapply kl_rr; eauto|]. intros [vals k3] [vals' k3'] [E' HR3]. cbn [fst snd] in *. subst vals'.
  rb. rb.
  eapply le_bind; [eapply kl_resd; eauto|]. intros [rs k4] [rs' k4'] [E' HR4]. cbn [fst snd] in *. subst rs'.
  rb. eapply le_bind; [apply locking_le; repeat split; eauto|].
  intros [new l] [new' l'] [E' (L1 & L2 & L3 & HR5)]. cbn [fst snd] in *. subst new'. rewrite L1, L2, L3.
  rs (kl_lock _ _ _ KR). rb. rb. rb. rb. simpl. repeat split; auto.
Qed.

Lemma solve_loop_le si cf ub : forall fuel a b, (ssR R) a b ->
  rel_le (ssR R) (solve_loop fo K1 fuel si cf ub a) (solve_loop fo K2 fuel si cf ub b).
Proof.
  induction fuel; intros a b H; pose proof H as (_ & _ & _ & _ & _ & _ & E1 & E2 & _); cbn [solve_loop]; rewrite E1, E2;
    destruct (_ && _); try exact H; [simpl; auto|].
  eapply le_bind; [apply iterate_le; eauto|]. auto.
Qed.

Lemma final_sort_le nev r k1 k2 : R k1 k2 -> rel_le (vrel R) (final_sort fo K1 nev r k1) (final_sort fo K2 nev r k2).
Proof.
  intros H. unfold final_sort. destruct (nev =? 0); [simpl; auto|].
  apply le_for; [|split; auto]. intros i a b Hab. apply le_for; auto. clear r k1 k2 a b H Hab. intros j [r k] [r' k'] [E HR].
  cbn [fst snd] in *. subst r'. unfold final_exchange. rb. rb.
  destruct (f_lt _ _ _); [|simpl; split; auto]. rb. rs (kl_swap _ _ _ KR). simpl. split; auto.
Qed.

Lemma solve_init_le fsort cf k1 k2 ritzv resid : R k1 k2 ->
  rel_le (fun x y => fst x = fst y /\ (ssR R) (snd x) (snd y)) (solve_init fo K1 fsort cf k1 ritzv resid) (solve_init fo K2 fsort cf k2 ritzv resid).
Proof.
  intros H. unfold solve_init. cbv zeta. rs (kl_start _ _ _ KR). rb. rs (kl_init _ _ _ KR).
  eapply le_bind with (R := R); [destruct (negb _); [eapply kl_qr; eauto|simpl; auto]|]. intros.
  eapply le_bind; [eapply lanczos_le; eauto|]. intros [[[i u] r] s] [[[i' u'] r'] s'] [E HR]. cbn [fst snd] in *.
  injection E as <- <- <-. rb. rb. rb. simpl. repeat split; auto.
Qed.


Theorem solve_le fsort si cf k1 k2 ritzv resid : R k1 k2 ->
  rel_le (outR R) (solve fo K1 fsort si cf k1 ritzv resid) (solve fo K2 fsort si cf k2 ritzv resid).
Proof.
  intros H. unfold solve.
  eapply le_bind with (R := vrel R).
  { destruct (c_symcheck cf); [eapply kl_sym; eauto|]. simpl. split; auto. }
  intros [b s] [b' s'] [E HR]. cbn [fst snd] in *. subst b'. destruct (negb b); [simpl; repeat split; auto|].
  eapply le_bind; [apply solve_init_le; eauto|]. intros [u x] [u' y] [E HS]. cbn [fst snd] in *. subst u'.
  eapply le_bind; [apply solve_loop_le; eauto|]. intros x' y' HS'.
  pose proof HS' as (HK & E1 & E2 & _). rewrite E1, E2.
  eapply le_bind; [apply final_sort_le; eauto|]. intros [r k] [r' k'] [E HR']. cbn [fst snd] in *. subst r'.
  rs (kl_end _ _ _ KR). simpl. repeat split; auto; apply HS'.
Qed.
End SimLe.
