(** Relational lemma for kernels that keep two copies of the blocks and agree only along the call sequence of the solver:
    inside one filter call every product works on a suffix of the columns of the previous one, and RR directly follows QR. *)
From Coq Require Import List Arith ZArith Bool Lia Permutation.
Require Import Verif.Base Verif.AlgModel Verif.AlgSpec Verif.AlgProofs1 Verif.AlgProofs2 Verif.AlgProofs3 Verif.AlgProofs4 Verif.ColProofs2 Verif.AlgSim Verif.AlgSim2.
Import ListNotations.

(** the operations that may be called in any state of a run *)
Definition loose {F S} (K : kernel F S) : kernel F S := {|
  k_sym := fun _ => UB; k_start := fun _ => UB; k_end := fun _ => UB; k_init := fun _ _ => UB;
  k_shift := fun _ _ _ => UB; k_hemm := fun _ _ _ _ _ => UB; k_qr := fun _ _ _ => UB; k_rr := fun _ _ => UB; k_resd := fun _ _ _ => UB;
  k_swap := k_swap K; k_lock := k_lock K; k_lanczos1 := k_lanczos1 K; k_lanczos2 := k_lanczos2 K; k_dos := k_dos K |}.

(** [Rf off m]: inside a filter call whose last product worked on the m columns from off on; [Rq]: right after QR *)
Record staged {F S1 S2} (fo : fops F) (K1 : kernel F S1) (K2 : kernel F S2) (nevex : nat) (R0 R : S1 -> S2 -> Prop)
    (Rf : nat -> nat -> S1 -> S2 -> Prop) (Rq Re : S1 -> S2 -> Prop) : Prop := {
  sg_sym : forall s t, R0 s t -> rel_res (vrel R0) (k_sym K1 s) (k_sym K2 t);
  sg_start : forall s t, R0 s t -> rel_res R0 (k_start K1 s) (k_start K2 t);
  sg_init : forall r s t, R0 s t -> rel_res R (k_init K1 r s) (k_init K2 r t);
  sg_shift : forall c u s t, R s t -> rel_res R (k_shift K1 c u s) (k_shift K2 c u t);
  sg_first : forall m a s t, R s t -> rel_res (Rf 0 m) (k_hemm K1 m a (f_zero fo) 0 s) (k_hemm K2 m a (f_zero fo) 0 t);
  sg_hemm : forall off m off' m' a b s t, Rf off m s t -> off <= off' -> off' + m' = off + m ->
            rel_res (Rf off' m') (k_hemm K1 m' a b off' s) (k_hemm K2 m' a b off' t);
  sg_filter : forall off m s t, Rf off m s t -> R s t;
  sg_qr : forall l c s t, R s t -> rel_res Rq (k_qr K1 l c s) (k_qr K2 l c t);
  sg_after_qr : forall s t, Rq s t -> R s t;
  sg_rr : forall m s t, Rq s t -> rel_res (fun a b => fst a = fst b /\ R (snd a) (snd b) /\
            forall v l, firstn (length (fst a)) v = fst a -> m = nevex - l ->
              rel_res (vrel R) (k_resd K1 v l (snd a)) (k_resd K2 v l (snd b))) (k_rr K1 m s) (k_rr K2 m t);
  sg_loose : kernel_rel (loose K1) (loose K2) R;
  sg_end : forall s t, R s t -> rel_res Re (k_end K1 s) (k_end K2 t)
}.

Lemma retire1_sum num : forall dg un off dg' un' off', retire1 dg un off num = Ok (dg', un', off') -> off <= off' /\ off' + un' = off + un.
Proof.
  induction dg as [|d dg IH]; intros un off dg' un' off' H; cbn in H; [discriminate|]. destruct (d <=? num).
  - destruct un; [discriminate|]. apply IH in H. lia.
  - injection H as _ <- <-. lia.
Qed.
Lemma retire2_sum num : forall un dg off dg' un' off', retire2 dg un off num = Ok (dg', un', off') -> off <= off' /\ off' + un' = off + un.
Proof.
  induction un as [|un IH]; intros [|d dg] off dg' un' off' H; cbn in H; try discriminate; try (injection H as _ <- <-; lia).
  destruct (d <=? num); [apply IH in H; lia|injection H as _ <- <-; lia].
Qed.

Section Run.
Context {F S1 S2 : Type} (fo : fops F) (K1 : kernel F S1) (K2 : kernel F S2) (cf : conf F) (R0 R : S1 -> S2 -> Prop).
Context (Rf : nat -> nat -> S1 -> S2 -> Prop) (Rq Re : S1 -> S2 -> Prop).
Context (sort_idx : list F -> list nat) (Hperm : forall keys, Permutation (sort_idx keys) (seq 0 (length keys))).
Context (SG : staged fo K1 K2 (c_nev cf + c_nex cf) R0 R Rf Rq Re).
Let KR := sg_loose _ _ _ _ _ _ _ _ _ SG.

(** the state of the filter loop; [off], [m]: columns of the last product *)
Definition fsF (a : @fstate F S1) (b : @fstate F S2) : Prop :=
  fs_sigma a = fs_sigma b /\ fs_off a = fs_off b /\ fs_unproc a = fs_unproc b /\ fs_deg a = fs_deg b /\
  fs_Av a = fs_Av b /\ fs_num a = fs_num b /\
  exists off m, off <= fs_off a /\ fs_off a + fs_unproc a = off + m /\ Rf off m (fs_k a) (fs_k b).
Lemma filter_staged u deg dg la lo up k1 k2 : R k1 k2 ->
  rel_res (vrel R) (filter_ fo K1 u deg dg la lo up k1) (filter_ fo K2 u deg dg la lo up k2).
Proof.
  intros H. unfold filter_. cbv zeta. rs (sg_shift _ _ _ _ _ _ _ _ _ SG). rs (sg_first _ _ _ _ _ _ _ _ _ SG).
  destruct (retire1 dg u 0 1) as [[[dg' un] off]| |] eqn:E1; cbn [bind]; try (simpl; auto; fail). apply retire1_sum in E1 as [E1 E1'].
  eapply rel_bind with (R := fsF).
  - apply rel_for; [|repeat split; auto; exists 0, u; cbn; repeat split; auto; lia]. intros i x y (E2 & E3 & E4 & E5 & E6 & E7 & of1 & m1 & X1 & X2 & HF).
    unfold filter_step. cbv zeta. rewrite <- E2, <- E3, <- E4, <- E5, <- E6, <- E7.
    eapply rel_bind; [eapply (sg_hemm _ _ _ _ _ _ _ _ _ SG); [exact HF|exact X1|exact X2]|]. intros k k' HK.
    destruct (retire2 (fs_deg x) (fs_unproc x) (fs_off x) (fs_num x + 1)) as [[[dg2 un2] off2]| |] eqn:E; cbn [bind]; try (simpl; auto; fail).
    apply retire2_sum in E as [E E']. simpl. repeat split; auto. exists (fs_off x), (fs_unproc x). cbn. auto.
  - intros x y (E2 & E3 & E4 & E5 & E6 & E7 & of1 & m1 & X1 & X2 & HF). rewrite E6.
    eapply rel_bind; [eapply (sg_shift _ _ _ _ _ _ _ _ _ SG); eapply (sg_filter _ _ _ _ _ _ _ _ _ SG); eauto|]. intros. simpl. split; auto.
Qed.

Lemma iterate_staged ub a b : ss_locked a + ss_unconv a = c_nev cf + c_nex cf -> ssR R a b ->
  rel_res (ssR R) (iterate fo K1 sort_idx cf ub a) (iterate fo K2 sort_idx cf ub b).
Proof.
  destruct a as [ak a1 a2 a3 a4 a5 a6 a7 a8 a9 a10], b as [bk b1 b2 b3 b4 b5 b6 b7 b8 b9 b10]. intros HS (H & E). cbn in *.
  destruct E as (<- & <- & <- & <- & <- & <- & <- & <- & <- & <-).
  unfold iterate. cbv zeta. cbn [ss_k ss_ritz ss_res ss_last ss_deg ss_locked ss_unconv ss_iter ss_lowerb ss_lambda ss_d].
  eapply rel_bind with (R := eq); [unfold update_bounds; cbn; apply rel_eq|]. intros [lb0 la] ? <-.
  eapply rel_bind with (R := fun x y => fst x = fst y /\ cdR R (snd x) (snd y)).
  { destruct (_ && _); [refine (calc_degrees_rel fo (loose K1) (loose K2) R KR _ _ _ _ _ _ _ _ _); repeat split; auto|]. simpl. repeat split; auto. }
  intros [dg a] [dg' b] [E (E1 & E2 & E3 & E4 & HR)]. cbn [fst snd] in E, E1, E2, E3, E4, HR. subst dg'.
  rewrite E1, E2, E3, E4.
  eapply rel_bind; [refine (filter_staged _ _ _ _ _ _ _ _ HR)|]. intros [av k1] [av' k1'] [_ HR1]. cbn [fst snd] in *.
  rb. rb. rb. rb. rb. eapply rel_bind; [refine (sg_qr _ _ _ _ _ _ _ _ _ SG _ _ _ _ HR1)|]. intros k2 k2' HR2. cbn beta iota.
  eapply rel_bind; [eapply (sg_rr _ _ _ _ _ _ _ _ _ SG); eauto|]. intros [vals k3] [vals' k3'] (E' & HR3 & HD). cbn [fst snd] in *. subst vals'.
  destruct (put_range (cd_ritz b) 0 vals) as [ritz| |] eqn:EP; cbn [bind]; simpl; auto.
  rb.
  eapply rel_bind; [apply HD; [apply put_range_upto in EP; exact EP|lia]|].
  intros [rs k4] [rs' k4'] [E' HR4]. cbn [fst snd] in *. subst rs'.
  rb. eapply rel_bind; [refine (locking_rel fo (loose K1) (loose K2) R KR _ _ _ _ _ _ _); repeat split; cbn; eauto|].
  intros [new l] [new' l'] [E' (L1 & L2 & L3 & HR5)]. cbn [fst snd] in *. subst new'. rewrite L1, L2, L3.
  eapply rel_bind; [refine (kr_lock _ _ _ KR _ _ _ HR5)|]. intros. rb. rb. rb. rb. simpl. repeat split; auto.
Qed.

Lemma solve_loop_staged nr ns ub : forall fuel a b, book cf nr ns a -> ssR R a b ->
  rel_res (ssR R) (solve_loop fo K1 fuel sort_idx cf ub a) (solve_loop fo K2 fuel sort_idx cf ub b).
Proof.
  induction fuel; intros a b HB H; pose proof H as (_ & _ & _ & _ & _ & _ & E1 & E2 & _); cbn [solve_loop]; rewrite E1, E2;
    destruct (_ && _) eqn:EB; try exact H; [simpl; auto|].
  rewrite <- E1 in EB. apply andb_true_iff in EB as [EB _]. apply Nat.ltb_lt in EB.
  pose proof (iterate_staged ub a b (bk_sum _ _ _ _ HB) H) as HI.
  destruct (iterate fo K1 sort_idx cf ub a) as [a'| |] eqn:EA; destruct (iterate fo K2 sort_idx cf ub b); simpl in HI |- *; try easy.
  apply IHfuel; auto. eapply iterate_book; eauto.
Qed.

Lemma reach_staged nr ns ub a0 b0 a : book cf nr ns a0 -> ss_iter a0 <= c_maxiter cf -> ssR R a0 b0 -> reach fo K1 sort_idx cf ub a0 a ->
  exists b, reach fo K2 sort_idx cf ub b0 b /\ ssR R a b.
Proof.
  intros HB HI H HR. induction HR as [|a0 a a' HR IH H1 H2 H3]; [exists b0; split; auto; constructor|].
  destruct IH as (b & RB & HS); auto. destruct (reach_book fo K1 sort_idx Hperm cf nr ns ub a0 a HB HI HR) as (Bs & _).
  pose proof (iterate_staged ub a b (bk_sum _ _ _ _ Bs) HS) as X. rewrite H3 in X.
  destruct (iterate fo K2 sort_idx cf ub b) as [b'| |] eqn:E; try easy. exists b'. split; auto.
  pose proof HS as (_ & _ & _ & _ & _ & _ & E1 & E2 & _). eapply reach_step; eauto; congruence.
Qed.

Lemma solve_init_staged fsort k1 k2 ritzv resid : R0 k1 k2 ->
  rel_res (fun x y => fst x = fst y /\ ssR R (snd x) (snd y)) (solve_init fo K1 fsort cf k1 ritzv resid) (solve_init fo K2 fsort cf k2 ritzv resid).
Proof.
  intros H. unfold solve_init. cbv zeta. rs (sg_start _ _ _ _ _ _ _ _ _ SG). rb. rs (sg_init _ _ _ _ _ _ _ _ _ SG).
  eapply rel_bind with (R := R).
  { destruct (negb _); [|simpl; auto]. eapply rel_mono; [apply (sg_after_qr _ _ _ _ _ _ _ _ _ SG)|]. refine (sg_qr _ _ _ _ _ _ _ _ _ SG _ _ _ _ _); eauto. }
  intros.
  eapply rel_bind; [refine (lanczos_rel fo (loose K1) (loose K2) R KR _ _ _ _ _ _ _ _ _ _); eauto|]. intros [[[i u] r] s] [[[i' u'] r'] s'] [E HR]. cbn [fst snd] in *.
  injection E as <- <- <-. rb. rb. rb. simpl. repeat split; auto.
Qed.

Theorem solve_staged fsort k1 k2 ritzv resid : R0 k1 k2 ->
  rel_res (outR2 R0 R Re) (solve fo K1 fsort sort_idx cf k1 ritzv resid) (solve fo K2 fsort sort_idx cf k2 ritzv resid).
Proof.
  intros H. unfold solve.
  eapply rel_bind with (R := vrel R0).
  { destruct (c_symcheck cf); [eapply (sg_sym _ _ _ _ _ _ _ _ _ SG); eauto|]. simpl. split; auto. }
  intros [b s] [b' s'] [E HR]. cbn [fst snd] in *. subst b'. destruct (negb b); [simpl; repeat split; auto|].
  pose proof (solve_init_staged fsort s s' ritzv resid HR) as HI.
  destruct (solve_init fo K1 fsort cf s ritzv resid) as [[u x]| |] eqn:EI; destruct (solve_init fo K2 fsort cf s' ritzv resid) as [[u' y]| |];
    simpl in HI |- *; try easy. destruct HI as [<- HS].
  eapply rel_bind; [eapply solve_loop_staged; [|eauto]|].
  { eapply solve_init_book; eauto. }
  intros x' y' HS'. pose proof HS' as (HK & E1 & E2 & _). rewrite E1, E2.
  eapply rel_bind; [refine (final_sort_rel fo (loose K1) (loose K2) R KR _ _ _ _ _); eauto|]. intros [r k] [r' k'] [E HR']. cbn [fst snd] in *. subst r'.
  rs (sg_end _ _ _ _ _ _ _ _ _ SG). simpl. repeat split; auto; apply HS'.
Qed.
End Run.
