(** Relational lemma for kernels whose block and workspace change places with every matrix product: the relation
    between two runs depends on the number of locked columns and, inside a filter call, on the parity of the number of
    products.  It needs what the solver guarantees: even degrees, and Rayleigh-Ritz on exactly the unlocked columns. *)
From Coq Require Import List Arith ZArith Bool Lia Permutation.
Require Import Verif.Base Verif.AlgModel Verif.AlgSpec Verif.AlgProofs1 Verif.AlgProofs2 Verif.AlgProofs3 Verif.AlgProofs4 Verif.ColProofs2 Verif.AlgSim Verif.AlgSim2 Verif.AlgSim3.
Import ListNotations.

(** the operations of the start-up; [rnd]: random start vectors *)
Definition starter {F S} (rnd : bool) (K : kernel F S) : kernel F S := {|
  k_sym := fun _ => UB; k_start := fun _ => UB; k_end := fun _ => UB; k_init := fun _ _ => UB;
  k_shift := fun _ _ _ => UB; k_hemm := fun _ _ _ _ _ => UB; k_qr := fun _ _ _ => UB; k_rr := fun _ _ => UB; k_resd := fun _ _ _ => UB;
  k_swap := fun i j s => if rnd then k_swap K i j s else UB; k_lock := fun _ _ => UB;
  k_lanczos1 := fun m s => if rnd then UB else k_lanczos1 K m s; k_lanczos2 := fun m nv s => if rnd then k_lanczos2 K m nv s else UB;
  k_dos := fun i m rv s => if rnd then k_dos K i m rv s else UB |}.

(** column exchanges only *)
Definition swapper {F S} (K : kernel F S) : kernel F S := {|
  k_sym := fun _ => UB; k_start := fun _ => UB; k_end := fun _ => UB; k_init := fun _ _ => UB;
  k_shift := fun _ _ _ => UB; k_hemm := fun _ _ _ _ _ => UB; k_qr := fun _ _ _ => UB; k_rr := fun _ _ => UB; k_resd := fun _ _ _ => UB;
  k_swap := k_swap K; k_lock := fun _ _ => UB;
  k_lanczos1 := fun _ _ => UB; k_lanczos2 := fun _ _ _ => UB; k_dos := fun _ _ _ _ => UB |}.

(** [Ra]: after the start, [Rs]: during the start-up; [R l]: l columns locked; [Rf p l off m]: inside a filter call, after an odd (p) or even
    number of products, the last one on the m columns from off on; [Rp l]: after the filter; [Rq l]: right
    after QR *)
Record paced {F S1 S2} (fo : fops F) (K1 : kernel F S1) (K2 : kernel F S2) (nevex : nat) (rnd : bool) (R0 Ra Rs : S1 -> S2 -> Prop)
    (R : nat -> S1 -> S2 -> Prop) (Rf : bool -> nat -> nat -> nat -> S1 -> S2 -> Prop) (Rp Rq : nat -> S1 -> S2 -> Prop) (Re : S1 -> S2 -> Prop) : Prop := {
  pc_sym : forall s t, R0 s t -> rel_res (vrel R0) (k_sym K1 s) (k_sym K2 t);
  pc_start : forall s t, R0 s t -> rel_res Ra (k_start K1 s) (k_start K2 t);
  pc_init : forall s t, Ra s t -> rel_res Rs
      (let! s := k_init K1 rnd s in if rnd then k_qr K1 0 (f_one fo) s else Ok s)
      (let! t := k_init K2 rnd t in if rnd then k_qr K2 0 (f_one fo) t else Ok t);
  pc_starter : kernel_rel (starter rnd K1) (starter rnd K2) Rs;
  pc_started : forall s t, Rs s t -> R 0 s t;
  pc_shift : forall l c s t, R l s t -> rel_res (R l) (k_shift K1 c false s) (k_shift K2 c false t);
  pc_first : forall l m a s t, R l s t -> l + m = nevex -> rel_res (Rf true l 0 m) (k_hemm K1 m a (f_zero fo) 0 s) (k_hemm K2 m a (f_zero fo) 0 t);
  pc_hemm : forall p l off m off' m' a b s t, Rf p l off m s t -> off <= off' -> off' + m' = off + m ->
            rel_res (Rf (negb p) l off' m') (k_hemm K1 m' a b off' s) (k_hemm K2 m' a b off' t);
  pc_filter : forall l off m c s t, Rf false l off m s t -> rel_res (Rp l) (k_shift K1 c true s) (k_shift K2 c true t);
  pc_qr : forall l c s t, Rp l s t -> rel_res (Rq l) (k_qr K1 l c s) (k_qr K2 l c t);
  pc_rr : forall l s t, Rq l s t -> l <= nevex -> rel_res (vrel (R l)) (k_rr K1 (nevex - l) s) (k_rr K2 (nevex - l) t);
  pc_resd : forall l v s t, R l s t -> rel_res (vrel (R l)) (k_resd K1 v l s) (k_resd K2 v l t);
  pc_swap : forall l i j s t, R l s t -> rel_res (R l) (k_swap K1 i j s) (k_swap K2 i j t);
  pc_lock : forall l m s t, R l s t -> l + m <= nevex -> rel_res (R (l + m)) (k_lock K1 m s) (k_lock K2 m t);
  pc_end : forall l s t, R l s t -> rel_res Re (k_end K1 s) (k_end K2 t)
}.

Lemma rel_for_at {A B} (Q : nat -> A -> B -> Prop) f g : (forall i a b, Q i a b -> rel_res (Q (S i)) (f i a) (g i b)) ->
  forall n i a b, Q i a b -> rel_res (Q (i + n)) (for_ n i f a) (for_ n i g b).
Proof.
  intros H. induction n; intros i a b Hab; simpl; [now rewrite Nat.add_0_r|].
  eapply rel_bind; [apply H; eauto|]. intros a' b' X. replace (i + S n) with (S i + n) by lia. auto.
Qed.

Lemma bind_assoc {A B C} (x : res A) (f : A -> res B) (g : B -> res C) : bind (bind x f) g = bind x (fun a => bind (f a) g).
Proof. now destruct x. Qed.

Section Run.
Context {F S1 S2 : Type} (fo : fops F) (K1 : kernel F S1) (K2 : kernel F S2) (cf : conf F) (R0 Ra Rs : S1 -> S2 -> Prop) (R : nat -> S1 -> S2 -> Prop).
Context (Rf : bool -> nat -> nat -> nat -> S1 -> S2 -> Prop) (Rp Rq : nat -> S1 -> S2 -> Prop) (Re : S1 -> S2 -> Prop).
Context (sort_idx : list F -> list nat) (Hperm : forall keys, Permutation (sort_idx keys) (seq 0 (length keys))) (CF : conf_ok cf).
Context (PC : paced fo K1 K2 (c_nev cf + c_nex cf) (negb (c_approx cf)) R0 Ra Rs R Rf Rp Rq Re).

Lemma swapper_rel l : kernel_rel (swapper K1) (swapper K2) (R l).
Proof. split; cbn; intros; try exact I. now apply (pc_swap _ _ _ _ _ _ _ _ _ _ _ _ _ PC). Qed.

Definition fsP l (i : nat) (a : @fstate F S1) (b : @fstate F S2) : Prop :=
  fs_sigma a = fs_sigma b /\ fs_off a = fs_off b /\ fs_unproc a = fs_unproc b /\ fs_deg a = fs_deg b /\
  fs_Av a = fs_Av b /\ fs_num a = fs_num b /\ fs_num a + 1 = i /\
  exists off m, off <= fs_off a /\ fs_off a + fs_unproc a = off + m /\ Rf (Nat.odd (fs_num a)) l off m (fs_k a) (fs_k b).

Lemma filter_paced l u deg dg la lo up k1 k2 : R l k1 k2 -> l + u = c_nev cf + c_nex cf -> 1 <= deg -> Nat.even deg = true ->
  rel_res (vrel (Rp l)) (filter_ fo K1 u deg dg la lo up k1) (filter_ fo K2 u deg dg la lo up k2).
Proof.
  intros H HU HD HE. unfold filter_. cbv zeta. rs (pc_shift _ _ _ _ _ _ _ _ _ _ _ _ _ PC). rs (pc_first _ _ _ _ _ _ _ _ _ _ _ _ _ PC).
  destruct (retire1 dg u 0 1) as [[[dg' un] off]| |] eqn:E1; cbn [bind]; try (simpl; auto; fail). apply retire1_sum in E1 as [E1 E1'].
  eapply rel_bind with (R := fsP l (2 + (deg - 1))).
  - apply rel_for_at; [|repeat split; auto; exists 0, u; cbn; repeat split; auto; lia].
    intros i x y (E2 & E3 & E4 & E5 & E6 & E7 & E8 & of1 & m1 & X1 & X2 & HF).
    unfold filter_step. cbv zeta. rewrite <- E2, <- E3, <- E4, <- E5, <- E6, <- E7.
    eapply rel_bind; [eapply (pc_hemm _ _ _ _ _ _ _ _ _ _ _ _ _ PC); [exact HF|exact X1|exact X2]|]. intros k k' HK.
    destruct (retire2 (fs_deg x) (fs_unproc x) (fs_off x) (fs_num x + 1)) as [[[dg2 un2] off2]| |] eqn:E; cbn [bind]; try (simpl; auto; fail).
    apply retire2_sum in E as [E E']. simpl. repeat split; auto; cbn; [lia|]. exists (fs_off x), (fs_unproc x). repeat split; auto.
    replace (fs_num x + 1) with (S (fs_num x)) by lia. rewrite Nat.odd_succ, <- Nat.negb_odd. exact HK.
  - intros x y (E2 & E3 & E4 & E5 & E6 & E7 & E8 & of1 & m1 & X1 & X2 & HF). rewrite E6.
    replace (fs_num x) with deg in HF by lia. rewrite <- Nat.negb_even, HE in HF.
    eapply rel_bind; [eapply (pc_filter _ _ _ _ _ _ _ _ _ _ _ _ _ PC); eauto|]. intros. simpl. split; auto.
Qed.

Definition ssP (a : @sstate F S1) (b : @sstate F S2) : Prop := ssR (R (ss_locked a)) a b.

Lemma iterate_paced nr ns ub a b : book cf nr ns a -> degs_ok a -> c_nex cf < ss_unconv a -> ssP a b ->
  rel_res ssP (iterate fo K1 sort_idx cf ub a) (iterate fo K2 sort_idx cf ub b).
Proof.
  intros HB HD Hn H. pose proof (degree_step_degs fo K1 cf a ub) as DS.
  destruct a as [ak a1 a2 a3 a4 a5 a6 a7 a8 a9 a10], b as [bk b1 b2 b3 b4 b5 b6 b7 b8 b9 b10]. destruct H as (H & E). cbn in *.
  destruct E as (<- & <- & <- & <- & <- & <- & <- & <- & <- & <-).
  pose proof (bk_sum _ _ _ _ HB) as HS. destruct (bk_d _ _ _ _ HB) as [_ HLd]. cbn in HS, HLd.
  unfold iterate. cbv zeta. cbn [ss_k ss_ritz ss_res ss_last ss_deg ss_locked ss_unconv ss_iter ss_lowerb ss_lambda ss_d].
  eapply rel_bind with (R := eq); [unfold update_bounds; cbn; apply rel_eq|]. intros [lb0 la] ? <-.
  eapply rel_bind with (R := fun x y => fst x = fst y /\ cdR (R a5) (snd x) (snd y) /\ 1 <= fst x /\ Nat.even (fst x) = true).
  { match goal with |- rel_res _ ?x ?y => set (X := x); set (Y := y) end.
    assert (Z : rel_res (fun x y => fst x = fst y /\ cdR (R a5) (snd x) (snd y)) X Y).
    { unfold X, Y. destruct (_ && _); [refine (calc_degrees_rel fo (swapper K1) (swapper K2) (R a5) (swapper_rel a5) _ _ _ _ _ _ _ _ _); repeat split; auto|]. simpl. repeat split; auto. }
    specialize (DS (if f_lt fo ub lb0 then ub else lb0)). fold X in DS. destruct X as [[dg a]| |]; destruct Y as [[dg' b]| |]; simpl in Z |- *; try easy. destruct Z as [Z1 Z2].
    destruct (DS dg a CF Hn ltac:(auto) HD eq_refl) as (_ & D1 & _ & D2). rewrite Forall_forall in D1. specialize (D1 _ D2). cbn. repeat split; auto; try apply Z2; try lia. apply D1. }
  intros [dg a] [dg' b] [E ((E1 & E2 & E3 & E4 & HR) & HD1 & HD2)]. cbn [fst snd] in E, E1, E2, E3, E4, HR, HD1, HD2. subst dg'.
  rewrite E1, E2, E3, E4.
  eapply rel_bind; [refine (filter_paced _ _ _ _ _ _ _ _ _ HR HS HD1 HD2)|]. intros [av k1] [av' k1'] [_ HR1]. cbn [fst snd] in *.
  rb. rb. rb. rb. rb. eapply rel_bind; [refine (pc_qr _ _ _ _ _ _ _ _ _ _ _ _ _ PC _ _ _ _ HR1)|]. intros k2 k2' HR2. cbn beta iota.
  replace a6 with (c_nev cf + c_nex cf - a5) by lia.
  eapply rel_bind; [eapply (pc_rr _ _ _ _ _ _ _ _ _ _ _ _ _ PC); eauto; lia|]. intros [vals k3] [vals' k3'] (E' & HR3). cbn [fst snd] in *. subst vals'.
  rb. rb.
  eapply rel_bind; [apply (pc_resd _ _ _ _ _ _ _ _ _ _ _ _ _ PC); exact HR3|].
  intros [rs k4] [rs' k4'] [E' HR4]. cbn [fst snd] in *. subst rs'.
  rb. eapply rel_bind with (R := fun x y => (fst x = fst y /\ lkR (R a5) (snd x) (snd y)) /\ fst x <= c_nev cf + c_nex cf - a5 - c_nex cf).
  { match goal with |- rel_res _ (locking fo K1 _ ?a1 ?a2 ?a3 ?a4) (locking fo K2 _ _ _ _ ?b4) =>
      assert (Z : rel_res (fun x y => fst x = fst y /\ lkR (R a5) (snd x) (snd y)) (locking fo K1 sort_idx a1 a2 a3 a4) (locking fo K2 sort_idx a1 a2 a3 b4))
        by (refine (locking_rel fo (swapper K1) (swapper K2) (R a5) (swapper_rel a5) _ _ _ _ _ _ _); repeat split; cbn; eauto);
      destruct (locking fo K1 sort_idx a1 a2 a3 a4) as [[new l]| |] eqn:EL; destruct (locking fo K2 sort_idx a1 a2 a3 b4); simpl in Z |- *; try easy end.
    split; [exact Z|]. apply locking_general in EL as [EL _]; auto. }
  intros [new l] [new' l'] [[E' (L1 & L2 & L3 & HR5)] HNew]. cbn [fst snd] in *. subst new'. rewrite L1, L2, L3.
  eapply rel_bind; [refine (pc_lock _ _ _ _ _ _ _ _ _ _ _ _ _ PC _ _ _ _ HR5 _); lia|]. intros. rb. rb. rb. rb. simpl. repeat split; auto.
Qed.

Lemma solve_loop_paced nr ns ub : forall fuel a b, book cf nr ns a -> degs_ok a -> ssP a b ->
  rel_res ssP (solve_loop fo K1 fuel sort_idx cf ub a) (solve_loop fo K2 fuel sort_idx cf ub b).
Proof.
  induction fuel; intros a b HB HD H; pose proof H as (_ & _ & _ & _ & _ & _ & E1 & E2 & _); cbn [solve_loop]; rewrite E1, E2;
    destruct (_ && _) eqn:EB; try exact H; [simpl; auto|].
  rewrite <- E1 in EB. apply andb_true_iff in EB as [EB _]. apply Nat.ltb_lt in EB.
  pose proof (iterate_paced nr ns ub a b HB HD EB H) as HI.
  destruct (iterate fo K1 sort_idx cf ub a) as [a'| |] eqn:EA; destruct (iterate fo K2 sort_idx cf ub b); simpl in HI |- *; try easy.
  apply IHfuel; auto; [eapply iterate_book; eauto|eapply iterate_degs; eauto].
Qed.

Lemma solve_init_paced fsort k1 k2 ritzv resid : R0 k1 k2 ->
  rel_res (fun x y => fst x = fst y /\ ssP (snd x) (snd y)) (solve_init fo K1 fsort cf k1 ritzv resid) (solve_init fo K2 fsort cf k2 ritzv resid).
Proof.
  intros H. unfold solve_init. cbv zeta. rs (pc_start _ _ _ _ _ _ _ _ _ _ _ _ _ PC). rb.
  pose proof (pc_starter _ _ _ _ _ _ _ _ _ _ _ _ _ PC) as ST.
  rewrite <- !bind_assoc.
  eapply rel_bind with (R := vrel Rs).
  - eapply rel_bind; [eapply (pc_init _ _ _ _ _ _ _ _ _ _ _ _ _ PC); eauto|]. intros s t HRs.
    pose proof (fun N nv m nevex r k1 k2 => lanczos_rel fo _ _ Rs ST fsort N nv m nevex (negb (c_approx cf)) r k1 k2) as LR.
    specialize (LR (c_N cf) (c_numlanczos cf) (Nat.min (c_nev cf + c_nex cf) (Nat.min (c_N cf / 2) (c_lanczositer cf))) (c_nev cf + c_nex cf) ritzv s t HRs).
    clear - LR. destruct (c_approx cf); exact LR.
  - intros [[[i u] r] x] [[[i' u'] r'] x'] [E HR]. cbn [fst snd] in *. injection E as <- <- <-. rb. rb. rb. simpl. repeat split; auto.
    now apply (pc_started _ _ _ _ _ _ _ _ _ _ _ _ _ PC).
Qed.

Definition outP (a : @outcome F S1) (b : @outcome F S2) : Prop :=
  o_ritz a = o_ritz b /\ o_res a = o_res b /\
  match o_exit a, o_exit b with Some s, Some t => ssP s t /\ Re (o_k a) (o_k b) | None, None => R0 (o_k a) (o_k b) | _, _ => False end.

Theorem solve_paced fsort k1 k2 ritzv resid : R0 k1 k2 ->
  rel_res outP (solve fo K1 fsort sort_idx cf k1 ritzv resid) (solve fo K2 fsort sort_idx cf k2 ritzv resid).
Proof.
  intros H. unfold solve.
  eapply rel_bind with (R := vrel R0).
  { destruct (c_symcheck cf); [eapply (pc_sym _ _ _ _ _ _ _ _ _ _ _ _ _ PC); eauto|]. simpl. split; auto. }
  intros [b s] [b' s'] [E HR]. cbn [fst snd] in *. subst b'. destruct (negb b); [simpl; repeat split; auto|].
  pose proof (solve_init_paced fsort s s' ritzv resid HR) as HI.
  destruct (solve_init fo K1 fsort cf s ritzv resid) as [[u x]| |] eqn:EI; destruct (solve_init fo K2 fsort cf s' ritzv resid) as [[u' y]| |];
    simpl in HI |- *; try easy. destruct HI as [<- HS].
  pose proof (solve_init_book fo K1 fsort cf _ _ _ _ _ EI) as (HB & _ & _ & HD1 & HD2 & _).
  eapply rel_bind; [eapply solve_loop_paced; [exact HB|now apply (init_degs cf)|exact HS]|].
  intros x' y' HS'. pose proof HS' as (HK & E1 & E2 & _). rewrite E1, E2.
  eapply rel_bind; [refine (final_sort_rel fo (swapper K1) (swapper K2) _ (swapper_rel _) _ _ _ _ HK); eauto|]. intros [r k] [r' k'] [E HR']. cbn [fst snd] in *. subst r'.
  rs (pc_end _ _ _ _ _ _ _ _ _ _ _ _ _ PC). simpl. repeat split; auto; apply HS'.
Qed.
End Run.
