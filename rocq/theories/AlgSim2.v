(** Relational lemma for kernels that only agree when called in the order the solver calls them: a first relation holds
    until initVecs, and Resd is compared right after RR on the values RR returned. *)
From Coq Require Import List Arith ZArith Bool Lia Permutation.
Require Import Verif.Base Verif.AlgModel Verif.AlgSpec Verif.AlgProofs1 Verif.AlgProofs2 Verif.AlgProofs3 Verif.AlgProofs4 Verif.ColProofs2 Verif.AlgSim.
Import ListNotations.

(** the kernel without the five operations treated separately *)
Definition core {F S} (K : kernel F S) : kernel F S := {|
  k_sym := fun _ => UB; k_start := fun _ => UB; k_end := fun _ => UB; k_init := fun _ _ => UB;
  k_shift := k_shift K; k_hemm := k_hemm K; k_qr := k_qr K; k_rr := k_rr K; k_resd := fun _ _ _ => UB;
  k_swap := k_swap K; k_lock := k_lock K; k_lanczos1 := k_lanczos1 K; k_lanczos2 := k_lanczos2 K; k_dos := k_dos K |}.

Record run_rel {F S1 S2} (K1 : kernel F S1) (K2 : kernel F S2) (nevex : nat) (R0 R Re : S1 -> S2 -> Prop) : Prop := {
  rl_sym : forall s t, R0 s t -> rel_res (vrel R0) (k_sym K1 s) (k_sym K2 t);
  rl_start : forall s t, R0 s t -> rel_res R0 (k_start K1 s) (k_start K2 t);
  rl_init : forall r s t, R0 s t -> rel_res R (k_init K1 r s) (k_init K2 r t);
  rl_core : kernel_rel (core K1) (core K2) R;
  rl_rr : forall n s t, R s t -> rel_res (fun a b => fst a = fst b /\ R (snd a) (snd b) /\
            forall v l, firstn (length (fst a)) v = fst a -> n = nevex - l ->
              rel_res (vrel R) (k_resd K1 v l (snd a)) (k_resd K2 v l (snd b))) (k_rr K1 n s) (k_rr K2 n t);
  rl_end : forall s t, R s t -> rel_res Re (k_end K1 s) (k_end K2 t)
}.

Section Run.
Context {F S1 S2 : Type} (fo : fops F) (K1 : kernel F S1) (K2 : kernel F S2) (cf : conf F) (R0 R Re : S1 -> S2 -> Prop).
Context (sort_idx : list F -> list nat) (Hperm : forall keys, Permutation (sort_idx keys) (seq 0 (length keys))).
Context (RR : run_rel K1 K2 (c_nev cf + c_nex cf) R0 R Re).
Let KR := rl_core _ _ _ _ _ _ RR.

Lemma iterate_run ub a b : ss_locked a + ss_unconv a = c_nev cf + c_nex cf -> ssR R a b ->
  rel_res (ssR R) (iterate fo K1 sort_idx cf ub a) (iterate fo K2 sort_idx cf ub b).
Proof.
  destruct a as [ak a1 a2 a3 a4 a5 a6 a7 a8 a9 a10], b as [bk b1 b2 b3 b4 b5 b6 b7 b8 b9 b10]. intros HS (H & E). cbn in *.
  destruct E as (<- & <- & <- & <- & <- & <- & <- & <- & <- & <-).
  unfold iterate. cbv zeta. cbn [ss_k ss_ritz ss_res ss_last ss_deg ss_locked ss_unconv ss_iter ss_lowerb ss_lambda ss_d].
  eapply rel_bind with (R := eq); [unfold update_bounds; cbn; apply rel_eq|]. intros [lb0 la] ? <-.
  eapply rel_bind with (R := fun x y => fst x = fst y /\ cdR R (snd x) (snd y)).
  { destruct (_ && _); [refine (calc_degrees_rel fo (core K1) (core K2) R KR _ _ _ _ _ _ _ _ _); repeat split; auto|]. simpl. repeat split; auto. }
  intros [dg a] [dg' b] [E (E1 & E2 & E3 & E4 & HR)]. cbn [fst snd] in E, E1, E2, E3, E4, HR. subst dg'.
  rewrite E1, E2, E3, E4.
  eapply rel_bind; [refine (filter_rel fo (core K1) (core K2) R KR _ _ _ _ _ _ _ _ HR)|]. intros [av k1] [av' k1'] [_ HR1]. cbn [fst snd] in *.
  rb. rb. rb. rb. rb. eapply rel_bind; [refine (kr_qr _ _ _ KR _ _ _ _ HR1)|]. intros k2 k2' HR2. cbn beta iota.
  eapply rel_bind; [eapply (rl_rr _ _ _ _ _ _ RR); eauto|]. intros [vals k3] [vals' k3'] (E' & HR3 & HD). cbn [fst snd] in *. subst vals'.
  destruct (put_range (cd_ritz b) 0 vals) as [ritz| |] eqn:EP; cbn [bind]; simpl; auto.
  rb.
  eapply rel_bind; [apply HD; [apply put_range_upto in EP; exact EP|lia]|].
  intros [rs k4] [rs' k4'] [E' HR4]. cbn [fst snd] in *. subst rs'.
  rb. eapply rel_bind; [refine (locking_rel fo (core K1) (core K2) R KR _ _ _ _ _ _ _); repeat split; cbn; eauto|].
  intros [new l] [new' l'] [E' (L1 & L2 & L3 & HR5)]. cbn [fst snd] in *. subst new'. rewrite L1, L2, L3.
  eapply rel_bind; [refine (kr_lock _ _ _ KR _ _ _ HR5)|]. intros. rb. rb. rb. rb. simpl. repeat split; auto.
Qed.

Lemma solve_loop_run nr ns ub : forall fuel a b, book cf nr ns a -> ssR R a b ->
  rel_res (ssR R) (solve_loop fo K1 fuel sort_idx cf ub a) (solve_loop fo K2 fuel sort_idx cf ub b).
Proof.
  induction fuel; intros a b HB H; pose proof H as (_ & _ & _ & _ & _ & _ & E1 & E2 & _); cbn [solve_loop]; rewrite E1, E2;
    destruct (_ && _) eqn:EB; try exact H; [simpl; auto|].
  rewrite <- E1 in EB. apply andb_true_iff in EB as [EB _]. apply Nat.ltb_lt in EB.
  pose proof (iterate_run ub a b (bk_sum _ _ _ _ HB) H) as HI.
  destruct (iterate fo K1 sort_idx cf ub a) as [a'| |] eqn:EA; destruct (iterate fo K2 sort_idx cf ub b); simpl in HI |- *; try easy.
  apply IHfuel; auto. eapply iterate_book; eauto.
Qed.

Lemma reach_run nr ns ub a0 b0 a : book cf nr ns a0 -> ss_iter a0 <= c_maxiter cf -> ssR R a0 b0 -> reach fo K1 sort_idx cf ub a0 a ->
  exists b, reach fo K2 sort_idx cf ub b0 b /\ ssR R a b.
Proof.
  intros HB HI H HR. induction HR as [|a0 a a' HR IH H1 H2 H3]; [exists b0; split; auto; constructor|].
  destruct IH as (b & RB & HS); auto. destruct (reach_book fo K1 sort_idx Hperm cf nr ns ub a0 a HB HI HR) as (Bs & _).
  pose proof (iterate_run ub a b (bk_sum _ _ _ _ Bs) HS) as X. rewrite H3 in X.
  destruct (iterate fo K2 sort_idx cf ub b) as [b'| |] eqn:E; try easy. exists b'. split; auto.
  pose proof HS as (_ & _ & _ & _ & _ & _ & E1 & E2 & _). eapply reach_step; eauto; congruence.
Qed.

Lemma solve_init_run fsort k1 k2 ritzv resid : R0 k1 k2 ->
  rel_res (fun x y => fst x = fst y /\ ssR R (snd x) (snd y)) (solve_init fo K1 fsort cf k1 ritzv resid) (solve_init fo K2 fsort cf k2 ritzv resid).
Proof.
  intros H. unfold solve_init. cbv zeta. rs (rl_start _ _ _ _ _ _ RR). rb. rs (rl_init _ _ _ _ _ _ RR).
  eapply rel_bind with (R := R); [destruct (negb _); [refine (kr_qr _ _ _ KR _ _ _ _ _); eauto|simpl; auto]|]. intros.
  eapply rel_bind; [refine (lanczos_rel fo (core K1) (core K2) R KR _ _ _ _ _ _ _ _ _ _); eauto|]. intros [[[i u] r] s] [[[i' u'] r'] s'] [E HR]. cbn [fst snd] in *.
  injection E as <- <- <-. rb. rb. rb. simpl. repeat split; auto.
Qed.

Definition outR2 (a : @outcome F S1) (b : @outcome F S2) : Prop :=
  o_ritz a = o_ritz b /\ o_res a = o_res b /\
  match o_exit a, o_exit b with Some s, Some t => ssR R s t /\ Re (o_k a) (o_k b) | None, None => R0 (o_k a) (o_k b) | _, _ => False end.

Theorem solve_run fsort k1 k2 ritzv resid : R0 k1 k2 ->
  rel_res outR2 (solve fo K1 fsort sort_idx cf k1 ritzv resid) (solve fo K2 fsort sort_idx cf k2 ritzv resid).
Proof.
  intros H. unfold solve.
  eapply rel_bind with (R := vrel R0).
  { destruct (c_symcheck cf); [eapply (rl_sym _ _ _ _ _ _ RR); eauto|]. simpl. split; auto. }
  intros [b s] [b' s'] [E HR]. cbn [fst snd] in *. subst b'. destruct (negb b); [simpl; repeat split; auto|].
  pose proof (solve_init_run fsort s s' ritzv resid HR) as HI.
  destruct (solve_init fo K1 fsort cf s ritzv resid) as [[u x]| |] eqn:EI; destruct (solve_init fo K2 fsort cf s' ritzv resid) as [[u' y]| |];
    simpl in HI |- *; try easy. destruct HI as [<- HS].
  eapply rel_bind; [eapply solve_loop_run; [|eauto]|].
  { eapply solve_init_book; eauto. }
  intros x' y' HS'. pose proof HS' as (HK & E1 & E2 & _). rewrite E1, E2.
  eapply rel_bind; [refine (final_sort_rel fo (core K1) (core K2) R KR _ _ _ _ _); eauto|]. intros [r k] [r' k'] [E HR']. cbn [fst snd] in *. subst r'.
  rs (rl_end _ _ _ _ _ _ RR). simpl. repeat split; auto; apply HS'.
Qed.
End Run.
