(** Locked columns stay put for every backend satisfying [kernel_keep]. *)
From Coq Require Import List Arith ZArith Bool Lia Permutation.
Require Import Verif.Base Verif.AlgModel Verif.AlgSpec Verif.AlgProofs1 Verif.AlgProofs2 Verif.AlgProofs3 Verif.AlgProofs4.
Import ListNotations.

Lemma swp_firstn_low {A} (x : list A) i j l : l <= i < length x -> l <= j < length x -> firstn l (swp x i j) = firstn l x.
Proof.
  intros Hi Hj. apply nth_error_ext. intros k. destruct (Nat.lt_ge_cases k l).
  - rewrite !nth_firstn by lia. rewrite swp_nth by lia.
    replace (tr i j k) with k; auto. unfold tr. destruct (Nat.eqb_spec k i); [lia|]. destruct (Nat.eqb_spec k j); [lia|]. auto.
  - rewrite !(proj2 (nth_error_None _ _)); auto; rewrite firstn_length, ?swp_length; lia.
Qed.

Lemma cols_keep {F St V} (fo : fops F) (K : kernel F St) nevex (cols : St -> list V) J0 J Jf Jr Rv Rr :
  kernel_cols fo K nevex cols J0 J Jf Jr Rv Rr -> kernel_keep fo K nevex cols J0 J Jf Jr.
Proof.
  intros [A1 A2 A3 A4 A5 A6 A7 A8 A9 B1 B2 B3 B4 B5 B6 B7 B8]. split; eauto.
  - intros l s v s' HJ Hl H. destruct (B3 l s v s' HJ Hl H) as (X & Y & _). auto.
  - intros l v r s s' HJ Hl H. destruct (B4 l v r s s' HJ Hl H) as (X & Y & _). rewrite Y. auto.
  - intros l i j s s' HJ Hi Hj H. destruct (B5 l i j s s' HJ ltac:(lia) ltac:(lia) H) as (X & Y). rewrite Y.
    pose proof (A1 _ _ HJ). split; auto. apply swp_firstn_low; lia.
  - intros l i j s s' HJ Hi Hj H. destruct (B6 l i j s s' HJ Hi Hj H) as (X & Y). rewrite Y.
    pose proof (A1 _ _ (A2 _ _ HJ)). split; auto. apply swp_firstn_low; lia.
Qed.

Section Keep.
Context {F St V : Type} (fo : fops F) (K : kernel F St) (sort_idx : list F -> list nat).
Hypothesis Hperm : forall keys, Permutation (sort_idx keys) (seq 0 (length keys)).
Context (nevex : nat) (cols : St -> list V) (J0 : St -> Prop) (J Jf Jr : nat -> St -> Prop).
Hypothesis KK : kernel_keep fo K nevex cols J0 J Jf Jr.

Lemma kswaps_keep (Q : nat -> St -> Prop) l n :
  (forall i j s s', Q l s -> l <= i < nevex -> l <= j < nevex -> k_swap K i j s = Ok s' -> Q l s' /\ firstn l (cols s') = firstn l (cols s)) ->
  forall sw s s', in_range n sw -> l + n <= nevex -> Q l s -> kswaps K l sw s = Ok s' ->
  Q l s' /\ firstn l (cols s') = firstn l (cols s).
Proof.
  intros HS. induction sw as [|[i j] sw IH]; intros s s' Hr Hn HQ H; simpl in H.
  - inversion H; subst. auto.
  - inversion Hr as [|? ? [Hi Hj] Hr']; subst. simpl in Hi, Hj. apply bind_ok in H as (t & Ht & H).
    apply HS in Ht as (HQt & Et); auto; try lia. apply IH in H as (H1 & H2); auto. split; auto. congruence.
Qed.

Lemma iterate_keep cf nr ns ub s s' : nevex = c_nev cf + c_nex cf -> conf_ok cf -> book cf nr ns s -> c_nex cf < ss_unconv s ->
  degs_ok s -> J (ss_locked s) (ss_k s) -> iterate fo K sort_idx cf ub s = Ok s' ->
  degs_ok s' /\ J (ss_locked s') (ss_k s') /\ firstn (ss_locked s) (cols (ss_k s')) = firstn (ss_locked s) (cols (ss_k s)).
Proof.
  intros Hnv HC HB Hunc HG HJ Hit.
  pose proof (iterate_degs fo K sort_idx cf nr ns ub s s' HC HB Hunc HG Hit) as HG'.
  split; auto. pose proof HB as [B1 B2 [B3 B3'] [B4 B4'] [B5 B5'] [B6 B6']].
  unfold iterate in Hit. cbv zeta in Hit. apply bind_ok in Hit as ([lb0 lam] & H1 & H).
  apply bind_ok in H as ([deg a] & H2 & H). apply bind_ok in H as ([av k1] & H3 & H).
  apply bind_ok in H as (r0 & _ & H). apply bind_ok in H as (rk & _ & H). apply bind_ok in H as (d0 & _ & H).
  apply bind_ok in H as (dw & _ & H). apply bind_ok in H as (dmax & _ & H). apply bind_ok in H as (k2 & H4 & H).
  apply bind_ok in H as ([vals k3] & H5 & H). apply bind_ok in H as (ritz & H6 & H).
  apply bind_ok in H as (last & H7 & H). apply bind_ok in H as ([rs k4] & H8 & H).
  apply bind_ok in H as (resid & H9 & H). apply bind_ok in H as ([new lk'] & H10 & H).
  apply bind_ok in H as (k5 & H11 & H). apply bind_ok in H as (pr & H12 & H). apply bind_ok in H as (ps & H13 & H).
  apply bind_ok in H as (pl & H14 & H). apply bind_ok in H as (pd & H15 & H). injection H as <-. cbn [ss_locked ss_k].
  pose proof H2 as H2'. apply (degree_step_degs fo K) in H2' as (D1 & D2 & D3 & D4); auto.
  apply degree_step_len in H2 as (L1 & sw & Hr & E1 & E2 & E3 & E4); auto; [|lia].
  set (lk := ss_locked s) in *. set (un := ss_unconv s) in *.
  apply (kswaps_keep J lk un) in E4 as (Ja & Fa); auto; [|intros ? ? ? ? Q1 Q2 Q3 Q4; exact (kk_swap _ _ _ _ _ _ _ _ KK _ _ _ _ _ Q1 Q2 Q3 Q4)|lia].
  assert (FA : filter_args lk nevex un deg (cd_deg a)).
  { split; [lia|]. split; [lia|]. split; auto. split; auto. rewrite Forall_forall in *. intros d Hd. specialize (D2 d Hd). specialize (D3 d Hd). tauto. }
  apply (kk_filter _ _ _ _ _ _ _ _ KK lk) in H3 as (J1 & F1); auto.
  apply (kk_qr _ _ _ _ _ _ _ _ KK lk) in H4 as (J2 & F2); auto.
  replace un with (nevex - lk) in H5 by lia.
  apply (kk_rr _ _ _ _ _ _ _ _ KK lk) in H5 as (J3 & F3); auto; [|lia].
  apply (kk_resd _ _ _ _ _ _ _ _ KK lk) in H8 as (J4 & F4); auto; [|lia].
  apply locking_general in H10 as (Hnew & sw' & Hr' & (G1 & G2 & G3 & G4)); auto. cbn [lk_k] in *.
  apply (kswaps_keep Jr lk (un - c_nex cf)) in G4 as (J5 & F5); auto; [|intros ? ? ? ? Q1 Q2 Q3 Q4; exact (kk_swap_r _ _ _ _ _ _ _ _ KK _ _ _ _ _ Q1 Q2 Q3 Q4)|lia].
  apply (kk_lock _ _ _ _ _ _ _ _ KK lk) in H11 as (J6 & F6); auto. split; auto. rewrite F6, F5, F4, F3, F2, F1, Fa. reflexivity.
Qed.

Lemma reach_keep cf nr ns ub s t : nevex = c_nev cf + c_nex cf -> conf_ok cf -> ss_iter s <= c_maxiter cf ->
  book cf nr ns s -> degs_ok s -> J (ss_locked s) (ss_k s) -> reach fo K sort_idx cf ub s t ->
  degs_ok t /\ J (ss_locked t) (ss_k t) /\
  firstn (ss_locked s) (fst (ss_ritz t)) = fst (ss_ritz s) /\
  firstn (ss_locked s) (fst (ss_res t)) = fst (ss_res s) /\
  firstn (ss_locked s) (cols (ss_k t)) = firstn (ss_locked s) (cols (ss_k s)).
Proof.
  intros Hnv HC HI HB HG HJ HR.
  pose proof (reach_book fo K sort_idx Hperm cf nr ns ub s t HB HI HR) as (_ & HL & _ & [v1 V1] & [v2 V2]).
  destruct (bk_r _ _ _ _ HB) as [Lr _]. destruct (bk_s _ _ _ _ HB) as [Ls _].
  assert (X : degs_ok t /\ J (ss_locked t) (ss_k t) /\ firstn (ss_locked s) (cols (ss_k t)) = firstn (ss_locked s) (cols (ss_k s))).
  { clear V1 V2 v1 v2 HL. induction HR; auto. destruct IHHR as (A & B & C); auto.
    pose proof (reach_book fo K sort_idx Hperm cf nr ns ub s t HB HI HR) as (Bt & HL & _).
    destruct (iterate_keep cf nr ns ub t u Hnv HC Bt H A B H1) as (A' & B' & E). split; auto. split; auto.
    rewrite <- C.
    assert (Y : forall (x y : list V) n m, n <= m -> firstn m x = firstn m y -> firstn n x = firstn n y).
    { intros x y n m Hm E'. rewrite <- (Nat.min_l n m Hm), <- !firstn_firstn, E'. auto. }
    eapply Y; eauto. }
  destruct X as (A & B & C). split; [exact A|]. split; [exact B|]. split; [rewrite V1; now apply firstn_app_exact|]. split; [rewrite V2; now apply firstn_app_exact|exact C].
Qed.

Lemma lanczos_keep fsort N nv m mode r k idx ub r' k' : 1 <= nevex -> m <= nevex -> J 0 k ->
  lanczos fo K fsort N nv m nevex mode r k = Ok (idx, ub, r', k') -> J 0 k'.
Proof.
  intros Hl Hm HJ. unfold lanczos. destruct (m =? 0); [discriminate|]. destruct (negb mode).
  - intros H. apply bind_ok in H as ([u k1] & H1 & H). inversion H; subst. eapply (kk_lanczos1 _ _ _ _ _ _ _ _ KK); eauto.
  - intros H. apply bind_ok in H as ([[[[u Th] Ta] rV] k1] & H1 & H). apply (kk_lanczos2 _ _ _ _ _ _ _ _ KK) in H1; auto.
    apply bind_ok in H as (la & _ & H).
    apply bind_ok in H as (lb & _ & H). destruct lb as [lb|]; [|discriminate].
    apply bind_ok in H as (ix & Hix & H). apply bind_ok in H as (k2 & H2 & H).
    assert (J2 : J 0 k2).
    { destruct (0 <? ix)%Z; [eapply (kk_dos _ _ _ _ _ _ _ _ KK); eauto|]. inversion H2; subst; auto. }
    apply bind_ok in H as (r1 & H3 & H).
    apply bind_ok in H as ([r2 k3] & H4 & H). inversion H; subst.
    apply dos_idx_bound in Hix. assert (Hid : Z.to_nat idx <= nevex) by lia. clear Hix.
    unfold lz_intersperse in H4.
    apply (for_inv_ok (fun _ a => J 0 (snd a))) in H4; auto.
    clear H4. intros i [ra ka] a' Hi HJa Hb. apply bind_ok in Hb as (kb & Hk & Hb). apply bind_ok in Hb as (rb & Hr & Hb).
    inversion Hb; subst; cbn [snd] in *.
    assert (Hj : i * (nevex / Z.to_nat idx) < nevex).
    { assert (Z.to_nat idx <> 0) by lia. pose proof (Nat.mul_div_le nevex (Z.to_nat idx) ltac:(lia)).
      assert (1 <= nevex / Z.to_nat idx) by (apply Nat.div_le_lower_bound; lia). nia. }
    eapply (kk_swap _ _ _ _ _ _ _ _ KK); [exact HJa| | |exact Hk]; lia.
Qed.

Lemma solve_init_keep fsort cf k ritzv resid ub s0 : nevex = c_nev cf + c_nex cf -> conf_ok cf -> J0 k ->
  solve_init fo K fsort cf k ritzv resid = Ok (ub, s0) -> degs_ok s0 /\ J 0 (ss_k s0).
Proof.
  intros Hnv HC HJ Hinit.
  pose proof (solve_init_book fo K fsort cf k ritzv resid ub s0 Hinit) as (HB & Hi & Hl & G1 & G2 & _ & _ & Hpos).
  unfold solve_init in Hinit. apply bind_ok in Hinit as (k1 & H1 & H). apply bind_ok in H as (r1 & _ & H).
  apply bind_ok in H as (k2 & H2 & H). apply bind_ok in H as (k3 & H3 & H).
  apply bind_ok in H as ([[[ix u] ritz] k4] & HL & H). apply bind_ok in H as (w & _ & H).
  apply bind_ok in H as (lo & _ & H). apply bind_ok in H as (la & _ & H). injection H as E1 E2. subst s0.
  apply (kk_start _ _ _ _ _ _ _ _ KK) in H1; auto. apply (kk_init _ _ _ _ _ _ _ _ KK) in H2; auto.
  assert (J3 : J 0 k3).
  { destruct (negb (c_approx cf)); [|inversion H3; subst; auto].
    eapply (kk_qr _ _ _ _ _ _ _ _ KK 0) in H3; [apply (kk_sub _ _ _ _ _ _ _ _ KK); tauto|]. now apply (kk_weak _ _ _ _ _ _ _ _ KK). }
  rewrite <- Hnv in HL.
  apply lanczos_keep in HL; auto; try lia.
  split; auto. apply (init_degs cf); auto.
Qed.

(** two reachable loop heads of the same run *)
Lemma run_keep fsort cf k k0 ritzv resid ub s0 s t : nevex = c_nev cf + c_nex cf -> conf_ok cf -> J0 k ->
  (if c_symcheck cf then k_sym K k else Ok (true, k)) = Ok (true, k0) ->
  solve_init fo K fsort cf k0 ritzv resid = Ok (ub, s0) ->
  reach fo K sort_idx cf ub s0 s -> reach fo K sort_idx cf ub s t ->
  length (fst (ss_ritz s)) = ss_locked s /\ length (fst (ss_res s)) = ss_locked s /\ ss_locked s <= ss_locked t /\
  firstn (ss_locked s) (fst (ss_ritz t)) = fst (ss_ritz s) /\
  firstn (ss_locked s) (fst (ss_res t)) = fst (ss_res s) /\
  firstn (ss_locked s) (cols (ss_k t)) = firstn (ss_locked s) (cols (ss_k s)).
Proof.
  intros Hnv HC HJ Hs Hinit R1 R2.
  assert (HJk : J0 k0) by (destruct (c_symcheck cf); [eapply (kk_sym _ _ _ _ _ _ _ _ KK); eauto|inversion Hs; subst; auto]).
  pose proof (solve_init_book fo K fsort cf k0 ritzv resid ub s0 Hinit) as (HB & Hi & Hl & _).
  destruct (solve_init_keep _ _ _ _ _ _ _ Hnv HC HJk Hinit) as (G0 & J00).
  pose proof (reach_book fo K sort_idx Hperm cf _ _ ub s0 s HB ltac:(lia) R1) as (Bs & _ & Is & _).
  rewrite <- Hl in J00. destruct (reach_keep cf _ _ ub s0 s Hnv HC ltac:(lia) HB G0 J00 R1) as (Gs & Js & _).
  pose proof (reach_book fo K sort_idx Hperm cf _ _ ub s t Bs ltac:(lia) R2) as (_ & HL & _).
  destruct (reach_keep cf _ _ ub s t Hnv HC ltac:(lia) Bs Gs Js R2) as (_ & _ & A & B & C).
  destruct (bk_r _ _ _ _ Bs) as [Lr _]. destruct (bk_s _ _ _ _ Bs) as [Ls _]. repeat split; auto.
Qed.
End Keep.
