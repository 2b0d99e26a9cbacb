(** Combined statements about complete runs *)
From Coq Require Import List Arith ZArith Bool Lia Permutation.
Require Import Verif.Base Verif.AlgModel Verif.AlgSpec Verif.AlgProofs1 Verif.AlgProofs2 Verif.AlgProofs3 Verif.AlgProofs4
  Verif.AlgProofs5 Verif.AlgSim Verif.AlgTrace Verif.AlgTraceProofs.
Import ListNotations.

Section R.
Context {F St : Type} (fo : fops F) (K : kernel F St).
Context (sort_idx : list F -> list nat) (Hperm : forall keys, Permutation (sort_idx keys) (seq 0 (length keys))).

(** *** filter *)
Lemma filter_products degs deg la lo up k av log k' :
  ascending degs -> Forall (fun d => 1 <= d <= deg) degs -> (exists d, In d degs /\ 2 <= d) ->
  filter_ fo (logK K) (length degs) deg degs la lo up ([], k) = Ok (av, (log, k')) ->
  filter_ fo K (length degs) deg degs la lo up k = Ok (av, k') /\
  av = list_sum degs /\ products log = list_sum degs /\
  (forall j d, nth_error degs j = Some d -> products_on j log = d) /\
  (forall j, length degs <= j -> products_on j log = 0).
Proof.
  intros H1 H2 H3 H.
  assert (H2a : Forall (fun d => 1 <= d) degs) by (eapply Forall_impl; [|exact H2]; simpl; lia).
  assert (H2b : Forall (fun d => d <= deg) degs) by (eapply Forall_impl; [|exact H2]; simpl; lia).
  assert (Hdeg : 1 <= deg) by (destruct H3 as (d & Hd & ?); rewrite Forall_forall in H2; specialize (H2 d Hd); lia).
  pose proof (filter_rel fo (logK K) K _ (log_rel K) (length degs) deg degs la lo up ([], k) k eq_refl) as HR.
  rewrite H in HR. destruct (filter_ fo K (length degs) deg degs la lo up k) as [[av2 k2]| |]; simpl in HR; try easy.
  destruct HR as [E1 E2]. cbn in E1, E2. subst av2 k2. split; auto.
  apply filter_log in H as [Hl Hav]; auto. cbn [fst] in Hl. simpl in Hl. subst log.
  rewrite sum_min_all in Hav by auto. split; auto. split.
  - rewrite products_filter, sum_min_all by auto. auto.
  - split.
    + intros j d Hj. now apply products_on_filter.
    + intros j Hj. unfold products_on, filter_calls. cbv zeta. cbn [filter covers]. rewrite filter_app, app_length. cbn [filter covers length].
      rewrite Nat.add_0_r. match goal with |- length ?l = 0 => assert (l = []) as -> end; auto.
      generalize (seq 1 deg). intros s. induction s as [|i s IH]; auto. cbn [map filter covers]. rewrite IH.
      replace (count (fun d => d <? i) degs + count (fun d => i <=? d) degs) with (length degs).
      2:{ symmetry. apply count_compl. intros x. now rewrite Nat.ltb_antisym. }
      replace (j <? length degs) with false by (symmetry; apply Nat.ltb_ge; lia). now rewrite andb_false_r.
Qed.

Lemma filter_safe nevex I0 I (KS : kernel_safe K nevex I0 I) degs deg la lo up l k :
  ascending degs -> Forall (fun d => 1 <= d) degs -> (exists d, In d degs /\ 2 <= d) -> 1 <= deg ->
  l + length degs <= nevex -> I l k ->
  exists av k', filter_ fo K (length degs) deg degs la lo up k = Ok (av, k') /\ I l k'.
Proof. intros. rewrite filter_refines by auto. eapply filter_spec_safe; eauto. Qed.

Lemma filter_oob_ub nevex I0 I (KS : kernel_safe K nevex I0 I) degs deg la lo up l k :
  (forall d, In d degs -> d <= 1) -> l + length degs <= nevex -> I l k ->
  filter_ fo K (length degs) deg degs la lo up k = UB.
Proof.
  intros Hd Hl HI. unfold filter_. cbv zeta.
  destruct (ks_shift _ _ _ _ KS l (f_neg fo (center fo up lo)) false k HI) as (k1 & -> & I1). cbn [bind].
  destruct (ks_hemm _ _ _ _ KS l (length degs) (f_div fo (f_div fo (halfw fo up lo) (f_sub fo la (center fo up lo))) (halfw fo up lo))
     (f_zero fo) 0 k1 I1) as (k2 & -> & I2); [lia|]. cbn [bind].
  rewrite retire1_oob; auto.
Qed.

(** a run whose initial degree is 0 or 1 is undefined *)
Lemma solve_low_degree_ub nevex I0 I (KS : kernel_safe K nevex I0 I) fsort cf k k0 ritzv resid ub s0 :
  nevex = c_nev cf + c_nex cf -> 1 <= c_nev cf -> 1 <= c_maxiter cf ->
  Nat.min (c_deg cf + c_deg cf mod 2) (c_maxdeg cf) <= 1 ->
  (if c_symcheck cf then k_sym K k else Ok (true, k)) = Ok (true, k0) ->
  solve_init fo K fsort cf k0 ritzv resid = Ok (ub, s0) -> I 0 (ss_k s0) ->
  solve fo K fsort sort_idx cf k ritzv resid = UB.
Proof.
  intros HN Hnev Hmi Hd Hs Hi HI. unfold solve. rewrite Hs. cbn [bind negb]. rewrite Hi. cbn [bind].
  pose proof (solve_init_book fo K fsort cf k0 ritzv resid ub s0 Hi) as (HB & Hit & Hlk & Hsd & Hdg & Hn1 & Hn2 & _).
  assert (Hu : ss_unconv s0 = nevex) by (pose proof (bk_sum _ _ _ _ HB); lia).
  destruct (c_maxiter cf) as [|fuel] eqn:Em; [lia|]. cbn [solve_loop].
  replace ((c_nex cf <? ss_unconv s0) && (ss_iter s0 <? c_maxiter cf)) with true.
  2:{ symmetry. apply andb_true_intro. split; apply Nat.ltb_lt; lia. }
  replace (iterate fo K sort_idx cf ub s0) with (@UB (@sstate F St)); auto.
  unfold iterate. cbv zeta.
  destruct (update_bounds_safe fo (c_nev cf + c_nex cf) s0) as ([lb0 la] & ->); try lia.
  { destruct (bk_r _ _ _ _ HB) as [_ ->]. lia. }
  { pose proof (bk_s _ _ _ _ HB) as [E1 E2]. unfold whole in E2. rewrite app_length in E2. lia. }
  { pose proof (bk_r _ _ _ _ HB) as [E1 E2]. unfold whole in E2. rewrite app_length in E2. lia. }
  cbn [bind]. rewrite Hit, Nat.eqb_refl, andb_false_r. cbn [bind cd_deg cd_k].
  assert (El : ss_unconv s0 = length (snd (ss_deg s0))) by (pose proof (bk_d _ _ _ _ HB) as [_ E]; lia).
  rewrite El, (filter_oob_ub nevex I0 I KS _ _ _ _ _ 0); auto.
  - rewrite Hdg. intros d H. apply repeat_spec in H. lia.
  - lia.
Qed.

(** *** bookkeeping *)
Lemma iters_sum nev nex l rs (l' : nat) : iters (F := F) nev nex l rs l' -> l + list_sum (map it_new rs) = l'.
Proof. induction 1; simpl; [lia|]. rewrite map_app, list_sum_app. simpl. lia. Qed.

Lemma solve_book fsort cf k ritzv resid o s :
  solve fo K fsort sort_idx cf k ritzv resid = Ok o -> o_exit o = Some s ->
  ss_locked s + ss_unconv s = c_nev cf + c_nex cf /\ ss_locked s <= c_nev cf /\
  ss_iter s <= c_maxiter cf /\ (ss_locked s = c_nev cf \/ ss_iter s = c_maxiter cf) /\
  length (o_ritz o) = length ritzv /\ length (o_res o) = length resid.
Proof.
  intros H Ho. unfold solve in H. apply bind_ok in H as ([cont k0] & Hs & H).
  destruct (negb cont) eqn:Ec; [injection H as <-; discriminate|].
  apply bind_ok in H as ([ub s0] & Hi & H). apply bind_ok in H as (s1 & Hl & H). apply bind_ok in H as ([r k'] & Hf & H).
  apply bind_ok in H as (k'' & He & H). injection H as <-. cbn in Ho. injection Ho as ->.
  pose proof (solve_init_book fo K fsort cf k0 ritzv resid ub s0 Hi) as (HB & Hit & Hlk & Hd & Hdg & Hn1 & _).
  apply solve_loop_reach in Hl as (Hr & Hex).
  pose proof (reach_book fo K sort_idx Hperm cf _ _ ub s0 s HB ltac:(lia) Hr) as (HBs & _ & Hit2 & _).
  pose proof (bk_sum _ _ _ _ HBs). pose proof (bk_nex _ _ _ _ HBs). destruct (bk_r _ _ _ _ HBs) as [_ Er].
  destruct (bk_s _ _ _ _ HBs) as [_ Es]. cbn [o_ritz o_res].
  apply final_sort_by in Hf as (_ & sw & _ & E & _); [|lia]. cbn [fst] in E. rewrite E, swps_length.
  repeat split; auto; lia.
Qed.

(** every intermediate state of the run *)
Lemma solve_states fsort cf k ritzv resid o s :
  solve fo K fsort sort_idx cf k ritzv resid = Ok o -> o_exit o = Some s ->
  exists ub s0, reach fo K sort_idx cf ub s0 s /\ ss_locked s0 = 0 /\ ss_iter s0 = 0 /\
  forall t u, reach fo K sort_idx cf ub s0 t -> reach fo K sort_idx cf ub t u ->
    ss_locked t + ss_unconv t = c_nev cf + c_nex cf /\ ss_locked t <= ss_locked u <= c_nev cf /\
    ss_iter t <= ss_iter u <= c_maxiter cf.
Proof.
  intros H Ho. unfold solve in H. apply bind_ok in H as ([cont k0] & Hs & H).
  destruct (negb cont) eqn:Ec; [injection H as <-; discriminate|].
  apply bind_ok in H as ([ub s0] & Hi & H). apply bind_ok in H as (s1 & Hl & H). apply bind_ok in H as ([r k'] & Hf & H).
  apply bind_ok in H as (k'' & He & H). injection H as <-. cbn in Ho. injection Ho as ->.
  pose proof (solve_init_book fo K fsort cf k0 ritzv resid ub s0 Hi) as (HB & Hit & Hlk & _).
  apply solve_loop_reach in Hl as (Hr & _). exists ub, s0. split; auto. split; auto. split; auto.
  intros t u Ht Hu.
  pose proof (reach_book fo K sort_idx Hperm cf _ _ ub s0 t HB ltac:(lia) Ht) as (HBt & _ & Hit2 & _).
  pose proof (reach_book fo K sort_idx Hperm cf _ _ ub t u HBt ltac:(lia) Hu) as (HBu & ? & ? & _).
  pose proof (bk_sum _ _ _ _ HBt). pose proof (bk_sum _ _ _ _ HBu). pose proof (bk_nex _ _ _ _ HBu). lia.
Qed.

(** *** own history when degree optimisation is off *)

(** states of a run in order: [s0; s1; ...] ending in [t] *)
Local Notation run := (run fo K sort_idx).

Lemma min_into_nth n res last last' : min_into fo n res last = Ok last' ->
  length last' = length last /\
  (forall i a b, i < n -> nth_error last i = Some a -> nth_error res i = Some b -> nth_error last' i = Some (fmin fo a b)) /\
  (forall i, n <= i -> nth_error last' i = nth_error last i).
Proof.
  intros H. unfold min_into in H.
  apply (for_inv_ok (fun t q => length q = length last /\
     (forall i a b, i < t -> nth_error last i = Some a -> nth_error res i = Some b -> nth_error q i = Some (fmin fo a b)) /\
     (forall i, t <= i -> nth_error q i = nth_error last i))) in H; auto.
  - split; auto. split; auto. intros; lia.
  - clear H. intros t q q' Ht (E & A & B) Hb. apply bind_ok in Hb as (x & Hx & Hb). apply bind_ok in Hb as (y & Hy & Hb).
    apply rd_ok in Hx, Hy. apply wr_inv in Hb as [Hl ->]. rewrite upd_length. split; auto. split.
    + intros i a b Hi Ha Hb. destruct (Nat.eq_dec i t) as [->|].
      * rewrite upd_same by auto. rewrite B in Hx by lia. congruence.
      * rewrite upd_other by lia. apply A; auto. lia.
    + intros i Hi. rewrite upd_other by lia. apply B. lia.
Qed.

(** Rayleigh-Ritz returns the requested number of values, strictly ascending (LAPACK heevd order, simple values) *)
Local Notation rr_ascending := (rr_ascending fo K).

Lemma strictly_ascending_firstn n (l : list F) : strictly_ascending fo l -> strictly_ascending fo (firstn n l).
Proof.
  intros H i j a b Hij Ha Hb.
  assert (G : forall i x, nth_error (firstn n l) i = Some x -> nth_error l i = Some x).
  { intros i0 x Hx. destruct (lt_dec i0 n); [now rewrite nth_firstn in Hx|].
    pose proof (nth_error_lt _ _ _ Hx) as Hl. rewrite firstn_length in Hl. lia. }
  eapply H; eauto.
Qed.

(** One iteration with the degree optimisation off: nothing is moved, the history at index g is extended by the
    previous residual at index g, and a newly locked pair is acceptable with respect to that history. *)
Lemma iterate_own_history cf nr ns ub s s' : c_opt cf = false -> book cf nr ns s -> c_nex cf < ss_unconv s ->
  c_nev cf + c_nex cf <= nr -> c_nev cf + c_nex cf <= ns ->
  (forall keys, sorts fo keys (sort_idx keys)) -> rr_ascending ->
  iterate fo K sort_idx cf ub s = Ok s' ->
  (forall g a b, ss_locked s <= g < c_nev cf + c_nex cf -> at_ (ss_last s) g = Some a -> at_ (ss_res s) g = Some b ->
     at_ (ss_last s') g = Some (fmin fo a b)) /\
  (forall g r l, ss_locked s <= g < ss_locked s' -> at_ (ss_res s') g = Some r -> at_ (ss_last s') g = Some l ->
     accepted fo (c_tol cf) r l) /\
  (ss_locked s' < c_nev cf -> forall r l, at_ (ss_res s') (ss_locked s') = Some r -> at_ (ss_last s') (ss_locked s') = Some l ->
     ~ accepted fo (c_tol cf) r l).
Proof.
  intros HO HB Hu Hnr Hns HS HRR H. apply iterate_inv in H as
    (lb0 & lambda & deg & a & av & k1 & cond & k2 & vals & k3 & ritz & last & rs & k4 & resid & new & l & k5 &
     _ & Hdeg & Hf & Hqr & Hrr & Hpr & Hmin & Hresd & Hps & Hlk & Hlock & N1 & N2 & N3 & N4 & ->).
  rewrite HO in Hdeg. cbn [andb] in Hdeg. injection Hdeg as <- <-. cbn [cd_ritz cd_res cd_last cd_deg cd_k] in *.
  pose proof (bk_sum _ _ _ _ HB) as B1. destruct (bk_r _ _ _ _ HB) as [R1 R2]. destruct (bk_s _ _ _ _ HB) as [S1 S2].
  destruct (bk_l _ _ _ _ HB) as [L1 L2].
  apply min_into_nth in Hmin as (M1 & M2 & M3).
  pose proof (put_range_length _ _ _ _ Hpr) as PL. pose proof (put_range_length _ _ _ _ Hps) as QL.
  destruct (HRR _ _ _ _ Hrr) as [Hvl Hva]. apply put_range_0_firstn in Hpr. rewrite Hvl in Hpr.
  cbn [ss_ritz ss_res ss_last ss_locked] in *.
  unfold at_, whole in *. cbn [fst snd] in *. rewrite app_length in *.
  destruct (locking_ascending fo K sort_idx (ss_unconv s - c_nex cf) (c_tol cf) (ss_locked s) (mk_lk ritz resid last k4))
    as (c & Hc & Hcn & A1 & A2); cbn [lk_ritz lk_res lk_last]; try lia; auto.
  { replace (firstn (ss_unconv s - c_nex cf) ritz) with (firstn (ss_unconv s - c_nex cf) (firstn (ss_unconv s) ritz)).
    - rewrite Hpr. now apply strictly_ascending_firstn.
    - rewrite firstn_firstn. f_equal. lia. }
  rewrite Hlk in Hc. injection Hc as -> ->. cbn [lk_ritz lk_res lk_last] in *.
  assert (Happ : forall (A : Type) (p q q' : list A) n, (p ++ firstn n q) ++ skipn n q = p ++ q)
    by (intros; now rewrite <- app_assoc, firstn_skipn).
  rewrite !Happ; auto. split; [|split].
  - intros g x y Hg Hx Hy. rewrite nth_error_app2 in * by lia. rewrite L1, S1 in *. apply M2; auto. lia.
  - intros g r y Hg Hr Hy. rewrite nth_error_app2 in * by lia. rewrite L1, S1 in *. apply (A1 (g - ss_locked s)); auto. lia.
  - intros Hlt r y Hr Hy. rewrite nth_error_app2 in * by lia. rewrite L1, S1 in *.
    replace (ss_locked s + c - ss_locked s) with c in * by lia. apply A2; auto. lia.
Qed.

Lemma run_reach cf ub s0 h t : run cf ub s0 h t -> reach fo K sort_idx cf ub s0 t.
Proof. induction 1; econstructor; eauto. Qed.

(** the stored history of an index is the minimum of all its earlier residuals *)
Local Notation history := (history fo).

Lemma run_own_history cf nr ns ub s0 h t : c_opt cf = false -> book cf nr ns s0 -> ss_iter s0 <= c_maxiter cf ->
  c_nev cf + c_nex cf <= nr -> c_nev cf + c_nex cf <= ns ->
  (forall g, g < c_nev cf + c_nex cf -> at_ (ss_last s0) g = Some (f_max fo)) ->
  (forall keys, sorts fo keys (sort_idx keys)) -> rr_ascending ->
  run cf ub s0 h t ->
  (forall g, ss_locked t <= g < c_nev cf + c_nex cf -> exists l, at_ (ss_last t) g = Some l /\ history h g l) /\
  (forall h' p, h = h' ++ [p] -> forall g r, ss_locked p <= g < ss_locked t -> at_ (ss_res t) g = Some r ->
     exists l, history h g l /\ accepted fo (c_tol cf) r l).
Proof.
  intros HO HB Hm Hnr Hns HL HS HRR H. induction H as [|h t u H IH Hu Hi Ht].
  - split.
    + intros g Hg. exists (f_max fo). split; [apply HL; lia|]. exists []. split; auto.
    + intros h' p E. destruct h'; discriminate.
  - destruct IH as [IH _]. pose proof (reach_book fo K sort_idx Hperm cf nr ns ub s0 t HB Hm (run_reach _ _ _ _ _ H)) as (HBt & _).
    destruct (iterate_book fo K sort_idx Hperm cf nr ns ub t u HBt Hu Ht) as (HBu & _ & Hmono & _).
    destruct (iterate_own_history cf nr ns ub t u HO HBt Hu Hnr Hns HS HRR Ht) as (A & B & _).
    assert (G : forall g, ss_locked t <= g < c_nev cf + c_nex cf -> exists l, at_ (ss_last u) g = Some l /\ history (h ++ [t]) g l).
    { intros g Hg. destruct (IH g Hg) as (l & Hl & rs & Hrs & El).
      destruct (nth_error_ex (whole (ss_res t)) g) as [r Hr]. { destruct (bk_s _ _ _ _ HBt) as [_ ->]. lia. }
      exists (fmin fo l r). split; [apply A; auto|]. exists (rs ++ [r]). split.
      - apply Forall2_app; auto.
      - rewrite fold_left_app. simpl. now rewrite <- El. }
    split; [intros g Hg; apply G; lia|].
    intros h' p E g r Hg Hr. apply app_inj_tail in E as [-> ->].
    pose proof (bk_sum _ _ _ _ HBu). pose proof (bk_nex _ _ _ _ HBu).
    destruct (G g) as (l & Hl & Hh); [lia|]. exists l. split; auto. eapply B; eauto.
Qed.

(** *** memory safety of complete runs *)
Lemma solve_init_safe_random nevex I0 I (KS : kernel_safe K nevex I0 I) fsort cf k ritzv resid : c_approx cf = false ->
  (forall l, length (fsort l) = length l) ->
  nevex = c_nev cf + c_nex cf -> nevex <= length ritzv -> nevex <= length resid ->
  2 <= c_N cf -> 1 <= c_lanczositer cf -> 1 <= nevex -> 1 <= c_numlanczos cf <= nevex -> I0 k ->
  (forall k u Th Ta rv k',
     k_lanczos2 K (Nat.min nevex (Nat.min (c_N cf / 2) (c_lanczositer cf))) (c_numlanczos cf) k = Ok (u, Th, Ta, rv, k') ->
     start_ok fo (fsort Th) Th Ta (c_N cf) (c_numlanczos cf) (Nat.min nevex (Nat.min (c_N cf / 2) (c_lanczositer cf))) nevex) ->
  exists ub s0, solve_init fo K fsort cf k ritzv resid = Ok (ub, s0) /\ I 0 (ss_k s0).
Proof.
  intros Ha Hfs HN Hr Hs H2 Hli Hn Hnl HI Hst. unfold solve_init. cbv zeta. rewrite Ha, <- HN. cbn [negb].
  destruct (ks_start _ _ _ _ KS k HI) as (k1 & -> & I1). cbn [bind].
  destruct (put_resid_ok fo resid nevex Hs) as (r1 & ->). cbn [bind].
  destruct (ks_init _ _ _ _ KS true k1 I1) as (k2 & -> & I2). cbn [bind].
  destruct (ks_qr _ _ _ _ KS 0 (f_one fo) k2 I2) as (k3 & -> & I3). cbn [bind].
  set (m := Nat.min nevex (Nat.min (c_N cf / 2) (c_lanczositer cf))) in *.
  assert (Hm : 0 < m <= nevex).
  { assert (1 <= c_N cf / 2) by (apply Nat.div_le_lower_bound; lia). unfold m. lia. }
  destruct (ks_lanczos2 _ _ _ _ KS m (c_numlanczos cf) k3 I3 Hm ltac:(lia)) as (u & Th & Ta & rv & k4 & HL & LT & LA & LR & I4).
  destruct (proj1 (lanczos_iff fo K nevex I0 I KS fsort (c_N cf) (c_numlanczos cf) m ritzv k3 u Th Ta rv k4 Hfs Hm ltac:(lia) Hr I3 HL))
    as ([[[idx ub] ritz] k5] & El); [eapply Hst; eauto|].
  destruct (lanczos_out fo K nevex I0 I KS fsort (c_N cf) (c_numlanczos cf) m ritzv k3 idx ub ritz k5 Hfs Hm ltac:(lia) Hr I3 El)
    as (Th' & Ta' & rv' & k1' & k2' & la & lb & fill & sw & HL' & _ & _ & Hidx & HF & Hdos & Hsw & Hritz & Hks).
  rewrite HL in HL'. injection HL' as <- <- <- <- <-.
  rewrite El. cbn [bind].
  assert (Hlen : length ritz = length ritzv) by (eapply lanczos_length; eauto).
  rewrite get_range_ok by lia. cbn [bind].
  assert (Hne : firstn nevex (skipn 0 ritz) <> []).
  { intros E. apply (f_equal (@length F)) in E. rewrite firstn_length, skipn_length in E. simpl in E. lia. }
  destruct (max_element_ok fo _ Hne) as (x & ->). destruct (min_element_ok fo _ Hne) as (y & ->). cbn [bind].
  do 2 eexists. split; [reflexivity|]. cbn [ss_k].
  assert (I5 : I 0 k2').
  { destruct (0 <? idx)%Z eqn:E0.
    - apply Z.ltb_lt in E0.
      assert (Hlt : Z.to_nat idx < m) by lia.
      destruct (ks_dos _ _ _ _ KS (Z.to_nat idx) m rv k4 I4 ltac:(lia) Hlt ltac:(lia) LR) as (q & Hq & HIq).
      rewrite Hq in Hdos. now injection Hdos as <-.
    - now injection Hdos as <-. }
  clear - KS I5 Hks Hsw. revert k2' I5 Hks. induction sw as [|[i j] sw IH]; intros q HI H; cbn [kswaps] in H.
  - now injection H as <-.
  - inversion Hsw; subst. cbn in H2. rewrite !Nat.add_0_r in H.
    destruct (ks_swap _ _ _ _ KS 0 i j q HI) as (q' & Hq & HI'); try tauto. rewrite Hq in H. cbn [bind] in H. eauto.
Qed.

(** *** an undefined degree makes the solve undefined *)
Lemma for_ub {A} (f : nat -> A -> res A) k : (forall i a, f i a <> Fuel) -> (forall a, f k a = UB) ->
  forall n i a, i <= k < i + n -> for_ n i f a = UB.
Proof.
  intros HF HU. induction n; intros i a Hi; [lia|]. cbn [for_]. destruct (Nat.eq_dec i k) as [->|].
  - rewrite HU. reflexivity.
  - pose proof (HF i a). destruct (f i a); cbn [bind]; auto; [|congruence]. apply IHn. lia.
Qed.
Lemma iterate_undef cf ub s : undef_degree fo cf ub s -> iterate fo K sort_idx cf ub s = UB.
Proof.
  intros (Ho & Hi & lb & la & i & r & x & Hb & Hlt & Hr & Hx & Hd). unfold iterate. rewrite Hb. cbn [bind]. rewrite Ho.
  replace (ss_iter s =? 0) with false by (symmetry; apply Nat.eqb_neq; lia). cbn [andb negb]. unfold calc_degrees, cd_loop1.
  cbn [cd_ritz cd_res cd_deg]. rewrite (for_ub _ i); [reflexivity| | |lia].
  - intros j a. clear Hr Hx Hd. unfold rd. destruct (nth_error _ _); cbn [bind]; [|discriminate]. destruct (nth_error _ _); cbn [bind]; [|discriminate].
    destruct (raw_degree fo _ _ _ _ _); [|discriminate]. unfold wr. destruct (_ <? _); discriminate.
  - intros a. unfold rd. rewrite Hr, Hx. cbn [bind]. change (raw_degree fo) with (degree_formula fo). rewrite Hd. reflexivity.
Qed.
Lemma iterate_iter cf ub s s' : iterate fo K sort_idx cf ub s = Ok s' -> ss_iter s' = ss_iter s + 1.
Proof.
  unfold iterate. cbv zeta. intros H. apply bind_ok in H as ([? ?] & _ & H). apply bind_ok in H as ([? ?] & _ & H). apply bind_ok in H as ([? ?] & _ & H).
  do 6 apply bind_ok in H as (? & _ & H). apply bind_ok in H as ([? ?] & _ & H). do 2 apply bind_ok in H as (? & _ & H). apply bind_ok in H as ([? ?] & _ & H).
  apply bind_ok in H as (? & _ & H). apply bind_ok in H as ([? ?] & _ & H). do 5 apply bind_ok in H as (? & _ & H). injection H as <-. reflexivity.
Qed.
Lemma reach_ub cf ub s t : reach fo K sort_idx cf ub s t ->
  (forall fuel, c_maxiter cf - ss_iter t <= fuel -> solve_loop fo K fuel sort_idx cf ub t = UB) ->
  forall fuel, c_maxiter cf - ss_iter s <= fuel -> solve_loop fo K fuel sort_idx cf ub s = UB.
Proof.
  intros HR. induction HR as [s|s t u HR IH H1 H2 H3]; intros HU; auto. apply IH. intros fuel Hf.
  destruct fuel; [lia|]. cbn [solve_loop]. apply Nat.ltb_lt in H1, H2. rewrite H1, H2. cbn [andb]. rewrite H3. cbn [bind].
  apply HU. rewrite (iterate_iter _ _ _ _ H3). lia.
Qed.
Lemma overflow_ub fsort cf k ritzv resid : degree_overflow fo K sort_idx fsort cf k ritzv resid -> solve fo K fsort sort_idx cf k ritzv resid = UB.
Proof.
  intros (k0 & ub & s0 & t & Hs & Hi & HR & H1 & H2 & HU). unfold solve. rewrite Hs. cbn [bind negb]. rewrite Hi. cbn [bind].
  rewrite (reach_ub cf ub s0 t HR); [reflexivity| |lia].
  intros [|fuel] Hf; [lia|]. cbn [solve_loop]. apply Nat.ltb_lt in H1, H2. rewrite H1, H2. cbn [andb]. rewrite iterate_undef by auto. reflexivity.
Qed.

Lemma solve_safe nevex I0 I (KS : kernel_safe K nevex I0 I) fsort cf k ritzv resid :
  conf_ok cf -> (forall l, length (fsort l) = length l) ->
  nevex = c_nev cf + c_nex cf -> nevex <= length ritzv -> nevex <= length resid ->
  2 <= c_N cf -> 1 <= c_lanczositer cf -> I0 k ->
  (c_approx cf = false -> 1 <= c_numlanczos cf <= nevex /\ forall k u Th Ta rv k',
     k_lanczos2 K (Nat.min nevex (Nat.min (c_N cf / 2) (c_lanczositer cf))) (c_numlanczos cf) k = Ok (u, Th, Ta, rv, k') ->
     start_ok fo (fsort Th) Th Ta (c_N cf) (c_numlanczos cf) (Nat.min nevex (Nat.min (c_N cf / 2) (c_lanczositer cf))) nevex) ->
  (exists o, solve fo K fsort sort_idx cf k ritzv resid = Ok o) \/
  (solve fo K fsort sort_idx cf k ritzv resid = UB /\ degree_overflow fo K sort_idx fsort cf k ritzv resid).
Proof.
  intros HC Hfs HN Hr Hs H2 Hli HI Hst.
  assert (Hn : 1 <= nevex) by (destruct HC; lia).
  assert (HS : exists b k0, (if c_symcheck cf then k_sym K k else Ok (true, k)) = Ok (b, k0) /\ I0 k0).
  { destruct (c_symcheck cf); [|eauto]. apply (ks_sym _ _ _ _ KS k HI). }
  destruct HS as ([|] & k0 & Hs0 & I1).
  - assert (Hi : exists ub s0, solve_init fo K fsort cf k0 ritzv resid = Ok (ub, s0) /\ I 0 (ss_k s0)).
    { destruct (c_approx cf) eqn:Ea.
      - eapply solve_init_safe_approx; eauto.
      - destruct (Hst eq_refl). eapply solve_init_safe_random; eauto. }
    destruct Hi as (ub & s0 & Hi & HI0).
    destruct (solve_safe_after_init fo K sort_idx Hperm nevex I0 I KS fsort cf k k0 ritzv resid ub s0) as [?|(t & ? & ? & ? & ?)]; auto.
    right. assert (X : degree_overflow fo K sort_idx fsort cf k ritzv resid) by (exists k0, ub, s0, t; tauto). split; auto. now apply overflow_ub.
  - left. unfold solve. rewrite Hs0. simpl. eauto.
Qed.

(** a rejected matrix *)
Lemma solve_rejected fsort cf k k0 ritzv resid : c_symcheck cf = true -> k_sym K k = Ok (false, k0) ->
  solve fo K fsort sort_idx cf k ritzv resid = Ok (mk_out k0 ritzv resid None).
Proof. intros H1 H2. unfold solve. now rewrite H1, H2. Qed.

Lemma solve_exit fsort cf k ritzv resid o : solve fo K fsort sort_idx cf k ritzv resid = Ok o ->
  (o_exit o = None <-> c_symcheck cf = true /\ exists k0, k_sym K k = Ok (false, k0)).
Proof.
  unfold solve. intros H. apply bind_ok in H as ([cont k0] & Hs & H). destruct cont; cbn [negb] in H.
  - apply bind_ok in H as ([ub s0] & Hi & H). apply bind_ok in H as (s1 & Hl & H). apply bind_ok in H as ([r k'] & Hf & H).
    apply bind_ok in H as (k'' & He & H). injection H as <-. cbn [o_exit]. split; [discriminate|].
    intros (Hc & k1 & Hk). rewrite Hc, Hk in Hs. discriminate.
  - injection H as <-. cbn. split; auto. intros _. destruct (c_symcheck cf); [|discriminate]. eauto.
Qed.

(** *** residuals that do not compare above the tolerance (in particular NaN) *)
Definition below (tol : F) (n : nat) (r : list F) : Prop := forall i x, i < n -> nth_error r i = Some x -> f_lt fo tol x = false.

Lemma lk_walk_all tol locked n : forall index cv a c a',
  Forall (fun j => j < n) index -> cv + length index <= n -> below tol n (lk_res a) ->
  lk_walk fo K tol locked index cv a = Ok (c, a') -> c = cv + length index.
Proof.
  induction index as [|j index IH]; intros cv a c a' Hi Hl Hb H; cbn [lk_walk length] in *.
  - injection H as <- _. lia.
  - inversion Hi; subst. apply bind_ok in H as (r & Hr & H). apply rd_ok in Hr. apply bind_ok in H as (l & _ & H).
    unfold lk_stop in H. rewrite (Hb j r) in H by auto. cbn [andb] in H. apply bind_ok in H as (a1 & Ha & H).
    apply IH in H; auto; try lia.
    destruct (negb (j =? cv)).
    + apply bind_ok in Ha as (s & Hs & Ha). apply bind_ok in Ha as (l' & _ & Ha). apply bind_ok in Ha as (v & _ & Ha).
      apply bind_ok in Ha as (k & _ & Ha). injection Ha as <-. cbn [lk_res]. apply swap_inv in Hs as (B1 & B2 & ->).
      intros i x Hx Hn. rewrite swp_nth in Hn by auto. apply (Hb (tr j cv i)); auto. apply tr_lt; auto. lia.
    + injection Ha as <-. auto.
Qed.

Lemma locking_all tol locked n a c a' : below tol n (lk_res a) ->
  locking fo K sort_idx n tol locked a = Ok (c, a') -> c = n.
Proof.
  intros Hb H. unfold locking in H. apply bind_ok in H as (keys & Hk & H). apply get_range_inv in Hk as [Hl ->].
  pose proof (Hperm (firstn n (skipn 0 (lk_ritz a)))) as HP. rewrite firstn_length, skipn_length in HP.
  replace (Nat.min n (length (lk_ritz a) - 0)) with n in HP by lia.
  pose proof (Permutation_length HP) as HL. rewrite seq_length in HL.
  apply (lk_walk_all tol locked n) in H; auto; try lia.
  apply Forall_forall. intros j Hj. apply (Permutation_in _ HP) in Hj. apply in_seq in Hj. lia.
Qed.

Lemma solve_nan fsort cf k ritzv resid o s : 1 <= c_maxiter cf -> 1 <= c_nev cf ->
  (forall v l q r q', k_resd K v l q = Ok (r, q') -> length r = c_nev cf + c_nex cf - l /\ Forall (fun x => f_lt fo (c_tol cf) x = false) r) ->
  solve fo K fsort sort_idx cf k ritzv resid = Ok o -> o_exit o = Some s ->
  ss_iter s = 1 /\ ss_locked s = c_nev cf.
Proof.
  intros Hm Hnev HK H Ho. unfold solve in H. apply bind_ok in H as ([cont k0] & Hs & H).
  destruct (negb cont) eqn:Ec; [injection H as <-; discriminate|].
  apply bind_ok in H as ([ub s0] & Hi & H). apply bind_ok in H as (s1 & Hl & H). apply bind_ok in H as ([r k'] & Hf & H).
  apply bind_ok in H as (k'' & He & H). injection H as <-. cbn in Ho. injection Ho as ->.
  pose proof (solve_init_book fo K fsort cf k0 ritzv resid ub s0 Hi) as (HB & Hit & Hlk & _).
  pose proof (bk_sum _ _ _ _ HB) as B1.
  destruct (c_maxiter cf) as [|n] eqn:En; [lia|]. cbn [solve_loop] in Hl.
  replace ((c_nex cf <? ss_unconv s0) && (ss_iter s0 <? c_maxiter cf)) with true in Hl
    by (symmetry; apply andb_true_intro; split; apply Nat.ltb_lt; lia).
  apply bind_ok in Hl as (t & Ht & Hl).
  assert (Hu : c_nex cf < ss_unconv s0) by lia.
  destruct (iterate_book fo K sort_idx Hperm cf _ _ ub s0 t HB Hu Ht) as (HBt & Hit1 & _).
  assert (E : ss_locked t = c_nev cf).
  { apply iterate_inv in Ht as
    (lb0 & lambda & deg & a & av & k1 & cond & k2 & vals & k3 & ritz & last & rs & k4 & res' & new & l & k5 &
     _ & Hdeg & Hff & Hqr & Hrr & Hpr & Hmin & Hresd & Hps & Hlock & _ & _ & _ & _ & _ & ->). cbn [ss_locked].
    apply HK in Hresd as [HL HF]. apply locking_all in Hlock; [lia|]. cbn [lk_res].
    apply put_range_0_firstn in Hps. intros i x Hi' Hx.
    rewrite <- (nth_firstn _ (length rs)) in Hx by lia. rewrite Hps in Hx. rewrite Forall_forall in HF.
    apply HF. eapply nth_error_In; eauto. }
  pose proof (bk_sum _ _ _ _ HBt) as B2.
  assert (s = t).
  { destruct n; cbn [solve_loop] in Hl.
    - replace (c_nex cf <? ss_unconv t) with false in Hl by (symmetry; apply Nat.ltb_ge; lia). simpl in Hl. now injection Hl as ->.
    - replace (c_nex cf <? ss_unconv t) with false in Hl by (symmetry; apply Nat.ltb_ge; lia). simpl in Hl. now injection Hl as ->. }
  subst s. split; auto. lia.
Qed.
End R.
