From Coq Require Import List Arith ZArith Bool Lia Permutation.
Require Import Verif.Base Verif.AlgModel Verif.AlgSpec Verif.AlgProofs1 Verif.AlgProofs2 Verif.AlgProofs3 Verif.AlgProofs4
  Verif.AlgSim Verif.AlgTrace.
Import ListNotations.

Section T.
Context {F St : Type} (fo : fops F) (K : kernel F St).
Notation LK := (logK K).

Lemma logged_inv (c : call F) r (x : res St) t : logged c r x = Ok t -> exists s, x = Ok s /\ t = (r ++ [c], s).
Proof. unfold logged. intros H. apply bind_ok in H as (s & Hs & H). injection H as <-. eauto. Qed.
Lemma logged_v_inv {X} (c : call F) r (x : res (X * St)) v t : logged_v c r x = Ok (v, t) -> exists s, x = Ok (v, s) /\ t = (r ++ [c], s).
Proof. unfold logged_v. intros H. apply bind_ok in H as ([v' s] & Hs & H). injection H as <- <-. eauto. Qed.

(** erasing the log gives back the original kernel *)
Lemma log_rel : kernel_rel LK K (fun t s => snd t = s).
Proof.
  assert (A : forall c r x, rel_res (fun (t : list (call F) * St) s => snd t = s) (logged c r x) x)
    by (intros c r x; destruct x; simpl; auto).
  assert (B : forall X c r (x : res (X * St)), rel_res (vrel (fun (t : list (call F) * St) s => snd t = s)) (logged_v c r x) x)
    by (intros X c r x; destruct x as [[? ?]| |]; simpl; auto; split; auto).
  constructor; intros; subst; simpl; try apply A; try apply B.
Qed.

Lemma kswaps_log off : forall sw t t', kswaps LK off sw t = Ok t' -> fst t' = fst t ++ swap_calls off sw.
Proof.
  induction sw as [|[k j] sw IH]; intros t t' H; cbn [kswaps] in H.
  - injection H as <-. simpl. now rewrite app_nil_r.
  - apply bind_ok in H as (s & Hs & H). apply logged_inv in Hs as (s1 & _ & ->). apply IH in H. rewrite H. simpl.
    now rewrite <- app_assoc.
Qed.

Lemma filter_log degs deg la lo up t av t' :
  ascending degs -> Forall (fun d => 1 <= d) degs -> (exists d, In d degs /\ 2 <= d) -> 1 <= deg ->
  filter_ fo LK (length degs) deg degs la lo up t = Ok (av, t') ->
  fst t' = fst t ++ filter_calls fo deg degs la lo up /\ av = list_sum (map (Nat.min deg) degs).
Proof.
  intros H1 H2 H3 H4 H. rewrite filter_refines in H by auto. unfold filter_spec in H. cbv zeta in H.
  apply bind_ok in H as (k1 & Hk1 & H). apply bind_ok in H as (k2 & Hk2 & H). apply bind_ok in H as (k3 & Hk3 & H).
  injection H as <- <-. split; auto.
  apply logged_inv in Hk1 as (s1 & _ & ->). apply logged_inv in Hk3 as (s3 & _ & ->). cbn [fst].
  unfold filter_calls. cbv zeta.
  set (g := fun i => CHemm _ _ _ _) in *.
  apply (for_inv_ok (fun i k => fst k = fst t ++ [CShift (f_neg fo (f_div fo (f_add fo up lo) (f_two fo))) false] ++
     map g (seq 1 (i - 1)))) in Hk2.
  - rewrite Hk2. replace (1 + deg - 1) with deg by lia. rewrite <- !app_assoc. reflexivity.
  - simpl. now rewrite ?app_nil_r.
  - intros i k k' Hi Hk Hb. apply logged_inv in Hb as (s & _ & ->). cbn [fst]. rewrite Hk.
    replace (S i - 1) with (S (i - 1)) by lia. rewrite seq_S, map_app. cbn [map]. rewrite <- !app_assoc.
    replace (1 + (i - 1)) with i by lia. reflexivity.
Qed.

(** *** counting *)
Lemma products_on_filter deg degs la lo up j d :
  ascending degs -> Forall (fun d => d <= deg) degs -> nth_error degs j = Some d ->
  products_on j (filter_calls fo deg degs la lo up) = d.
Proof.
  intros Ha Hd Hj. unfold products_on, filter_calls. cbv zeta. cbn [filter covers]. rewrite filter_app, app_length. cbn [filter covers].
  rewrite Nat.add_0_r.
  assert (E : forall i, covers (F := F) j (CHemm (count (fun d => i <=? d) degs)
      (alpha_ fo (f_div fo (f_div fo (f_sub fo up lo) (f_two fo)) (f_sub fo la (f_div fo (f_add fo up lo) (f_two fo)))) (f_div fo (f_sub fo up lo) (f_two fo)) i)
      (beta_ fo (f_div fo (f_div fo (f_sub fo up lo) (f_two fo)) (f_sub fo la (f_div fo (f_add fo up lo) (f_two fo)))) i)
      (count (fun d => d <? i) degs)) = (i <=? d)).
  { intros i. unfold covers. replace (count (fun d => d <? i) degs + count (fun d => i <=? d) degs) with (length degs).
    2:{ symmetry. apply count_compl. intros x. rewrite Nat.ltb_antisym. reflexivity. }
    pose proof (nth_error_lt _ _ _ Hj) as Hlt. replace (j <? length degs) with true by (symmetry; now apply Nat.ltb_lt).
    rewrite andb_true_r. clear Hd Hlt. revert j Hj.
    induction degs as [|x l IH]; intros j Hj; [destruct j; discriminate|].
    rewrite count_cons. destruct j as [|j].
    - injection Hj as ->. destruct (d <? i) eqn:E1.
      + apply Nat.ltb_lt in E1. replace (i <=? d) with false by (symmetry; apply Nat.leb_gt; lia). apply Nat.leb_gt; lia.
      + apply Nat.ltb_ge in E1. replace (i <=? d) with true by (symmetry; apply Nat.leb_le; lia). apply Nat.leb_le.
        rewrite count_all_false; [lia|]. intros y Hy. apply Nat.ltb_ge. pose proof (ascending_head _ _ _ Ha Hy). lia.
    - simpl in Hj. specialize (IH (ascending_tail _ _ Ha) j Hj). destruct (x <? i) eqn:E1.
      + rewrite <- IH. apply eq_true_iff_eq. rewrite !Nat.leb_le. lia.
      + apply Nat.ltb_ge in E1. pose proof (ascending_head _ _ d Ha (nth_error_In _ _ Hj)).
        rewrite count_all_false.
        * simpl. symmetry. apply Nat.leb_le. lia.
        * intros y Hy. apply Nat.ltb_ge. pose proof (ascending_head _ _ _ Ha Hy). lia. }
  pose proof (proj1 (Forall_forall _ _) Hd d (nth_error_In _ _ Hj)) as Hle. cbn beta in Hle.
  clear Hj Ha Hd.
  match goal with |- length (filter _ (map ?g _)) = _ => set (g0 := g) end.
  assert (Hcnt : forall n s, length (filter (covers (F := F) j) (map g0 (seq s n))) = Nat.min (s + n) (d + 1) - Nat.min s (d + 1)).
  { induction n; intros s; [simpl; lia|]. cbn [seq map filter]. unfold g0 at 1. cbn beta. rewrite E.
    destruct (s <=? d) eqn:Es; cbn [length]; rewrite IHn; [apply Nat.leb_le in Es|apply Nat.leb_gt in Es]; lia. }
  rewrite Hcnt. lia.
Qed.

Lemma products_filter deg degs la lo up : products (F := F) (filter_calls fo deg degs la lo up) = list_sum (map (Nat.min deg) degs).
Proof.
  unfold products, filter_calls. cbv zeta. cbn [map hemm_cols]. rewrite map_app, map_map. cbn [hemm_cols map].
  change (list_sum (0 :: ?l)) with (list_sum l).
  rewrite <- (Nat.add_0_l (list_sum _)). cbn [list_sum fold_right plus].
  assert (H : forall n, list_sum (map (fun i => count (fun d => i <=? d) degs) (seq 1 n)) = list_sum (map (Nat.min n) degs)).
  { induction n.
    - simpl. clear. induction degs; simpl; auto.
    - rewrite seq_S, map_app, list_sum_app, IHn, sum_counts. simpl. lia. }
  change (fold_right Nat.add 0) with list_sum.
  rewrite list_sum_app, H. simpl. lia.
Qed.

(** *** outer loop *)
Context (sort_idx : list F -> list nat) (Hperm : forall keys, Permutation (sort_idx keys) (seq 0 (length keys))).

Lemma iterate_log cf nr ns ub s s' : conf_ok cf -> book cf nr ns s -> c_nex cf < ss_unconv s -> degs_ok s ->
  iterate fo LK sort_idx cf ub s = Ok s' ->
  exists r, it_locked r = ss_locked s /\ iter_ok (c_nev cf) (c_nex cf) r /\ ss_locked s' = ss_locked s + it_new r /\
    fst (ss_k s') = fst (ss_k s) ++ iter_calls fo ub r /\ it_lower r = ss_lowerb s'.
Proof.
  intros HC HB Hu HD H. apply iterate_inv in H as
    (lb0 & lambda & deg & a & av & k1 & cond & k2 & vals & k3 & ritz & last & rs & k4 & resid & new & l & k5 &
     _ & Hdeg & Hf & Hqr & Hrr & Hpr & Hmin & Hresd & Hps & Hlk & Hlock & _ & _ & _ & _ & ->).
  set (lowerb := if f_lt fo ub lb0 then ub else lb0) in *.
  pose proof (bk_d _ _ _ _ HB) as [_ Hdl].
  pose proof (degree_step_degs fo LK cf s ub lowerb deg a HC Hu (eq_sym Hdl) HD Hdeg) as (A1 & A2 & A3 & A4).
  apply degree_step_len in Hdeg as (Hlen & sw1 & Hsw1 & _ & _ & _ & Hk); auto; [|lia].
  apply locking_general in Hlk as (Hnew & sw2 & Hsw2 & _ & _ & _ & Hk2); auto. cbn [lk_k] in Hk2.
  rewrite Hdl in Hlen.
  assert (Hf' : fst k1 = fst (cd_k a) ++ filter_calls fo deg (cd_deg a) lambda lowerb ub).
  { rewrite <- Hlen in Hf. assert (E2 : exists d, In d (cd_deg a) /\ 2 <= d).
    { destruct (cd_deg a) as [|d t] eqn:E; [simpl in Hlen; lia|]. exists d. split; [now left|]. now inversion A2. }
    apply filter_log in Hf; auto; try tauto.
    - eapply Forall_impl; [|exact A2]. simpl. lia.
    - destruct E2 as (d & Hd & Hd2). rewrite Forall_forall in A3. specialize (A3 d Hd). lia. }
  exists (mk_it F (ss_locked s) (ss_unconv s) new deg (cd_deg a) lambda lowerb cond sw1 sw2). cbn [it_locked it_new ss_locked ss_k].
  split; auto. split.
  { unfold iter_ok. cbn. pose proof (bk_sum _ _ _ _ HB). repeat split; auto.
    rewrite Forall_forall in *. intros d Hd. specialize (A2 d Hd). specialize (A3 d Hd). tauto. }
  split; auto. split; [|reflexivity].
  apply kswaps_log in Hk, Hk2. apply logged_inv in Hlock as (s5 & _ & ->).
  apply logged_inv in Hqr as (s2 & _ & ->). apply logged_v_inv in Hrr as (s3 & _ & ->). apply logged_v_inv in Hresd as (s4 & _ & ->).
  cbn [fst] in *. rewrite Hk2, Hf', Hk. unfold iter_calls.
  cbn [it_locked it_unconv it_new it_deg it_degs it_lambda it_lower it_cond it_sw1 it_sw2]. rewrite <- !app_assoc. reflexivity.
Qed.

Lemma reach_log cf nr ns ub s t : conf_ok cf -> book cf nr ns s -> degs_ok s -> ss_iter s <= c_maxiter cf ->
  reach fo LK sort_idx cf ub s t ->
  degs_ok t /\ exists rs, iters (c_nev cf) (c_nex cf) (ss_locked s) rs (ss_locked t) /\
    length rs + ss_iter s = ss_iter t /\
    fst (ss_k t) = fst (ss_k s) ++ flat_map (iter_calls fo ub) rs.
Proof.
  intros HC HB HD Hm H. induction H as [s|s t u H IH Hu Hi Ht].
  - split; auto. exists []. simpl. rewrite app_nil_r. split; [constructor|auto].
  - destruct (IH HB HD Hm) as (HDt & rs & Hrs & Hl & Hk).
    pose proof (reach_book fo LK sort_idx Hperm cf nr ns ub s t HB Hm H) as (HBt & _).
    pose proof (iterate_degs fo LK sort_idx cf nr ns ub t u HC HBt Hu HDt Ht) as HDu.
    destruct (iterate_book fo LK sort_idx Hperm cf nr ns ub t u HBt Hu Ht) as (_ & Hiter & _).
    destruct (iterate_log cf nr ns ub t u HC HBt Hu HDt Ht) as (r & E1 & E2 & E3 & E4 & _).
    split; auto. exists (rs ++ [r]). split; [|split].
    + rewrite E3. now apply iters_snoc.
    + rewrite app_length. simpl. lia.
    + rewrite E4, Hk, flat_map_app. simpl. now rewrite app_nil_r, <- app_assoc.
Qed.

(** start-up calls *)
Local Notation start_calls := (start_calls fo).

Lemma lanczos_log fsort N nv m nevex mode r t idx ub r' t' :
  lanczos fo LK fsort N nv m nevex mode r t = Ok (idx, ub, r', t') ->
  if mode then exists sw, fst t' = fst t ++ [CLanczos2 m nv] ++ (if (0 <? idx)%Z then [CDos (Z.to_nat idx) m] else []) ++ swap_calls 0 sw
  else fst t' = fst t ++ [CLanczos1 m].
Proof.
  unfold lanczos. destruct (m =? 0); [discriminate|]. destruct mode; cbn [negb].
  - intros H. apply bind_ok in H as ([[[[u th] ta] rv] t1] & H1 & H). apply logged_v_inv in H1 as (s1 & _ & ->).
    apply bind_ok in H as (la & _ & H). apply bind_ok in H as ([lb|] & _ & H); [|discriminate].
    apply bind_ok in H as (z & _ & H). apply bind_ok in H as (t2 & H2 & H). apply bind_ok in H as (q & _ & H).
    apply bind_ok in H as ([r2 t3] & H3 & H). injection H as -> -> -> ->.
    apply lz_intersperse_by in H3 as (sw & _ & Hk). apply kswaps_log in Hk. cbn [fst snd] in Hk.
    exists sw. rewrite Hk. destruct (0 <? idx)%Z.
    + apply logged_inv in H2 as (s2 & _ & ->). cbn [fst]. rewrite <- !app_assoc. reflexivity.
    + injection H2 as <-. cbn [fst]. now rewrite <- !app_assoc.
  - intros H. apply bind_ok in H as ([u t1] & H1 & H). apply logged_v_inv in H1 as (s1 & _ & ->). injection H as <- <- <- <-. auto.
Qed.

Lemma solve_init_log fsort cf t ritzv resid ub s0 : solve_init fo LK fsort cf t ritzv resid = Ok (ub, s0) ->
  exists sw idx, fst (ss_k s0) = fst t ++ start_calls cf sw idx.
Proof.
  intros H. unfold solve_init in H. cbv zeta in H.
  apply bind_ok in H as (k1 & Hk1 & H). apply logged_inv in Hk1 as (s1 & _ & ->).
  apply bind_ok in H as (rs & _ & H). apply bind_ok in H as (k2 & Hk2 & H). apply logged_inv in Hk2 as (s2 & _ & ->).
  apply bind_ok in H as (k3 & Hk3 & H). apply bind_ok in H as ([[[idx u] r] k4] & Hl & H).
  apply bind_ok in H as (w & _ & H). apply bind_ok in H as (lb & _ & H). apply bind_ok in H as (la & _ & H).
  injection H as <- <-. cbn [ss_k]. apply lanczos_log in Hl. unfold start_calls. cbv zeta.
  destruct (c_approx cf); cbn [negb] in *.
  - injection Hk3 as <-. exists [], 0. rewrite Hl. cbn [fst]. rewrite <- !app_assoc. reflexivity.
  - apply logged_inv in Hk3 as (s3 & _ & ->). destruct Hl as (sw & ->). exists sw, (Z.to_nat idx). cbn [fst].
    replace (0 <? Z.to_nat idx) with (0 <? idx)%Z.
    + rewrite <- !app_assoc. reflexivity.
    + apply eq_true_iff_eq. rewrite Z.ltb_lt, Nat.ltb_lt. lia.
Qed.

Lemma solve_log fsort cf t ritzv resid o s : conf_ok cf ->
  solve fo LK fsort sort_idx cf t ritzv resid = Ok o -> o_exit o = Some s ->
  exists ub rs sw idx sw', iters (c_nev cf) (c_nex cf) 0 rs (ss_locked s) /\ length rs = ss_iter s /\ in_range (c_nev cf) sw' /\
    fst (o_k o) = fst t ++ (if c_symcheck cf then [CSym] else []) ++ start_calls cf sw idx ++
                  flat_map (iter_calls fo ub) rs ++ swap_calls 0 sw' ++ [CEnd].
Proof.
  intros HC H Ho. unfold solve in H. apply bind_ok in H as ([cont k0] & Hs & H).
  destruct (negb cont) eqn:Ec; [injection H as <-; discriminate|].
  apply bind_ok in H as ([ub s0] & Hi & H). apply bind_ok in H as (s1 & Hl & H). apply bind_ok in H as ([r k'] & Hf & H).
  apply bind_ok in H as (k'' & He & H). injection H as <-. cbn in Ho. injection Ho as ->.
  pose proof (solve_init_book fo LK fsort cf k0 ritzv resid ub s0 Hi) as (HB & Hit & Hlk & Hd & Hdg & Hn1 & _).
  pose proof (init_degs cf s0 HC Hd Hdg) as HD.
  apply solve_loop_reach in Hl as (Hr & _).
  destruct (reach_log cf _ _ ub s0 s HC HB HD ltac:(lia) Hr) as (_ & rs & Hrs & Hlen & Hk).
  pose proof (reach_book fo LK sort_idx Hperm cf _ _ ub s0 s HB ltac:(lia) Hr) as (HBs & _).
  apply final_sort_by in Hf as (_ & sw' & Hsw' & _ & Hk').
  2:{ destruct (bk_r _ _ _ _ HBs) as [_ ->]. lia. }
  cbn [snd] in Hk'. apply kswaps_log in Hk'. apply logged_inv in He as (s5 & _ & ->). cbn [o_k fst].
  destruct (solve_init_log _ _ _ _ _ _ _ Hi) as (sw & idx & Hini).
  exists ub, rs, sw, idx, sw'. rewrite Hlk in Hrs. split; auto. split; [lia|]. split; auto.
  rewrite Hk', Hk, Hini. destruct (c_symcheck cf).
  - apply logged_v_inv in Hs as (s6 & _ & ->). cbn [fst]. rewrite <- !app_assoc. reflexivity.
  - injection Hs as _ <-. rewrite <- !app_assoc. reflexivity.
Qed.
End T.
