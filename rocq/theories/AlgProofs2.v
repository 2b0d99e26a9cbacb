(** locking and filter *)
From Coq Require Import List Arith ZArith Bool Lia Permutation.
Require Import Verif.Base Verif.AlgModel Verif.AlgSpec Verif.AlgProofs1.
Import ListNotations.

Section LK.
Context {F St : Type} (fo : fops F) (K : kernel F St).

Definition lk_by (locked : nat) (sw : list (nat * nat)) (a a' : @lk_arrays F St) : Prop :=
  lk_ritz a' = swps sw (lk_ritz a) /\ lk_res a' = swps sw (lk_res a) /\ lk_last a' = swps sw (lk_last a) /\
  kswaps K locked sw (lk_k a) = Ok (lk_k a').

Lemma lk_by_trans locked sw1 sw2 a b c : lk_by locked sw1 a b -> lk_by locked sw2 b c -> lk_by locked (sw1 ++ sw2) a c.
Proof.
  intros (A1 & A2 & A3 & A4) (B1 & B2 & B3 & B4).
  unfold lk_by. rewrite !swps_app, kswaps_app, <- A1, <- A2, <- A3, A4. auto.
Qed.
Lemma lk_by_nil locked a : lk_by locked [] a a.
Proof. repeat split. Qed.

Lemma lk_walk_general tol locked n : forall index converged a c a',
  Forall (fun j => j < n) index -> converged + length index <= n ->
  lk_walk fo K tol locked index converged a = Ok (c, a') ->
  converged <= c <= converged + length index /\ exists sw, in_range n sw /\ lk_by locked sw a a'.
Proof.
  induction index as [|j index IH]; intros cv a c a' Hall Hn H; simpl in *.
  - inversion H; subst. split; [lia|]. exists []. split; [constructor|apply lk_by_nil].
  - inversion Hall as [|? ? Hj Hall']; subst.
    apply bind_ok in H as (r & Hr & H). apply bind_ok in H as (l & Hl & H).
    destruct (lk_stop fo tol r l).
    + inversion H; subst. split; [lia|]. exists []. split; [constructor|apply lk_by_nil].
    + apply bind_ok in H as (a1 & H1 & H). apply IH in H as (Hc & sw & Hsw & Hby); auto; [|lia].
      split; [lia|]. destruct (negb (j =? cv)).
      * apply bind_ok in H1 as (x1 & E1 & H1). apply bind_ok in H1 as (x2 & E2 & H1).
        apply bind_ok in H1 as (x3 & E3 & H1). apply bind_ok in H1 as (x4 & E4 & H1). inversion H1; subst; clear H1.
        apply swap_inv in E1 as (_ & _ & ->). apply swap_inv in E2 as (_ & _ & ->). apply swap_inv in E3 as (_ & _ & ->).
        exists ((j, cv) :: sw). split; [constructor; auto; simpl; lia|].
        change ((j, cv) :: sw) with ([(j, cv)] ++ sw). eapply lk_by_trans; eauto.
        repeat split. simpl. rewrite E4. reflexivity.
      * inversion H1; subst. eauto.
Qed.

Lemma locking_general sort_idx n tol locked a c a' :
  (forall keys, Permutation (sort_idx keys) (seq 0 (length keys))) ->
  locking fo K sort_idx n tol locked a = Ok (c, a') ->
  c <= n /\ exists sw, in_range n sw /\ lk_by locked sw a a'.
Proof.
  intros HP H. unfold locking in H. apply bind_ok in H as (keys & Hk & H).
  apply get_range_inv in Hk as [Hl ->]. simpl in Hl.
  set (keys := firstn n (skipn 0 (lk_ritz a))) in *.
  assert (HL : length keys = n) by (unfold keys; rewrite firstn_length, skipn_length; lia).
  specialize (HP keys). rewrite HL in HP.
  assert (HI : length (sort_idx keys) = n) by (rewrite (Permutation_length HP), seq_length; auto).
  apply (lk_walk_general tol locked n) in H.
  - rewrite HI in H. destruct H; split; [lia|auto].
  - apply Forall_forall. intros x Hx. apply (Permutation_in _ HP) in Hx. apply in_seq in Hx. lia.
  - lia.
Qed.

(** *** strictly ascending keys *)
Lemma sorted_perm_id : forall n s idx, Permutation idx (seq s n) ->
  (forall p q i j, p < q -> nth_error idx p = Some i -> nth_error idx q = Some j -> i <= j) -> idx = seq s n.
Proof.
  induction n; intros s idx HP HS; simpl in *.
  - apply Permutation_sym, Permutation_nil in HP. auto.
  - destruct idx as [|x idx]; [apply Permutation_nil_cons in HP; easy|].
    assert (Hin : In s (x :: idx)) by (apply Permutation_in with (s :: seq (S s) n); [now apply Permutation_sym|left; auto]).
    assert (Hx : s <= x).
    { assert (In x (s :: seq (S s) n)) as Hi by (apply Permutation_in with (x :: idx); auto; left; auto).
      destruct Hi as [->|Hi]; [lia|]. apply in_seq in Hi. lia. }
    assert (x = s) as ->.
    { destruct Hin as [|Hin]; auto. apply In_nth_error in Hin as [q Hq].
      pose proof (HS 0 (S q) x s ltac:(lia) eq_refl Hq). lia. }
    f_equal. apply IHn.
    + eapply Permutation_cons_inv; eauto.
    + intros p q i j Hpq Hi Hj. apply (HS (S p) (S q)); auto. lia.
Qed.

Lemma sorts_strict_id keys idx : sorts fo keys idx -> strictly_ascending fo keys -> idx = seq 0 (length keys).
Proof.
  intros [HP HS] HA. apply sorted_perm_id; auto.
  intros p q i j Hpq Hi Hj. destruct (Nat.le_gt_cases i j) as [|Hji]; auto. exfalso.
  assert (Hil : i < length keys).
  { apply nth_error_In in Hi. apply (Permutation_in _ HP) in Hi. apply in_seq in Hi. lia. }
  destruct (nth_error_ex keys i Hil) as [ki Ei]. destruct (nth_error_ex keys j ltac:(lia)) as [kj Ej].
  pose proof (HS p q i j ki kj Hpq Hi Hj Ei Ej) as E1. pose proof (HA j i kj ki Hji Ej Ei) as E2. congruence.
Qed.

Lemma lk_stop_accepted tol r l : lk_stop fo tol r l = false <-> accepted fo tol r l.
Proof.
  unfold lk_stop, accepted. destruct (f_lt fo tol r), (f_lt fo r l); simpl; split; intros H; auto;
    try (intros [? ?]; discriminate); try discriminate. exfalso; apply H; auto.
Qed.

Lemma lk_walk_id tol locked : forall n s a,
  s + n <= length (lk_res a) -> s + n <= length (lk_last a) ->
  exists c, lk_walk fo K tol locked (seq s n) s a = Ok (c, a) /\ s <= c <= s + n /\
    (forall i r l, s <= i < c -> nth_error (lk_res a) i = Some r -> nth_error (lk_last a) i = Some l -> accepted fo tol r l) /\
    (c < s + n -> forall r l, nth_error (lk_res a) c = Some r -> nth_error (lk_last a) c = Some l -> ~ accepted fo tol r l).
Proof.
  induction n; intros s a H1 H2; simpl.
  - exists s. repeat split; auto; try lia.
  - unfold rd. destruct (nth_error_ex (lk_res a) s) as [r Er]; [lia|]. destruct (nth_error_ex (lk_last a) s) as [l El]; [lia|].
    rewrite Er, El. cbn [bind]. destruct (lk_stop fo tol r l) eqn:E.
    + exists s. split; auto. split; [lia|]. split; [intros; lia|].
      intros _ r' l' Hr Hl. rewrite Er in Hr; rewrite El in Hl; inversion Hr; inversion Hl; subst.
      rewrite <- lk_stop_accepted. congruence.
    + rewrite Nat.eqb_refl. cbn [negb bind]. replace (s + 1) with (S s) by lia.
      destruct (IHn (S s) a) as (c & -> & Hc & HA & HB); try lia.
      exists c. split; auto. split; [lia|]. split.
      * intros i r' l' Hi Hr Hl. destruct (Nat.eq_dec i s) as [->|].
        -- rewrite Er in Hr; rewrite El in Hl; inversion Hr; inversion Hl; subst. now apply lk_stop_accepted.
        -- apply HA with i; auto. lia.
      * intros Hlt. apply HB. lia.
Qed.

Lemma locking_ascending sort_idx n tol locked a :
  n <= length (lk_ritz a) -> n <= length (lk_res a) -> n <= length (lk_last a) ->
  (forall keys, sorts fo keys (sort_idx keys)) ->
  strictly_ascending fo (firstn n (lk_ritz a)) ->
  exists c, locking fo K sort_idx n tol locked a = Ok (c, a) /\ c <= n /\
    (forall i r l, i < c -> nth_error (lk_res a) i = Some r -> nth_error (lk_last a) i = Some l -> accepted fo tol r l) /\
    (c < n -> forall r l, nth_error (lk_res a) c = Some r -> nth_error (lk_last a) c = Some l -> ~ accepted fo tol r l).
Proof.
  intros L1 L2 L3 HS HA. unfold locking. rewrite get_range_ok by (simpl; auto). cbn [bind skipn].
  rewrite (sorts_strict_id _ _ (HS _) HA). rewrite firstn_length, Nat.min_l by auto.
  destruct (lk_walk_id tol locked n 0 a) as (c & E & Hc & H1 & H2); auto.
  exists c. split; auto. split; [lia|]. split; auto. intros i r l Hi. apply H1. lia.
Qed.

(** safety *)
Context (nevex : nat) (I0 : St -> Prop) (I : nat -> St -> Prop) (KS : kernel_safe K nevex I0 I).

Lemma lk_walk_safe tol l n : forall index cv a,
  Forall (fun j => j < n) index -> cv + length index <= n -> l + n <= nevex ->
  n <= length (lk_ritz a) -> n <= length (lk_res a) -> n <= length (lk_last a) -> I l (lk_k a) ->
  exists c a', lk_walk fo K tol l index cv a = Ok (c, a') /\ I l (lk_k a').
Proof.
  induction index as [|j index IH]; intros cv a Hall Hn Hln L1 L2 L3 HI; simpl in *; eauto.
  inversion Hall as [|? ? Hj Hall']; subst.
  unfold rd. destruct (nth_error_ex (lk_res a) j) as [r ->]; [lia|]. destruct (nth_error_ex (lk_last a) j) as [q ->]; [lia|].
  cbn [bind]. destruct (lk_stop fo tol r q); eauto.
  destruct (negb (j =? cv)).
  - rewrite !swap_ok by lia. cbn [bind].
    destruct (ks_swap _ _ _ _ KS l (j + l) (cv + l) (lk_k a) HI) as (s' & -> & HI'); try lia. cbn [bind].
    apply IH; simpl; rewrite ?swp_length; auto; lia.
  - cbn [bind]. apply IH; auto; lia.
Qed.

Lemma locking_safe sort_idx n tol l a :
  (forall keys, Permutation (sort_idx keys) (seq 0 (length keys))) -> l + n <= nevex ->
  n <= length (lk_ritz a) -> n <= length (lk_res a) -> n <= length (lk_last a) -> I l (lk_k a) ->
  exists c a', locking fo K sort_idx n tol l a = Ok (c, a') /\ I l (lk_k a').
Proof.
  intros HP Hn L1 L2 L3 HI. unfold locking. rewrite get_range_ok by (simpl; auto). cbn [bind skipn].
  specialize (HP (firstn n (lk_ritz a))). rewrite firstn_length, Nat.min_l in HP by auto.
  apply lk_walk_safe with n; auto.
  - apply Forall_forall. intros x Hx. apply (Permutation_in _ HP) in Hx. apply in_seq in Hx. lia.
  - rewrite (Permutation_length HP), seq_length. lia.
Qed.
End LK.

(** ** filter *)
Definition rel_res {A B} (R : A -> B -> Prop) (x : res A) (y : res B) : Prop :=
  match x, y with Ok a, Ok b => R a b | UB, UB => True | Fuel, Fuel => True | _, _ => False end.

Lemma for_sim {A B} (R : nat -> A -> B -> Prop) f g : forall n i a b, R i a b ->
  (forall k a b, i <= k < i + n -> R k a b -> rel_res (R (S k)) (f k a) (g k b)) ->
  rel_res (R (i + n)) (for_ n i f a) (for_ n i g b).
Proof.
  induction n; intros i a b HR HS; simpl.
  - now rewrite Nat.add_0_r.
  - pose proof (HS i a b ltac:(lia) HR) as H. destruct (f i a), (g i b); simpl in *; try easy.
    rewrite Nat.add_succ_r. apply (IHn (S i)); auto. intros. apply HS; auto. lia.
Qed.

Lemma ascending_tail x l : ascending (x :: l) -> ascending l.
Proof. intros H i j a b Hij Ha Hb. apply (H (S i) (S j)); auto. lia. Qed.
Lemma ascending_head x l y : ascending (x :: l) -> In y l -> x <= y.
Proof. intros H Hy. apply In_nth_error in Hy as [j Hj]. apply (H 0 (S j)); auto. lia. Qed.

Lemma count_nil p : count p [] = 0.
Proof. auto. Qed.
Lemma count_cons p x l : count p (x :: l) = (if p x then 1 else 0) + count p l.
Proof. unfold count. simpl. destruct (p x); auto. Qed.
Lemma count_le p l : count p l <= length l.
Proof. induction l; rewrite ?count_nil, ?count_cons; simpl; auto. destruct (p a); lia. Qed.
Lemma count_compl p q l : (forall x, p x = negb (q x)) -> count p l + count q l = length l.
Proof. intros H. induction l; rewrite ?count_nil, ?count_cons; simpl; auto. rewrite H. destruct (q a); simpl; lia. Qed.
Lemma count_ext p q l : (forall x, In x l -> p x = q x) -> count p l = count q l.
Proof. induction l; intros H; rewrite ?count_nil, ?count_cons; auto. rewrite H by (left; auto). rewrite IHl; auto. intros; apply H; right; auto. Qed.
Lemma count_all_false p l : (forall x, In x l -> p x = false) -> count p l = 0.
Proof. induction l; intros H; rewrite ?count_nil, ?count_cons; auto. rewrite H by (left; auto). rewrite IHl; auto. intros; apply H; right; auto. Qed.

Lemma leb_compl n x : (x <=? n) = negb (S n <=? x).
Proof.
  destruct (x <=? n) eqn:E1, (S n <=? x) eqn:E2; auto;
    rewrite ?Nat.leb_le, ?Nat.leb_gt in *; lia.
Qed.

Lemma retire2_spec num : forall dg off, ascending dg ->
  retire2 dg (length dg) off num = Ok (skipn (count (fun d => d <=? num) dg) dg,
    count (fun d => S num <=? d) dg, off + count (fun d => d <=? num) dg).
Proof.
  induction dg as [|d dg IH]; intros off HA.
  - simpl. now rewrite Nat.add_0_r.
  - cbn [length retire2]. rewrite !count_cons. destruct (d <=? num) eqn:E.
    + rewrite IH by (eapply ascending_tail; eauto).
      apply Nat.leb_le in E. replace (S num <=? d) with false by (symmetry; apply Nat.leb_gt; lia).
      simpl. rewrite <- Nat.add_assoc. reflexivity.
    + apply Nat.leb_gt in E. replace (S num <=? d) with true by (symmetry; apply Nat.leb_le; lia).
      assert (Hz : count (fun d => d <=? num) dg = 0).
      { apply count_all_false. intros x Hx. apply Nat.leb_gt. pose proof (ascending_head _ _ _ HA Hx). lia. }
      rewrite Hz. simpl. assert (Hf : count (fun d0 => S num <=? d0) dg = length dg).
      { pose proof (count_compl (fun d => d <=? num) (fun d => S num <=? d) dg) as Hc.
        rewrite Hz in Hc. apply Hc. intros x. apply leb_compl. }
      simpl in Hf. rewrite Hf, Nat.add_0_r. reflexivity.
Qed.

(** retire1 agrees with retire2 as soon as some degree exceeds num *)
Lemma retire1_retire2 num : forall dg off, (exists d, In d dg /\ num < d) ->
  retire1 dg (length dg) off num = retire2 dg (length dg) off num.
Proof.
  induction dg as [|d dg IH]; intros off [x [Hx Hl]]; [easy|]. simpl. destruct (d <=? num) eqn:E; auto.
  apply IH. destruct Hx as [->|Hx]; eauto. apply Nat.leb_le in E. lia.
Qed.

Lemma retire1_oob num : forall dg unproc off, length dg <= unproc -> (forall d, In d dg -> d <= num) ->
  retire1 dg unproc off num = UB.
Proof.
  induction dg as [|d dg IH]; intros unproc off HL H; simpl; auto.
  replace (d <=? num) with true by (symmetry; apply Nat.leb_le; apply H; left; auto).
  destruct unproc; simpl in HL; [lia|]. apply IH; [lia|]. intros; apply H; right; auto.
Qed.

Lemma skipn_skipn_ {A} m n : forall l : list A, skipn n (skipn m l) = skipn (m + n) l.
Proof. induction m; intros l; auto. destruct l; simpl; auto. now rewrite skipn_nil. Qed.

(** skipping the retired prefix keeps counts above *)
Lemma ascending_skipn n : forall l, ascending l -> ascending (skipn n l).
Proof. induction n; intros l H; auto. destruct l; auto. apply IHn. eapply ascending_tail; eauto. Qed.
Lemma count_skip num : forall dg, ascending dg ->
  let o := count (fun d => d <=? num) dg in
  length (skipn o dg) = count (fun d => S num <=? d) dg /\
  count (fun d => S (S num) <=? d) (skipn o dg) = count (fun d => S (S num) <=? d) dg /\
  o + count (fun d => d <=? S num) (skipn o dg) = count (fun d => d <=? S num) dg.
Proof.
  induction dg as [|d dg IH]; intros HA; cbv zeta; [simpl; auto|].
  rewrite !count_cons. destruct (d <=? num) eqn:E.
  - apply Nat.leb_le in E. destruct (IH (ascending_tail _ _ HA)) as (H1 & H2 & H3).
    cbn [plus skipn].
    assert (E1 : (S num <=? d) = false) by (apply Nat.leb_gt; lia).
    assert (E2 : (S (S num) <=? d) = false) by (apply Nat.leb_gt; lia).
    assert (E3 : (d <=? S num) = true) by (apply Nat.leb_le; lia).
    rewrite E1, E2, E3. cbn [plus]. auto.
  - apply Nat.leb_gt in E.
    assert (Hz : count (fun d => d <=? num) dg = 0).
    { apply count_all_false. intros x Hx. apply Nat.leb_gt. pose proof (ascending_head _ _ _ HA Hx). lia. }
    rewrite Hz. cbn [plus skipn length]. rewrite !count_cons.
    assert (E1 : (S num <=? d) = true) by (apply Nat.leb_le; lia). rewrite E1.
    destruct (IH (ascending_tail _ _ HA)) as (H1 & _). cbv zeta in H1. rewrite Hz in H1. cbn [skipn] in H1.
    split; [lia|]. auto.
Qed.

Section FL.
Context {F St : Type} (fo : fops F) (K : kernel F St).

Lemma sig_step s1 i : 1 <= i -> sig fo s1 (S i) = f_div fo (f_one fo) (f_sub fo (f_div fo (f_two fo) s1) (sig fo s1 i)).
Proof. intros H. destruct i; [lia|]. reflexivity. Qed.

Lemma le_lt_succ i d : (d <=? i) = (d <? S i).
Proof. reflexivity. Qed.

(** sum over i of the number of degrees >= i *)
Lemma sum_counts degs n : list_sum (map (Nat.min (S n)) degs) =
  list_sum (map (Nat.min n) degs) + count (fun d => S n <=? d) degs.
Proof.
  induction degs as [|d degs IH]; [simpl; auto|]. rewrite count_cons. cbn [map list_sum fold_right] in *.
  change (fold_right Nat.add 0 (map (Nat.min (S n)) degs)) with (list_sum (map (Nat.min (S n)) degs)).
  change (fold_right Nat.add 0 (map (Nat.min n) degs)) with (list_sum (map (Nat.min n) degs)).
  rewrite IH. destruct (S n <=? d) eqn:E; [apply Nat.leb_le in E|apply Nat.leb_gt in E]; lia.
Qed.

Lemma count_all_true p l : (forall x, In x l -> p x = true) -> count p l = length l.
Proof. induction l; intros H; rewrite ?count_nil, ?count_cons; auto. rewrite H by (left; auto). rewrite IHl; auto. intros; apply H; right; auto. Qed.

Lemma filter_refines degs deg lambda_1 lower upper k :
  ascending degs -> Forall (fun d => 1 <= d) degs -> (exists d, In d degs /\ 2 <= d) -> 1 <= deg ->
  filter_ fo K (length degs) deg degs lambda_1 lower upper k =
  filter_spec fo K deg degs lambda_1 lower upper k.
Proof.
  intros HA H1 HE Hd. unfold filter_, filter_spec, center, halfw.
  set (c := f_div fo (f_add fo upper lower) (f_two fo)).
  set (e := f_div fo (f_sub fo upper lower) (f_two fo)).
  set (s1 := f_div fo e (f_sub fo lambda_1 c)).
  destruct (k_shift K (f_neg fo c) false k) as [k1| |]; cbn [bind]; auto.
  destruct deg as [|n]; [lia|]. replace (S n - 1) with n by lia. cbn [for_].
  assert (HE2 : retire1 degs (length degs) 0 1 = Ok (skipn (count (fun d => d <=? 1) degs) degs,
     count (fun d => 2 <=? d) degs, count (fun d => d <=? 1) degs)).
  { rewrite retire1_retire2 by (destruct HE as (d & ? & ?); exists d; split; auto; lia).
    rewrite retire2_spec by auto. reflexivity. }
  rewrite HE2. rewrite Forall_forall in H1.
  rewrite (count_all_true (fun d => 1 <=? d)) by (intros x Hx; apply Nat.leb_le; auto).
  rewrite (count_all_false (fun d => d <? 1)) by (intros x Hx; apply Nat.ltb_ge; auto).
  unfold alpha_ at 1, beta_ at 1. cbn [Nat.eqb].
  destruct (k_hemm K (length degs) (f_div fo s1 e) (f_zero fo) 0 k1) as [k2| |]; cbn [bind]; auto.
  assert (HS := for_sim (fun i st (kk : St) => 2 <= i /\ fs_k st = kk /\ fs_sigma st = sig fo s1 (i - 1) /\
      fs_num st = i - 1 /\ fs_off st = count (fun d => d <? i) degs /\
      fs_deg st = skipn (count (fun d => d <? i) degs) degs /\
      fs_unproc st = count (fun d => i <=? d) degs /\
      fs_Av st = list_sum (map (Nat.min (i - 1)) degs))
    (fun _ st => filter_step fo K s1 e st)
    (fun i k => k_hemm K (count (fun d => i <=? d) degs) (alpha_ fo s1 e i) (beta_ fo s1 i)
        (count (fun d => d <? i) degs) k) n 2
    (mk_fs k2 s1 (count (fun d => d <=? 1) degs) (count (fun d => 2 <=? d) degs)
       (skipn (count (fun d => d <=? 1) degs) degs) (length degs) 1) k2).
  match type of HS with ?A -> ?B -> ?C => assert (HA1 : A); [|assert (HB1 : B); [clear HS|specialize (HS HA1 HB1)]] end.
  - simpl fs_k; simpl fs_sigma; simpl fs_num; simpl fs_off; simpl fs_deg; simpl fs_unproc; simpl fs_Av.
    repeat split; auto.
    + clear - H1. induction degs as [|d degs IH]; auto. cbn [length map].
      assert (1 <= d) by (apply H1; left; auto). simpl. simpl in IH. rewrite <- IH by (intros; apply H1; right; auto). destruct d; lia.
  - intros i st kk Hi (Hi2 & E1 & E2 & E3 & E4 & E5 & E6 & E7).
    unfold filter_step. rewrite E1, E2, E4, E6.
    assert (Hsig : f_div fo (f_one fo) (f_sub fo (f_div fo (f_two fo) s1) (sig fo s1 (i - 1))) = sig fo s1 i).
    { replace i with (S (i - 1)) at 2 by lia. rewrite sig_step by lia. reflexivity. }
    rewrite Hsig.
    assert (Ha : f_div fo (f_mul fo (f_two fo) (sig fo s1 i)) e = alpha_ fo s1 e i).
    { unfold alpha_. replace (i =? 1) with false by (symmetry; apply Nat.eqb_neq; lia). auto. }
    assert (Hb : f_mul fo (f_neg fo (sig fo s1 (i - 1))) (sig fo s1 i) = beta_ fo s1 i).
    { unfold beta_. replace (i =? 1) with false by (symmetry; apply Nat.eqb_neq; lia). auto. }
    rewrite Ha, Hb.
    destruct (k_hemm K _ (alpha_ fo s1 e i) (beta_ fo s1 i) _ kk) as [k3| |]; cbn [bind]; simpl; auto.
    destruct i as [|[|num]]; try lia. replace (S (S num) - 1) with (S num) in * by lia.
    rewrite E3, E5. replace (S num + 1) with (S (S num)) by lia.
    destruct (count_skip (S num) degs HA) as (Q1 & Q2 & Q3).
    change (fun d => d <? S (S num)) with (fun d => d <=? S num) in *.
    rewrite <- Q1. rewrite retire2_spec by (now apply ascending_skipn). cbn [bind rel_res].
    split; [lia|]. simpl fs_k; simpl fs_sigma; simpl fs_num; simpl fs_off; simpl fs_deg; simpl fs_unproc; simpl fs_Av.
    replace (S (S (S num)) - 1) with (S (S num)) by lia.
    split; auto. split; auto. split; auto.
    change (fun d => d <? S (S (S num))) with (fun d => d <=? S (S num)) in *.
    assert (Qs : S num = S num) by auto.
    assert (Q0 : count (fun d => d <=? S num) degs + count (fun d => d <=? S (S num)) (skipn (count (fun d => d <=? S num) degs) degs)
                 = count (fun d => d <=? S (S num)) degs).
    { destruct (count_skip (S num) degs HA) as (_ & _ & Q). exact Q. }
    split; [exact Q0|]. split.
    + rewrite skipn_skipn_. f_equal. exact Q0.
    + split; [|rewrite E7, Q1; symmetry; rewrite ?Nat.sub_0_r; apply sum_counts].
      clear - HA. pose proof (count_skip (S num) degs HA) as (_ & _ & Q). cbv zeta in Q.
      (* counts above S (S num) *)
      pose proof (count_skip (S num) degs HA) as (R1 & R2 & _). exact R2.
  - cbv beta in HS.
    destruct (for_ n 2 (fun _ st => filter_step fo K s1 e st) _) as [st| |] eqn:EF;
    match goal with |- context [for_ n 2 ?g k2] => destruct (for_ n 2 g k2) as [kk| |] eqn:EG end; simpl in HS; try easy.
    cbn [bind]. destruct HS as (_ & E1 & _ & _ & _ & _ & _ & E7). rewrite E1, E7.
    replace (2 + n - 1) with (S n) by lia. reflexivity.
Qed.

Lemma filter_oob degs deg lambda_1 lower upper k :
  (forall d, In d degs -> d <= 1) ->
  forall r, filter_ fo K (length degs) deg degs lambda_1 lower upper k <> Ok r.
Proof.
  intros H r E. unfold filter_ in E. apply bind_ok in E as (k1 & _ & E). apply bind_ok in E as (k2 & _ & E).
  rewrite retire1_oob in E; auto. discriminate.
Qed.

Lemma sum_min_all deg degs : Forall (fun d => d <= deg) degs -> list_sum (map (Nat.min deg) degs) = list_sum degs.
Proof. induction 1; simpl in *; auto. rewrite IHForall. lia. Qed.

(** safety *)
Lemma filter_spec_safe nevex I0 I (KS : kernel_safe K nevex I0 I) deg degs lambda_1 lower upper l k :
  l + length degs <= nevex -> I l k ->
  exists av k', filter_spec fo K deg degs lambda_1 lower upper k = Ok (av, k') /\ I l k'.
Proof.
  intros HL HI. unfold filter_spec.
  match goal with |- context [k_shift K ?x false k] => destruct (ks_shift _ _ _ _ KS l x false k HI) as (k1 & -> & I1) end.
  cbn [bind].
  match goal with |- context [for_ deg 1 ?f k1] => destruct (for_inv (fun _ s => I l s) f deg 1 k1 I1) as (k2 & -> & I2) end.
  - intros i s Hi Hs. apply (ks_hemm _ _ _ _ KS); auto.
    pose proof (count_compl (fun d => d <? i) (fun d => i <=? d) degs) as Hc.
    rewrite <- Nat.add_assoc. rewrite Hc; [lia|]. intros x. rewrite Nat.ltb_antisym. reflexivity.
  - cbn [bind].
    match goal with |- context [k_shift K ?x true k2] => destruct (ks_shift _ _ _ _ KS l x true k2 I2) as (k3 & -> & I3) end.
    cbn [bind]. eauto.
Qed.
End FL.
