(** eigenvalues, eigenvector columns and residuals along solve *)
From Coq Require Import List Arith ZArith Bool Lia Permutation.
Require Import Verif.Base Verif.AlgModel Verif.AlgSpec Verif.AlgProofs1 Verif.AlgProofs2 Verif.AlgProofs3.
Import ListNotations.

Lemma swps_reindex n sw : in_range n sw -> exists f, (forall i, i < n -> f i < n) /\
  forall A (l : list A), n <= length l -> forall i, nth_error (swps sw l) i = nth_error l (f i).
Proof.
  induction 1 as [|[k j] sw [Hk Hj] _ (f & Hf & IH)].
  - exists (fun i => i). auto.
  - exists (fun i => tr k j (f i)). split.
    + intros i Hi. apply tr_lt; auto.
    + intros A l Hl i. unfold swps in *. simpl in *. rewrite IH by (rewrite swp_length; auto).
      apply swp_nth; lia.
Qed.

Lemma firstn_app_exact {A} (l l' : list A) n : length l = n -> firstn n (l ++ l') = l.
Proof. intros <-. rewrite firstn_app, Nat.sub_diag, firstn_O, app_nil_r. apply firstn_all. Qed.
Lemma skipn_app_exact {A} (l l' : list A) n : length l = n -> skipn n (l ++ l') = l'.
Proof. intros <-. rewrite skipn_app, Nat.sub_diag, skipn_all. reflexivity. Qed.

Lemma firstn_eq_ext {A} (l l' : list A) n : (forall i, i < n -> nth_error l i = nth_error l' i) -> firstn n l = firstn n l'.
Proof.
  revert l l'; induction n; intros l l' H; auto.
  pose proof (H 0 ltac:(lia)) as H0. destruct l, l'; simpl in *; try discriminate; auto.
  inversion H0; subst. f_equal. apply IHn. intros i Hi. apply (H (S i)). lia.
Qed.

Lemma firstn_plus {A} a b : forall l : list A, firstn (a + b) l = firstn a l ++ firstn b (skipn a l).
Proof. induction a; intros l; auto. destruct l; simpl; [now rewrite firstn_nil|]. now rewrite IHa. Qed.

(** a filter call is one shift, products, and the opposite shift *)
Lemma filter_ops {F St} (fo : fops F) (K : kernel F St) (P : St -> Prop) (Q : F -> St -> Prop) n deg degs la lo up s av s' :
  (forall c k k', P k -> k_shift K (f_neg fo c) false k = Ok k' -> Q c k') ->
  (forall c m a b off k k', Q c k -> k_hemm K m a b off k = Ok k' -> Q c k') ->
  (forall c k k', Q c k -> k_shift K c true k = Ok k' -> P k') ->
  P s -> filter_ fo K n deg degs la lo up s = Ok (av, s') -> P s'.
Proof.
  intros HA HB HC HP H. unfold filter_ in H. apply bind_ok in H as (k1 & H1 & H). apply bind_ok in H as (k2 & H2 & H).
  apply bind_ok in H as ([[dg un] off] & _ & H). apply bind_ok in H as (st & H3 & H). apply bind_ok in H as (k3 & H4 & H).
  injection H as _ E. subst k3. eapply HC; [|exact H4]. apply HA in H1; auto. eapply HB in H2; eauto.
  apply (for_inv_ok (fun _ st => Q (center fo up lo) (fs_k st))) in H3; auto.
  clear H3. intros i t t' _ Qt Ht. unfold filter_step in Ht. apply bind_ok in Ht as (k4 & H5 & Ht).
  apply bind_ok in Ht as ([[dg' un'] off'] & _ & Ht). inversion Ht; subst; simpl. eapply HB; eauto.
Qed.

Section P.
Context {F St V : Type} (fo : fops F) (K : kernel F St).
Context (sort_idx : list F -> list nat) (Hperm : forall keys, Permutation (sort_idx keys) (seq 0 (length keys))).
Context (nevex : nat) (cols : St -> list V) (J0 : St -> Prop) (J Jf Jr : nat -> St -> Prop)
  (Rv : F -> V -> Prop) (Rr : F -> V -> F -> Prop).
Context (KC : kernel_cols fo K nevex cols J0 J Jf Jr Rv Rr).

(** element-wise relation of three lists of equal length *)
Local Notation rel3 := (rel3 Rv Rr).

Lemma rel3_swps n sw a b c : in_range n sw -> n <= length a -> rel3 a b c -> rel3 (swps sw a) (swps sw b) (swps sw c).
Proof.
  intros Hr Hn (L1 & L2 & H). destruct (swps_reindex n sw Hr) as (f & _ & Hf).
  unfold rel3. rewrite !swps_length. split; auto. split; auto.
  intros i x y z. rewrite !Hf by lia. apply H.
Qed.
Lemma rel3_app a b c a' b' c' : rel3 a b c -> rel3 a' b' c' -> rel3 (a ++ a') (b ++ b') (c ++ c').
Proof.
  intros (L1 & L2 & H) (M1 & M2 & H'). unfold rel3. rewrite !app_length. split; [lia|]. split; [lia|].
  intros i x y z. destruct (Nat.lt_ge_cases i (length a)) as [Hi|Hi].
  - rewrite !nth_error_app1 by lia. apply H.
  - rewrite !nth_error_app2 by lia. rewrite <- L1. replace (i - length c) with (i - length a) by lia. apply H'.
Qed.
Lemma rel3_firstn n a b c : rel3 a b c -> rel3 (firstn n a) (firstn n b) (firstn n c).
Proof.
  intros (L1 & L2 & H). unfold rel3. rewrite !firstn_length. split; [lia|]. split; [lia|].
  intros i x y z Hx Hy Hz. assert (i < n) by (apply nth_error_lt in Hx; rewrite firstn_length in Hx; lia).
  rewrite nth_firstn in Hx by auto. rewrite nth_firstn in Hy by auto. rewrite nth_firstn in Hz by auto. eapply H; eauto.
Qed.
Lemma rel3_skipn n a b c : rel3 a b c -> rel3 (skipn n a) (skipn n b) (skipn n c).
Proof.
  intros (L1 & L2 & H). unfold rel3. rewrite !skipn_length. split; [lia|]. split; [lia|].
  intros i x y z. rewrite !nth_skipn. apply H.
Qed.

Lemma swp_firstn_skipn {A} (l : list A) i j n : n + i < length l -> n + j < length l ->
  firstn n (swp l (i + n) (j + n)) = firstn n l /\ skipn n (swp l (i + n) (j + n)) = swp (skipn n l) i j.
Proof.
  intros Hi Hj. split.
  - apply firstn_eq_ext. intros p Hp. rewrite swp_nth by lia. unfold tr.
    destruct (p =? i + n) eqn:E; [apply Nat.eqb_eq in E; lia|]. destruct (p =? j + n) eqn:E'; [apply Nat.eqb_eq in E'; lia|]. auto.
  - apply nth_error_ext. intros p. rewrite nth_skipn, !swp_nth by (rewrite ?skipn_length; lia). rewrite nth_skipn. f_equal.
    unfold tr. destruct (p =? i) eqn:E.
    + apply Nat.eqb_eq in E; subst. replace (n + i =? i + n) with true by (symmetry; apply Nat.eqb_eq; lia). lia.
    + apply Nat.eqb_neq in E. replace (n + p =? i + n) with false by (symmetry; apply Nat.eqb_neq; lia).
      destruct (p =? j) eqn:E'.
      * apply Nat.eqb_eq in E'; subst. replace (n + j =? j + n) with true by (symmetry; apply Nat.eqb_eq; lia). lia.
      * apply Nat.eqb_neq in E'. replace (n + p =? j + n) with false by (symmetry; apply Nat.eqb_neq; lia). auto.
Qed.

Lemma kswaps_cols (Q : nat -> St -> Prop) l n off :
  (forall s, Q l s -> length (cols s) = nevex) ->
  (forall i j s s', Q l s -> off <= i < nevex -> off <= j < nevex -> k_swap K i j s = Ok s' -> Q l s' /\ cols s' = swp (cols s) i j) ->
  forall sw s s', in_range n sw -> off + n <= nevex -> Q l s -> kswaps K off sw s = Ok s' ->
  Q l s' /\ firstn off (cols s') = firstn off (cols s) /\ skipn off (cols s') = swps sw (skipn off (cols s)).
Proof.
  intros HL HS. induction sw as [|[i j] sw IH]; intros s s' Hr Hn HQ H; simpl in H.
  - inversion H; subst. auto.
  - inversion Hr as [|? ? [Hi Hj] Hr']; subst. simpl in Hi, Hj. apply bind_ok in H as (t & Ht & H).
    apply HS in Ht as (HQt & Et); auto; try lia. apply IH in H as (H1 & H2 & H3); auto.
    pose proof (HL s HQ) as Hlen.
    destruct (swp_firstn_skipn (cols s) i j off) as [E1 E2]; try lia.
    split; auto. rewrite H2, H3, Et, E1, E2. auto.
Qed.

(** loop-head invariant *)
Record pinv (cf : conf F) (s : @sstate F St) : Prop := {
  pi_degs : degs_ok s;
  pi_J : J (ss_locked s) (ss_k s);
  pi_locked : rel3 (fst (ss_ritz s)) (firstn (ss_locked s) (cols (ss_k s))) (fst (ss_res s));
  pi_rest : 1 <= ss_iter s ->
    rel3 (firstn (ss_unconv s) (snd (ss_ritz s))) (skipn (ss_locked s) (cols (ss_k s))) (firstn (ss_unconv s) (snd (ss_res s)))
}.

Lemma put_range_0_firstn {A} (l l' xs : list A) : put_range l 0 xs = Ok l' -> firstn (length xs) l' = xs.
Proof. intros H. apply put_range_inv in H as [_ ->]. simpl. now apply firstn_app_exact. Qed.

Lemma iterate_pinv cf nr ns ub s s' : nevex = c_nev cf + c_nex cf -> conf_ok cf ->
  book cf nr ns s -> c_nex cf < ss_unconv s -> pinv cf s -> iterate fo K sort_idx cf ub s = Ok s' ->
  pinv cf s' /\ firstn (ss_locked s) (cols (ss_k s')) = firstn (ss_locked s) (cols (ss_k s)).
Proof.
  intros Hnv HC HB Hn [PD PJ PL _] H. pose proof HB as [B1 B2 [B3 B3'] [B4 B4'] [B5 B5'] [B6 B6']].
  pose proof (iterate_degs fo K sort_idx cf nr ns ub s s' HC HB Hn PD H) as PD'.
  pose proof (iterate_book fo K sort_idx Hperm cf nr ns ub s s' HB Hn H) as (HB' & _).
  apply iterate_inv in H as (lb0 & la & deg & a & av & k1 & cond & k2 & vals & k3 & ritz & last & rs & k4 & resid & new & l & k5 & H).
  cbv zeta in H. destruct H as (H1 & H2 & H3 & H4 & H5 & H6 & H7 & H8 & H9 & H10 & H11 & Q1 & Q2 & Q3 & Q4 & ->).
  pose proof H2 as H2'. apply (degree_step_degs fo K) in H2' as (D1 & D2 & D3 & D4); auto.
  apply degree_step_len in H2 as (L1 & sw & Hr & E1 & E2 & E3 & E4); auto; [|lia].
  set (lk := ss_locked s) in *. set (un := ss_unconv s) in *.
  apply (kswaps_cols J lk un) in E4 as (Ja & Fa & _); auto;
    [|intros; eapply (kc_len _ _ _ _ _ _ _ _ _ _ KC); eauto|intros; eapply (kc_swap _ _ _ _ _ _ _ _ _ _ KC); eauto; lia|lia].
  assert (FA : filter_args lk nevex un deg (cd_deg a)).
  { split; [lia|]. split; [lia|]. split; auto. split; auto. rewrite Forall_forall in *. intros d Hd. specialize (D2 d Hd). specialize (D3 d Hd). tauto. }
  apply (kc_filter _ _ _ _ _ _ _ _ _ _ KC lk) in H3 as (J1 & F1); auto.
  apply (kc_qr _ _ _ _ _ _ _ _ _ _ KC lk) in H4 as (J2 & F2); auto.
  replace un with (nevex - lk) in H5 by lia.
  apply (kc_rr _ _ _ _ _ _ _ _ _ _ KC lk) in H5 as (J3 & F3 & R3); auto; [|lia].
  apply (kc_resd _ _ _ _ _ _ _ _ _ _ KC lk) in H8 as (J4 & F4 & L4 & R4); auto; [|lia].
  apply locking_general in H10 as (Hnew & sw' & Hr' & (G1 & G2 & G3 & G4)); auto.
  cbn [lk_ritz lk_res lk_last lk_k] in *.
  apply (kswaps_cols Jr lk (un - c_nex cf)) in G4 as (J5 & F5 & S5); auto;
    [|intros; eapply (kc_len _ _ _ _ _ _ _ _ _ _ KC), (kc_sub _ _ _ _ _ _ _ _ _ _ KC); eauto
     |intros; eapply (kc_swap_r _ _ _ _ _ _ _ _ _ _ KC); eauto; lia|lia].
  apply (kc_lock _ _ _ _ _ _ _ _ _ _ KC lk) in H11 as (J6 & F6); auto.
  pose proof (kc_len _ _ _ _ _ _ _ _ _ _ KC _ _ J6) as Hlen.
  pose proof (kc_len _ _ _ _ _ _ _ _ _ _ KC _ _ (kc_sub _ _ _ _ _ _ _ _ _ _ KC _ _ J3)) as Hlen3.
  assert (Lv : length vals = un).
  { apply Forall2_len in R3. rewrite R3, skipn_length. lia. }
  assert (Lrs : length rs = un) by lia.
  assert (Hlr : un <= length ritz).
  { apply put_range_inv in H6 as [X ->]. rewrite !app_length, firstn_length, skipn_length. lia. }
  assert (Hls : un <= length resid).
  { apply put_range_inv in H9 as [X ->]. rewrite !app_length, firstn_length, skipn_length. lia. }
  assert (W1 : firstn un ritz = vals) by (rewrite <- Lv; eapply put_range_0_firstn; eauto).
  assert (W2 : firstn un resid = rs) by (rewrite <- Lrs; eapply put_range_0_firstn; eauto).
  (* the whole unlocked window is related right after the residuals *)
  assert (HW : rel3 (firstn un ritz) (skipn lk (cols k4)) (firstn un resid)).
  { rewrite W1, W2, F4. split; [apply Forall2_len in R3; auto|]. split; [rewrite skipn_length; lia|].
    intros i x y z Hx Hy Hz. split.
    - clear - R3 Hx Hy. revert i Hx Hy. induction R3; intros [|i] Hx Hy; simpl in *; try discriminate.
      + congruence. + eapply IHR3; eauto.
    - apply (R4 i x y z); auto. rewrite <- W1 in Hx. rewrite nth_firstn in Hx; auto.
      apply nth_error_lt in Hz. lia. }
  apply (rel3_swps (un - c_nex cf) sw') in HW; auto; [|rewrite firstn_length; lia].
  assert (HR' : in_range un sw') by (eapply Forall_impl; [|exact Hr']; intros [? ?]; simpl; lia).
  rewrite <- !firstn_swps, <- G1, <- G2, <- S5 in HW by auto.
  assert (FL : firstn lk (cols k5) = firstn lk (cols (ss_k s))).
  { rewrite F6, F5, F4, F3, F2, F1, Fa. auto. }
  split; auto.
  rewrite <- F6 in HW.
  constructor; cbn [ss_locked ss_unconv ss_ritz ss_res ss_k ss_iter fst snd]; auto.
  - replace (firstn (lk + new) (cols k5)) with (firstn lk (cols k5) ++ firstn new (skipn lk (cols k5))).
    + apply rel3_app; [rewrite FL; auto|]. apply (rel3_firstn new) in HW.
      rewrite !firstn_firstn, Nat.min_l in HW by lia. auto.
    + symmetry. apply firstn_plus.
  - intros _. apply (rel3_skipn new) in HW. rewrite skipn_skipn_ in HW.
    rewrite !skipn_firstn_comm in HW. auto.
Qed.

Lemma reach_pinv cf nr ns ub s t : nevex = c_nev cf + c_nex cf -> conf_ok cf -> ss_iter s <= c_maxiter cf ->
  book cf nr ns s -> pinv cf s -> reach fo K sort_idx cf ub s t -> pinv cf t /\ book cf nr ns t.
Proof.
  intros Hnv HC HI HB HP HR. induction HR; auto.
  destruct IHHR as [P' B']; auto. split.
  - eapply iterate_pinv; eauto.
  - eapply (iterate_book fo K sort_idx Hperm); eauto.
Qed.

(** locked columns, values and residuals never change between two reachable states *)
Lemma reach_locked cf nr ns ub s t : nevex = c_nev cf + c_nex cf -> conf_ok cf -> ss_iter s <= c_maxiter cf ->
  book cf nr ns s -> pinv cf s -> reach fo K sort_idx cf ub s t ->
  firstn (ss_locked s) (fst (ss_ritz t)) = fst (ss_ritz s) /\
  firstn (ss_locked s) (fst (ss_res t)) = fst (ss_res s) /\
  firstn (ss_locked s) (cols (ss_k t)) = firstn (ss_locked s) (cols (ss_k s)).
Proof.
  intros Hnv HC HI HB HP HR.
  pose proof (reach_book fo K sort_idx Hperm cf nr ns ub s t HB HI HR) as (_ & HL & _ & [v1 V1] & [v2 V2]).
  destruct (bk_r _ _ _ _ HB) as [Lr _]. destruct (bk_s _ _ _ _ HB) as [Ls _].
  split; [rewrite V1; now apply firstn_app_exact|]. split; [rewrite V2; now apply firstn_app_exact|].
  clear V1 V2 v1 v2 HL. induction HR; auto.
  destruct (reach_pinv cf nr ns ub s t Hnv HC HI HB HP HR) as [P' B'].
  destruct (iterate_pinv cf nr ns ub t u Hnv HC B' H P' H1) as [_ E].
  pose proof (reach_book fo K sort_idx Hperm cf nr ns ub s t HB HI HR) as (_ & HL & _).
  rewrite <- IHHR by auto.
  assert (X : forall (x y : list V) n m, n <= m -> firstn m x = firstn m y -> firstn n x = firstn n y).
  { intros x y n m Hm E'. rewrite <- (Nat.min_l n m Hm), <- !firstn_firstn, E'. auto. }
  eapply X; eauto.
Qed.

(** start-up establishes the invariant *)
Lemma dos_idx_bound base Th lb : forall todo i z, dos_idx fo todo i base Th lb = Ok z ->
  z = 0%Z \/ (Z.of_nat i - 1 <= z <= Z.of_nat (i + todo) - 2)%Z.
Proof.
  induction todo; intros i z H; simpl in H.
  - inversion H; auto.
  - apply bind_ok in H as (x & _ & H). destruct (f_lt fo lb x).
    + inversion H; subst. right. lia.
    + apply IHtodo in H. destruct H; auto. right. lia.
Qed.

Lemma lanczos_J fsort N nv m mode r k idx ub r' k' : 1 <= nevex -> m <= nevex -> J 0 k ->
  lanczos fo K fsort N nv m nevex mode r k = Ok (idx, ub, r', k') -> J 0 k'.
Proof.
  intros Hl Hm HJ. unfold lanczos. destruct (m =? 0); [discriminate|]. destruct (negb mode).
  - intros H. apply bind_ok in H as ([u k1] & H1 & H). inversion H; subst. eapply (kc_lanczos1 _ _ _ _ _ _ _ _ _ _ KC); eauto.
  - intros H. apply bind_ok in H as ([[[[u Th] Ta] rV] k1] & H1 & H). apply (kc_lanczos2 _ _ _ _ _ _ _ _ _ _ KC) in H1; auto.
    apply bind_ok in H as (la & _ & H).
    apply bind_ok in H as (lb & _ & H). destruct lb as [lb|]; [|discriminate].
    apply bind_ok in H as (ix & Hix & H). apply bind_ok in H as (k2 & H2 & H).
    assert (J2 : J 0 k2).
    { destruct (0 <? ix)%Z; [eapply (kc_dos _ _ _ _ _ _ _ _ _ _ KC); eauto|]. inversion H2; subst; auto. }
    apply bind_ok in H as (r1 & H3 & H).
    apply bind_ok in H as ([r2 k3] & H4 & H). inversion H; subst.
    apply dos_idx_bound in Hix. assert (Hid : Z.to_nat idx <= nevex) by lia. clear Hix.
    unfold lz_intersperse in H4.
    apply (for_inv_ok (fun _ a => J 0 (snd a))) in H4; auto.
    clear H4. intros i [ra ka] a' Hi HJa Hb. apply bind_ok in Hb as (kb & Hk & Hb). apply bind_ok in Hb as (rb & Hr & Hb).
    inversion Hb; subst; cbn [snd] in *.
    assert (Hj : i * (nevex / Z.to_nat idx) < nevex).
    { assert (Z.to_nat idx <> 0) by lia. pose proof (Nat.mul_div_le nevex (Z.to_nat idx) ltac:(lia)).
      assert (1 <= nevex / Z.to_nat idx) by (apply Nat.div_le_lower_bound; lia). nia. }
    eapply (kc_swap _ _ _ _ _ _ _ _ _ _ KC); [exact HJa| |exact Hj|exact Hk]. lia.
Qed.

Lemma solve_init_pinv fsort cf k ritzv resid ub s0 : nevex = c_nev cf + c_nex cf -> conf_ok cf -> J0 k ->
  (forall c s s', J 0 s -> k_qr K 0 c s = Ok s' -> J 0 s') ->
  solve_init fo K fsort cf k ritzv resid = Ok (ub, s0) -> pinv cf s0.
Proof.
  intros Hnv HC HJ HQ Hinit.
  pose proof (solve_init_book fo K fsort cf k ritzv resid ub s0 Hinit) as (HB & Hi & Hl & G1 & G2 & _ & _ & Hpos).
  unfold solve_init in Hinit. apply bind_ok in Hinit as (k1 & H1 & H). apply bind_ok in H as (r1 & _ & H).
  apply bind_ok in H as (k2 & H2 & H). apply bind_ok in H as (k3 & H3 & H).
  apply bind_ok in H as ([[[ix u] ritz] k4] & HL & H). apply bind_ok in H as (w & _ & H).
  apply bind_ok in H as (lo & _ & H). apply bind_ok in H as (la & _ & H). injection H as E1 E2. subst s0.
  apply (kc_start _ _ _ _ _ _ _ _ _ _ KC) in H1; auto. apply (kc_init _ _ _ _ _ _ _ _ _ _ KC) in H2; auto.
  assert (J3 : J 0 k3) by (destruct (negb (c_approx cf)); [eapply HQ; eauto|inversion H3; subst; auto]).
  rewrite <- Hnv in HL.
  apply lanczos_J in HL; auto; try lia.
  constructor; simpl; auto.
  - apply (init_degs cf); auto.
  - split; auto. split; auto. intros [|i']; discriminate.
  - lia.
Qed.

(** what a caller sees *)
Lemma solve_pairs fsort cf k ritzv resid o s : nevex = c_nev cf + c_nex cf -> conf_ok cf -> J0 k -> 1 <= c_maxiter cf ->
  solve fo K fsort sort_idx cf k ritzv resid = Ok o -> o_exit o = Some s ->
  exists sw, in_range (c_nev cf) sw /\
    o_ritz o = swps sw (whole (ss_ritz s)) /\ cols (o_k o) = swps sw (cols (ss_k s)) /\
    o_res o = whole (ss_res s) /\
    rel3 (firstn nevex (whole (ss_ritz s))) (cols (ss_k s)) (firstn nevex (whole (ss_res s))) /\
    rel3 (firstn (c_nev cf) (o_ritz o)) (firstn (c_nev cf) (cols (o_k o)))
         (swps sw (firstn (c_nev cf) (o_res o))).
Proof.
  intros Hnv HC HJ Hmi H Hex. unfold solve in H. apply bind_ok in H as ([cont k0] & Hsym & H).
  assert (HJk : J0 k0).
  { destruct (c_symcheck cf); [eapply (kc_sym _ _ _ _ _ _ _ _ _ _ KC); eauto|inversion Hsym; subst; auto]. }
  destruct (negb cont); [injection H as E; subst o; discriminate|].
  apply bind_ok in H as ([ub s0] & Hinit & H). apply bind_ok in H as (t & Hloop & H).
  apply bind_ok in H as ([r k'] & Hsort & H). apply bind_ok in H as (k'' & Hend & H). injection H as E. subst o.
  cbn [o_exit] in Hex. injection Hex as E. subst t. cbn [o_ritz o_res o_k].
  pose proof (solve_init_book fo K fsort cf k0 ritzv resid ub s0 Hinit) as (HB & Hi & Hl & _ & _ & G1 & G2 & Hpos).
  assert (HP0 : pinv cf s0).
  { eapply solve_init_pinv; eauto. intros c s1 s2 HJ1 Hq. eapply (kc_qr _ _ _ _ _ _ _ _ _ _ KC 0) in Hq; [apply (kc_sub _ _ _ _ _ _ _ _ _ _ KC); tauto|]. now apply (kc_weak _ _ _ _ _ _ _ _ _ _ KC). }
  pose proof (solve_loop_reach fo K sort_idx cf ub _ _ _ Hloop) as [HR HX].
  destruct (reach_pinv cf _ _ ub s0 s Hnv HC ltac:(lia) HB HP0 HR) as [[PD PJ PL PR] HB'].
  assert (Hnev : 1 <= c_nev cf).
  { unfold final_sort in Hsort. destruct (c_nev cf =? 0) eqn:E; [discriminate|]. apply Nat.eqb_neq in E. lia. }
  assert (Hit : 1 <= ss_iter s).
  { inversion HR; subst.
    - destruct HX as [HX|HX]; [|lia]. exfalso. pose proof (bk_sum _ _ _ _ HB'). lia.
    - pose proof (reach_book fo K sort_idx Hperm cf _ _ ub s0 t HB ltac:(lia) H) as (Bt & _).
      pose proof (iterate_book fo K sort_idx Hperm cf _ _ ub t s Bt H0 H2) as (_ & E & _). lia. }
  specialize (PR Hit).
  pose proof HB' as [B1 B2 [B3 B3'] [B4 B4'] _ _].
  assert (HW : rel3 (firstn nevex (whole (ss_ritz s))) (cols (ss_k s)) (firstn nevex (whole (ss_res s)))).
  { assert (HX1 : forall (p : ptr F), length (fst p) = ss_locked s -> firstn nevex (whole p) = fst p ++ firstn (ss_unconv s) (snd p)).
    { intros p Hp. unfold whole. rewrite firstn_app. rewrite (firstn_all2 (fst p)) by lia. f_equal. f_equal. lia. }
    rewrite !HX1 by auto. rewrite <- (firstn_skipn (ss_locked s) (cols (ss_k s))).
    apply rel3_app; auto. }
  apply final_sort_by in Hsort as (_ & sw & Hr & (E1 & E2)); [|rewrite B3'; lia]. cbn [fst snd] in *.
  pose proof (kc_len _ _ _ _ _ _ _ _ _ _ KC _ _ PJ) as Hlen.
  apply (kswaps_cols J (ss_locked s) (c_nev cf)) in E2 as (J2 & _ & S2); auto;
    [|intros; eapply (kc_len _ _ _ _ _ _ _ _ _ _ KC); eauto|intros; eapply (kc_swap _ _ _ _ _ _ _ _ _ _ KC); eauto; lia|lia].
  apply (kc_end _ _ _ _ _ _ _ _ _ _ KC (ss_locked s)) in Hend as (_ & E3); auto.
  exists sw. cbn [skipn] in S2. rewrite E3, S2, E1.
  split; auto. split; auto. split; auto. split; auto. split; auto.
  pose proof (rel3_firstn (c_nev cf) _ _ _ HW) as HN.
  rewrite !firstn_firstn, !Nat.min_l in HN by lia.
  apply (rel3_swps (c_nev cf) sw) in HN; auto; [|rewrite firstn_length; lia].
  rewrite <- (firstn_swps sw (c_nev cf) (whole (ss_ritz s))), <- (firstn_swps sw (c_nev cf) (cols (ss_k s))) in HN by (auto; lia).
  exact HN.
Qed.

End P.
