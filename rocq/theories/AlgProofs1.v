(** swaps and calc_degrees *)
From Coq Require Import List Arith ZArith Bool Lia Permutation.
Require Import Verif.Base Verif.AlgModel Verif.AlgSpec.
Import ListNotations.

Lemma nth_error_lt {A} (l : list A) i x : nth_error l i = Some x -> i < length l.
Proof. intros H. apply nth_error_Some. congruence. Qed.
Lemma nth_error_ex {A} (l : list A) i : i < length l -> exists x, nth_error l i = Some x.
Proof. intros H. destruct (nth_error l i) eqn:E; eauto. apply nth_error_None in E. lia. Qed.

Lemma nth_error_ext {A} (l l' : list A) : (forall i, nth_error l i = nth_error l' i) -> l = l'.
Proof.
  revert l'; induction l; intros [|b l'] H; auto.
  - specialize (H 0); discriminate.
  - specialize (H 0); discriminate.
  - f_equal; [specialize (H 0); simpl in H; congruence|]. apply IHl. intros i. apply (H (S i)).
Qed.

Lemma swp_length {A} (l : list A) k j : length (swp l k j) = length l.
Proof. unfold swp. destruct (nth_error l k), (nth_error l j); rewrite ?upd_length; auto. Qed.

Lemma swap_ok {A} (l : list A) k j : k < length l -> j < length l -> swap_ l k j = Ok (swp l k j).
Proof.
  intros Hk Hj. unfold swap_, swp, rd.
  destruct (nth_error_ex l k Hk) as [a ->]. destruct (nth_error_ex l j Hj) as [b ->]. cbn [bind].
  rewrite wr_ok by auto. cbn [bind]. rewrite wr_ok by (rewrite upd_length; auto). reflexivity.
Qed.

Lemma swap_inv {A} (l l' : list A) k j : swap_ l k j = Ok l' -> k < length l /\ j < length l /\ l' = swp l k j.
Proof.
  unfold swap_. intros H. apply bind_ok in H as (a & Ha & H). apply bind_ok in H as (b & Hb & H).
  apply bind_ok in H as (l1 & H1 & H2). apply wr_inv in H1 as [? ->]. apply wr_inv in H2 as [? ->].
  rewrite upd_length in *. apply rd_ok in Ha, Hb. unfold swp. rewrite Ha, Hb. auto.
Qed.

Lemma swp_nth {A} (l : list A) k j i : k < length l -> j < length l ->
  nth_error (swp l k j) i = nth_error l (tr k j i).
Proof.
  intros Hk Hj. unfold swp, tr.
  destruct (nth_error_ex l k Hk) as [a Ha]. destruct (nth_error_ex l j Hj) as [b Hb]. rewrite Ha, Hb.
  destruct (Nat.eq_dec i j) as [->|Hij].
  - rewrite upd_same by (rewrite upd_length; auto).
    destruct (j =? k) eqn:E.
    + apply Nat.eqb_eq in E. subst. congruence.
    + rewrite Nat.eqb_refl. congruence.
  - rewrite upd_other by auto. destruct (i =? k) eqn:E.
    + apply Nat.eqb_eq in E. subst. rewrite upd_same by auto. congruence.
    + apply Nat.eqb_neq in E. rewrite upd_other by auto.
      destruct (i =? j) eqn:E'; auto. apply Nat.eqb_eq in E'. congruence.
Qed.

Lemma tr_lt n k j i : k < n -> j < n -> i < n -> tr k j i < n.
Proof. unfold tr. destruct (i =? k), (i =? j); lia. Qed.
Lemma tr_inv k j i : tr k j (tr k j i) = i.
Proof.
  unfold tr. destruct (i =? k) eqn:E1; [|destruct (i =? j) eqn:E2];
    rewrite ?Nat.eqb_eq, ?Nat.eqb_neq in *; subst.
  - rewrite Nat.eqb_refl. destruct (j =? k) eqn:E; auto. apply Nat.eqb_eq in E; auto.
  - rewrite Nat.eqb_refl. auto.
  - destruct (i =? k) eqn:E; [apply Nat.eqb_eq in E; congruence|].
    destruct (i =? j) eqn:E'; [apply Nat.eqb_eq in E'; congruence|]. auto.
Qed.

Lemma swp_perm {A} (l : list A) k j : Permutation l (swp l k j).
Proof.
  destruct (Nat.lt_ge_cases k (length l)) as [Hk|Hk]; [destruct (Nat.lt_ge_cases j (length l)) as [Hj|Hj]|].
  - apply Permutation_nth_error. split; [now rewrite swp_length|].
    exists (tr k j). split; [intros x y E; rewrite <- (tr_inv k j x), <- (tr_inv k j y), E; auto|].
    intros i. now apply swp_nth.
  - unfold swp. apply nth_error_None in Hj. rewrite Hj. destruct (nth_error l k); auto.
  - unfold swp. apply nth_error_None in Hk. rewrite Hk. auto.
Qed.

Lemma swps_length {A} sw : forall l : list A, length (swps sw l) = length l.
Proof. induction sw; intros; simpl; auto. unfold swps in *. simpl. rewrite IHsw, swp_length. auto. Qed.
Lemma swps_perm {A} sw : forall l : list A, Permutation l (swps sw l).
Proof.
  induction sw; intros; unfold swps in *; simpl; auto.
  eapply Permutation_trans; [apply swp_perm|apply IHsw].
Qed.
Lemma swps_app {A} sw1 sw2 (l : list A) : swps (sw1 ++ sw2) l = swps sw2 (swps sw1 l).
Proof. unfold swps. apply fold_left_app. Qed.
Lemma kswaps_app {F St} (K : kernel F St) off sw1 sw2 : forall s,
  kswaps K off (sw1 ++ sw2) s = bind (kswaps K off sw1 s) (kswaps K off sw2).
Proof.
  induction sw1 as [|[k j] sw1 IH]; intros s; simpl; auto.
  destruct (k_swap K (k + off) (j + off) s); simpl; auto.
Qed.

Lemma swps_beyond {A} sw n : in_range n sw -> forall (l : list A), n <= length l ->
  forall i, n <= i -> nth_error (swps sw l) i = nth_error l i.
Proof.
  induction 1 as [|[k j] sw Hp _ IH]; intros l Hl i Hi; unfold swps in *; simpl in *; auto.
  rewrite IH by (rewrite ?swp_length; auto). destruct Hp as [Hk Hj].
  rewrite swp_nth by lia. unfold tr. destruct (i =? k) eqn:E1; [apply Nat.eqb_eq in E1; lia|].
  destruct (i =? j) eqn:E2; [apply Nat.eqb_eq in E2; lia|]. auto.
Qed.

Lemma Forall2_len {A B} (R : A -> B -> Prop) l l' : Forall2 R l l' -> length l = length l'.
Proof. induction 1; simpl; auto. Qed.

(** two lists of equal length exchanged by the same swaps stay element-wise related *)
Lemma swps_forall2 {A B} (R : A -> B -> Prop) sw : forall l l',
  Forall2 R l l' -> Forall2 R (swps sw l) (swps sw l').
Proof.
  induction sw as [|[k j] sw IH]; intros l l' H; unfold swps in *; simpl; auto. apply IH.
  assert (HL := Forall2_len _ _ _ H).
  destruct (Nat.lt_ge_cases k (length l)) as [Hk|Hk]; [destruct (Nat.lt_ge_cases j (length l)) as [Hj|Hj]|].
  - assert (HX : forall (l : list A) (l' : list B), length l = length l' ->
       (forall i a b, nth_error l i = Some a -> nth_error l' i = Some b -> R a b) -> Forall2 R l l').
    { clear. induction l; intros [|b l'] HL H; simpl in *; try discriminate; constructor.
      - apply (H 0); auto. - apply IHl; [lia|]. intros i. apply (H (S i)). }
    assert (HY : forall i a b, nth_error l i = Some a -> nth_error l' i = Some b -> R a b).
    { clear - H. induction H; intros i u v Hu Hv; destruct i; simpl in *; try discriminate.
      - congruence. - eapply IHForall2; eauto. }
    apply HX; [now rewrite !swp_length|].
    intros i a b. rewrite !swp_nth by lia. apply HY.
  - unfold swp. replace (nth_error l j) with (@None A) by (symmetry; now apply nth_error_None).
    replace (nth_error l' j) with (@None B) by (symmetry; apply nth_error_None; lia).
    destruct (nth_error l k), (nth_error l' k); auto.
  - unfold swp. replace (nth_error l k) with (@None A) by (symmetry; now apply nth_error_None).
    replace (nth_error l' k) with (@None B) by (symmetry; apply nth_error_None; lia). auto.
Qed.

Section CD.
Context {F St : Type} (fo : fops F) (K : kernel F St).

(** *** degree values *)

(** loop 1 *)
Lemma cd_loop1_spec cf ub lb n ritzv resid d d' :
  cd_loop1 fo cf ub lb n ritzv resid d = Ok d' ->
  length d' = length d /\
  (forall i, n <= i -> nth_error d' i = nth_error d i) /\
  (forall i, i < n -> exists r s x, nth_error ritzv i = Some r /\ nth_error resid i = Some s /\
     raw_degree fo ub lb (c_tol cf) r s = Some x /\
     nth_error d' i = Some (Nat.min (x + c_degextra cf) (c_maxdeg cf))).
Proof.
  unfold cd_loop1. intros H.
  apply (for_inv_ok (fun k e => length e = length d /\
     (forall i, k <= i -> nth_error e i = nth_error d i) /\
     (forall i, i < k -> exists r s x, nth_error ritzv i = Some r /\ nth_error resid i = Some s /\
        raw_degree fo ub lb (c_tol cf) r s = Some x /\
        nth_error e i = Some (Nat.min (x + c_degextra cf) (c_maxdeg cf)))) ) in H; auto.
  - split; auto. split; auto. intros; lia.
  - clear. intros k e e' Hk (H1 & H2 & H3) Hb.
    apply bind_ok in Hb as (r & Hr & Hb). apply bind_ok in Hb as (s & Hs & Hb).
    apply rd_ok in Hr, Hs. destruct (raw_degree fo ub lb (c_tol cf) r s) as [x|] eqn:Ex; [|discriminate].
    apply wr_inv in Hb as [Hlt ->]. rewrite upd_length. split; auto. split.
    + intros i Hi. rewrite upd_other by lia. apply H2; lia.
    + intros i Hi. destruct (Nat.eq_dec i k) as [->|].
      * exists r, s, x. repeat split; auto. now apply upd_same.
      * rewrite upd_other by lia. apply H3; lia.
Qed.

Lemma cd_loop1_safe cf ub lb n ritzv resid d :
  n <= length ritzv -> n <= length resid -> n <= length d ->
  (forall i r s, i < n -> nth_error ritzv i = Some r -> nth_error resid i = Some s ->
     raw_degree fo ub lb (c_tol cf) r s <> None) ->
  exists d', cd_loop1 fo cf ub lb n ritzv resid d = Ok d'.
Proof.
  intros H1 H2 H3 H4. unfold cd_loop1.
  destruct (for_inv (fun k e => length e = length d)
     (fun i d => let! r := rd ritzv i in let! s := rd resid i in
      match raw_degree fo ub lb (c_tol cf) r s with
      | None => UB | Some x => wr d i (Nat.min (x + c_degextra cf) (c_maxdeg cf)) end) n 0 d) as (s' & E & _); eauto.
  intros k s Hk Hs.
  destruct (nth_error_ex ritzv k) as [r Er]; [lia|]. destruct (nth_error_ex resid k) as [q Eq]; [lia|].
  unfold rd. rewrite Er, Eq. cbn [bind]. destruct (raw_degree fo ub lb (c_tol cf) r q) eqn:E.
  - rewrite wr_ok by lia. eexists; split; eauto. now rewrite upd_length.
  - exfalso. eapply H4; eauto. lia.
Qed.

Lemma cd_loop2_spec unc nex d d' : nex < unc -> cd_loop2 unc nex d = Ok d' ->
  length d' = length d /\
  (forall i, i < unc - nex \/ unc <= i -> nth_error d' i = nth_error d i) /\
  (forall i, unc - nex <= i < unc -> nth_error d' i = nth_error d (unc - nex - 1)).
Proof.
  unfold cd_loop2. intros Hlt H.
  apply (for_inv_ok (fun k e => length e = length d /\
     (forall i, i < unc - nex \/ k <= i -> nth_error e i = nth_error d i) /\
     (forall i, unc - nex <= i < k -> nth_error e i = nth_error d (unc - nex - 1)))) in H; auto.
  - replace (unc - nex + nex) with unc in H by lia. exact H.
  - split; auto. split; auto. intros; lia.
  - clear H. intros k e e' Hk (H1 & H2 & H3) Hb.
    apply bind_ok in Hb as (x & Hx & Hb). apply rd_ok in Hx. apply wr_inv in Hb as [Hl ->].
    replace (unc - 1 - nex) with (unc - nex - 1) in Hx by lia.
    rewrite H2 in Hx by lia. rewrite upd_length. split; auto. split.
    + intros i Hi. rewrite upd_other by lia. apply H2. lia.
    + intros i Hi. destruct (Nat.eq_dec i k) as [->|].
      * rewrite upd_same by lia. congruence.
      * rewrite upd_other by lia. apply H3. lia.
Qed.

Lemma cd_loop2_safe unc nex d : nex < unc -> unc <= length d -> exists d', cd_loop2 unc nex d = Ok d'.
Proof.
  intros. unfold cd_loop2.
  destruct (for_inv (fun k e => length e = length d)
     (fun i d => let! x := rd d (unc - 1 - nex) in wr d i x) nex (unc - nex) d) as (s' & E & _); eauto.
  intros k s Hk Hs. destruct (nth_error_ex s (unc - 1 - nex)) as [x Ex]; [lia|].
  unfold rd. rewrite Ex. cbn [bind]. rewrite wr_ok by lia. eexists; split; eauto. now rewrite upd_length.
Qed.

Lemma cd_loop3_spec unc d d' : cd_loop3 unc d = Ok d' ->
  length d' = length d /\
  (forall i, unc <= i -> nth_error d' i = nth_error d i) /\
  (forall i, i < unc -> nth_error d' i = option_map round_even (nth_error d i)).
Proof.
  unfold cd_loop3. intros H.
  apply (for_inv_ok (fun k e => length e = length d /\
     (forall i, k <= i -> nth_error e i = nth_error d i) /\
     (forall i, i < k -> nth_error e i = option_map round_even (nth_error d i)))) in H; auto.
  - split; auto. split; auto. intros; lia.
  - clear H. intros k e e' Hk (H1 & H2 & H3) Hb.
    apply bind_ok in Hb as (x & Hx & Hb). apply rd_ok in Hx. apply wr_inv in Hb as [Hl ->].
    rewrite H2 in Hx by lia. rewrite upd_length. split; auto. split.
    + intros i Hi. rewrite upd_other by lia. apply H2. lia.
    + intros i Hi. destruct (Nat.eq_dec i k) as [->|].
      * rewrite upd_same by lia. rewrite Hx. reflexivity.
      * rewrite upd_other by lia. apply H3. lia.
Qed.

Lemma cd_loop3_safe unc d : unc <= length d -> exists d', cd_loop3 unc d = Ok d'.
Proof.
  intros. unfold cd_loop3.
  destruct (for_inv (fun k e => length e = length d)
     (fun i d => let! x := rd d i in wr d i (x + x mod 2)) unc 0 d) as (s' & E & _); eauto.
  intros k s Hk Hs. destruct (nth_error_ex s k) as [x Ex]; [lia|].
  unfold rd. rewrite Ex. cbn [bind]. rewrite wr_ok by lia. eexists; split; eauto. now rewrite upd_length.
Qed.

(** *** the exchange sort *)
Definition cd_by (locked : nat) (sw : list (nat * nat)) (a a' : @cd_arrays F St) : Prop :=
  cd_deg a' = swps sw (cd_deg a) /\ cd_ritz a' = swps sw (cd_ritz a) /\
  cd_res a' = swps sw (cd_res a) /\ cd_last a' = swps sw (cd_last a) /\
  kswaps K locked sw (cd_k a) = Ok (cd_k a').

Lemma cd_by_nil locked (a : @cd_arrays F St) : cd_by locked [] a a.
Proof. repeat split. Qed.

Lemma cd_by_trans locked sw1 sw2 a b c : cd_by locked sw1 a b -> cd_by locked sw2 b c -> cd_by locked (sw1 ++ sw2) a c.
Proof.
  intros (A1 & A2 & A3 & A4 & A5) (B1 & B2 & B3 & B4 & B5).
  unfold cd_by. rewrite !swps_app, kswaps_app, <- A1, <- A2, <- A3, <- A4, A5. auto.
Qed.

Lemma cd_exchange_spec locked j k a a' : cd_exchange K locked j k a = Ok a' ->
  exists dk dj, nth_error (cd_deg a) k = Some dk /\ nth_error (cd_deg a) j = Some dj /\
  ((dk < dj /\ cd_by locked [(k, j)] a a' /\ cd_deg a' = swp (cd_deg a) k j) \/ (dj <= dk /\ a' = a)).
Proof.
  unfold cd_exchange. intros H. apply bind_ok in H as (dk & Hk & H). apply bind_ok in H as (dj & Hj & H).
  apply rd_ok in Hk, Hj. exists dk, dj. split; auto. split; auto.
  destruct (dk <? dj) eqn:E.
  - apply Nat.ltb_lt in E. left. split; auto.
    apply bind_ok in H as (d & Hd & H). apply bind_ok in H as (r & Hr & H).
    apply bind_ok in H as (s & Hs & H). apply bind_ok in H as (l & Hl & H).
    apply bind_ok in H as (kk & Hkk & H). inversion H; subst; clear H.
    apply swap_inv in Hd as (_ & _ & ->). apply swap_inv in Hr as (_ & _ & ->).
    apply swap_inv in Hs as (_ & _ & ->). apply swap_inv in Hl as (_ & _ & ->).
    split; auto. repeat split; auto. simpl. rewrite Hkk. reflexivity.
  - apply Nat.ltb_ge in E. right. inversion H; auto.
Qed.

(** position j holds the minimum of positions j..k-1, prefix sorted below everything *)
Definition sorted_upto (n j : nat) (d : list nat) : Prop :=
  forall i i' x y, i < j -> i <= i' < n -> nth_error d i = Some x -> nth_error d i' = Some y -> x <= y.

Lemma cd_inner_spec n locked j a0 a a' : j < n -> n <= length (cd_deg a0) ->
  (exists sw, in_range n sw /\ cd_by locked sw a0 a) -> sorted_upto n j (cd_deg a) ->
  for_ (n - j) j (fun k a => cd_exchange K locked j k a) a = Ok a' ->
  (exists sw, in_range n sw /\ cd_by locked sw a0 a') /\ sorted_upto n (S j) (cd_deg a').
Proof.
  intros Hj Hn Hsw Hs H.
  apply (for_inv_ok (fun k b => (exists sw, in_range n sw /\ cd_by locked sw a0 b) /\
     sorted_upto n j (cd_deg b) /\
     (forall i x y, nth_error (cd_deg b) j = Some x -> j <= i < k -> nth_error (cd_deg b) i = Some y -> x <= y))) in H.
  - destruct H as (H1 & H2 & H3). split; auto.
    intros i i' x y Hi Hi' Hx Hy. destruct (Nat.eq_dec i j) as [->|].
    + eapply H3; eauto. lia.
    + eapply H2; eauto. lia.
  - split; auto. split; auto. intros; lia.
  - clear H. intros k b b' Hk ((sw & Hr & Hb) & H2 & H3) Hx.
    assert (Hlen : length (cd_deg b) = length (cd_deg a0)) by (destruct Hb as (-> & _); apply swps_length).
    apply cd_exchange_spec in Hx as (dk & dj & Ek & Ej & [(Hlt & Hby & Hd)|(Hle & ->)]).
    + split; [|split].
      * exists (sw ++ [(k, j)]). split.
        -- apply Forall_app. split; auto. constructor; auto. simpl. lia.
        -- eapply cd_by_trans; eauto.
      * intros i i' x y Hi Hi' Hx Hy. rewrite Hd in Hx, Hy.
        rewrite swp_nth in Hx, Hy by lia.
        assert (tr k j i = i) as Et by (unfold tr; destruct (i =? k) eqn:E1; [apply Nat.eqb_eq in E1; lia|];
          destruct (i =? j) eqn:E2; [apply Nat.eqb_eq in E2; lia|]; auto).
        rewrite Et in Hx. eapply (H2 i (tr k j i')); eauto. split.
        -- unfold tr. destruct (i' =? k) eqn:E1; [lia|]. destruct (i' =? j) eqn:E2; lia.
        -- apply tr_lt; lia.
      * intros i x y Hx Hi Hy. rewrite Hd in Hx, Hy. rewrite swp_nth in Hx, Hy by lia.
        assert (k <> j) by (intros ->; rewrite Ek in Ej; inversion Ej; lia).
        assert (Etj : tr k j j = k) by (unfold tr; destruct (j =? k) eqn:E1; [apply Nat.eqb_eq in E1; lia|]; now rewrite Nat.eqb_refl).
        rewrite Etj in Hx. rewrite Ek in Hx. inversion Hx; subst x.
        destruct (Nat.eq_dec i k) as [->|Hik].
        -- assert (Etk : tr k j k = j) by (unfold tr; now rewrite Nat.eqb_refl). rewrite Etk, Ej in Hy. inversion Hy; lia.
        -- destruct (Nat.eq_dec i j) as [->|Hij].
           ++ rewrite Etj, Ek in Hy. inversion Hy; lia.
           ++ assert (Eti : tr k j i = i) by (unfold tr; destruct (i =? k) eqn:E1; [apply Nat.eqb_eq in E1; lia|];
                destruct (i =? j) eqn:E2; [apply Nat.eqb_eq in E2; lia|]; auto).
              rewrite Eti in Hy. pose proof (H3 i dj y Ej ltac:(lia) Hy). lia.
    + split; [eauto|]. split; auto.
      intros i x y Hx Hi Hy. destruct (Nat.eq_dec i k) as [->|].
      * rewrite Ek in Hy. rewrite Ej in Hx. inversion Hx; inversion Hy; subst; auto.
      * eapply H3; eauto. lia.
Qed.

Lemma cd_sort_spec n locked a a' : 0 < n -> n <= length (cd_deg a) -> cd_sort K n locked a = Ok a' ->
  exists sw, in_range n sw /\ cd_by locked sw a a' /\ ascending (firstn n (cd_deg a')).
Proof.
  intros Hn Hl H. unfold cd_sort in H.
  apply (for_inv_ok (fun j b => (exists sw, in_range n sw /\ cd_by locked sw a b) /\ sorted_upto n j (cd_deg b))) in H.
  - destruct H as ((sw & Hr & Hb) & Hs). exists sw. split; auto. split; auto.
    intros i j x y Hij Hx Hy.
    assert (Hj : j < n). { apply nth_error_lt in Hy. rewrite firstn_length in Hy. lia. }
    assert (Hf : forall i, i < n -> nth_error (firstn n (cd_deg a')) i = nth_error (cd_deg a') i).
    { clear. generalize (cd_deg a'). induction n; intros l i Hi; [lia|]. destruct l; auto. destruct i; simpl; auto. apply IHn. lia. }
    rewrite Hf in Hx, Hy by lia.
    destruct (Nat.eq_dec i j) as [->|]; [rewrite Hx in Hy; inversion Hy; lia|].
    apply (Hs i j x y); auto; lia.
  - split; [exists []; split; [constructor|apply cd_by_nil]|]. intros i i' x y Hi; lia.
  - intros j b b' Hj (Hsw & Hs) Hb. eapply cd_inner_spec; eauto. lia.
Qed.

(** safety *)
Context (nevex : nat) (I0 : St -> Prop) (I : nat -> St -> Prop) (KS : kernel_safe K nevex I0 I).

Definition cd_len (n : nat) (a : @cd_arrays F St) : Prop :=
  n <= length (cd_deg a) /\ n <= length (cd_ritz a) /\ n <= length (cd_res a) /\ n <= length (cd_last a).

Lemma cd_exchange_safe n l j k a : j < n -> k < n -> l + n <= nevex -> cd_len n a -> I l (cd_k a) ->
  exists a', cd_exchange K l j k a = Ok a' /\ cd_len n a' /\ I l (cd_k a').
Proof.
  intros Hj Hk Hn (L1 & L2 & L3 & L4) HI. unfold cd_exchange, rd.
  destruct (nth_error_ex (cd_deg a) k) as [dk ->]; [lia|]. destruct (nth_error_ex (cd_deg a) j) as [dj ->]; [lia|].
  cbn [bind]. destruct (dk <? dj).
  - rewrite !swap_ok by lia. cbn [bind].
    destruct (ks_swap _ _ _ _ KS l (k + l) (j + l) (cd_k a) HI) as (s' & -> & HI'); try lia.
    cbn [bind]. eexists; split; eauto. unfold cd_len. simpl. rewrite !swp_length. auto.
  - eexists; split; eauto. split; auto. repeat split; auto.
Qed.

Lemma cd_sort_safe n l a : l + n <= nevex -> cd_len n a -> I l (cd_k a) ->
  exists a', cd_sort K n l a = Ok a' /\ cd_len n a' /\ I l (cd_k a').
Proof.
  intros Hn HL HI. unfold cd_sort.
  destruct (for_inv (fun _ b => cd_len n b /\ I l (cd_k b))
    (fun j a => for_ (n - j) j (fun k a => cd_exchange K l j k a) a) (n - 1) 0 a) as (a' & -> & H1 & H2); auto.
  - intros j b Hj (Hb1 & Hb2).
    destruct (for_inv (fun _ b => cd_len n b /\ I l (cd_k b))
      (fun k a => cd_exchange K l j k a) (n - j) j b) as (b' & -> & H1 & H2); auto.
    + intros k c Hk (Hc1 & Hc2). destruct (cd_exchange_safe n l j k c) as (c' & -> & ? & ?); auto; try lia. eauto.
    + eauto.
  - eauto.
Qed.

End CD.

Section CD2.
Context {F St : Type} (fo : fops F) (K : kernel F St).

(** what calc_degrees asks for at position i, before sorting *)
Local Notation want_degree := (want_degree fo).

Lemma nth_firstn {A} (l : list A) n i : i < n -> nth_error (firstn n l) i = nth_error l i.
Proof. revert n i; induction l; intros [|n] [|i] H; simpl; auto; try lia. apply IHl; lia. Qed.

Lemma calc_degrees_spec cf unc nex ub lb locked a r a' :
  nex < unc -> unc <= length (cd_deg a) ->
  calc_degrees fo K cf unc nex ub lb locked a = Ok (r, a') ->
  exists sw wanted,
    in_range unc sw /\
    length wanted = length (cd_deg a) /\
    (forall i, i < unc -> exists d, nth_error wanted i = Some d /\ want_degree cf ub lb unc nex (cd_ritz a) (cd_res a) i d) /\
    cd_deg a' = swps sw wanted /\
    cd_ritz a' = swps sw (cd_ritz a) /\ cd_res a' = swps sw (cd_res a) /\ cd_last a' = swps sw (cd_last a) /\
    kswaps K locked sw (cd_k a) = Ok (cd_k a') /\
    ascending (firstn unc (cd_deg a')) /\
    nth_error (cd_deg a') (unc - 1) = Some r.
Proof.
  intros Hlt Hlen H. unfold calc_degrees in H.
  apply bind_ok in H as (d1 & H1 & H). apply bind_ok in H as (d2 & H2 & H). apply bind_ok in H as (d3 & H3 & H).
  apply bind_ok in H as (b & H4 & H). apply bind_ok in H as (q & H5 & H). inversion H; subst q b; clear H.
  apply cd_loop1_spec in H1 as (L1 & A1 & B1).
  apply cd_loop2_spec in H2 as (L2 & A2 & B2); [|lia].
  apply cd_loop3_spec in H3 as (L3 & A3 & B3).
  apply cd_sort_spec in H4 as (sw & Hr & (C1 & C2 & C3 & C4 & C5) & Hs); simpl in *; try lia.
  apply rd_ok in H5.
  exists sw, d3. split; auto. split; [lia|]. split; [|repeat split; auto].
  intros i Hi. rewrite (B3 i Hi). unfold want_degree.
  destruct (i <? unc - nex) eqn:E.
  - apply Nat.ltb_lt in E. rewrite A2 by lia. destruct (B1 i E) as (rr & s & x & E1 & E2 & E3 & E4).
    rewrite E4. simpl. eexists; split; eauto. exists rr, s, x. auto.
  - apply Nat.ltb_ge in E. rewrite B2 by lia. destruct (B1 (unc - nex - 1)) as (rr & s & x & E1 & E2 & E3 & E4); [lia|].
    rewrite E4. simpl. eexists; split; eauto. exists rr, s, x. auto.
Qed.

Lemma round_even_even x : Nat.even (round_even x) = true.
Proof.
  unfold round_even. rewrite <- Nat.bit0_odd || idtac.
  pose proof (Nat.div_mod x 2 ltac:(lia)). pose proof (Nat.mod_upper_bound x 2 ltac:(lia)).
  apply Nat.even_spec. destruct (Nat.eq_dec (x mod 2) 0) as [E|E].
  - exists (x / 2). lia.
  - exists (x / 2 + 1). lia.
Qed.

Lemma round_even_le x m : Nat.even m = true -> x <= m -> round_even x <= m.
Proof.
  intros Hm H. unfold round_even. apply Nat.even_spec in Hm as [k ->].
  pose proof (Nat.div_mod x 2 ltac:(lia)). pose proof (Nat.mod_upper_bound x 2 ltac:(lia)). lia.
Qed.
Lemma round_even_ge x : x <= round_even x.
Proof. unfold round_even. lia. Qed.

Lemma in_swps {A} sw (l : list A) x : In x (swps sw l) <-> In x l.
Proof.
  split; apply Permutation_in; [apply Permutation_sym|]; apply swps_perm.
Qed.

Lemma firstn_swps {A} sw n (l : list A) : in_range n sw -> n <= length l ->
  firstn n (swps sw l) = swps sw (firstn n l).
Proof.
  intros H. revert l. induction H as [|[k j] sw [Hk Hj] _ IH]; intros l Hl; auto.
  unfold swps in *. simpl in *. rewrite IH by (rewrite swp_length; auto). f_equal.
  apply nth_error_ext. intros i. destruct (Nat.lt_ge_cases i n) as [Hi|Hi].
  - rewrite nth_firstn by auto. rewrite !swp_nth by (rewrite ?firstn_length; lia).
    rewrite nth_firstn; auto. apply tr_lt; auto.
  - transitivity (@None A); [|symmetry]; apply nth_error_None; rewrite ?swp_length, firstn_length; lia.
Qed.

(** all degrees are even and bounded *)
Lemma calc_degrees_bounds cf unc nex ub lb locked a r a' :
  nex < unc -> unc <= length (cd_deg a) -> Nat.even (c_maxdeg cf) = true ->
  calc_degrees fo K cf unc nex ub lb locked a = Ok (r, a') ->
  Forall (fun d => Nat.even d = true /\ Nat.min (c_degextra cf) (c_maxdeg cf) <= d <= c_maxdeg cf) (firstn unc (cd_deg a')) /\
  (forall d, In d (firstn unc (cd_deg a')) -> d <= r) /\ In r (firstn unc (cd_deg a')).
Proof.
  intros Hlt Hlen Hm H.
  destruct (calc_degrees_spec _ _ _ _ _ _ _ _ _ Hlt Hlen H) as
    (sw & w & Hr & Hw & HW & D & _ & _ & _ & _ & Hs & Hlast).
  assert (HL : length (cd_deg a') = length (cd_deg a)) by (rewrite D, swps_length; auto).
  split; [|split].
  - apply Forall_forall. intros d Hd. rewrite D in Hd. rewrite firstn_swps in Hd by (auto; lia).
    apply (proj1 (in_swps _ _ _)) in Hd. apply In_nth_error in Hd as [i Hi].
    assert (Hiu : i < unc) by (apply nth_error_lt in Hi; rewrite firstn_length in Hi; lia).
    rewrite nth_firstn in Hi by auto. destruct (HW i Hiu) as (d' & E & (rr & s & x & _ & _ & _ & ->)).
    rewrite E in Hi. inversion Hi; subst d. split; [apply round_even_even|]. split.
    + eapply Nat.le_trans; [|apply round_even_ge]. lia.
    + apply round_even_le; auto. lia.
  - intros d Hd. apply In_nth_error in Hd as [i Hi].
    assert (Hiu : i < unc) by (apply nth_error_lt in Hi; rewrite firstn_length in Hi; lia).
    apply (Hs i (unc - 1) d r); auto; [lia|]. rewrite nth_firstn by lia. auto.
  - apply nth_error_In with (unc - 1). rewrite nth_firstn by lia. auto.
Qed.

(** the call is defined whenever every conversion is *)
Lemma calc_degrees_safe nevex I0 I (KS : kernel_safe K nevex I0 I) cf unc nex ub lb l a :
  nex < unc -> l + unc <= nevex -> cd_len unc a -> I l (cd_k a) ->
  (forall i r s, i < unc - nex -> nth_error (cd_ritz a) i = Some r -> nth_error (cd_res a) i = Some s ->
     raw_degree fo ub lb (c_tol cf) r s <> None) ->
  exists r a', calc_degrees fo K cf unc nex ub lb l a = Ok (r, a') /\ I l (cd_k a').
Proof.
  intros Hlt Hn (L1 & L2 & L3 & L4) HI HD. unfold calc_degrees.
  destruct (cd_loop1_safe fo cf ub lb (unc - nex) (cd_ritz a) (cd_res a) (cd_deg a)) as (d1 & E1); auto; try lia.
  rewrite E1. cbn [bind]. apply cd_loop1_spec in E1 as (Q1 & _).
  destruct (cd_loop2_safe unc nex d1) as (d2 & E2); try lia. rewrite E2. cbn [bind].
  apply cd_loop2_spec in E2 as (Q2 & _); [|lia].
  destruct (cd_loop3_safe unc d2) as (d3 & E3); try lia. rewrite E3. cbn [bind].
  apply cd_loop3_spec in E3 as (Q3 & _).
  destruct (cd_sort_safe K nevex I0 I KS unc l (mk_cd d3 (cd_ritz a) (cd_res a) (cd_last a) (cd_k a))) as (a' & -> & (M1 & _) & HI'); auto.
  { repeat split; simpl; auto; lia. }
  cbn [bind]. destruct (nth_error_ex (cd_deg a') (unc - 1)) as [x Ex]; [lia|].
  unfold rd. rewrite Ex. cbn [bind]. eauto.
Qed.
End CD2.
