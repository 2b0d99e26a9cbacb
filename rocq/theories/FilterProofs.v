(** The filter of the column backends is the three-term recurrence on every column separately. *)
From Coq Require Import List Arith Bool Lia.
Require Import Verif.Base Verif.AlgModel Verif.AlgSpec Verif.AlgProofs1 Verif.AlgProofs2 Verif.AlgProofs3 Verif.DlaModel Verif.ColModel
  Verif.ColProofs1 Verif.ColProofs2 Verif.InplProofs Verif.FilterSpec.
Import ListNotations.

(** ** one update of a window *)
Lemma nth_error_skipn {A} (l : list A) n i : nth_error (skipn n l) i = nth_error l (n + i).
Proof. revert l. induction n; intros [|x l]; simpl; auto. now destruct i. Qed.
Lemma nth_error_firstn {A} (l : list A) n i : i < n -> nth_error (firstn n l) i = nth_error l i.
Proof. revert l i. induction n; intros [|x l] i H; simpl; auto; try lia. destruct i; simpl; auto. apply IHn. lia. Qed.
Lemma nth_error_zip {A B C} (f : A -> B -> C) : forall l m i a b, nth_error l i = Some a -> nth_error m i = Some b ->
  nth_error (zip f l m) i = Some (f a b).
Proof.
  induction l as [|x l IH]; intros [|y m] [|i] a b Ha Hb; cbn in *; try discriminate.
  - now injection Ha as ->; injection Hb as ->.
  - now apply IH.
Qed.

Lemma window_update {V} (f : V -> V -> V) (x y z x' y' : list V) o blk :
  get_range x o blk = Ok x' -> get_range y o blk = Ok y' -> put_range y o (zip f x' y') = Ok z ->
  length z = length y /\
  (forall j a b, o <= j < o + blk -> nth_error x j = Some a -> nth_error y j = Some b -> nth_error z j = Some (f a b)) /\
  (forall j, ~ (o <= j < o + blk) -> nth_error z j = nth_error y j).
Proof.
  intros H1 H2 H3. pose proof (put_range_length _ _ _ _ H3) as HL.
  pose proof (get_range_len _ _ _ _ H1) as L1. pose proof (get_range_len _ _ _ _ H2) as L2.
  apply get_range_inv in H1 as [B1 E1]. apply get_range_inv in H2 as [B2 E2]. apply put_range_inv in H3 as [B3 E3].
  assert (LZ : length (zip f x' y') = blk) by (rewrite zip_length; lia).
  split; [exact HL|]. split.
  - intros j a b Hj Ha Hb. subst z. rewrite nth_error_app2; rewrite firstn_length_le by lia; [|lia].
    rewrite nth_error_app1 by lia. apply nth_error_zip; subst; rewrite nth_error_firstn, nth_error_skipn by lia;
      replace (o + (j - o)) with j by lia; auto.
  - intros j Hj. subst z. destruct (Nat.lt_ge_cases j o) as [Hlt|Hge].
    + rewrite nth_error_app1 by (rewrite firstn_length_le; lia). apply nth_error_firstn; auto.
    + rewrite nth_error_app2; rewrite firstn_length_le by lia; [|lia].
      rewrite nth_error_app2 by lia. rewrite LZ, nth_error_skipn. f_equal. lia.
Qed.

(** ** the window of step i consists of the columns of degree at least i *)
Lemma window_iff degs : ascending degs -> forall i j d, nth_error degs j = Some d ->
  (count (fun x => x <? i) degs <= j <-> i <= d).
Proof.
  induction degs as [|a degs IH]; intros HA i j d Hj; [now destruct j|].
  rewrite count_cons. destruct (a <? i) eqn:E.
  - apply Nat.ltb_lt in E. destruct j; cbn in Hj; [injection Hj as <-; lia|].
    rewrite <- (IH (ascending_tail _ _ HA) i j d Hj). lia.
  - apply Nat.ltb_ge in E.
    assert (Hz : count (fun x => x <? i) degs = 0).
    { apply count_all_false. intros x Hx. apply Nat.ltb_ge. pose proof (ascending_head _ _ _ HA Hx). lia. }
    rewrite Hz. destruct j; cbn in Hj; [injection Hj as <-; lia|].
    apply nth_error_In in Hj. pose proof (ascending_head _ _ _ HA Hj). lia.
Qed.

Lemma window_deg l degs i j : ascending degs -> 1 <= i ->
  (l + count (fun x => x <? i) degs <= j < l + count (fun x => x <? i) degs + count (fun x => i <=? x) degs <-> i <= deg_of l degs j).
Proof.
  intros HA Hi. unfold deg_of.
  assert (Hc : count (fun d => d <? i) degs + count (fun d => i <=? d) degs = length degs).
  { apply count_compl. intros x. now rewrite Nat.ltb_antisym. }
  destruct (j <? l) eqn:E; [apply Nat.ltb_lt in E; lia|]. apply Nat.ltb_ge in E.
  destruct (nth_error degs (j - l)) as [d|] eqn:Ed.
  - rewrite (nth_error_nth _ _ _ Ed). pose proof (window_iff degs HA i _ _ Ed).
    assert (j - l < length degs) by (apply nth_error_Some; congruence). lia.
  - apply nth_error_None in Ed. rewrite nth_overflow by auto. lia.
Qed.

(** ** two alternating buffers *)
Section TwoBuf.
Context {V : Type} (op : nat -> V -> V -> V) (l : nat) (degs : list nat) (P Q : list V).

(** contents after [i] steps *)
Definition tb (i : nat) (p q : list V) : Prop :=
  length p = length P /\ length q = length Q /\
  forall j x y, nth_error P j = Some x -> nth_error Q j = Some y ->
    let m := Nat.min i (deg_of l degs j) in let t := three_term op x y m in
    nth_error p j = Some (if Nat.even m then fst t else snd t) /\
    nth_error q j = Some (if Nat.even m then snd t else fst t).

Lemma tb_0 : tb 0 P Q.
Proof. split; auto. Qed.

Definition evens : Prop := Forall (fun d => Nat.even d = true) degs.

Lemma deg_even j : evens -> Nat.even (deg_of l degs j) = true.
Proof.
  unfold deg_of, evens. intros H. destruct (j <? l); auto.
  destruct (nth_in_or_default (j - l) degs 0) as [Hin| ->]; auto. rewrite Forall_forall in H. auto.
Qed.

(** step i+1 writes the buffer that does not hold x_i *)
Lemma tb_step i p q src dst dst' :
  ascending degs -> evens -> tb i p q -> (src, dst) = (if Nat.even i then (p, q) else (q, p)) ->
  length dst' = length dst ->
  let o := l + count (fun x => x <? S i) degs in let blk := count (fun x => S i <=? x) degs in
  (forall j a b, o <= j < o + blk -> nth_error src j = Some a -> nth_error dst j = Some b -> nth_error dst' j = Some (op (S i) a b)) ->
  (forall j, ~ (o <= j < o + blk) -> nth_error dst' j = nth_error dst j) ->
  if Nat.even i then tb (S i) p dst' else tb (S i) dst' q.
Proof.
  intros HA HE (L1 & L2 & HT) Hsd HL o blk Hin Hout.
  assert (Hw : forall j, o <= j < o + blk <-> S i <= deg_of l degs j) by (intros j; apply window_deg; auto; lia).
  assert (HS : Nat.even (S i) = negb (Nat.even i)) by apply even_odd_S.
  assert (X : forall j x y, nth_error P j = Some x -> nth_error Q j = Some y ->
     let m := Nat.min (S i) (deg_of l degs j) in let t := three_term op x y m in
     let p1 := if Nat.even i then p else dst' in let q1 := if Nat.even i then dst' else q in
     nth_error p1 j = Some (if Nat.even m then fst t else snd t) /\ nth_error q1 j = Some (if Nat.even m then snd t else fst t)).
  { intros j x y Hx Hy. specialize (HT j x y Hx Hy). cbv zeta in *. destruct HT as [T1 T2].
    destruct (le_lt_dec (S i) (deg_of l degs j)) as [Hd|Hd].
    - rewrite Nat.min_l in T1, T2 by lia. rewrite (Nat.min_l (S i)) by lia. rewrite HS.
      cbn [three_term fst snd]. specialize (Hin j). apply Hw in Hd. clear Hout.
      destruct (Nat.even i); cbn [negb]; injection Hsd as -> ->; split; auto.
    - rewrite Nat.min_r in T1, T2 by lia. rewrite (Nat.min_r (S i)) by lia.
      assert (Hn : ~ (o <= j < o + blk)) by (rewrite Hw; lia).
      apply Hout in Hn. destruct (Nat.even i); injection Hsd as -> ->; rewrite Hn; auto. }
  destruct (Nat.even i); injection Hsd as -> ->; (split; [congruence|split; [congruence|exact X]]).
Qed.

Lemma tb_end deg p q : evens -> Forall (fun d => d <= deg) degs -> tb deg p q ->
  length p = length P /\ length q = length Q /\
  forall j x y, nth_error P j = Some x -> nth_error Q j = Some y ->
    nth_error p j = Some (fst (three_term op x y (deg_of l degs j))) /\
    nth_error q j = Some (snd (three_term op x y (deg_of l degs j))).
Proof.
  intros HE HD (L1 & L2 & HT). split; auto. split; auto. intros j x y Hx Hy. specialize (HT j x y Hx Hy). cbv zeta in HT.
  assert (deg_of l degs j <= deg).
  { unfold deg_of. destruct (j <? l); [lia|]. destruct (nth_in_or_default (j - l) degs 0) as [Hin| ->]; [|lia].
    rewrite Forall_forall in HD. auto. }
  rewrite Nat.min_r in HT by auto. now rewrite deg_even in HT by auto.
Qed.
End TwoBuf.

Lemma filter_args_spec {F St} (fo : fops F) (K : kernel F St) l nevex n deg degs la lo up s : filter_args l nevex n deg degs ->
  filter_ fo K n deg degs la lo up s = filter_spec fo K deg degs la lo up s.
Proof.
  intros (-> & _ & HA & HF & HI). apply filter_refines; auto.
  - eapply Forall_impl; [|exact HF]. cbn. lia.
  - rewrite Forall_forall in HF. exists deg. split; auto. apply HF in HI. tauto.
  - rewrite Forall_forall in HF. apply HF in HI. lia.
Qed.

(** ** Seq and Mpi *)
Section Col.
Context {F V M G T : Type} (fo : fops F) (bl : blas F V M G T) (qe : qr_env F) (td : tridiag F) (mpi : bool) (nev nex : nat).
Local Notation K := (cmK fo qe td (colD fo bl mpi (nev + nex)) nev nex).

Lemma col_filter l n deg degs la lo up s av s' :
  filter_args l (nev + nex) n deg degs -> cm_locked s = l -> cs_bAc (cm_dla s) = true ->
  filter_ fo K n deg degs la lo up s = Ok (av, s') ->
  let d := cm_dla s in let d' := cm_dla s' in let c := f_c fo lo up in
  av = list_sum degs /\
  cm_locked s' = l /\ cs_bAc d' = true /\ cs_H d' = b_shift bl (b_shift bl (cs_H d) (f_neg fo c)) c /\
  cs_C2 d' = cs_C2 d /\ cs_B2 d' = cs_B2 d /\
  length (cs_C d') = length (cs_C d) /\ length (cs_B d') = length (cs_B d) /\
  forall j x y, nth_error (cs_C d) j = Some x -> nth_error (cs_B d) j = Some y ->
    nth_error (cs_C d') j = Some (fst (three_term (col_op fo bl (cs_H d) la lo up) x y (deg_of l degs j))) /\
    nth_error (cs_B d') j = Some (snd (three_term (col_op fo bl (cs_H d) la lo up) x y (deg_of l degs j))).
Proof.
  intros HF Hl Hb H. rewrite (filter_args_spec fo K l (nev + nex)) in H by auto.
  destruct HF as (-> & HN & HA & HFa & HI). unfold filter_spec in H. cbv zeta in H. cbv zeta.
  fold (f_c fo lo up) (f_e fo lo up) in H. fold (f_s1 fo la lo up) in H.
  assert (Hle : Forall (fun d => d <= deg) degs) by (eapply Forall_impl; [|exact HFa]; cbn; tauto).
  assert (HE : evens degs) by (eapply Forall_impl; [|exact HFa]; cbn; tauto).
  apply bind_ok in H as (k1 & H1 & H). apply bind_ok in H as (k2 & H2 & H). apply bind_ok in H as (k3 & H3 & H).
  injection H as Hav E. subst k3.
  assert (Hav' : av = list_sum degs).
  { rewrite <- Hav. f_equal. rewrite <- (map_id degs) at 2. apply map_ext_in. intros a Ha. rewrite Forall_forall in Hle. specialize (Hle a Ha). lia. }
  clear Hav.
  cbn [cmK k_shift colD d_shift] in H1, H3. apply lift_inv in H1 as (d1 & E1 & ->). injection E1 as <-.
  set (P := cs_C (cm_dla s)) in *. set (Q := cs_B (cm_dla s)) in *.
  apply (for_inv_ok (fun i k => cm_locked k = l /\ cs_bAc (cm_dla k) = Nat.even (i - 1) /\
     cs_H (cm_dla k) = b_shift bl (cs_H (cm_dla s)) (f_neg fo (f_c fo lo up)) /\
     cs_C2 (cm_dla k) = cs_C2 (cm_dla s) /\ cs_B2 (cm_dla k) = cs_B2 (cm_dla s) /\
     tb (col_op fo bl (cs_H (cm_dla s)) la lo up) l degs P Q (i - 1) (cs_C (cm_dla k)) (cs_B (cm_dla k)))) in H2.
  - destruct H2 as (A1 & A2 & A3 & A4 & A5 & A6). replace (1 + deg - 1) with deg in * by lia.
    apply lift_inv in H3 as (d3 & E3 & ->). injection E3 as <-. cbn [cm_dla cm_locked cs_H cs_C cs_B cs_bAc cs_C2 cs_B2].
    apply tb_end in A6; auto. destruct A6 as (B1 & B2 & B3).
    assert (Hd : Nat.even deg = true) by (rewrite Forall_forall in HFa; apply HFa in HI; tauto).
    repeat match goal with |- _ /\ _ => split end; auto; congruence.
  - cbn. repeat match goal with |- _ /\ _ => split end; auto. apply tb_0.
  - intros i k k' Hi (A1 & A2 & A3 & A4 & A5 & A6) Hk. cbn [cmK k_hemm colD d_apply] in Hk.
    apply lift_inv in Hk as (d & Ed & ->). rewrite A1 in *. unfold c_apply in Ed.
    apply bind_ok in Ed as (x & Hx & Ed). apply bind_ok in Ed as (y & Hy & Ed).
    destruct i as [|i]; [lia|]. replace (S (S i) - 1) with (S i) by lia. rewrite even_odd_S. replace (S i - 1) with i in * by lia.
    assert (Hop : forall p q, col_op fo bl (cs_H (cm_dla s)) la lo up (S i) p q =
        (if cs_bAc (cm_dla k) then b_gemmH bl else b_gemmN bl) (cs_H (cm_dla k)) (alpha_ fo (f_s1 fo la lo up) (f_e fo lo up) (S i)) (beta_ fo (f_s1 fo la lo up) (S i)) p q).
    { intros p q. unfold col_op, f_alpha, f_beta. rewrite even_odd_S, <- A2, A3. destruct (cs_bAc (cm_dla k)); reflexivity. }
    pose proof (tb_step (col_op fo bl (cs_H (cm_dla s)) la lo up) l degs P Q i (cs_C (cm_dla k)) (cs_B (cm_dla k))) as ST.
    rewrite <- A2 in *. destruct (cs_bAc (cm_dla k)); apply bind_ok in Ed as (z & Hz & Ed); injection Ed as <-;
      cbn [cm_dla cm_locked cs_H cs_C cs_B cs_bAc cs_C2 cs_B2 negb].
    + destruct (window_update _ _ _ _ _ _ _ _ Hx Hy Hz) as (W1 & W2 & W3).
      repeat match goal with |- _ /\ _ => split end; auto.
      apply (ST (cs_C (cm_dla k)) (cs_B (cm_dla k))); auto. intros. rewrite Hop. now apply W2.
    + destruct (window_update _ _ _ _ _ _ _ _ Hy Hx Hz) as (W1 & W2 & W3).
      repeat match goal with |- _ /\ _ => split end; auto.
      apply (ST (cs_B (cm_dla k)) (cs_C (cm_dla k))); auto. intros. rewrite Hop. now apply W2.
Qed.

Lemma col_filter_total w l n deg degs la lo up s : nev + nex <= w -> filter_args l (nev + nex) n deg degs ->
  cm_locked s = l -> clen (nev + nex) w (cm_dla s) ->
  exists av s', filter_ fo K n deg degs la lo up s = Ok (av, s').
Proof.
  intros Hw HF Hl HC. rewrite (filter_args_spec fo K l (nev + nex)) by auto. destruct HF as (-> & HN & _).
  destruct (filter_spec_safe fo K (nev + nex) _ _ (cm_safe fo qe td _ nev nex _ (col_dla_safe fo bl mpi (nev + nex) w Hw)) deg degs la lo up l s)
    as (av & k' & E & _); [lia| |eauto]. split; auto. split; [lia|auto].
Qed.
End Col.

(** ** in-place *)
Section Inpl.
Context {F V M G T : Type} (fo : fops F) (bl : blas F V M G T) (qe : qr_env F) (td : tridiag F) (nev nex : nat).
Local Notation K := (cmK fo qe td (inplD fo bl (nev + nex)) nev nex).

Lemma inpl_filter_cols l n deg degs la lo up s av s' :
  filter_args l (nev + nex) n deg degs -> cm_locked s = l ->
  filter_ fo K n deg degs la lo up s = Ok (av, s') ->
  let d := cm_dla s in let d' := cm_dla s' in let c := f_c fo lo up in
  av = list_sum degs /\
  cm_locked s' = l /\ is_sw d' = is_sw d /\ is_H d' = b_shift bl (b_shift bl (is_H d) (f_neg fo c)) c /\
  length (is_V1 d') = length (is_V1 d) /\ length (is_V2 d') = length (is_V2 d) /\
  forall j x y, nth_error (is_V1 d) j = Some x -> nth_error (is_V2 d) j = Some y ->
    nth_error (is_V1 d') j = Some (fst (three_term (inpl_op fo bl (is_H d) la lo up) x y (deg_of l degs j))) /\
    nth_error (is_V2 d') j = Some (snd (three_term (inpl_op fo bl (is_H d) la lo up) x y (deg_of l degs j))).
Proof.
  intros HF Hl H. rewrite (filter_args_spec fo K l (nev + nex)) in H by auto.
  destruct HF as (-> & HN & HA & HFa & HI). unfold filter_spec in H. cbv zeta in H. cbv zeta.
  fold (f_c fo lo up) (f_e fo lo up) in H. fold (f_s1 fo la lo up) in H.
  assert (Hle : Forall (fun d => d <= deg) degs) by (eapply Forall_impl; [|exact HFa]; cbn; tauto).
  assert (HE : evens degs) by (eapply Forall_impl; [|exact HFa]; cbn; tauto).
  apply bind_ok in H as (k1 & H1 & H). apply bind_ok in H as (k2 & H2 & H). apply bind_ok in H as (k3 & H3 & H).
  injection H as Hav E. subst k3.
  assert (Hav' : av = list_sum degs).
  { rewrite <- Hav. f_equal. rewrite <- (map_id degs) at 2. apply map_ext_in. intros a Ha. rewrite Forall_forall in Hle. specialize (Hle a Ha). lia. }
  clear Hav.
  cbn [cmK k_shift inplD d_shift] in H1, H3. apply lift_inv in H1 as (d1 & E1 & ->). injection E1 as <-.
  set (P := is_V1 (cm_dla s)) in *. set (Q := is_V2 (cm_dla s)) in *.
  apply (for_inv_ok (fun i k => cm_locked k = l /\
     is_H (cm_dla k) = b_shift bl (is_H (cm_dla s)) (f_neg fo (f_c fo lo up)) /\
     is_sw (cm_dla k) = (if Nat.even (i - 1) then is_sw (cm_dla s) else negb (is_sw (cm_dla s))) /\
     tb (inpl_op fo bl (is_H (cm_dla s)) la lo up) l degs P Q (i - 1)
       (if Nat.even (i - 1) then is_V1 (cm_dla k) else is_V2 (cm_dla k)) (if Nat.even (i - 1) then is_V2 (cm_dla k) else is_V1 (cm_dla k)))) in H2.
  - destruct H2 as (A1 & A2 & A3 & A4). replace (1 + deg - 1) with deg in * by lia.
    assert (Hd : Nat.even deg = true) by (rewrite Forall_forall in HFa; apply HFa in HI; tauto). rewrite Hd in *.
    apply lift_inv in H3 as (d3 & E3 & ->). injection E3 as <-. cbn [cm_dla cm_locked is_H is_V1 is_V2 is_sw].
    apply tb_end in A4; auto. destruct A4 as (B1 & B2 & B3).
    repeat match goal with |- _ /\ _ => split end; auto; congruence.
  - cbn. repeat match goal with |- _ /\ _ => split end; auto. apply tb_0.
  - intros i k k' Hi (A1 & A2 & A3 & A4) Hk. cbn [cmK k_hemm inplD d_apply] in Hk.
    apply lift_inv in Hk as (d & Ed & ->). rewrite A1 in *. unfold i_apply in Ed.
    apply bind_ok in Ed as (x & Hx & Ed). apply bind_ok in Ed as (y & Hy & Ed). apply bind_ok in Ed as (z & Hz & Ed). injection Ed as <-.
    destruct i as [|i]; [lia|]. replace (S (S i) - 1) with (S i) by lia. rewrite even_odd_S. replace (S i - 1) with i in * by lia.
    destruct (window_update _ _ _ _ _ _ _ _ Hx Hy Hz) as (W1 & W2 & W3).
    assert (ST := tb_step (inpl_op fo bl (is_H (cm_dla s)) la lo up) l degs P Q i _ _ (is_V1 (cm_dla k)) (is_V2 (cm_dla k)) z HA HE A4).
    assert (Hop : forall p q, inpl_op fo bl (is_H (cm_dla s)) la lo up (S i) p q =
        b_gemmN bl (is_H (cm_dla k)) (alpha_ fo (f_s1 fo la lo up) (f_e fo lo up) (S i)) (beta_ fo (f_s1 fo la lo up) (S i)) p q).
    { intros p q. unfold inpl_op, f_alpha, f_beta. rewrite A2. auto. }
    cbn [cm_dla cm_locked is_H is_V1 is_V2 is_sw].
    repeat match goal with |- _ /\ _ => split end; auto.
    + rewrite A3. destruct (Nat.even i); cbn [negb]; auto. apply negb_involutive.
    + destruct (Nat.even i); cbn [negb] in *; apply ST; auto; intros; rewrite Hop; now apply W2.
Qed.

Lemma inpl_filter_total l n deg degs la lo up s : filter_args l (nev + nex) n deg degs ->
  cm_locked s = l -> ilen (nev + nex) (cm_dla s) ->
  exists av s', filter_ fo K n deg degs la lo up s = Ok (av, s').
Proof.
  intros HF Hl HC. rewrite (filter_args_spec fo K l (nev + nex)) by auto. destruct HF as (-> & HN & _).
  destruct (filter_spec_safe fo K (nev + nex) _ _ (cm_safe fo qe td _ nev nex _ (inpl_dla_safe fo bl (nev + nex))) deg degs la lo up l s)
    as (av & k' & E & _); [lia| |eauto]. split; auto. split; [lia|auto].
Qed.
End Inpl.
