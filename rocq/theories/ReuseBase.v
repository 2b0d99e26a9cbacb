(** Blocks that agree on a range of columns; QR of two backends. *)
From Coq Require Import List Arith ZArith Bool Lia.
Require Import Verif.Base Verif.AlgModel Verif.AlgSpec Verif.AlgProofs1 Verif.AlgProofs2 Verif.AlgSim Verif.DlaSim Verif.DlaModel Verif.ColModel Verif.ColProofs1 Verif.ColProofs2 Verif.MgpuProofs1.
Import ListNotations.

(** same length, same columns lo .. hi-1 *)
Definition agree {A} (lo hi : nat) (a b : list A) : Prop := length a = length b /\ forall i, lo <= i < hi -> nth_error a i = nth_error b i.

Section Agree.
Context {A : Type}.
Implicit Types a b c x : list A.
Lemma agree_refl lo hi a : agree lo hi a a.
Proof. now split. Qed.
Lemma agree_sym lo hi a b : agree lo hi a b -> agree lo hi b a.
Proof. intros [L H]. split; auto. intros i Hi. symmetry. auto. Qed.
Lemma agree_sub lo hi lo' hi' a b : lo <= lo' -> hi' <= hi -> agree lo hi a b -> agree lo' hi' a b.
Proof. intros ? ? [L H]. split; auto. intros i Hi. apply H. lia. Qed.
Lemma nth_ext_some a b : length a = length b -> (forall i, i < length a -> nth_error a i = nth_error b i) -> a = b.
Proof.
  revert b. induction a as [|y a IH]; intros [|z b] L H; cbn in L; try lia; auto.
  pose proof (H 0 ltac:(cbn; lia)) as H0. cbn in H0. injection H0 as <-. f_equal. apply IH; [lia|].
  intros i Hi. apply (H (S i)). cbn. lia.
Qed.
Lemma agree_all hi a b : length a <= hi -> agree 0 hi a b -> a = b.
Proof. intros H [L E]. apply nth_ext_some; auto. intros i Hi. apply E. lia. Qed.
Lemma nth_firstn_lt k a i : i < k -> nth_error (firstn k a) i = nth_error a i.
Proof. revert a i. induction k; intros [|y a] [|i] H; cbn; auto; try lia. apply IHk. lia. Qed.
Lemma nth_skipn_add k a i : nth_error (skipn k a) i = nth_error a (k + i).
Proof. revert a. induction k; intros [|y a]; cbn; auto. now destruct i. Qed.
Lemma agree_get lo hi a b off k : lo <= off -> off + k <= hi -> agree lo hi a b -> get_range a off k = get_range b off k.
Proof.
  intros H1 H2 [L E]. destruct (Nat.le_gt_cases (off + k) (length a)) as [HL|HL]; [|rewrite !get_bad by lia; auto].
  rewrite !get_range_ok by lia. f_equal. apply nth_ext_some; [rewrite !firstn_length, !skipn_length; lia|].
  intros i. rewrite firstn_length. intros Hi. rewrite !nth_firstn_lt, !nth_skipn_add by lia. apply E. lia.
Qed.
Lemma put_nth a a' off x i : put_range a off x = Ok a' -> nth_error a' i = if (off <=? i) && (i <? off + length x) then nth_error x (i - off) else nth_error a i.
Proof.
  intros H. apply put_range_inv in H as [H ->].
  destruct (Nat.leb_spec off i); cbn [andb].
  - destruct (Nat.ltb_spec i (off + length x)).
    + rewrite nth_error_app2 by (rewrite firstn_length; lia). rewrite firstn_length, Nat.min_l by lia. now rewrite nth_error_app1 by lia.
    + rewrite nth_error_app2 by (rewrite firstn_length; lia). rewrite firstn_length, Nat.min_l by lia.
      rewrite nth_error_app2 by lia. rewrite nth_skipn_add. f_equal. lia.
  - rewrite nth_error_app1 by (rewrite firstn_length; lia). now apply nth_firstn_lt.
Qed.
Lemma agree_put lo hi a b off x : agree lo hi a b -> rel_res (agree lo hi) (put_range a off x) (put_range b off x).
Proof.
  intros [L E]. destruct (put_range a off x) as [a'| |] eqn:EA; destruct (put_range b off x) as [b'| |] eqn:EB;
    try (unfold put_range in EA, EB; rewrite <- L in EB; destruct (_ <=? _); discriminate); simpl; auto.
  split; [apply put_range_length in EA, EB; lia|]. intros i Hi. rewrite (put_nth _ _ _ _ _ EA), (put_nth _ _ _ _ _ EB).
  destruct (_ && _); auto.
Qed.
(** after writing the same columns to the same place the blocks agree there as well *)
Lemma agree_put_here lo hi a b off x : agree lo hi a b -> lo <= off <= hi ->
  rel_res (agree lo (Nat.max hi (off + length x))) (put_range a off x) (put_range b off x).
Proof.
  intros [L E] HO. destruct (put_range a off x) as [a'| |] eqn:EA; destruct (put_range b off x) as [b'| |] eqn:EB;
    try (unfold put_range in EA, EB; rewrite <- L in EB; destruct (_ <=? _); discriminate); simpl; auto.
  split; [apply put_range_length in EA, EB; lia|]. intros i Hi. rewrite (put_nth _ _ _ _ _ EA), (put_nth _ _ _ _ _ EB).
  destruct (Nat.leb_spec off i); cbn [andb]; [destruct (Nat.ltb_spec i (off + length x)); auto|]; apply E; lia.
Qed.
Lemma agree_put_win a b off x : length a = length b -> rel_res (agree off (off + length x)) (put_range a off x) (put_range b off x).
Proof.
  intros L. eapply rel_mono; [|apply (agree_put_here off off a b off x); [split; auto; lia|lia]].
  intros c d. apply agree_sub; lia.
Qed.
Lemma swap_case a i j : swap_ a i j = if (i <? length a) && (j <? length a) then Ok (swp a i j) else UB.
Proof.
  destruct (swap_ a i j) as [a'| |] eqn:E.
  - apply swap_inv in E as (P1 & P2 & ->). apply Nat.ltb_lt in P1, P2. now rewrite P1, P2.
  - destruct (Nat.ltb_spec i (length a)); auto. destruct (Nat.ltb_spec j (length a)); auto. cbn [andb]. exfalso. revert E. unfold swap_, rd.
    destruct (nth_error a i) eqn:E1; [|apply nth_error_None in E1; lia]. destruct (nth_error a j) eqn:E2; [|apply nth_error_None in E2; lia].
    cbn [bind]. unfold wr. destruct (Nat.ltb_spec i (length a)); [|lia]. cbn [bind]. rewrite upd_length. destruct (Nat.ltb_spec j (length a)); [|lia]. discriminate.
  - exfalso. revert E. unfold swap_, rd. destruct (nth_error a i); cbn [bind]; try discriminate. destruct (nth_error a j); cbn [bind]; try discriminate.
    unfold wr. destruct (i <? length a); cbn [bind]; try discriminate. rewrite upd_length. destruct (j <? length a); discriminate.
Qed.
Lemma agree_swap hi a b i j : i < hi -> j < hi -> agree 0 hi a b -> rel_res (agree 0 hi) (swap_ a i j) (swap_ b i j).
Proof.
  intros Hi Hj [L E].
  rewrite !swap_case, <- L. destruct (_ && _) eqn:EB; simpl; auto. apply andb_true_iff in EB as [P1 P2]. apply Nat.ltb_lt in P1, P2.
  split; [rewrite !swp_length; auto|].
  intros k Hk. rewrite !swp_nth by lia. apply E. unfold tr. repeat destruct (_ =? _); lia.
Qed.
Lemma swap_len a i j a' : swap_ a i j = Ok a' -> length a' = length a /\ i < length a /\ j < length a.
Proof. intros H. apply swap_inv in H as (P1 & P2 & ->). now rewrite swp_length. Qed.
Lemma put_rel_len a b off x : length a = length b -> rel_res (fun a' b' => length a' = length b' /\ length a' = length a) (put_range a off x) (put_range b off x).
Proof.
  intros L. unfold put_range. rewrite L. destruct (_ <=? _) eqn:E; simpl; auto. apply Nat.leb_le in E.
  rewrite !app_length, !firstn_length, !skipn_length. lia.
Qed.
Lemma get_rel_len a b off k : length a = length b -> rel_res (fun a' b' => length a' = length b' /\ length a' = k) (get_range a off k) (get_range b off k).
Proof.
  intros L. unfold get_range. rewrite L. destruct (_ <=? _) eqn:E; simpl; auto. apply Nat.leb_le in E.
  rewrite !firstn_length, !skipn_length. lia.
Qed.
Lemma get_len a off k x : get_range a off k = Ok x -> length x = k /\ off + k <= length a.
Proof. intros H. apply get_range_inv in H as [H ->]. rewrite firstn_length, skipn_length. lia. Qed.
End Agree.

Lemma zip_ext_r {A B C} (f : A -> B -> C) (l : list A) (m m' : list B) : length m = length m' -> (forall x y y', f x y = f x y') ->
  zip f l m = zip f l m'.
Proof.
  intros L H. unfold zip. revert m m' L. induction l as [|a l IH]; intros [|y m] [|y' m'] L; cbn in *; auto; try lia.
  f_equal; auto.
Qed.
Lemma zip_ext {A B C} (f g : A -> B -> C) (l : list A) (m : list B) : (forall x y, f x y = g x y) -> zip f l m = zip g l m.
Proof. intros H. unfold zip. apply map_ext. intros [x y]. apply H. Qed.

(** ** QR of the wrapper for two backends.  [P]: before, [Q0]: after a successful orthogonalisation, [Q]: after the locked
    columns were put back; a failed Cholesky attempt leaves [P]. *)
Section Qr.
Context {F D1 D2 : Type} (fo : fops F) (qe : qr_env F) (L1 : dla F D1) (L2 : dla F D2) (l : nat) (P Q0 Q : D1 -> D2 -> Prop).
Definition attempt (a : Z * D1) (b : Z * D2) : Prop :=
  fst a = fst b /\ (fst a = 0%Z -> Q0 (snd a) (snd b)) /\ (fst a <> 0%Z -> P (snd a) (snd b)).
Context (Hhh : forall s t, P s t -> rel_res Q0 (d_hhqr L1 l s) (d_hhqr L2 l t)).
Context (Hc1 : forall s t, P s t -> rel_res attempt (d_chol1 L1 l s) (d_chol1 L2 l t)).
Context (Hc2 : forall s t, P s t -> rel_res attempt (d_chol2 L1 l s) (d_chol2 L2 l t)).
Context (Hsc : forall s t, P s t -> rel_res attempt (d_schol2 L1 l s) (d_schol2 L2 l t)).
Context (Hlc : forall b s t, Q0 s t -> rel_res Q (d_lockcopy L1 l b s) (d_lockcopy L2 l b t)).
Lemma cm_qr_two f c s t : cm_locked s = l -> cm_locked t = l -> P (cm_dla s) (cm_dla t) ->
  rel_res (fun s' t' => cm_locked s' = l /\ cm_locked t' = l /\ Q (cm_dla s') (cm_dla t')) (cm_qr fo qe L1 f c s) (cm_qr fo qe L2 f c t).
Proof.
  intros E1 E2 H. unfold cm_qr. cbv zeta. rewrite E1, E2.
  eapply rel_bind with (R := vrel Q0).
  - destruct (_ =? 1)%Z; [eapply rel_bind; [apply Hhh; eauto|]; intros; split; auto|].
    eapply rel_bind with (R := attempt).
    + destruct (f_lt _ _ _); [now apply Hsc|]. destruct (f_lt _ _ _); [now apply Hc1|now apply Hc2].
    + intros [i d] [i' d'] (X & Y & Z). cbn [fst snd] in *. subst i'. destruct (Z.eqb_spec i 0).
      * split; cbn; auto.
      * eapply rel_bind; [apply Hhh; auto|]. intros; split; auto.
  - intros [h d] [h' d'] [X Y]. cbn [fst snd] in *. subst h'. unfold lift. eapply rel_bind; [apply Hlc; eauto|]. intros. cbn. auto.
Qed.
End Qr.

(** ** the wrapper's states of two backends, with the same number of locked columns *)
Section Two.
Context {F D1 D2 : Type} (fo : fops F) (td : tridiag F) (L1 : dla F D1) (L2 : dla F D2).
Definition kk (R : D1 -> D2 -> Prop) (l : nat) (s : cm (D := D1)) (t : cm (D := D2)) : Prop :=
  cm_locked s = l /\ cm_locked t = l /\ R (cm_dla s) (cm_dla t).
Lemma kk_lift R l s t x y : cm_locked s = l -> cm_locked t = l -> rel_res R x y -> rel_res (kk R l) (lift s x) (lift t y).
Proof. intros E1 E2 H. unfold lift. eapply rel_bind; eauto. intros. cbn. split; auto. Qed.
Lemma kk_lift_v {X} R l s t (x : res (X * D1)) (y : res (X * D2)) : cm_locked s = l -> cm_locked t = l -> rel_res (vrel R) x y ->
  rel_res (vrel (kk R l)) (lift_v s x) (lift_v t y).
Proof.
  intros E1 E2 H. unfold lift_v. eapply rel_bind; eauto. intros [? ?] [? ?] [E ?]. cbn in E. cbn. split; [exact E|]. split; [exact E1|]. split; [exact E2|]. assumption.
Qed.
Lemma lanczos1_two R Q m s t : rel_res (vrel Q) (d_mlanczos L1 m None (cm_dla s)) (d_mlanczos L2 m None (cm_dla t)) -> kk R 0 s t ->
  rel_res (vrel (kk Q 0)) (cm_lanczos1 fo td L1 m s) (cm_lanczos1 fo td L2 m t).
Proof.
  intros HM (E1 & E2 & H). unfold cm_lanczos1. rewrite E1, E2.
  eapply rel_bind; [exact HM|]. intros [[[d e] b] x] [[[d' e'] b'] x'] [E X]. cbn [fst snd] in *. injection E as <- <- <-.
  cbv zeta. repeat rb. cbn. split; auto. split; auto.
Qed.
Lemma lanczos2_two R Q m nv s t : rel_res (vrel Q) (d_mlanczos L1 m (Some nv) (cm_dla s)) (d_mlanczos L2 m (Some nv) (cm_dla t)) -> kk R 0 s t ->
  rel_res (vrel (kk Q 0)) (cm_lanczos2 fo td L1 m nv s) (cm_lanczos2 fo td L2 m nv t).
Proof.
  intros HM (E1 & E2 & H). unfold cm_lanczos2. rewrite E1, E2.
  eapply rel_bind; [exact HM|]. intros [[[d e] b] x] [[[d' e'] b'] x'] [E X]. cbn [fst snd] in *. injection E as <- <- <-.
  match goal with |- rel_res _ (bind ?a _) _ => destruct a as [[[th ta] rv]| |]; cbn [bind]; try exact I end.
  cbv zeta. repeat rb. cbn. split; auto. split; auto.
Qed.
End Two.
