(** Exact Cholesky factorisation and triangular solver over the rationals: the assumptions of the Cholesky QR theorems
    can be met. *)
From Coq Require Import List Arith Bool ZArith Lia Ring_theory Ring QArith Qcanon.
Require Import Verif.Base Verif.SpmdSpec Verif.KerModel Verif.KerSpec Verif.KerProofs1 Verif.KerAlg.
Import ListNotations.
Close Scope Q_scope.
Close Scope Qc_scope.

Definition rat : sops Qc := {| s0 := 0%Qc; s1 := 1%Qc; sadd := Qcplus; smul := Qcmult; sopp := Qcopp; scj := fun x => x |}.
Lemma rat_ring : is_ring rat.
Proof. unfold is_ring. cbn. constructor; intros; try ring. Qed.
Lemma rat_conj : is_conj rat.
Proof. repeat split. Qed.
Definition qpos (x : Qc) : Prop := (0 < x)%Qc.
Lemma qpos_nz x : qpos x -> x <> 0%Qc.
Proof. intros H E. subst. unfold qpos in H. exact (Qclt_not_eq _ _ H eq_refl). Qed.
Lemma qpos_add x y : qpos x -> qpos y -> qpos (x + y)%Qc.
Proof.
  unfold qpos, Qclt. intros Hx Hy. change (this (x + y)%Qc) with (Qred (this x + this y)). rewrite Qred_correct.
  change (0 < this x + this y)%Q. setoid_replace (0)%Q with (0 + 0)%Q by reflexivity. apply Qplus_lt_le_compat; auto. now apply Qlt_le_weak.
Qed.
Lemma rat_positive : positive rat qpos.
Proof.
  split; [reflexivity|]. split.
  - intros x Hx. exists (/ x)%Qc. cbn. apply Qcmult_inv_r. now apply qpos_nz.
  - intros x y Hx Hy E. cbn in E.
    assert (F : ((x - y) * (x + y) = 0)%Qc) by (transitivity (x * x - y * y)%Qc; [ring|]; rewrite E; ring).
    apply Qcmult_integral in F as [F|F].
    + transitivity (x - y + y)%Qc; [ring|]. rewrite F. ring.
    + exfalso. apply (qpos_nz (x + y)%Qc); auto. now apply qpos_add.
Qed.

(** ** Reading the packed upper triangle *)
Fixpoint colpos (c : nat) : nat := match c with O => 0 | S c' => colpos c' + S c' end.
Definition dec {D} (d : D) (l : list D) (r c : nat) : D := nth (colpos c + r) l d.
Lemma upper_rows c n : c < n -> filter (fun r => upper r c) (seq 0 n) = seq 0 (S c).
Proof.
  intros H. induction n; [lia|]. rewrite seq_S, filter_app. cbn [filter]. unfold upper at 2. destruct (Nat.eq_dec c n) as [->|Hne].
  - rewrite seq_S. simpl Nat.add. rewrite Nat.leb_refl. f_equal.
    assert (G : forall l, (forall x, In x l -> x <= n) -> filter (fun r => upper r n) l = l).
    { induction l; simpl; intros Hl; auto. unfold upper at 1. rewrite (proj2 (Nat.leb_le a n)) by (apply Hl; auto). f_equal. apply IHl. auto. }
    apply G. intros x Hx. apply in_seq in Hx. lia.
  - simpl Nat.add. destruct (Nat.leb_spec n c); [lia|]. rewrite app_nil_r. apply IHn. lia.
Qed.
Lemma entries_dec {D} (d : D) n U r c : r <= c -> c < n -> dec d (entries upper n U) r c = U r c.
Proof.
  intros Hr Hc. unfold dec, entries. set (f := fun c => map (fun r => U r c) (filter (fun r => upper r c) (seq 0 n))).
  assert (F : forall c, c < n -> f c = map (fun r => U r c) (seq 0 (S c))) by (intros c' Hc'; unfold f; now rewrite upper_rows).
  assert (L : forall k, k <= n -> length (flat_map f (seq 0 k)) = colpos k).
  { induction k; intros Hk; auto. rewrite seq_S, flat_map_app, app_length, IHk by lia. simpl flat_map. rewrite app_nil_r, F, map_length, seq_length by lia. reflexivity. }
  clearbody f. replace n with (c + S (n - S c)) by lia. rewrite seq_app, flat_map_app. rewrite app_nth2 by (rewrite L; lia). rewrite L by lia.
  replace (colpos c + r - colpos c) with r by lia. change (0 + c) with c. cbn [seq flat_map]. rewrite F by auto. rewrite app_nth1 by (rewrite map_length, seq_length; lia).
  rewrite nth_indep with (d' := U (nth r (seq 0 (S c)) 0) c) by (rewrite map_length, seq_length; lia).
  transitivity (U (nth r (seq 0 (S c)) 0) c); [|now rewrite seq_nth by lia].
  apply nth_error_nth. rewrite nth_error_map, nth_error_nth' with (d := 0) by (rewrite seq_length; lia). reflexivity.
Qed.

(** ** Forward substitution *)
Fixpoint ylist (U : nat -> nat -> Qc) (x : nat -> Qc) (c : nat) : list Qc :=
  match c with
  | O => []
  | S c' => let l := ylist U x c' in l ++ [((x c' - bsum 0%Qc Qcplus c' (fun k => nth k l 0%Qc * U k c')%Qc) / U c' c')%Qc]
  end.
Definition rat_solver (n : nat) (l xs : list Qc) (k : nat) : Qc := nth k (ylist (dec 0%Qc l) (fun c => nth c xs 0%Qc) n) 0%Qc.
Lemma ylist_length U x c : length (ylist U x c) = c.
Proof. induction c; simpl; auto. rewrite app_length, IHc. simpl. lia. Qed.
Lemma ylist_nth U x n k : k < n -> nth k (ylist U x n) 0%Qc = nth k (ylist U x (S k)) 0%Qc.
Proof.
  intros H. induction n; [lia|]. destruct (Nat.eq_dec k n) as [->|Hne]; auto. rewrite <- IHn by lia. simpl. rewrite app_nth1; auto. rewrite ylist_length. lia.
Qed.
Lemma rat_exact_solver : exact_solver rat rat_solver.
Proof.
  intros n U x Hd c Hc. unfold rat_solver. set (U' := dec 0%Qc (entries upper n U)). set (xs := fun c => nth c (map x (seq 0 n)) 0%Qc).
  set (Y := fun k => nth k (ylist U' xs n) 0%Qc).
  assert (EU : forall r c, r <= c -> c < n -> U' r c = U r c) by (intros; now apply entries_dec).
  assert (Ex : forall c, c < n -> xs c = x c).
  { intros c' Hc'. unfold xs. rewrite nth_indep with (d' := x 0) by (rewrite map_length, seq_length; lia). rewrite (map_nth x). now rewrite seq_nth. }
  assert (EY : Y c = ((x c - bsum 0%Qc Qcplus c (fun k => Y k * U k c)%Qc) / U c c)%Qc).
  { unfold Y at 1. rewrite ylist_nth by auto. simpl. rewrite app_nth2 by (rewrite ylist_length; lia). rewrite ylist_length, Nat.sub_diag. cbn [nth].
    rewrite Ex, EU by lia.
    replace (bsum 0%Qc Qcplus c (fun k => (nth k (ylist U' xs c) 0 * U' k c)%Qc)) with (bsum 0%Qc Qcplus c (fun k => (Y k * U k c)%Qc)); [reflexivity|].
    apply bsum_ext. intros k Hk. rewrite EU by lia. unfold Y.
    rewrite (ylist_nth U' xs c k Hk), (ylist_nth U' xs n k) by lia. reflexivity. }
  pose proof (up_row rat rat_ring n (fun _ k => Y k) U 0 c Hc) as R. unfold mprod in R. cbn [rat sadd smul s0] in *. change (bsum 0%Qc Qcplus n (fun h => (Y h * up rat U h c)%Qc) = x c). rewrite R.
  destruct (Hd c Hc) as [y Hy]. cbn in Hy. rewrite EY. set (S := bsum 0%Qc Qcplus c (fun k => (Y k * U k c)%Qc)).
  assert (Hnz : U c c <> 0%Qc) by (intros E; rewrite E in Hy; rewrite Qcmult_0_l in Hy; discriminate).
  field. exact Hnz.
Qed.

(** ** Cholesky with rational square roots; the result is checked before info = 0 is reported *)
Definition qsqrt (x : Qc) : Qc := Q2Qc (Z.sqrt (Qnum x) # Z.to_pos (Z.sqrt (Zpos (Qden x)))).
Fixpoint chol_col (M : nat -> Qc) (done : list (list Qc)) (diag : nat -> Qc) (r : nat) : list Qc :=
  match r with
  | O => []
  | S r' => let l := chol_col M done diag r' in
            l ++ [((M r' - bsum 0%Qc Qcplus r' (fun t => nth t (nth r' done []) 0%Qc * nth t l 0%Qc)%Qc) / diag r')%Qc]
  end.
Fixpoint chol_cols (M : nat -> nat -> Qc) (c : nat) : list (list Qc) :=
  match c with
  | O => []
  | S c' => let done := chol_cols M c' in
            let l := chol_col (fun r => M r c') done (fun r => nth r (nth r done []) 0%Qc) c' in
            done ++ [l ++ [qsqrt (M c' c' - bsum 0%Qc Qcplus c' (fun t => nth t l 0%Qc * nth t l 0%Qc)%Qc)%Qc]]
  end.
Definition qeqb (x y : Qc) : bool := if Qc_eq_dec x y then true else false.
Definition qltb (x : Qc) : bool := match Qccompare 0%Qc x with Lt => true | _ => false end.
Fixpoint leqb (a b : list Qc) : bool := match a, b with [], [] => true | x :: a', y :: b' => qeqb x y && leqb a' b' | _, _ => false end.
Definition rat_chol (n : nat) (l : list Qc) : Z * (nat -> nat -> Qc) :=
  let cols := chol_cols (dec 0%Qc l) n in
  let U := if leqb l (entries upper n (delta rat)) then delta rat else fun r c => nth r (nth c cols []) 0%Qc in
  let sym := fun r c => if r <=? c then dec 0%Qc l r c else dec 0%Qc l c r in
  let ok := forallb (fun r => qltb (U r r) && forallb (fun c => qeqb (mprod rat n (ctrans rat (up rat U)) (up rat U) r c) (sym r c)) (seq 0 n)) (seq 0 n) in
  (if ok then 0%Z else 1%Z, U).
Lemma qeqb_eq x y : qeqb x y = true <-> x = y.
Proof. unfold qeqb. destruct (Qc_eq_dec x y); split; congruence. Qed.
Lemma qltb_lt x : qltb x = true <-> qpos x.
Proof. unfold qltb, qpos. rewrite Qclt_alt. destruct (0 ?= x)%Qc; split; congruence. Qed.
Lemma leqb_refl l : leqb l l = true.
Proof. induction l; simpl; auto. rewrite IHl, andb_true_r. now apply qeqb_eq. Qed.
Lemma rat_exact_cholesky : exact_cholesky rat qpos rat_chol.
Proof.
  split.
  - intros n M HM Hi U. unfold rat_chol in Hi. cbn [fst] in Hi. fold (rat_chol n (entries upper n M)) in *.
    assert (F : forallb (fun r => qltb (U r r) && forallb (fun c => qeqb (mprod rat n (ctrans rat (up rat U)) (up rat U) r c)
       (if r <=? c then dec 0%Qc (entries upper n M) r c else dec 0%Qc (entries upper n M) c r)) (seq 0 n)) (seq 0 n) = true).
    { unfold U, rat_chol. cbn [snd]. destruct (forallb _ _) eqn:E in Hi; [exact E|discriminate]. }
    rewrite forallb_forall in F. split.
    + intros r Hr. specialize (F r ltac:(apply in_seq; lia)). apply andb_prop in F as [F _]. now apply qltb_lt.
    + intros r c Hr Hc. specialize (F r ltac:(apply in_seq; lia)). apply andb_prop in F as [_ F]. rewrite forallb_forall in F.
      specialize (F c ltac:(apply in_seq; lia)). apply qeqb_eq in F. rewrite F. destruct (Nat.leb_spec r c).
      * apply entries_dec; lia.
      * rewrite entries_dec by lia. symmetry. now apply HM.
  - intros n. unfold rat_chol. cbn [fst]. rewrite leqb_refl.
    replace (forallb _ _) with true; auto. symmetry. apply forallb_forall. intros r Hr. apply in_seq in Hr. apply andb_true_intro. split.
    + apply qltb_lt. unfold delta. rewrite Nat.eqb_refl. reflexivity.
    + apply forallb_forall. intros c Hc. apply in_seq in Hc. apply qeqb_eq.
      assert (E : forall a b, up rat (delta rat) a b = delta rat a b).
      { intros a b. unfold up, upper, delta. destruct (Nat.leb_spec a b); auto. destruct (Nat.eqb_spec a b); [lia|reflexivity]. }
      transitivity (delta rat r c).
      * rewrite (mprod_ext rat n _ (delta rat) _ (delta rat)).
        -- now apply (delta_l rat rat_ring).
        -- intros k Hk. unfold ctrans. rewrite E. cbn. unfold delta. now rewrite Nat.eqb_sym.
        -- intros k Hk. apply E.
      * destruct (Nat.leb_spec r c); [symmetry; apply entries_dec; lia|]. rewrite entries_dec by lia. unfold delta. now rewrite Nat.eqb_sym.
Qed.
