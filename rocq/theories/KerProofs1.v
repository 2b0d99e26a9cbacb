(** Collectives, gemm and the distributed HEMM. *)
From Coq Require Import List Arith Bool ZArith Lia Ring_theory Ring Permutation.
Require Import Verif.Base Verif.DistModel Verif.DistSpec Verif.DistProofs Verif.FlatModel Verif.FlatSpec Verif.FlatProofs Verif.FlatProofs2.
Require Import Verif.RedistModel Verif.RedistSpec Verif.SpmdModel Verif.SpmdSpec Verif.SpmdProofs Verif.KerModel Verif.KerSpec.
Import ListNotations.

Lemma mpi_count_small dim : (Z.of_nat dim < 2 ^ 31)%Z -> mpi_count dim = Z.of_nat dim.
Proof. intros H. unfold mpi_count, cast_int. rewrite Z.mod_small by lia. lia. Qed.

Section Coll.
Context {D : Type} (zero : D) (add : D -> D -> D).
Hypothesis add0 : forall x, add zero x = x.

Lemma zip_add_length (xs ys : list D) : length xs = length ys -> length (zip_add add xs ys) = length xs.
Proof. revert ys; induction xs; intros [|y ys]; simpl; intros; try lia. f_equal. apply IHxs. lia. Qed.
Lemma zip_add_nth (xs ys : list D) k x y : nth_error xs k = Some x -> nth_error ys k = Some y -> nth_error (zip_add add xs ys) k = Some (add x y).
Proof.
  revert ys k; induction xs; intros [|b ys] [|k]; simpl; try discriminate.
  - intros H1 H2. inversion H1; inversion H2; subst. reflexivity.
  - apply IHxs.
Qed.

Lemma bsum_ext n f g : (forall i, i < n -> f i = g i) -> bsum zero add n f = bsum zero add n g.
Proof. induction n; intros H; simpl; auto. rewrite IHn, H by auto. reflexivity. Qed.

Lemma sum_from_spec L (x : nat -> list D) (v : nat -> nat -> D) : forall todo i acc,
  (forall j, i <= j < i + todo -> length (x j) = L /\ forall k, k < L -> nth_error (x j) k = Some (v j k)) ->
  length acc = L -> (forall k, k < L -> nth_error acc k = Some (bsum zero add i (fun j => v j k))) ->
  exists r, sum_from add acc (map (fun j => ASum (x j)) (seq i todo)) = Some (RNums r) /\ length r = L /\
    forall k, k < L -> nth_error r k = Some (bsum zero add (i + todo) (fun j => v j k)).
Proof.
  induction todo; intros i acc Hx HL Ha; simpl.
  - exists acc. rewrite Nat.add_0_r. auto.
  - destruct (Hx i ltac:(lia)) as [L1 V1]. rewrite L1, HL, Nat.eqb_refl.
    destruct (IHtodo (S i) (zip_add add acc (x i))) as (r & E & Lr & Vr).
    + intros j Hj. apply Hx. lia.
    + rewrite zip_add_length; lia.
    + intros k Hk. simpl. apply zip_add_nth; auto.
    + exists r. rewrite E. split; auto. split; auto. intros k Hk. rewrite Vr by auto. now rewrite Nat.add_succ_r.
Qed.

Lemma respond_sum n L (x : nat -> list D) (v : nat -> nat -> D) : 0 < n ->
  (forall j, j < n -> length (x j) = L /\ forall k, k < L -> nth_error (x j) k = Some (v j k)) ->
  exists r, respond add (map (fun j => ASum (x j)) (seq 0 n)) = Some (RNums r) /\ length r = L /\
    forall k, k < L -> nth_error r k = Some (bsum zero add n (fun j => v j k)).
Proof.
  intros Hn Hx. destruct n; [lia|]. simpl. destruct (Hx 0 ltac:(lia)) as [L0 V0].
  destruct (sum_from_spec L x v n 1 (x 0)) as (r & E & H); auto.
  - intros j Hj. apply Hx. lia.
  - intros k Hk. simpl. rewrite V0, add0 by auto. reflexivity.
  - exists r. split; auto.
Qed.

Lemma offers_map {A} c (xs : list nat) (act : nat -> action D) (k : nat -> reply D -> prog D A) :
  offers c (map (fun i => Call c (act i) (k i)) xs) = Some (map act xs).
Proof. induction xs; simpl; auto. rewrite IHxs. destruct c; reflexivity. Qed.

Lemma crun_all_reduce c n (buf : nat -> list D) off dim (v : nat -> nat -> D) : 0 < n -> (Z.of_nat dim < 2 ^ 31)%Z ->
  (forall i, i < n -> off + dim <= length (buf i)) -> (forall i k, i < n -> k < dim -> nth_error (buf i) (off + k) = Some (v i k)) ->
  crun add c n (fun i b => length b = length (buf i) /\ (forall k, k < dim -> nth_error b (off + k) = Some (bsum zero add n (fun i => v i k))) /\
    (forall k, k < off \/ off + dim <= k -> nth_error b k = nth_error (buf i) k)) (fun i => all_reduce c (buf i) off dim).
Proof.
  intros Hn Hd HL Hv.
  set (xs := fun i => firstn dim (skipn off (buf i))).
  assert (Hx : forall i, i < n -> get_range (buf i) off dim = Ok (xs i)) by (intros i Hi; apply get_range_ok; now apply HL).
  destruct (respond_sum n dim xs v Hn) as (r & E & Lr & Vr).
  { intros i Hi. destruct (nth_error_range _ _ _ _ 0 (Hx i Hi)) as [L1 _]. split; auto.
    intros k Hk. rewrite (proj2 (nth_error_range _ _ _ _ k (Hx i Hi)) Hk). now apply Hv. }
  apply (crun_ext add c n _ (fun i => Call c (ASum (xs i)) (fun r => match r with RNums ys => local (put_range (buf i) off ys) | RFlag _ => Bad end))).
  { intros i Hi. unfold all_reduce. rewrite mpi_count_small by auto. replace (Z.of_nat dim <? 0)%Z with false by (symmetry; apply Z.ltb_ge; lia).
    rewrite Nat2Z.id. now rewrite Hx. }
  eapply crun_call; [apply offers_map|exact E|]. cbn [resume]. apply crun_done. intros i Hi.
  specialize (HL i Hi). rewrite put_range_ok by lia. cbn [local]. eexists. split; [reflexivity|].
  assert (Ep : put_range (buf i) off r = Ok (firstn off (buf i) ++ r ++ skipn (off + length r) (buf i))) by (apply put_range_ok; lia).
  set (b' := firstn off (buf i) ++ r ++ skipn (off + length r) (buf i)) in *.
  split; [eapply put_range_length; eauto|]. split.
  - intros k Hk. rewrite (nth_error_put _ _ _ _ (off + k) Ep). destruct (off <=? off + k) eqn:E1; [|apply Nat.leb_gt in E1; lia].
    destruct (off + k <? off + length r) eqn:E2; [|apply Nat.ltb_ge in E2; lia]. cbn [andb]. replace (off + k - off) with k by lia. auto.
  - intros k Hk. rewrite (nth_error_put _ _ _ _ k Ep). destruct (off <=? k) eqn:E1; auto. destruct (k <? off + length r) eqn:E2; auto. exfalso.
    apply Nat.leb_le in E1. apply Nat.ltb_lt in E2. lia.
Qed.
End Coll.

Section Gemm.
Context {D : Type} (o : sops D).
Notation bsum := (bsum (s0 o) (sadd o)).

Lemma dotp_spec k (f g : nat -> res D) (x y : nat -> D) : (forall t, t < k -> f t = Ok (x t)) -> (forall t, t < k -> g t = Ok (y t)) ->
  dotp o k f g = Ok (bsum k (fun t => smul o (x t) (y t))).
Proof.
  intros Hf Hg. unfold dotp.
  destruct (for_run (fun i acc => acc = bsum i (fun t => smul o (x t) (y t))) (fun acc => acc = bsum k (fun t => smul o (x t) (y t)))
    (fun t acc => let! x := f t in let! y := g t in Ok (sadd o acc (smul o x y))) k 0 (s0 o)) as (s & E & ->); auto.
  intros i s Hi ->. rewrite Hf, Hg by lia. cbn [bind]. eexists. split; [reflexivity|]. reflexivity.
Qed.

Lemma gemm_spec (tr : bool) m n k alpha (A : list D) aoff lda (B : list D) boff ldb beta (C : list D) oc ldc (av bv : nat -> nat -> D) :
  m <= ldc -> (forall r c, r < m -> c < n -> r + (oc + c) * ldc < length C) ->
  (forall r t, r < m -> t < k -> (if tr then nth_error A (aoff + t + r * lda) = Some (av r t) else nth_error A (aoff + r + t * lda) = Some (av r t))) ->
  (forall t c, t < k -> c < n -> nth_error B (boff + t + c * ldb) = Some (bv t c)) ->
  exists C', gemm o tr m n k alpha A aoff lda B boff ldb beta C (oc * ldc) ldc = Ok C' /\ (length C' = length C /\
    (forall r c y, r < m -> c < n -> nth_error C (r + (oc + c) * ldc) = Some y ->
       nth_error C' (r + (oc + c) * ldc) = Some (sadd o (smul o alpha (bsum k (fun t => smul o (if tr then scj o (av r t) else av r t) (bv t c)))) (smul o beta y))) /\
    (forall j, ~ (j mod ldc < m /\ oc <= j / ldc < oc + n) -> nth_error C' j = nth_error C j)).
Proof.
  intros Hm HC HA HB.
  set (val := fun r c y => sadd o (smul o alpha (bsum k (fun t => smul o (if tr then scj o (av r t) else av r t) (bv t c)))) (smul o beta y)).
  set (tgt := fun j => option_map (val (j mod ldc) (j / ldc - oc)) (nth_error C j)).
  unfold gemm.
  apply (for_run (fun c C' => Verif.FlatProofs.prog ldc C tgt (fun x y => x < m /\ oc <= y < oc + c) C')).
  - split; auto. intros j. split; [lia|auto].
  - intros c C1 Hc P1.
    apply (for_run (fun r C' => Verif.FlatProofs.prog ldc C tgt (fun x y => (x < m /\ oc <= y < oc + c) \/ (x < r /\ y = oc + c)) C')).
    + eapply prog_ext; [|exact P1]. intros; cbv beta. intuition lia.
    + intros r C2 Hr P2.
      assert (Ed : dotp o k (fun t => if tr then let! x := rd A (aoff + t + r * lda) in Ok (scj o x) else rd A (aoff + r + t * lda))
                    (fun t => rd B (boff + t + c * ldb)) = Ok (bsum k (fun t => smul o (if tr then scj o (av r t) else av r t) (bv t c)))).
      { apply dotp_spec.
        - intros t Ht. specialize (HA r t ltac:(lia) Ht). destruct tr; apply rd_ok in HA; rewrite HA; reflexivity.
        - intros t Ht. apply rd_ok. apply HB; lia. }
      rewrite Ed. cbn [bind]. replace (oc * ldc + r + c * ldc) with (r + (oc + c) * ldc) by lia.
      assert (Hb : r + (oc + c) * ldc < length C) by (apply HC; lia).
      assert (E2 : nth_error C2 (r + (oc + c) * ldc) = nth_error C (r + (oc + c) * ldc)).
      { destruct P2 as [_ P2]. apply P2. rewrite pos_mod, pos_div by lia. lia. }
      destruct (nth_error C (r + (oc + c) * ldc)) as [y|] eqn:Ey; [|apply nth_error_None in Ey; lia].
      apply rd_ok in E2. rewrite E2. cbn [bind]. assert (L2 : length C2 = length C) by apply P2.
      rewrite wr_ok by lia. eexists. split; [reflexivity|].
      assert (Et : tgt (r + (oc + c) * ldc) = Some (val r c y)); [|
        eapply prog_ext; [|exact (prog_upd ldc C tgt _ C2 r (oc + c) _ ltac:(lia) Hb Et P2)]; intros; cbv beta; intuition lia].
      unfold tgt. rewrite pos_mod, pos_div, Ey by lia. replace (oc + c - oc) with c by lia. reflexivity.
    + intros C2 P2. eapply prog_ext; [|exact P2]. intros; cbv beta. intuition lia.
  - intros C1 [L1 P1]. split; auto. split.
    + intros r c y Hr Hc Hy. destruct (P1 (r + (oc + c) * ldc)) as [P _]. rewrite pos_mod, pos_div in P by lia.
      rewrite P by lia. unfold tgt. rewrite pos_mod, pos_div, Hy by lia. replace (oc + c - oc) with c by lia. reflexivity.
    + intros j Hj. apply P1. exact Hj.
Qed.
End Gemm.

(** ** Sums over a distribution *)
Section Sums.
Context {D : Type} (o : sops D) (RT : is_ring o).
Let rsub (x y : D) : D := sadd o x (sopp o y).
Let RT' : ring_theory (s0 o) (s1 o) (sadd o) (smul o) rsub (sopp o) eq := RT.
Add Ring Rr : RT'.
Notation "0" := (s0 o). Notation "x + y" := (sadd o x y). Notation "x * y" := (smul o x y).
Notation bsum := (bsum (s0 o) (sadd o)).
Definition lsum (l : list D) : D := fold_right (sadd o) (s0 o) l.

Lemma bsum_add n f g : bsum n (fun i => f i + g i) = bsum n f + bsum n g.
Proof. induction n; simpl; [ring|rewrite IHn; ring]. Qed.
Lemma bsum_mul n a f : bsum n (fun i => a * f i) = a * bsum n f.
Proof. induction n; simpl; [ring|rewrite IHn; ring]. Qed.
Lemma bsum_zero n : bsum n (fun _ => 0) = 0.
Proof. induction n; simpl; [ring|rewrite IHn; ring]. Qed.
Lemma bsum_first n x : (0 < n)%nat -> bsum n (fun i => if Nat.eqb i 0%nat then x else 0) = x.
Proof.
  intros H. destruct n; [lia|]. clear H. induction n; [simpl; ring|]. 
  change (bsum (S (S n)) (fun i => if Nat.eqb i 0%nat then x else 0)) with (bsum (S n) (fun i => if Nat.eqb i 0%nat then x else 0) + 0). rewrite IHn. ring.
Qed.
Lemma lsum_app a b : lsum (a ++ b) = lsum a + lsum b.
Proof. induction a; simpl; [ring|rewrite IHa; ring]. Qed.
Lemma bsum_lsum n f : bsum n f = lsum (map f (seq 0 n)).
Proof. induction n; [reflexivity|]. rewrite seq_S, map_app, lsum_app. simpl. rewrite IHn. ring. Qed.
Lemma lsum_perm a b : Permutation a b -> lsum a = lsum b.
Proof. induction 1; simpl; [auto|congruence|ring|congruence]. Qed.
Lemma lsum_nth (l : list nat) (f : nat -> D) (g : nat -> D) : (forall t x, nth_error l t = Some x -> g t = f x) ->
  bsum (length l) g = lsum (map f l).
Proof.
  intros H. rewrite bsum_lsum. f_equal. revert g H. induction l; intros g H; [reflexivity|].
  cbn [length seq map]. f_equal; [now apply (H 0%nat)|]. rewrite <- List.seq_shift, map_map. apply IHl. intros t x Hx. now apply (H (S t)).
Qed.
Lemma split_sum N d rows f : splits N d rows -> bsum d (fun i => lsum (map f (rows i))) = bsum N f.
Proof.
  intros H. rewrite (bsum_lsum N). rewrite <- (lsum_perm _ _ (Permutation_map f H)). clear H.
  induction d; [reflexivity|]. rewrite seq_S, flat_map_app, map_app, lsum_app. simpl. rewrite IHd, app_nil_r. reflexivity.
Qed.
End Sums.
