(** Linear algebra behind Cholesky QR and Rayleigh-Ritz: global matrices over a commutative ring with conjugation. *)
From Coq Require Import List Arith Bool ZArith Lia Ring_theory Ring.
Require Import Verif.SpmdSpec Verif.KerModel Verif.KerSpec Verif.KerProofs1.
Import ListNotations.

Section Alg.
Context {D : Type} (o : sops D) (RT : is_ring o) (CJ : is_conj o).
Let rsub (x y : D) : D := sadd o x (sopp o y).
Let RT' : ring_theory (s0 o) (s1 o) (sadd o) (smul o) rsub (sopp o) eq := RT.
Add Ring Rr : RT'.
Notation bsum := (bsum (s0 o) (sadd o)).
Notation "0" := (s0 o). Notation "1" := (s1 o).
Infix "+" := (sadd o). Infix "*" := (smul o).
Notation cj := (scj o).
Notation mat := (nat -> nat -> D).

Lemma cj_add x y : cj (x + y) = cj x + cj y. Proof. apply CJ. Qed.
Lemma cj_mul x y : cj (x * y) = cj x * cj y. Proof. apply CJ. Qed.
Lemma cj_cj x : cj (cj x) = x. Proof. apply CJ. Qed.
Lemma cj_0 : cj 0 = 0.
Proof.
  assert (E : cj 0 + cj 0 = cj 0) by (rewrite <- cj_add; f_equal; ring).
  assert (F : cj 0 + cj 0 + sopp o (cj 0) = cj 0 + sopp o (cj 0)) by now rewrite E.
  transitivity (cj 0 + cj 0 + sopp o (cj 0)); [ring|]. rewrite F. ring.
Qed.
Lemma cj_1 : cj 1 = 1.
Proof. transitivity (cj (cj 1 * 1)); [rewrite cj_mul, cj_cj; ring|]. replace (cj 1 * 1) with (cj 1) by ring. apply cj_cj. Qed.
Lemma cj_bsum n f : cj (bsum n f) = bsum n (fun k => cj (f k)).
Proof. induction n; simpl; [apply cj_0|]. now rewrite cj_add, IHn. Qed.
Lemma bsum_0 n : bsum n (fun _ => 0) = 0.
Proof. induction n; simpl; auto. rewrite IHn. ring. Qed.
Lemma bsum_mulr n a f : bsum n (fun i => f i * a) = bsum n f * a.
Proof. induction n; simpl; [ring|]. rewrite IHn. ring. Qed.
Lemma bsum_swap n m f : bsum n (fun i => bsum m (fun j => f i j)) = bsum m (fun j => bsum n (fun i => f i j)).
Proof. induction n; simpl; [now rewrite bsum_0|]. rewrite IHn, <- (bsum_add o RT). reflexivity. Qed.
Lemma bsum_at n k f : (k < n)%nat -> (forall i, (i < n)%nat -> i <> k -> f i = 0) -> bsum n f = f k.
Proof.
  induction n; intros Hk H; [lia|]. simpl. destruct (Nat.eq_dec k n) as [->|Hne].
  - rewrite (bsum_ext _ _ n _ (fun _ => 0)), bsum_0; [ring|]. intros i Hi. apply H; lia.
  - rewrite IHn; [|lia|intros; apply H; lia]. rewrite (H n); [ring|lia|auto].
Qed.
Lemma delta_l n (X : mat) r c : (r < n)%nat -> mprod o n (delta o) X r c = X r c.
Proof.
  intros Hr. unfold mprod. rewrite (bsum_at n r); auto.
  - unfold delta. rewrite Nat.eqb_refl. ring.
  - intros i Hi Hne. unfold delta. destruct (Nat.eqb_spec r i); [congruence|ring].
Qed.
Lemma delta_r n (X : mat) r c : (c < n)%nat -> mprod o n X (delta o) r c = X r c.
Proof.
  intros Hr. unfold mprod. rewrite (bsum_at n c); auto.
  - unfold delta. rewrite Nat.eqb_refl. ring.
  - intros i Hi Hne. unfold delta. destruct (Nat.eqb_spec i c); [congruence|ring].
Qed.
Lemma cj_delta r c : cj (delta o r c) = delta o c r.
Proof. unfold delta. rewrite Nat.eqb_sym. destruct (c =? r); [apply cj_1|apply cj_0]. Qed.
Lemma mprod_assoc n m (A B C : mat) r c : mprod o m (mprod o n A B) C r c = mprod o n A (mprod o m B C) r c.
Proof.
  unfold mprod. erewrite bsum_ext; [|intros; cbv beta; symmetry; apply bsum_mulr]. rewrite bsum_swap. apply bsum_ext. intros i Hi.
  rewrite <- (bsum_mul o RT). apply bsum_ext. intros; ring.
Qed.
Lemma mprod_ext n (A A' B B' : mat) r c : (forall k, (k < n)%nat -> A r k = A' r k) -> (forall k, (k < n)%nat -> B k c = B' k c) -> mprod o n A B r c = mprod o n A' B' r c.
Proof. intros H1 H2. apply bsum_ext. intros k Hk. now rewrite H1, H2. Qed.
Lemma ctrans_mprod n (A B : mat) r c : ctrans o (mprod o n A B) r c = mprod o n (ctrans o B) (ctrans o A) r c.
Proof. unfold ctrans, mprod. rewrite cj_bsum. apply bsum_ext. intros. rewrite cj_mul. ring. Qed.
Lemma gram_herm N n (V : mat) : hermitian o n (gram o N V).
Proof. intros r c Hr Hc. unfold gram, mprod, ctrans. rewrite cj_bsum. apply bsum_ext. intros. rewrite cj_mul, cj_cj. ring. Qed.

(** ** Upper triangular matrices *)
Lemma up_row n (X U : mat) r c : (c < n)%nat -> mprod o n X (up o U) r c = bsum c (fun k => X r k * U k c) + X r c * U c c.
Proof.
  intros Hc. unfold mprod. assert (G : forall m, (c < m)%nat -> bsum m (fun k => X r k * up o U k c) = bsum c (fun k => X r k * U k c) + X r c * U c c).
  { induction m; intros Hm; [lia|]. simpl. destruct (Nat.eq_dec c m) as [<-|Hne].
    - f_equal; [apply bsum_ext; intros k Hk|]; unfold up, upper; [destruct (Nat.leb_spec k c); [reflexivity|lia]|now rewrite Nat.leb_refl].
    - rewrite IHm by lia. unfold up at 1, upper. destruct (Nat.leb_spec m c); [lia|]. ring. }
  now apply G.
Qed.
(** cancellation on the right *)
Lemma up_cancel n (X Y U : mat) r : (forall k, (k < n)%nat -> exists y, U k k * y = 1) ->
  (forall c, (c < n)%nat -> mprod o n X (up o U) r c = mprod o n Y (up o U) r c) -> forall c, (c < n)%nat -> X r c = Y r c.
Proof.
  intros Hd H c. induction c as [c IH] using lt_wf_ind. intros Hc. specialize (H c Hc). rewrite !up_row in H by auto.
  rewrite (bsum_ext _ _ c (fun k => X r k * U k c) (fun k => Y r k * U k c)) in H by (intros k Hk; rewrite IH by lia; reflexivity).
  destruct (Hd c Hc) as [y Hy]. set (S := bsum c (fun k => Y r k * U k c)) in H.
  assert (E : X r c * U c c = Y r c * U c c).
  { transitivity (S + X r c * U c c + sopp o S); [ring|]. rewrite H. ring. }
  transitivity (X r c * (U c c * y)); [rewrite Hy; ring|]. transitivity (X r c * U c c * y); [ring|]. rewrite E. transitivity (Y r c * (U c c * y)); [ring|]. rewrite Hy. ring.
Qed.
(** cancellation of U^* X U *)
Lemma up_cancel2 n (X Y U : mat) : (forall k, (k < n)%nat -> exists y, U k k * y = 1) ->
  (forall r c, (r < n)%nat -> (c < n)%nat -> mprod o n (ctrans o (up o U)) (mprod o n X (up o U)) r c = mprod o n (ctrans o (up o U)) (mprod o n Y (up o U)) r c) ->
  forall r c, (r < n)%nat -> (c < n)%nat -> X r c = Y r c.
Proof.
  intros Hd H.
  assert (L : forall r c, (r < n)%nat -> (c < n)%nat -> mprod o n X (up o U) r c = mprod o n Y (up o U) r c).
  { intros r c Hr Hc. rewrite <- (cj_cj (mprod o n X (up o U) r c)), <- (cj_cj (mprod o n Y (up o U) r c)). f_equal.
    apply (up_cancel n (ctrans o (mprod o n X (up o U))) (ctrans o (mprod o n Y (up o U))) U c Hd); auto.
    intros c' Hc'. specialize (H c' c Hc' Hc). apply (f_equal cj) in H. unfold mprod at 1 in H. unfold mprod at 2 in H. rewrite !cj_bsum in H.
    unfold mprod at 1. unfold mprod at 2.
    etransitivity; [|etransitivity; [exact H|]]; apply bsum_ext; intros k Hk; rewrite cj_mul; unfold ctrans; rewrite cj_cj; ring. }
  intros r c Hr Hc. apply (up_cancel n X Y U r Hd); auto.
Qed.

(** ** One round of Cholesky QR *)
Variables (pos : D -> Prop) (HP : positive o pos).
Variables (po : nat -> list D -> Z * mat) (tri : nat -> list D -> list D -> nat -> D).
Hypotheses (HC : exact_cholesky o pos po) (HT : exact_solver o tri).

Lemma pos_inv (U : mat) n : (forall r, (r < n)%nat -> pos (U r r)) -> forall r, (r < n)%nat -> exists y, U r r * y = 1.
Proof. intros H r Hr. apply HP. auto. Qed.

(** V = Q U *)
Lemma solve_prod n (U V : mat) g c : (forall r, (r < n)%nat -> exists y, U r r * y = 1) -> (c < n)%nat ->
  mprod o n (row_solve n tri U V) (up o U) g c = V g c.
Proof. intros Hd Hc. unfold mprod, row_solve. apply (HT n U (V g)); auto. Qed.
(** Q = V U^-1 *)
Lemma up_inverse n (U : mat) : (forall r, (r < n)%nat -> exists y, U r r * y = 1) ->
  exists T : mat, forall r c, (r < n)%nat -> (c < n)%nat -> mprod o n T (up o U) r c = delta o r c.
Proof. intros Hd. exists (row_solve n tri U (delta o)). intros r c Hr Hc. now apply solve_prod. Qed.
Lemma solve_inverse n (U V : mat) : (forall r, (r < n)%nat -> exists y, U r r * y = 1) ->
  exists T : mat, forall g c, (c < n)%nat -> row_solve n tri U V g c = mprod o n V T g c.
Proof.
  intros Hd. destruct (up_inverse n U Hd) as [T HTi]. exists T. intros g c Hc.
  apply (up_cancel n (row_solve n tri U V) (mprod o n V T) U g Hd); auto.
  intros c' Hc'. rewrite solve_prod by auto. rewrite mprod_assoc. symmetry.
  rewrite (mprod_ext n V V (mprod o n T (up o U)) (delta o)); auto. now apply delta_r.
Qed.
Lemma gram_prod N n (Q U : mat) r c : gram o N (mprod o n Q U) r c = mprod o n (ctrans o U) (mprod o n (gram o N Q) U) r c.
Proof.
  unfold gram. rewrite (mprod_ext N (ctrans o (mprod o n Q U)) (mprod o n (ctrans o U) (ctrans o Q)) (mprod o n Q U) (mprod o n Q U)); auto.
  - rewrite mprod_assoc. apply mprod_ext; auto. intros k Hk. symmetry. apply mprod_assoc.
  - intros k Hk. apply ctrans_mprod.
Qed.
Lemma gram_ext N n (V W : mat) r c : (forall g k, (g < N)%nat -> (k < n)%nat -> V g k = W g k) -> (r < n)%nat -> (c < n)%nat -> gram o N V r c = gram o N W r c.
Proof. intros H Hr Hc. apply bsum_ext. intros k Hk. unfold ctrans. now rewrite !H by auto. Qed.

Lemma chol_round N n (V : mat) : fst (po n (entries upper n (gram o N V))) = Z0 ->
  let Q := row_solve n tri (snd (po n (entries upper n (gram o N V)))) V in
  (forall r c, (r < n)%nat -> (c < n)%nat -> gram o N Q r c = delta o r c) /\ spanned o N n Q V /\ spanned o N n V Q.
Proof.
  intros Hi Q. destruct HC as [H _]. destruct (H n (gram o N V) (gram_herm N n V) Hi) as [Hpos HU]. clear H.
  set (U := snd (po n (entries upper n (gram o N V)))) in *. pose proof (pos_inv U n Hpos) as Hd.
  assert (EV : forall g c, (c < n)%nat -> mprod o n Q (up o U) g c = V g c) by (intros; now apply solve_prod).
  split; [|split].
  - apply (up_cancel2 n (gram o N Q) (delta o) U Hd). intros r c Hr Hc.
    rewrite <- gram_prod. rewrite (gram_ext N n (mprod o n Q (up o U)) V) by auto. rewrite <- HU by auto.
    apply mprod_ext; auto. intros k Hk. symmetry. now apply delta_l.
  - exists (up o U). intros g c Hg Hc. symmetry. auto.
  - destruct (solve_inverse n U V Hd) as [T HTT]. exists T. intros g c Hg Hc. now apply HTT.
Qed.

(** the factor of a matrix whose leading k x k block is the identity *)
Lemma up_sum n (U : mat) r c : (r < n)%nat -> mprod o n (ctrans o (up o U)) (up o U) r c = bsum r (fun t => cj (U t r) * up o U t c) + cj (U r r) * up o U r c.
Proof.
  intros Hr. unfold mprod. assert (G : forall m, (r < m)%nat -> bsum m (fun t => ctrans o (up o U) r t * up o U t c) = bsum r (fun t => cj (U t r) * up o U t c) + cj (U r r) * up o U r c).
  { induction m; intros Hm; [lia|]. simpl. destruct (Nat.eq_dec r m) as [<-|Hne].
    - f_equal; [apply bsum_ext; intros k Hk|]; unfold ctrans, up, upper; [destruct (Nat.leb_spec k r); [reflexivity|lia]|now rewrite Nat.leb_refl].
    - rewrite IHm by lia. unfold ctrans, up at 3, upper. destruct (Nat.leb_spec m r); [lia|]. rewrite cj_0. ring. }
  now apply G.
Qed.
Lemma leading_identity n k (U : mat) : (k <= n)%nat -> (forall r, (r < n)%nat -> pos (U r r)) ->
  (forall r c, (r < k)%nat -> (c < k)%nat -> mprod o n (ctrans o (up o U)) (up o U) r c = delta o r c) ->
  forall c r, (c < k)%nat -> (r <= c)%nat -> U r c = delta o r c.
Proof.
  intros Hk Hpos HM c. induction c as [c IHc] using lt_wf_ind. intros r Hc. induction r as [r IHr] using lt_wf_ind. intros Hr.
  pose proof (HM r c ltac:(lia) Hc) as E. rewrite up_sum in E by lia.
  assert (Hup : forall t, (t <= c)%nat -> up o U t c = U t c) by (intros t Ht; unfold up, upper; destruct (Nat.leb_spec t c); [reflexivity|lia]).
  rewrite (bsum_ext _ _ r _ (fun _ => 0)) in E.
  2:{ intros t Ht. destruct (Nat.eq_dec r c) as [->|Hne].
      - rewrite Hup by lia. rewrite IHr by lia. unfold delta. destruct (Nat.eqb_spec t c); [lia|]. ring.
      - rewrite (IHc r) by lia. unfold delta. destruct (Nat.eqb_spec t r); [lia|]. rewrite cj_0. ring. }
  rewrite bsum_0, Hup in E by lia. destruct (Nat.eq_dec r c) as [->|Hne].
  - unfold delta in *. rewrite Nat.eqb_refl in *. apply HP; [apply Hpos; lia|apply HP|]. rewrite cj_1. transitivity (0 + cj (U c c) * U c c); [ring|]. rewrite E. ring.
  - rewrite (IHc r) in E by lia. unfold delta in E at 1. rewrite Nat.eqb_refl, cj_1 in E. rewrite <- E. ring.
Qed.
Lemma leading_kept N n k (V : mat) : (k <= n)%nat -> fst (po n (entries upper n (gram o N V))) = Z0 -> orthonormal o N 0 k V ->
  let Q := row_solve n tri (snd (po n (entries upper n (gram o N V)))) V in forall g c, (c < k)%nat -> Q g c = V g c.
Proof.
  intros Hk Hi HO Q g c Hc. destruct HC as [H _]. destruct (H n (gram o N V) (gram_herm N n V) Hi) as [Hpos HU]. clear H.
  set (U := snd (po n (entries upper n (gram o N V)))) in *. pose proof (pos_inv U n Hpos) as Hd.
  assert (EU : forall c r, (c < k)%nat -> (r <= c)%nat -> U r c = delta o r c).
  { apply (leading_identity n k U Hk Hpos). intros r c' Hr Hc'. rewrite HU by lia. apply (HO r c'); auto. }
  rewrite <- (solve_prod n U V g c Hd ltac:(lia)). fold Q. rewrite up_row by lia.
  rewrite (bsum_ext _ _ c _ (fun _ => 0)).
  - rewrite bsum_0, (EU c c) by lia. unfold delta. rewrite Nat.eqb_refl. ring.
  - intros t Ht. rewrite EU by lia. unfold delta. destruct (Nat.eqb_spec t c); [lia|]. ring.
Qed.

Lemma entries_upper_ext n (M M' : mat) : (forall r c, (r < n)%nat -> (c < n)%nat -> M r c = M' r c) -> entries upper n M = entries upper n M'.
Proof.
  intros H. unfold entries. rewrite !flat_map_concat_map. f_equal. apply map_ext_in. intros c Hc. apply in_seq in Hc. apply map_ext_in. intros r Hr.
  apply filter_In in Hr as [Hr _]. apply in_seq in Hr. apply H; lia.
Qed.
Lemma spanned_trans N n (A B C : mat) : spanned o N n A B -> spanned o N n B C -> spanned o N n A C.
Proof.
  intros [T HT1] [S HS]. exists (mprod o n T S). intros g c Hg Hc. rewrite HS by auto.
  rewrite <- mprod_assoc. apply mprod_ext; auto.
Qed.
Lemma spanned_ext N n (A B : mat) : (forall g c, (g < N)%nat -> (c < n)%nat -> B g c = A g c) -> spanned o N n A B.
Proof. intros H. exists (delta o). intros g c Hg Hc. rewrite H by auto. symmetry. now apply delta_r. Qed.

(** a second round on orthonormal vectors changes nothing *)
Lemma second_round N n (V : mat) : (forall r c, (r < n)%nat -> (c < n)%nat -> gram o N V r c = delta o r c) ->
  fst (po n (entries upper n (gram o N V))) = Z0 /\
  forall g c, (c < n)%nat -> row_solve n tri (snd (po n (entries upper n (gram o N V)))) V g c = V g c.
Proof.
  intros H. assert (E : fst (po n (entries upper n (gram o N V))) = Z0) by (rewrite (entries_upper_ext n _ (delta o) H); apply HC).
  split; auto. intros g c Hc. apply (leading_kept N n n V (le_n n) E); auto.
Qed.

Definition qr_good (N n : nat) (V Q : mat) : Prop :=
  orthonormal o N 0 n Q /\ spanned o N n Q V /\ spanned o N n V Q.

Theorem qr1_good N n V : let r := qr1 o N n po tri V in
  (fst r = Z0 -> qr_good N n V (snd r) /\ forall k, (k <= n)%nat -> orthonormal o N 0 k V -> forall g c, (c < k)%nat -> snd r g c = V g c) /\
  (fst r <> Z0 -> snd r = V).
Proof.
  intros r. subst r. unfold qr1. destruct (Z.eqb_spec (fst (po n (entries upper n (gram o N V)))) 0) as [E|E]; cbn [fst snd].
  - split; [|congruence]. intros _. split.
    + destruct (chol_round N n V E) as (H1 & H2 & H3). split; auto.
    + intros k Hk HO g c Hc. now apply (leading_kept N n k V Hk E HO).
  - split; [congruence|auto].
Qed.
Theorem qr2_good N n V : let r := qr2 o N n po tri V in
  (fst r = Z0 -> qr_good N n V (snd r) /\ forall k, (k <= n)%nat -> orthonormal o N 0 k V -> forall g c, (c < k)%nat -> snd r g c = V g c) /\
  (fst r <> Z0 -> snd r = V).
Proof.
  intros r. subst r. unfold qr2. destruct (Z.eqb_spec (fst (po n (entries upper n (gram o N V)))) 0) as [E|E]; cbn [fst snd].
  - destruct (chol_round N n V E) as (H1 & H2 & H3). set (V1 := row_solve n tri (snd (po n (entries upper n (gram o N V)))) V) in *.
    destruct (second_round N n V1 H1) as [E2 K2]. split; [|congruence]. intros _. split.
    + destruct (chol_round N n V1 E2) as (G1 & G2 & G3). split; [exact G1|]. split; eapply spanned_trans; eauto.
    + intros k Hk HO g c Hc. rewrite K2 by lia. now apply (leading_kept N n k V Hk E HO).
  - split; [congruence|auto].
Qed.

Lemma shift_herm n f M : hermitian o n M -> (forall d, cj (f d) = f d) -> hermitian o n (shift_diag o n f M).
Proof.
  intros HM Hf r c Hr Hc. unfold shift_diag. rewrite (Nat.eqb_sym c r). destruct (Nat.eqb_spec r c); [|now apply HM].
  subst. rewrite cj_add, Hf. f_equal. now apply HM.
Qed.
(** the shifted variant: leading orthonormal columns are not kept *)
Theorem sqr2_good N n f V : (forall d, cj (f d) = f d) -> let r := sqr2 o N n po tri f V in
  (fst r = Z0 -> qr_good N n V (snd r)) /\ spanned o N n V (snd r) /\ spanned o N n (snd r) V.
Proof.
  intros Hf r. subst r. unfold sqr2.
  destruct (Z.eqb_spec (fst (po n (entries upper n (shift_diag o n f (gram o N V))))) 0) as [E|E]; cbn [fst snd].
  2:{ split; [congruence|]. split; apply spanned_ext; auto. }
  destruct HC as [H _]. destruct (H n _ (shift_herm n f _ (gram_herm N n V) Hf) E) as [Hpos HU]. clear H.
  set (U := snd (po n (entries upper n (shift_diag o n f (gram o N V))))) in *. pose proof (pos_inv U n Hpos) as Hd.
  set (V1 := row_solve n tri U V) in *.
  assert (S1 : spanned o N n V1 V) by (exists (up o U); intros g c Hg Hc; symmetry; now apply solve_prod).
  assert (S2 : spanned o N n V V1) by (destruct (solve_inverse n U V Hd) as [T HTT]; exists T; intros g c Hg Hc; now apply HTT).
  destruct (Z.eqb_spec (fst (po n (entries upper n (gram o N V1)))) 0) as [E2|E2]; cbn [fst snd].
  2:{ split; [congruence|]. auto. }
  destruct (chol_round N n V1 E2) as (H1 & H2 & H3). set (V2 := row_solve n tri (snd (po n (entries upper n (gram o N V1)))) V1) in *.
  destruct (second_round N n V2 H1) as [E3 _]. destruct (chol_round N n V2 E3) as (G1 & G2 & G3).
  assert (S3 : spanned o N n V (row_solve n tri (snd (po n (entries upper n (gram o N V2)))) V2)) by (eapply spanned_trans; [exact S2|]; eapply spanned_trans; eauto).
  assert (S4 : spanned o N n (row_solve n tri (snd (po n (entries upper n (gram o N V2)))) V2) V) by (eapply spanned_trans; [|exact S1]; eapply spanned_trans; eauto).
  split; [|auto]. intros _. split; auto.
Qed.
End Alg.

(** ** Rayleigh-Ritz *)
Section Ritz.
Context {D : Type} (o : sops D) (RT : is_ring o) (CJ : is_conj o).
Let rsub (x y : D) : D := sadd o x (sopp o y).
Let RT' : ring_theory (s0 o) (s1 o) (sadd o) (smul o) rsub (sopp o) eq := RT.
Add Ring Rr2 : RT'.
Notation bsum := (bsum (s0 o) (sadd o)).
Notation mat := (nat -> nat -> D).
Variables (zw : mat * (nat -> D)) (N n : nat) (G V : mat).
Hypothesis HG : hermitian o N G.
(** quotient matrix of the (shifted) columns V *)
Let M : mat := mprod o N (ctrans o V) (mprod o N (ctrans o G) V).
Let Z := fst zw.
Let w := snd zw.
Hypothesis HE : eigen o n M zw.
Let X : mat := mprod o n V Z.

Lemma quotient_herm : hermitian o n M.
Proof.
  intros r c Hr Hc. unfold M. change (scj o (mprod o N (ctrans o V) (mprod o N (ctrans o G) V) c r)) with (ctrans o (mprod o N (ctrans o V) (mprod o N (ctrans o G) V)) r c).
  rewrite (ctrans_mprod o RT CJ). rewrite (mprod_ext o N (ctrans o (mprod o N (ctrans o G) V)) (mprod o N (ctrans o V) (ctrans o (ctrans o G))) (ctrans o (ctrans o V)) V).
  - rewrite (mprod_assoc o RT). apply mprod_ext; auto. intros k Hk. apply mprod_ext; auto. intros l Hl. unfold ctrans. rewrite (cj_cj o CJ).
    symmetry. now apply HG.
  - intros k Hk. apply (ctrans_mprod o RT CJ).
  - intros k Hk. unfold ctrans. apply (cj_cj o CJ).
Qed.
Lemma ritz_orthonormal : (forall r c, r < n -> c < n -> mprod o N (ctrans o V) V r c = delta o r c) ->
  forall r c, r < n -> c < n -> mprod o N (ctrans o X) X r c = delta o r c.
Proof.
  intros HV r c Hr Hc. change (mprod o N (ctrans o X) X r c) with (gram o N (mprod o n V Z) r c). rewrite (gram_prod o RT CJ).
  destruct HE as [HO _]. rewrite <- (HO r c Hr Hc). apply mprod_ext; auto.
  intros k Hk. rewrite (mprod_ext o n (gram o N V) (delta o) Z Z); auto; [|intros l Hl; now apply HV]. rewrite (delta_l o RT) by auto. reflexivity.
Qed.
Lemma ritz_diagonal : forall r c, r < n -> c < n -> mprod o N (ctrans o X) (mprod o N G X) r c = if r =? c then w c else s0 o.
Proof.
  intros r c Hr Hc. destruct HE as [_ HD]. pose proof (HD r c Hr Hc) as HD'. fold Z w in HD'. rewrite <- HD'. clear HD HD'.
  rewrite (mprod_ext o N (ctrans o X) (mprod o n (ctrans o Z) (ctrans o V)) _ (mprod o N G X)); auto; [|intros k Hk; apply (ctrans_mprod o RT CJ)].
  rewrite (mprod_assoc o RT). apply mprod_ext; auto. intros k Hk.
  unfold M. rewrite (mprod_assoc o RT). apply mprod_ext; auto. intros g Hg.
  rewrite (mprod_assoc o RT). apply mprod_ext; auto. intros h Hh. apply HG; auto.
Qed.
End Ritz.
