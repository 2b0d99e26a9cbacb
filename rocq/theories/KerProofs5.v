(** Local phases, small matrices, and the combined redistribution and product (asynCxHGatherC). *)
From Coq Require Import List Arith Bool ZArith Lia Ring_theory Ring Permutation.
Require Import Verif.Base Verif.DistModel Verif.DistSpec Verif.DistProofs Verif.DistProofs2 Verif.FlatModel Verif.FlatSpec Verif.FlatProofs Verif.FlatProofs2 Verif.FlatProofs3.
Require Import Verif.RedistModel Verif.RedistSpec Verif.RedistProofs Verif.RedistProofs2.
Require Import Verif.SpmdModel Verif.SpmdSpec Verif.SpmdProofs Verif.KerModel Verif.KerSpec Verif.KerProofs1 Verif.KerProofs2 Verif.KerProofs3 Verif.KerProofs4.
Import ListNotations.

Lemma choose2 {A} p q (R : nat -> nat -> A -> Prop) : 0 < p -> 0 < q -> (forall i j, i < p -> j < q -> exists a, R i j a) ->
  exists f, forall i j, i < p -> j < q -> R i j (f i j).
Proof.
  intros Hp Hq H.
  destruct (fin_choice0 p (fun i f => forall j, j < q -> R i j (f j)) Hp) as [f Hf].
  - intros i Hi. apply fin_choice0; auto.
  - exists f. auto.
Qed.

Lemma good_local {D A B} (add : D -> D -> D) p q (Q : nat -> nat -> B -> Prop) (R : nat -> nat -> A -> Prop) (P : nat -> nat -> prog D A) (K : nat -> nat -> A -> prog D B) :
  0 < p -> 0 < q -> (forall i j, i < p -> j < q -> exists a, P i j = Ret a /\ R i j a) ->
  (forall a, (forall i j, i < p -> j < q -> R i j (a i j)) -> good add p q Q (fun i j => K i j (a i j))) ->
  good add p q Q (fun i j => pbind (P i j) (K i j)).
Proof.
  intros Hp Hq HP HK. destruct (choose2 p q _ Hp Hq HP) as [a Ha].
  apply (good_eqv add p q Q (fun i j => K i j (a i j))).
  - intros i j Hi Hj. destruct (Ha i j Hi Hj) as [E _]. now rewrite E.
  - apply HK. intros i j Hi Hj. now apply Ha.
Qed.

Lemma only_columns_ext {D} rows off block (V V' : nat -> nat -> D) buf buf' : (forall g c, off <= c < off + block -> V g c = V' g c) ->
  only_columns rows off block V buf buf' -> only_columns rows off block V' buf buf'.
Proof. intros E (L & H & R). split; auto. split; auto. intros a g c Ha Hc. rewrite <- E by auto. now apply H. Qed.

(** ** Small matrices *)
Section Small.
Context {D : Type}.
Lemma read_tri_spec keep n lda (A : list D) (M : nat -> nat -> D) :
  (forall r c, r < n -> c < n -> keep r c = true -> nth_error A (r + c * lda) = Some (M r c)) -> read_tri keep n lda A = Ok (entries keep n M).
Proof.
  intros H. unfold read_tri.
  destruct (for_run (fun c acc => acc = flat_map (fun c => map (fun r => M r c) (filter (fun r => keep r c) (seq 0 n))) (seq 0 c)) (fun acc => acc = entries keep n M)
    (fun c acc => for_ n 0 (fun r acc => if keep r c then let! x := rd A (r + c * lda) in Ok (acc ++ [x]) else Ok acc) acc) n 0 []) as (s & E & ->); auto.
  intros c acc Hc ->.
  apply (for_run (fun r acc => acc = flat_map (fun c => map (fun r => M r c) (filter (fun r => keep r c) (seq 0 n))) (seq 0 c) ++ map (fun r => M r c) (filter (fun r => keep r c) (seq 0 r)))).
  - simpl. now rewrite app_nil_r.
  - intros r acc Hr ->. rewrite seq_S, filter_app, map_app. simpl. destruct (keep r c) eqn:E.
    + specialize (H r c ltac:(lia) ltac:(lia) E). apply rd_ok in H. rewrite H. cbn [bind]. eexists. split; [reflexivity|]. now rewrite app_assoc.
    + eexists. split; [reflexivity|]. simpl. now rewrite app_nil_r.
  - intros acc ->. rewrite seq_S, flat_map_app. simpl. now rewrite app_nil_r.
Qed.

(** a double loop that replaces the kept entries *)
Lemma fill_kept keep m n lda (Z : nat -> nat -> D) (A : list D) (body : nat -> nat -> list D -> res (list D)) : m <= lda ->
  (forall r c, r < m -> c < n -> r + c * lda < length A) ->
  (forall r c A', r < m -> c < n -> keep r c = true -> length A' = length A -> body r c A' = wr A' (r + c * lda) (Z r c)) ->
  exists A', for_ n 0 (fun c A => for_ m 0 (fun r A => if keep r c then body r c A else Ok A) A) A = Ok A' /\ (length A' = length A /\
    (forall r c, r < m -> c < n -> keep r c = true -> nth_error A' (r + c * lda) = Some (Z r c)) /\
    (forall k, ~ (k mod lda < m /\ k / lda < n /\ keep (k mod lda) (k / lda) = true) -> nth_error A' k = nth_error A k)).
Proof.
  intros Hl HL HB. set (tgt := fun k => Some (Z (k mod lda) (k / lda))).
  set (K := fun x y => keep x y = true).
  apply (for_run (fun c A' => Verif.FlatProofs.prog lda A tgt (fun x y => K x y /\ x < m /\ y < c) A')).
  - split; auto. intros k. split; [lia|auto].
  - intros c A1 Hc P1. apply (for_run (fun r A' => Verif.FlatProofs.prog lda A tgt (fun x y => K x y /\ ((x < m /\ y < c) \/ (x < r /\ y = c))) A')).
    + eapply prog_ext; [|exact P1]. intros; cbv beta. intuition lia.
    + intros r A2 Hr P2. destruct (keep r c) eqn:E.
      * assert (L2 : length A2 = length A) by apply P2. specialize (HL r c ltac:(lia) ltac:(lia)). rewrite HB by (auto; lia). rewrite wr_ok by lia.
        eexists. split; [reflexivity|].
        assert (Et : tgt (r + c * lda) = Some (Z r c)) by (unfold tgt; now rewrite pos_mod, pos_div by lia).
        eapply prog_ext; [|exact (prog_upd lda A tgt _ A2 r c _ ltac:(lia) HL Et P2)]. intros x y. cbv beta. split.
        -- intros [H|[-> ->]]; [intuition lia|]. split; [exact E|lia].
        -- intros [H1 H2]. destruct (Nat.eq_dec x r); destruct (Nat.eq_dec y c); [right; auto|left; split; auto; lia..].
      * eexists. split; [reflexivity|]. eapply prog_ext; [|exact P2]. intros x y. cbv beta. split; [intuition lia|].
        intros [H1 H2]. split; auto. destruct (Nat.eq_dec x r); destruct (Nat.eq_dec y c); try lia. subst. unfold K in H1. congruence.
    + intros A2 P2. eapply prog_ext; [|exact P2]. intros; cbv beta. intuition lia.
  - intros A1 [L1 P1]. split; auto. split.
    + intros r c Hr Hc E. destruct (P1 (r + c * lda)) as [P _]. rewrite pos_mod, pos_div in P by lia. rewrite P by (split; [exact E|lia]).
      unfold tgt. now rewrite pos_mod, pos_div by lia.
    + intros k Hk. apply P1. intros (H1 & H2 & H3). apply Hk. auto.
Qed.
Lemma write_tri_spec keep n lda (Z : nat -> nat -> D) (A : list D) : n <= lda -> (forall r c, r < n -> c < n -> r + c * lda < length A) ->
  exists A', write_tri keep n lda Z A = Ok A' /\ (length A' = length A /\
    (forall r c, r < n -> c < n -> keep r c = true -> nth_error A' (r + c * lda) = Some (Z r c)) /\
    (forall k, ~ (k mod lda < n /\ k / lda < n /\ keep (k mod lda) (k / lda) = true) -> nth_error A' k = nth_error A k)).
Proof. intros Hl HL. apply (fill_kept keep n n lda Z A (fun r c A => wr A (r + c * lda) (Z r c))); auto. Qed.
End Small.

Section Small2.
Context {D : Type} (o : sops D).
Lemma heevd_spec (ev : eigs) n lda (A : list D) M : n <= lda -> (forall r c, r < n -> c < n -> r + c * lda < length A) ->
  (forall r c, r < n -> c < n -> nth_error A (r + c * lda) = Some (M r c)) ->
  exists A', heevd ev n lda A = Ok (A', map (snd (ev n (entries lower n M))) (seq 0 n)) /\ length A' = length A /\
    (forall r c, r < n -> c < n -> nth_error A' (r + c * lda) = Some (fst (ev n (entries lower n M)) r c)).
Proof.
  intros Hl HL HM. unfold heevd. rewrite (read_tri_spec lower n lda A M) by auto. cbn [bind].
  destruct (write_tri_spec every n lda (fst (ev n (entries lower n M))) A Hl HL) as (A' & E & L & P & _). rewrite E. cbn [bind].
  exists A'. split; [reflexivity|]. split; auto.
Qed.
End Small2.
