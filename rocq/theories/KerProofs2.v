(** The distributed HEMM. *)
From Coq Require Import List Arith Bool ZArith Lia Ring_theory Ring Permutation.
Require Import Verif.Base Verif.DistModel Verif.DistSpec Verif.DistProofs Verif.FlatModel Verif.FlatSpec Verif.FlatProofs Verif.FlatProofs2.
Require Import Verif.RedistModel Verif.RedistSpec Verif.SpmdModel Verif.SpmdSpec Verif.SpmdProofs Verif.KerModel Verif.KerSpec Verif.KerProofs1.
Import ListNotations.

Lemma nth_of {A} (l : list A) d t : t < length l -> nth_error l t = Some (nth t l d).
Proof. revert t; induction l; intros [|t]; simpl; intros; try lia; auto. apply IHl. lia. Qed.

Section Reduce.
Context {D : Type} (o : sops D) (RT : is_ring o).
Let rsub (x y : D) : D := sadd o x (sopp o y).
Let RT' : ring_theory (s0 o) (s1 o) (sadd o) (smul o) rsub (sopp o) eq := RT.
Add Ring Rr : RT'.
Notation bsum := (bsum (s0 o) (sadd o)).

(** local product, then the sum over the communicator *)
Lemma crun_gemm_reduce c (tr : bool) N d (src : nat -> list nat) (out : list nat) off block alpha beta (M V W : nat -> nat -> D)
  (A X Y : nat -> list D) (lda : nat -> nat) :
  0 < d -> splits N d src -> (Z.of_nat (length out * block) < 2 ^ 31)%Z ->
  (forall i r t g h, i < d -> nth_error out r = Some g -> nth_error (src i) t = Some h ->
     if tr then exists x, nth_error (A i) (t + r * lda i) = Some x /\ scj o x = M g h
     else nth_error (A i) (r + t * lda i) = Some (M g h)) ->
  (forall i, i < d -> holds (src i) off block (length (src i)) V (X i)) ->
  (forall i, i < d -> length out * (off + block) <= length (Y i)) -> (beta = s0 o \/ holds out off block (length out) W (Y 0)) ->
  crun (sadd o) c d (fun i Y' => only_columns out off block (axpby o N alpha beta M V W) (Y i) Y')
    (fun i => pbind (local (gemm o tr (length out) block (length (src i)) alpha (A i) 0 (lda i) (X i) (off * length (src i)) (length (src i))
                        (if i =? 0 then beta else s0 o) (Y i) (off * length out) (length out)))
                    (fun Y' => all_reduce c Y' (off * length out) (length out * block))).
Proof.
  intros Hd HS Hdim HA HX HY HW. set (n := length out) in *.
  set (part := fun i g c => sadd o (smul o alpha (lsum o (map (fun h => smul o (M g h) (V h c)) (src i)))) (if i =? 0 then smul o beta (W g c) else s0 o)).
  assert (HG : forall i, i < d -> exists Y1, gemm o tr n block (length (src i)) alpha (A i) 0 (lda i) (X i) (off * length (src i)) (length (src i))
      (if i =? 0 then beta else s0 o) (Y i) (off * n) n = Ok Y1 /\ length Y1 = length (Y i) /\
      (forall r g c, nth_error out r = Some g -> off <= c < off + block -> nth_error Y1 (r + c * n) = Some (part i g c)) /\
      (forall k, (k / n < off \/ off + block <= k / n) -> nth_error Y1 k = nth_error (Y i) k)).
  { intros i Hi. pose proof (HY i Hi) as HL.
    set (av := fun r t => match nth_error (A i) (if tr then t + r * lda i else r + t * lda i) with Some x => x | None => s0 o end).
    set (bv := fun t c => V (nth t (src i) 0) (off + c)).
    destruct (gemm_spec o tr n block (length (src i)) alpha (A i) 0 (lda i) (X i) (off * length (src i)) (length (src i))
      (if i =? 0 then beta else s0 o) (Y i) off n av bv) as (Y1 & E & L & P1 & P2).
    - lia.
    - intros r c0 Hr Hc. nia.
    - intros r t Hr Ht. pose proof (HA i r t _ _ Hi (nth_of out 0 r Hr) (nth_of (src i) 0 t Ht)) as H.
      unfold av. destruct tr; [destruct H as (x & H & _)|]; rewrite ?Nat.add_0_l; rewrite H; reflexivity.
    - intros t c0 Ht Hc. unfold bv. replace (off * length (src i) + t + c0 * length (src i)) with (t + (off + c0) * length (src i)) by lia.
      apply (HX i Hi); [now apply nth_of|lia].
    - exists Y1. split; [exact E|]. split; [exact L|]. split.
      + intros r g c0 Hr Hc. assert (Hrn : r < n) by (apply nth_error_Some; congruence).
        assert (Hy : exists y, nth_error (Y i) (r + c0 * n) = Some y) by (destruct (nth_error (Y i) (r + c0 * n)) eqn:Ey; eauto; apply nth_error_None in Ey; nia).
        destruct Hy as [y Hy]. specialize (P1 r (c0 - off) y Hrn ltac:(lia)). replace (off + (c0 - off)) with c0 in P1 by lia.
        rewrite P1 by exact Hy. unfold part. f_equal.
        assert (Eb : smul o (if i =? 0 then beta else s0 o) y = if i =? 0 then smul o beta (W g c0) else s0 o).
        { destruct (i =? 0) eqn:E0; [|ring]. apply Nat.eqb_eq in E0. subst i. destruct HW as [->|HW]; [ring|].
          rewrite (HW r g c0 Hr Hc) in Hy. now inversion Hy. }
        rewrite Eb. do 2 f_equal.
        apply (lsum_nth o RT). intros t h Ht. unfold bv. rewrite (nth_error_nth (src i) t 0 Ht). replace (off + (c0 - off)) with c0 by lia. f_equal.
        pose proof (HA i r t g h Hi Hr Ht) as H. unfold av. destruct tr; [destruct H as (x & H & Hx); rewrite H; exact Hx|rewrite H; reflexivity].
      + intros k Hk. apply P2. lia. }
  destruct (fin_choice0 d _ Hd HG) as [Y1 HY1].
  apply (crun_ext _ c d _ (fun i => all_reduce c (Y1 i) (off * n) (n * block))).
  { intros i Hi. destruct (HY1 i Hi) as (E & _). now rewrite E. }
  destruct (Nat.eq_dec n 0) as [N0|N0].
  { (* no local rows *)
    eapply crun_mono; [|apply (crun_all_reduce (s0 o) (sadd o) ltac:(intros; ring) c d Y1 (off * n) (n * block) (fun _ _ => s0 o)); auto].
    - intros i Y' Hi (L & _ & P). destruct (HY1 i Hi) as (_ & L1 & _ & P1). cbv beta. split; [lia|]. split.
      + intros a g c0 Ha. exfalso. assert (a < length out) by (apply nth_error_Some; congruence). unfold n in N0. lia.
      + intros k Hk. rewrite P by lia. now apply P1.
    - intros i Hi. rewrite N0. lia.
    - intros i k Hi Hk. lia. }
  eapply crun_mono; [|apply (crun_all_reduce (s0 o) (sadd o) ltac:(intros; ring) c d Y1 (off * n) (n * block)
     (fun i k => part i (nth (k mod n) out 0) (off + k / n))); auto].
  - intros i Y' Hi (L & Pv & Pr). destruct (HY1 i Hi) as (_ & L1 & _ & P1). cbv beta. split; [lia|]. split.
    + intros r g c0 Hr Hc. assert (Hrn : r < n) by (apply nth_error_Some; congruence). fold n.
      replace (r + c0 * n) with (off * n + (r + (c0 - off) * n)) by nia. rewrite Pv by nia. f_equal.
      rewrite pos_mod, pos_div by lia. rewrite (nth_error_nth out r 0 Hr). replace (off + (c0 - off)) with c0 by lia.
      unfold part. rewrite (bsum_add o RT), (bsum_mul o RT), (split_sum o RT N d src _ HS). unfold axpby. f_equal.
      now apply (bsum_first o RT).
    + fold n. intros k Hk. rewrite Pr; [now apply P1|]. destruct Hk as [Hk|Hk].
      * left. assert (k < off * n); [|lia]. pose proof (Nat.div_mod k n N0). pose proof (Nat.mod_upper_bound k n N0). nia.
      * right. pose proof (Nat.div_mod k n N0). nia.
  - intros i Hi. destruct (HY1 i Hi) as (_ & L1 & _). pose proof (HY i Hi) as HL. nia.
  - intros i k Hi Hk. destruct (HY1 i Hi) as (_ & _ & P & _). 
    assert (K1 : k / n < block) by (apply Nat.div_lt_upper_bound; lia).
    assert (K2 := Nat.mod_upper_bound k n N0).
    specialize (P (k mod n) (nth (k mod n) out 0) (off + k / n) (nth_of out 0 _ K2) ltac:(lia)). rewrite <- P. f_equal.
    pose proof (Nat.div_mod k n N0). lia.
Qed.
End Reduce.

Section Hemm.
Context {D : Type} (o : sops D) (RT : is_ring o).
Variables (N p q nevex : nat) (same : bool) (c2b b2c : list run) (rows cols : nat -> list nat) (ldh : nat -> nat -> nat) (G : nat -> nat -> D).
Hypotheses (Hp : 0 < p) (Hq : 0 < q) (HR : splits N p rows) (HC : splits N q cols).
Definition genv (i j : nat) : env := mk_env i j (length (rows i)) (length (cols j)) (ldh i j) nevex same c2b b2c.
Variables (s : nat -> nat -> loc (D := D)) (alpha beta : D) (offset block locked : nat) (V W : nat -> nat -> D).
Hypothesis HH : stores_grid p q rows cols ldh G (fun i j => l_H (s i j)).
Let off := locked + offset.

Theorem hemm_bAc :
  (forall i j, i < p -> j < q -> l_bAc (s i j) = true /\ l_bAc_dla (s i j) = true) ->
  (forall j, j < q -> (Z.of_nat (length (cols j) * block) < 2 ^ 31)%Z) ->
  (forall i j, i < p -> j < q -> holds (rows i) off block (length (rows i)) V (l_C (s i j))) ->
  (forall i j, i < p -> j < q -> length (cols j) * (off + block) <= length (l_B (s i j))) ->
  (beta = s0 o \/ forall j, j < q -> holds (cols j) off block (length (cols j)) W (l_B (s 0 j))) ->
  completes (sadd o) p q (fun i j s' => only_columns (cols j) off block (axpby o N alpha beta (ctrans o G) V W) (l_B (s i j)) (l_B s') /\
      s' = mk_loc (l_H (s i j)) (l_C (s i j)) (l_C2 (s i j)) (l_B s') (l_B2 (s i j)) (l_A (s i j)) false false)
    (fun i j => apply o (genv i j) alpha beta offset block locked (s i j)).
Proof.
  intros Hf Hd HV HL HW. apply good_completes; auto.
  apply (good_eqv (sadd o) p q _ (fun i j => pbind (pbind (local (gemm o true (length (cols j)) block (length (rows i)) alpha (l_H (s i j)) 0 (ldh i j) (l_C (s i j)) (off * length (rows i)) (length (rows i))
     (if i =? 0 then beta else s0 o) (l_B (s i j)) (off * length (cols j)) (length (cols j)))) (fun Y' => all_reduce ColC Y' (off * length (cols j)) (length (cols j) * block)))
     (fun B => Ret (mk_loc (l_H (s i j)) (l_C (s i j)) (l_C2 (s i j)) B (l_B2 (s i j)) (l_A (s i j)) false false)))).
  { intros i j Hi Hj. destruct (Hf i j Hi Hj) as [F1 F2]. unfold apply, apply_dla. rewrite F1, F2. cbn [genv e_i e_j e_m e_n e_ldh].
    replace (offset * length (rows i) + locked * length (rows i)) with (off * length (rows i)) by (unfold off; lia).
    replace (locked * length (cols j) + offset * length (cols j)) with (off * length (cols j)) by (unfold off; lia).
    destruct (gemm _ _ _ _ _ _ _ _ _ _ _ _ _ _ _ _); reflexivity. }
  apply (good_phase (sadd o) p q _ Hp Hq ColC (fun j i Y' => only_columns (cols j) off block (axpby o N alpha beta (ctrans o G) V W) (l_B (s i j)) Y')
    (fun j i => pbind (local (gemm o true (length (cols j)) block (length (rows i)) alpha (l_H (s i j)) 0 (ldh i j) (l_C (s i j)) (off * length (rows i)) (length (rows i))
     (if i =? 0 then beta else s0 o) (l_B (s i j)) (off * length (cols j)) (length (cols j)))) (fun Y' => all_reduce ColC Y' (off * length (cols j)) (length (cols j) * block)))
    (fun i j B => Ret (mk_loc (l_H (s i j)) (l_C (s i j)) (l_C2 (s i j)) B (l_B2 (s i j)) (l_A (s i j)) false false))).
  - intros j Hj. cbn [csize]. apply (crun_gemm_reduce o RT ColC true N p rows (cols j) off block alpha beta (ctrans o G) V W (fun i => l_H (s i j)) (fun i => l_C (s i j)) (fun i => l_B (s i j)) (fun i => ldh i j)); auto.
    2:{ destruct HW as [HW|HW]; auto. }
    intros i r t g h Hi Hr Ht. exists (G h g). split; [|reflexivity]. now apply (HH i j Hi Hj).
  - intros a Ha. apply good_done. intros i j Hi Hj. eexists. split; [reflexivity|]. cbn [l_B]. split; [|reflexivity]. exact (Ha i j Hi Hj).
Qed.

Theorem hemm_cAb :
  (forall i j, i < p -> j < q -> l_bAc (s i j) = false /\ l_bAc_dla (s i j) = false) ->
  (forall i, i < p -> (Z.of_nat (length (rows i) * block) < 2 ^ 31)%Z) ->
  (forall i j, i < p -> j < q -> holds (cols j) off block (length (cols j)) V (l_B (s i j))) ->
  (forall i j, i < p -> j < q -> length (rows i) * (off + block) <= length (l_C (s i j))) ->
  (beta = s0 o \/ forall i, i < p -> holds (rows i) off block (length (rows i)) W (l_C (s i 0))) ->
  completes (sadd o) p q (fun i j s' => only_columns (rows i) off block (axpby o N alpha beta G V W) (l_C (s i j)) (l_C s') /\
      s' = mk_loc (l_H (s i j)) (l_C s') (l_C2 (s i j)) (l_B (s i j)) (l_B2 (s i j)) (l_A (s i j)) true true)
    (fun i j => apply o (genv i j) alpha beta offset block locked (s i j)).
Proof.
  intros Hf Hd HV HL HW. apply good_completes; auto.
  apply (good_eqv (sadd o) p q _ (fun i j => pbind (pbind (local (gemm o false (length (rows i)) block (length (cols j)) alpha (l_H (s i j)) 0 (ldh i j) (l_B (s i j)) (off * length (cols j)) (length (cols j))
     (if j =? 0 then beta else s0 o) (l_C (s i j)) (off * length (rows i)) (length (rows i)))) (fun Y' => all_reduce RowC Y' (off * length (rows i)) (length (rows i) * block)))
     (fun C => Ret (mk_loc (l_H (s i j)) C (l_C2 (s i j)) (l_B (s i j)) (l_B2 (s i j)) (l_A (s i j)) true true)))).
  { intros i j Hi Hj. destruct (Hf i j Hi Hj) as [F1 F2]. unfold apply, apply_dla. rewrite F1, F2. cbn [genv e_i e_j e_m e_n e_ldh].
    replace (offset * length (rows i) + locked * length (rows i)) with (off * length (rows i)) by (unfold off; lia).
    replace (locked * length (rows i) + offset * length (rows i)) with (off * length (rows i)) by (unfold off; lia).
    replace (offset * length (cols j) + locked * length (cols j)) with (off * length (cols j)) by (unfold off; lia).
    destruct (gemm _ _ _ _ _ _ _ _ _ _ _ _ _ _ _ _); reflexivity. }
  apply (good_phase (sadd o) p q _ Hp Hq RowC (fun i j Y' => only_columns (rows i) off block (axpby o N alpha beta G V W) (l_C (s i j)) Y')
    (fun i j => pbind (local (gemm o false (length (rows i)) block (length (cols j)) alpha (l_H (s i j)) 0 (ldh i j) (l_B (s i j)) (off * length (cols j)) (length (cols j))
     (if j =? 0 then beta else s0 o) (l_C (s i j)) (off * length (rows i)) (length (rows i)))) (fun Y' => all_reduce RowC Y' (off * length (rows i)) (length (rows i) * block)))
    (fun i j C => Ret (mk_loc (l_H (s i j)) C (l_C2 (s i j)) (l_B (s i j)) (l_B2 (s i j)) (l_A (s i j)) true true))).
  - intros i Hi. cbn [csize]. apply (crun_gemm_reduce o RT RowC false N q cols (rows i) off block alpha beta G V W (fun j => l_H (s i j)) (fun j => l_B (s i j)) (fun j => l_C (s i j)) (fun j => ldh i j)); auto.
    2:{ destruct HW as [HW|HW]; auto. }
    intros j r t g h Hj Hr Ht. now apply (HH i j Hi Hj).
  - intros a Ha. apply good_done. intros i j Hi Hj. eexists. split; [reflexivity|]. cbn [l_C]. split; [|reflexivity]. exact (Ha i j Hi Hj).
Qed.
End Hemm.
