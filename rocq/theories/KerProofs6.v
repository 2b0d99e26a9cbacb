(** The combined redistribution and product (asynCxHGatherC), the Rayleigh-Ritz step and the residuals. *)
From Coq Require Import List Arith Bool ZArith Lia Ring_theory Ring Permutation.
Require Import Verif.Base Verif.DistModel Verif.DistSpec Verif.DistProofs Verif.DistProofs2 Verif.FlatModel Verif.FlatSpec Verif.FlatProofs Verif.FlatProofs2 Verif.FlatProofs3.
Require Import Verif.RedistModel Verif.RedistSpec Verif.RedistProofs Verif.RedistProofs2.
Require Import Verif.SpmdModel Verif.SpmdSpec Verif.SpmdProofs Verif.KerModel Verif.KerSpec Verif.KerProofs1 Verif.KerProofs2 Verif.KerProofs3 Verif.KerProofs4 Verif.KerProofs5.
From Verif Require AlgProofs1.
Import ListNotations.

Section Grid.
Context {D : Type} (o : sops D) (RT : is_ring o).
Let rsub (x y : D) : D := sadd o x (sopp o y).
Let RT' : ring_theory (s0 o) (s1 o) (sadd o) (smul o) rsub (sopp o) eq := RT.
Add Ring Rr : RT'.
Notation bsum := (bsum (s0 o) (sadd o)).
Variables (N p q nevex : nat) (same : bool) (c2b b2c : list run) (rows cols : nat -> list nat) (ldh : nat -> nat -> nat) (G : nat -> nat -> D).
Hypotheses (Hp : 0 < p) (Hq : 0 < q) (HR : splits N p rows) (HC : splits N q cols).
Hypothesis Rne : forall i, i < p -> 0 < length (rows i).
Hypothesis Cne : forall j, j < q -> 0 < length (cols j).
Hypothesis Hc2b : forall j, j < q -> schedule p rows (cols j) j c2b.
Hypothesis Hb2c : forall i, i < p -> schedule q cols (rows i) i b2c.
Hypothesis Hsame : same = true -> p = q /\ forall i, i < p -> rows i = cols i.
Hypothesis Hpk : same = false -> forall i i', i < p -> i' < p -> length (rows i) = length (rows i').
Notation env := (genv nevex same c2b b2c rows cols ldh).

Lemma crun_c2b j off block V (S T : nat -> list D) : j < q -> (Z.of_nat (length (cols j) * block) < 2 ^ 31)%Z ->
  (forall i, i < p -> holds (rows i) off block (length (rows i)) V (S i)) ->
  (forall i, i < p -> length (rows i) * (off + block) <= length (S i)) ->
  (forall i, i < p -> length (cols j) * (off + block) <= length (T i)) ->
  crun (sadd o) ColC p (fun i T' => only_columns (cols j) off block V (T i) T')
    (fun i => if same then redist_same_prog ColC j i (length (rows i)) (length (cols j)) off block (S i) (T i)
              else redist_pack_prog ColC c2b j i (length (rows i)) (length (cols j)) off block (S i) (T i)).
Proof.
  intros Hj Hc HS LS LT. destruct same eqn:Es.
  - destruct (Hsame eq_refl) as [E Er]. assert (Hjp : j < p) by lia.
    pose proof (Er j Hjp) as Ej.
    rewrite <- Ej in *. apply (crun_redist_same (sadd o) p ColC j off block V S T rows); auto.
  - destruct (Hc2b j Hj) as [S1 S2].
    apply (crun_redist_pack (sadd o) p ColC j off block V S T rows (cols j) c2b); auto.
    intros i r Hi Hr Hd c0 Hc0. destruct (S1 r Hr Hd) as (Hs & Hl & W). destruct (W (r_len r - 1) ltac:(lia)) as (g & _ & E2).
    assert (r_sd r + (r_len r - 1) < length (rows (r_src r))) by (apply nth_error_Some; congruence).
    rewrite (Hpk eq_refl (r_src r) i Hs Hi) in H. specialize (LS i Hi). nia.
Qed.

Definition gathered (off block : nat) (V W : nat -> nat -> D) (i j : nat) (s s' : loc (D := D)) : Prop :=
  s' = mk_loc (l_H s) (l_C s) (l_C2 s) (l_B s') (l_B2 s') (l_A s) (l_bAc s) (l_bAc_dla s) /\
  only_columns (cols j) off block V (l_B2 s) (l_B2 s') /\
  only_columns (cols j) off block (mprod o N (ctrans o G) W) (l_B s) (l_B s').

Lemma crun_gather j off block V W (s : nat -> loc (D := D)) : j < q -> (Z.of_nat (length (cols j) * block) < 2 ^ 31)%Z ->
  (forall i, i < p -> stores (rows i) (cols j) (ldh i j) G (l_H (s i))) ->
  (forall i, i < p -> holds (rows i) off block (length (rows i)) V (l_C2 (s i))) ->
  (forall i, i < p -> holds (rows i) off block (length (rows i)) W (l_C (s i))) ->
  (forall i, i < p -> length (rows i) * (off + block) <= length (l_C2 (s i))) ->
  (forall i, i < p -> length (cols j) * (off + block) <= length (l_B (s i))) ->
  (forall i, i < p -> length (cols j) * (off + block) <= length (l_B2 (s i))) ->
  crun (sadd o) ColC p (fun i s' => gathered off block V W i j (s i) s') (fun i => gather_c o (env i j) off block (s i)).
Proof.
  intros Hj Hc HH HV HW L2 LB LB2. unfold gather_c. cbn [genv e_i e_j e_m e_n e_ldh e_same e_c2b].
  apply (crun_bind (sadd o) ColC p (fun i T' => only_columns (cols j) off block V (l_B2 (s i)) T')); auto.
  { apply (crun_c2b j off block V (fun i => l_C2 (s i)) (fun i => l_B2 (s i))); auto. }
  intros b2 Hb2.
  apply (crun_ext (sadd o) ColC p _ (fun i => pbind (pbind (local (gemm o true (length (cols j)) block (length (rows i)) (s1 o) (l_H (s i)) 0 (ldh i j) (l_C (s i)) (off * length (rows i)) (length (rows i))
     (if i =? 0 then s0 o else s0 o) (l_B (s i)) (off * length (cols j)) (length (cols j)))) (fun Y' => all_reduce ColC Y' (off * length (cols j)) (length (cols j) * block)))
     (fun B => Ret (mk_loc (l_H (s i)) (l_C (s i)) (l_C2 (s i)) B (b2 i) (l_A (s i)) (l_bAc (s i)) (l_bAc_dla (s i)))))).
  { intros i Hi. replace (if i =? 0 then s0 o else s0 o) with (s0 o) by now destruct (i =? 0). destruct (gemm _ _ _ _ _ _ _ _ _ _ _ _ _ _ _ _); reflexivity. }
  apply (crun_bind (sadd o) ColC p (fun i Y' => only_columns (cols j) off block (axpby o N (s1 o) (s0 o) (ctrans o G) W W) (l_B (s i)) Y')); auto.
  - apply (crun_gemm_reduce o RT ColC true N p rows (cols j) off block (s1 o) (s0 o) (ctrans o G) W W (fun i => l_H (s i)) (fun i => l_C (s i)) (fun i => l_B (s i)) (fun i => ldh i j)); auto.
    intros i r t g h Hi Hr Ht. exists (G h g). split; [|reflexivity]. now apply (HH i Hi).
  - intros B HB. apply crun_done. intros i Hi. eexists. split; [reflexivity|]. split; [reflexivity|]. cbn [l_B l_B2]. split; [now apply Hb2|].
    eapply only_columns_ext; [|exact (HB i Hi)]. intros g c _. unfold axpby, mprod. ring.
Qed.

(** ** Rayleigh-Ritz *)
Notation ritz_matrix := (KerSpec.ritz_matrix o N G).

Lemma get_put_cols rws off block V (C X C2 : list D) : 0 < length rws -> only_columns rws off block V C X ->
  length rws * (off + block) <= length C -> length rws * (off + block) <= length C2 ->
  exists xs C2', get_range X (off * length rws) (length rws * block) = Ok xs /\ put_range C2 (off * length rws) xs = Ok C2' /\
    only_columns rws off block V C2 C2'.
Proof.
  intros Hm (L & HV & _) LC L2. set (m := length rws) in *.
  assert (Ex : get_range X (off * m) (m * block) = Ok (firstn (m * block) (skipn (off * m) X))) by (apply get_range_ok; nia).
  set (xs := firstn (m * block) (skipn (off * m) X)) in *. destruct (nth_error_range _ _ _ _ 0 Ex) as [Lx _].
  assert (EP : exists C2', put_range C2 (off * m) xs = Ok C2') by (eexists; apply put_range_ok; nia). destruct EP as [C2' EP].
  exists xs, C2'. split; auto. split; auto. split; [apply put_range_length in EP; lia|]. split.
  - intros a g c Ha Hc. assert (a < m) by (apply nth_error_Some; congruence). fold m.
    rewrite (nth_error_put _ _ _ _ _ EP). rewrite Lx.
    replace (off * m <=? a + c * m) with true by (symmetry; apply Nat.leb_le; nia).
    replace (a + c * m <? off * m + m * block) with true by (symmetry; apply Nat.ltb_lt; nia). cbn [andb].
    rewrite (proj2 (nth_error_range _ _ _ _ _ Ex)) by nia. replace (off * m + (a + c * m - off * m)) with (a + c * m) by nia. now apply HV.
  - intros k Hk. fold m in Hk. rewrite (nth_error_put _ _ _ _ _ EP). rewrite Lx. pose proof (pos_split k m Hm) as Ek. pose proof (Nat.mod_upper_bound k m ltac:(lia)).
    destruct ((off * m <=? k) && (k <? off * m + m * block)) eqn:B; auto. apply andb_prop in B as [B1 B2].
    apply Nat.leb_le in B1. apply Nat.ltb_lt in B2. nia.
Qed.

Lemma crun_ritz_matrix off block (V W : nat -> nat -> D) (B2 B A : nat -> list D) : off + block <= nevex ->
  (Z.of_nat (nevex * block) < 2 ^ 31)%Z ->
  (forall j, j < q -> holds (cols j) off block (length (cols j)) V (B2 j)) ->
  (forall j, j < q -> holds (cols j) off block (length (cols j)) W (B j)) ->
  (forall j, j < q -> nevex * block <= length (A j)) ->
  crun (sadd o) RowC q (fun j A' => length A' = length (A j) /\ forall r c, r < block -> c < block ->
      nth_error A' (r + c * nevex) = Some (mprod o N (ctrans o (from off V)) (from off W) r c))
    (fun j => pbind (local (gemm o true block block (length (cols j)) (s1 o) (B2 j) (off * length (cols j)) (length (cols j)) (B j) (off * length (cols j)) (length (cols j))
                     (s0 o) (A j) 0 nevex)) (fun A => all_reduce RowC A 0 (nevex * block))).
Proof.
  intros Hb Hcnt HV HW LA.
  set (part := fun j r c => lsum o (map (fun g => smul o (scj o (V g (off + r))) (W g (off + c))) (cols j))).
  assert (HG : forall j, j < q -> exists A1, gemm o true block block (length (cols j)) (s1 o) (B2 j) (off * length (cols j)) (length (cols j)) (B j) (off * length (cols j)) (length (cols j))
      (s0 o) (A j) 0 nevex = Ok A1 /\ (length A1 = length (A j) /\ forall r c, r < block -> c < block -> nth_error A1 (r + c * nevex) = Some (part j r c))).
  { intros j Hj. specialize (LA j Hj).
    destruct (gemm_spec o true block block (length (cols j)) (s1 o) (B2 j) (off * length (cols j)) (length (cols j)) (B j) (off * length (cols j)) (length (cols j)) (s0 o) (A j) 0 nevex
      (fun r t => V (nth t (cols j) 0) (off + r)) (fun t c => W (nth t (cols j) 0) (off + c))) as (A1 & E & L & P & _).
    - lia.
    - intros r c Hr Hc. nia.
    - intros r t Hr Ht. replace (off * length (cols j) + t + r * length (cols j)) with (t + (off + r) * length (cols j)) by lia.
      apply (HV j Hj); [now apply nth_of|lia].
    - intros t c Ht Hc. replace (off * length (cols j) + t + c * length (cols j)) with (t + (off + c) * length (cols j)) by lia.
      apply (HW j Hj); [now apply nth_of|lia].
    - exists A1. split; [exact E|]. split; [exact L|]. intros r c Hr Hc.
      destruct (nth_error (A j) (r + (0 + c) * nevex)) as [y|] eqn:Ey; [|apply nth_error_None in Ey; nia].
      rewrite (P r c y Hr Hc Ey : nth_error A1 (r + c * nevex) = _). f_equal. unfold part.
      rewrite <- (lsum_nth o RT (cols j) (fun g => smul o (scj o (V g (off + r))) (W g (off + c))) (fun t => smul o (scj o (V (nth t (cols j) 0) (off + r))) (W (nth t (cols j) 0) (off + c)))); [ring|].
      intros t x Hx. now rewrite (nth_error_nth _ _ _ Hx). }
  destruct (fin_choice0 q _ Hq HG) as [A1 HA1].
  apply (crun_ext (sadd o) RowC q _ (fun j => all_reduce RowC (A1 j) 0 (nevex * block))).
  { intros j Hj. destruct (HA1 j Hj) as (E & _). now rewrite E. }
  eapply crun_mono; [|apply (crun_all_reduce (s0 o) (sadd o) ltac:(intros; ring) RowC q A1 0 (nevex * block) (fun j k => nth k (A1 j) (s0 o))); auto].
  - intros j A' Hj (L & P & _). destruct (HA1 j Hj) as (_ & L1 & _). split; [lia|]. intros r c Hr Hc.
    rewrite (P (r + c * nevex) ltac:(nia) : nth_error A' (r + c * nevex) = _). f_equal. unfold mprod, ctrans, from.
    rewrite <- (split_sum o RT N q cols (fun h => smul o (scj o (V h (off + r))) (W h (off + c))) HC).
    apply bsum_ext. intros j' Hj'. destruct (HA1 j' Hj') as (_ & _ & P1). apply nth_error_nth. now apply P1.
  - intros j Hj. destruct (HA1 j Hj) as (_ & L1 & _). specialize (LA j Hj). simpl. lia.
  - intros j k Hj Hk. destruct (HA1 j Hj) as (_ & L1 & _). specialize (LA j Hj). simpl. apply nth_of. lia.
Qed.

Variables (s : nat -> nat -> loc (D := D)) (ev : eigs (D := D)) (block locked : nat) (V W : nat -> nat -> D).
Hypothesis HH : stores_grid p q rows cols ldh G (fun i j => l_H (s i j)).
Hypothesis HV : forall i j, i < p -> j < q -> holds (rows i) locked block (length (rows i)) W (l_C (s i j)).
Hypothesis HV2 : forall i j, i < p -> j < q -> holds (rows i) locked block (length (rows i)) V (l_C2 (s i j)).
Hypothesis LC : forall i j, i < p -> j < q -> length (rows i) * (locked + block) <= length (l_C (s i j)).
Hypothesis LC2 : forall i j, i < p -> j < q -> length (rows i) * (locked + block) <= length (l_C2 (s i j)).
Hypothesis LB : forall i j, i < p -> j < q -> length (cols j) * (locked + block) <= length (l_B (s i j)).
Hypothesis LB2 : forall i j, i < p -> j < q -> length (cols j) * (locked + block) <= length (l_B2 (s i j)).
Hypothesis Hcnt : forall j, j < q -> (Z.of_nat (length (cols j) * block) < 2 ^ 31)%Z.

Theorem rr_ok : locked + block = nevex -> (Z.of_nat (nevex * block) < 2 ^ 31)%Z ->
  (forall i j, i < p -> j < q -> nevex * block <= length (l_A (s i j))) ->
  let zw := ev block (entries lower block (ritz_matrix locked V W)) in
  let X := fun g c => mprod o block (from locked V) (fst zw) g (c - locked) in
  completes (sadd o) p q (fun i j r =>
      only_columns (rows i) locked block X (l_C (s i j)) (l_C (fst r)) /\ only_columns (rows i) locked block X (l_C2 (s i j)) (l_C2 (fst r)) /\
      l_H (fst r) = l_H (s i j) /\ l_bAc (fst r) = l_bAc (s i j) /\ l_bAc_dla (fst r) = l_bAc_dla (s i j) /\
      only_columns (cols j) locked block V (l_B2 (s i j)) (l_B2 (fst r)) /\
      only_columns (cols j) locked block (mprod o N (ctrans o G) W) (l_B (s i j)) (l_B (fst r)) /\
      length (l_A (fst r)) = length (l_A (s i j)) /\ snd r = map (snd zw) (seq 0 block))
    (fun i j => rr o ev (env i j) block locked (s i j)).
Proof.
  intros Hb Hn LA zw X. apply good_completes; auto. unfold rr.
  apply (good_phase (sadd o) p q _ Hp Hq ColC (fun j i s' => gathered locked block V W i j (s i j) s')
    (fun j i => gather_c o (env i j) locked block (s i j)) (fun i j t =>
    let e := env i j in
    let? A := local (gemm o true block block (e_n e) (s1 o) (l_B2 t) (locked * e_n e) (e_n e) (l_B t) (locked * e_n e) (e_n e)
                       (s0 o) (l_A t) 0 (e_nevex e)) in
    let? A := all_reduce RowC A 0 (e_nevex e * block) in
    let? Aw := local (heevd ev block (e_nevex e) A) in
    if e_nevex e <? block then Bad else
    let l2 := e_nevex e - block in
    let? C := local (gemm o false (e_m e) block block (s1 o) (l_C2 t) (l2 * e_m e) (e_m e) (fst Aw) 0 (e_nevex e)
                       (s0 o) (l_C t) (l2 * e_m e) (e_m e)) in
    let? xs := local (get_range C (locked * e_m e) (e_m e * block)) in
    let? C2 := local (put_range (l_C2 t) (locked * e_m e) xs) in
    Ret (mk_loc (l_H t) C C2 (l_B t) (l_B2 t) (fst Aw) (l_bAc t) (l_bAc_dla t), snd Aw))).
  { intros j Hj. apply crun_gather; auto; intros i Hi; auto; try apply HH; auto. }
  intros t Ht. cbn [cnum crank] in Ht. cbn [genv e_i e_j e_m e_n e_ldh e_same e_c2b e_nevex].
  set (n := fun j => length (cols j)).
  set (K := fun i j (A : list D) => let? Aw := local (heevd ev block nevex A) in
        if nevex <? block then @Bad D (loc * list D) else
        let? C := local (gemm o false (length (rows i)) block block (s1 o) (l_C2 (t i j)) ((nevex - block) * length (rows i)) (length (rows i)) (fst Aw) 0 nevex
                     (s0 o) (l_C (t i j)) ((nevex - block) * length (rows i)) (length (rows i))) in
        let? xs := local (get_range C (locked * length (rows i)) (length (rows i) * block)) in
        let? C2 := local (put_range (l_C2 (t i j)) (locked * length (rows i)) xs) in
        Ret (mk_loc (l_H (t i j)) C C2 (l_B (t i j)) (l_B2 (t i j)) (fst Aw) (l_bAc (t i j)) (l_bAc_dla (t i j)), snd Aw)).
  apply (good_eqv (sadd o) p q _ (fun i j => pbind (pbind (local (gemm o true block block (n j) (s1 o) (l_B2 (t i j)) (locked * n j) (n j) (l_B (t i j)) (locked * n j) (n j)
                     (s0 o) (l_A (t i j)) 0 nevex)) (fun A => all_reduce RowC A 0 (nevex * block))) (K i j))).
  { intros i j Hi Hj. unfold n. destruct (gemm _ _ _ _ _ _ _ _ _ _ _ _ _ _ _ _); reflexivity. }
  apply (good_phase (sadd o) p q _ Hp Hq RowC (fun i j A' => length A' = length (l_A (t i j)) /\ forall r c, r < block -> c < block ->
      nth_error A' (r + c * nevex) = Some (ritz_matrix locked V W r c))
    (fun i j => pbind (local (gemm o true block block (n j) (s1 o) (l_B2 (t i j)) (locked * n j) (n j) (l_B (t i j)) (locked * n j) (n j)
                     (s0 o) (l_A (t i j)) 0 nevex)) (fun A => all_reduce RowC A 0 (nevex * block))) K).
  { intros i Hi. apply (crun_ritz_matrix locked block V (mprod o N (ctrans o G) W) (fun j => l_B2 (t i j)) (fun j => l_B (t i j)) (fun j => l_A (t i j))); auto.
    - lia.
    - intros j Hj. destruct (Ht i j Hi Hj) as (_ & (_ & H & _) & _). exact H.
    - intros j Hj. destruct (Ht i j Hi Hj) as (_ & _ & (_ & H & _)). exact H.
    - intros j Hj. destruct (Ht i j Hi Hj) as (E & _). rewrite E. cbn [l_A]. auto. }
  intros A HA. apply good_done. intros i j Hi Hj. cbn [cnum crank] in HA. destruct (HA i j Hi Hj) as [L P]. destruct (Ht i j Hi Hj) as (E & OB2 & OB).
  assert (EA : l_A (t i j) = l_A (s i j)) by now rewrite E. assert (EC : l_C (t i j) = l_C (s i j)) by now rewrite E.
  assert (EC2 : l_C2 (t i j) = l_C2 (s i j)) by now rewrite E. assert (EH : l_H (t i j) = l_H (s i j)) by now rewrite E.
  assert (EF : l_bAc (t i j) = l_bAc (s i j)) by now rewrite E. assert (EF2 : l_bAc_dla (t i j) = l_bAc_dla (s i j)) by now rewrite E.
  unfold K. rewrite EC, EC2, EH, EF, EF2. rewrite EA in L. clear E EA EC EC2 EH EF EF2.
  destruct (heevd_spec ev block nevex (A i j) (ritz_matrix locked V W)) as (A' & E & L' & P'); auto; [lia|intros r c Hr Hc; specialize (LA i j Hi Hj); nia|].
  rewrite E. cbn [local pbind fst snd]. replace (nevex <? block) with false by (symmetry; apply Nat.ltb_ge; lia).
  replace (nevex - block) with locked by lia. set (m := length (rows i)). pose proof (LC i j Hi Hj) as L1. fold m in L1.
  destruct (gemm_spec o false m block block (s1 o) (l_C2 (s i j)) (locked * m) m A' 0 nevex (s0 o) (l_C (s i j)) locked m
    (fun r k => V (nth r (rows i) 0) (locked + k)) (fst zw)) as (C' & E2 & L2 & P2 & P3).
  - lia.
  - intros r c Hr Hc. nia.
  - intros r k Hr Hk. replace (locked * m + r + k * m) with (r + (locked + k) * m) by lia. apply (HV2 i j Hi Hj); [now apply nth_of|lia].
  - intros k c Hk Hc. simpl. rewrite P' by auto. reflexivity.
  - rewrite E2. cbn [local pbind].
    assert (OC : only_columns (rows i) locked block X (l_C (s i j)) C').
    { split; [exact L2|]. split.
      - intros a g c Ha Hc. fold m. assert (Ham : a < m) by (apply nth_error_Some; congruence).
        destruct (nth_error (l_C (s i j)) (a + (locked + (c - locked)) * m)) as [y|] eqn:Ey; [|apply nth_error_None in Ey; nia].
        pose proof (P2 a (c - locked) y Ham ltac:(lia) Ey) as P2'. replace (locked + (c - locked)) with c in P2' by lia. rewrite P2'. f_equal.
        unfold X, mprod, from. rewrite (nth_error_nth _ _ _ Ha). ring.
      - intros k Hk. fold m in Hk. apply P3. lia. }
    destruct (get_put_cols (rows i) locked block X (l_C (s i j)) C' (l_C2 (s i j)) (Rne i Hi) OC L1 (LC2 i j Hi Hj)) as (xs & C2' & E3 & E4 & OC2).
    fold m in E3, E4. rewrite E3. cbn [local pbind]. rewrite E4. cbn [local pbind]. eexists. split; [reflexivity|].
    cbn [fst snd l_C l_C2 l_H l_B l_B2 l_A l_bAc l_bAc_dla]. repeat (split; [assumption || reflexivity || lia|]). reflexivity.
Qed.

(** ** Residuals *)
Notation resvec := (KerSpec.resvec o N G).

Lemma resd_col_spec (l : D) n off (x y : nat -> D) (B2 B : list D) :
  (forall r, r < n -> nth_error B2 (off + r) = Some (x r)) -> (forall r, r < n -> nth_error B (off + r) = Some (y r)) ->
  let z := fun r => sadd o (y r) (smul o (sopp o l) (x r)) in
  exists B' : list D, resd_col o n off l B2 B = Ok (B', bsum n (fun r => smul o (scj o (z r)) (z r))) /\ length B' = length B /\ (forall r, r < n -> nth_error B' (off + r) = Some (z r)) /\ (forall k, ~ off <= k < off + n -> nth_error B' k = nth_error B k).
Proof.
  intros Hx Hy z. unfold resd_col.
  destruct (for_run (fun r B' => length B' = length B /\ (forall k, k < r -> nth_error B' (off + k) = Some (z k)) /\ (forall k, ~ off <= k < off + r -> nth_error B' k = nth_error B k))
    (fun B' => length B' = length B /\ (forall k, k < n -> nth_error B' (off + k) = Some (z k)) /\ (forall k, ~ off <= k < off + n -> nth_error B' k = nth_error B k))
    (fun r B => let! x := rd B2 (off + r) in let! y := rd B (off + r) in wr B (off + r) (sadd o y (smul o (sopp o l) x))) n 0 B) as (B' & E & L & P1 & P2).
  - split; auto. split; auto. intros; lia.
  - intros r B1 Hr (L1 & P1 & P2). pose proof (Hx r ltac:(lia)) as E1. apply rd_ok in E1. rewrite E1. cbn [bind].
    assert (E2 : nth_error B1 (off + r) = Some (y r)) by (rewrite P2 by lia; apply Hy; lia). pose proof E2 as E2'. apply rd_ok in E2. rewrite E2. cbn [bind].
    assert (L2 : off + r < length B1) by (apply nth_error_Some; congruence). rewrite wr_ok by auto. eexists. split; [reflexivity|].
    split; [now rewrite upd_length|]. split.
    + intros k Hk. rewrite nth_error_upd by auto. destruct (Nat.eqb_spec (off + k) (off + r)) as [E|E]; [replace k with r by lia; reflexivity|]. apply P1. lia.
    + intros k Hk. rewrite nth_error_upd by auto. destruct (Nat.eqb_spec k (off + r)); [lia|]. apply P2. lia.
  - intros B1 H. exact H.
  - rewrite E. cbn [bind]. rewrite (dotp_spec o n _ _ (fun r => scj o (z r)) z).
    + cbn [bind]. exists B'. auto.
    + intros r Hr. specialize (P1 r Hr). apply rd_ok in P1. now rewrite P1.
    + intros r Hr. apply rd_ok. now apply P1.
Qed.

Theorem resd_ok sqrt (ritzv : list D) (lam : nat -> D) : (Z.of_nat block < 2 ^ 31)%Z ->
  (forall c, c < block -> nth_error ritzv c = Some (lam c)) ->
  completes (sadd o) p q (fun i j r =>
      snd r = map (fun c => sqrt (bsum N (fun g => smul o (scj o (resvec lam locked V W g c)) (resvec lam locked V W g c)))) (seq 0 block) /\
      l_H (fst r) = l_H (s i j) /\ l_C (fst r) = l_C (s i j) /\ l_C2 (fst r) = l_C2 (s i j) /\ l_A (fst r) = l_A (s i j) /\
      only_columns (cols j) locked block V (l_B2 (s i j)) (l_B2 (fst r)) /\
      only_columns (cols j) locked block (fun g c => resvec lam locked V W g (c - locked)) (l_B (s i j)) (l_B (fst r)) /\
      l_bAc (fst r) = l_bAc (s i j) /\ l_bAc_dla (fst r) = l_bAc_dla (s i j))
    (fun i j => resd o sqrt (env i j) ritzv locked block (s i j)).
Proof.
  intros Hb Hlam. apply good_completes; auto. unfold resd. cbn [genv e_n].
  set (body := fun j (B2 : list D) i (br : list D * list D) =>
      let! l := rd ritzv i in
      let! b := resd_col o (length (cols j)) (locked * length (cols j) + i * length (cols j)) l B2 (fst br) in
      Ok (fst b, snd br ++ [snd b])).
  apply (good_phase (sadd o) p q _ Hp Hq ColC (fun j i s' => gathered locked block V W i j (s i j) s')
    (fun j i => gather_c o (env i j) locked block (s i j)) (fun i j t =>
     let? br := local (for_ block 0 (body j (l_B2 t)) (l_B t, [])) in
     let? rs := all_reduce RowC (snd br) 0 block in
     Ret (mk_loc (l_H t) (l_C t) (l_C2 t) (fst br) (l_B2 t) (l_A t) (l_bAc t) (l_bAc_dla t), map sqrt rs))).
  { intros j Hj. apply crun_gather; auto; intros i Hi; auto; try apply HH; auto. }
  intros t Ht. cbn [cnum crank] in Ht.
  set (part := fun j c => lsum o (map (fun g => smul o (scj o (resvec lam locked V W g c)) (resvec lam locked V W g c)) (cols j))).
  apply (good_local (sadd o) p q _ (fun i j br => only_columns (cols j) locked block (fun g c => resvec lam locked V W g (c - locked)) (l_B (s i j)) (fst br) /\ snd br = map (part j) (seq 0 block))); auto.
  { intros i j Hi Hj. destruct (Ht i j Hi Hj) as (_ & (_ & H2 & _) & (L3 & H3 & H4)). set (n := length (cols j)) in *.
    destruct (for_run (fun c br => length (fst br) = length (l_B (t i j)) /\ snd br = map (part j) (seq 0 c) /\
        (forall k, k < locked * n \/ locked * n + c * n <= k -> nth_error (fst br) k = nth_error (l_B (t i j)) k) /\
        (forall a g c', nth_error (cols j) a = Some g -> c' < c -> nth_error (fst br) (a + (locked + c') * n) = Some (resvec lam locked V W g c')))
      (fun br => only_columns (cols j) locked block (fun g c => resvec lam locked V W g (c - locked)) (l_B (s i j)) (fst br) /\ snd br = map (part j) (seq 0 block)) (body j (l_B2 (t i j))) block 0 (l_B (t i j), [])) as (br & E & P).
    - cbn [fst snd]. split; [reflexivity|]. split; [reflexivity|]. split; [auto|]. intros; lia.
    - intros c [B rs] Hc (L & Er & Hk & Hv). cbn [fst snd] in *. unfold body. cbn [fst snd]. fold n. pose proof (Hlam c ltac:(lia)) as El. apply rd_ok in El. rewrite El. cbn [bind].
      destruct (resd_col_spec (lam c) n (locked * n + c * n) (fun r => V (nth r (cols j) 0) (locked + c)) (fun r => mprod o N (ctrans o G) W (nth r (cols j) 0) (locked + c)) (l_B2 (t i j)) B) as (B' & E & L' & Q' & P').
      + intros r Hr. replace (locked * n + c * n + r) with (r + (locked + c) * n) by lia. apply H2; [now apply nth_of|lia].
      + intros r Hr. rewrite Hk by lia. replace (locked * n + c * n + r) with (r + (locked + c) * n) by lia. apply H3; [now apply nth_of|lia].
      + rewrite E. cbn [bind fst snd]. eexists. split; [reflexivity|]. cbn [fst snd]. split; [lia|]. split.
        * rewrite seq_S, map_app, Er. cbn [map]. do 2 f_equal. unfold part.
          apply (lsum_nth o RT). intros r g Hr. unfold KerSpec.resvec. now rewrite (nth_error_nth _ _ _ Hr).
        * split; [intros k Hk2; rewrite P' by lia; apply Hk; lia|]. intros a g c' Ha Hc'. assert (Han : a < n) by (apply nth_error_Some; congruence).
          destruct (Nat.eq_dec c' c) as [->|Hne].
          -- replace (a + (locked + c) * n) with (locked * n + c * n + a) by lia. rewrite Q' by auto. unfold KerSpec.resvec. now rewrite (nth_error_nth _ _ _ Ha).
          -- rewrite P' by nia. apply Hv; auto. lia.
    - intros br (H & H' & H1 & H0). split; auto. split; [lia|]. split.
      + intros a g c Ha Hc. fold n. pose proof (H0 a g (c - locked) Ha ltac:(lia)) as E0. replace (locked + (c - locked)) with c in E0 by lia. exact E0.
      + intros k Hk. assert (Hn : 0 < n) by (apply Cne; auto). fold n in Hk. pose proof (pos_split k n Hn). pose proof (Nat.mod_upper_bound k n ltac:(lia)).
        rewrite H1 by nia. apply H4. fold n. lia.
    - exists br. rewrite E. auto. }
  intros br Hbr.
  apply (good_phase (sadd o) p q _ Hp Hq RowC (fun i j rs => length rs = block /\ forall c, c < block -> nth_error rs c = Some (bsum N (fun g => smul o (scj o (resvec lam locked V W g c)) (resvec lam locked V W g c))))
    (fun i j => all_reduce RowC (snd (br i j)) 0 block) (fun i j rs =>
     Ret (mk_loc (l_H (t i j)) (l_C (t i j)) (l_C2 (t i j)) (fst (br i j)) (l_B2 (t i j)) (l_A (t i j)) (l_bAc (t i j)) (l_bAc_dla (t i j)), map sqrt rs))).
  { intros i Hi. eapply crun_mono; [|apply (crun_all_reduce (s0 o) (sadd o) ltac:(intros; ring) RowC q (fun j => snd (br i j)) 0 block (fun j c => part j c)); auto].
    - intros j rs Hj (L & P & _). destruct (Hbr i j Hi Hj) as [_ E]. rewrite E, map_length, seq_length in L. split; auto.
      intros c Hc. specialize (P c Hc). simpl in P. rewrite P. f_equal. unfold part. apply (split_sum o RT N q cols _ HC).
    - intros j Hj. destruct (Hbr i j Hi Hj) as [_ E]. rewrite E, map_length, seq_length. lia.
    - intros j c Hj Hc. destruct (Hbr i j Hi Hj) as [_ E]. rewrite E. simpl. rewrite nth_error_map, (proj2 (nth_error_seq 0 block c c)); auto. }
  intros rs Hrs. cbn [cnum crank] in Hrs. apply good_done. intros i j Hi Hj. eexists. split; [reflexivity|].
  cbn [fst snd l_H l_C l_C2 l_A l_B l_B2 l_bAc l_bAc_dla]. destruct (Ht i j Hi Hj) as (E & OB2 & _). destruct (Hbr i j Hi Hj) as [OB _].
  split; [|rewrite E; cbn [l_H l_C l_C2 l_A l_B l_B2 l_bAc l_bAc_dla]; repeat (split; [assumption || reflexivity|]); reflexivity].
  destruct (Hrs i j Hi Hj) as [L P]. apply AlgProofs1.nth_error_ext. intros c. rewrite !nth_error_map.
  destruct (lt_dec c block) as [Hc|Hc].
  - rewrite P by auto. rewrite (proj2 (nth_error_seq 0 block c c)) by auto. reflexivity.
  - rewrite (proj2 (nth_error_None (rs i j) c)) by lia. rewrite (proj2 (nth_error_None (seq 0 block) c)) by (rewrite seq_length; lia). reflexivity.
Qed.
End Grid.
