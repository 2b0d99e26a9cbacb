(** Rayleigh-Ritz keeps the space (C46), and matrices mirrored by symOrHermMatrix pass the symmetry check (C32). *)
From Coq Require Import List Arith ZArith Bool Lia Ring_theory Ring.
Require Import Verif.Base Verif.DistModel Verif.DistSpec Verif.RedistSpec Verif.FlatModel Verif.FlatSpec Verif.SpmdModel Verif.SpmdSpec Verif.KerModel Verif.KerSpec.
Require Import Verif.FlatProofs2 Verif.FlatProofs4 Verif.KerProofs1 Verif.KerAlg Verif.KerProofs9 Verif.KerProofs10 Verif.KerProofs11.
Import ListNotations.

Section Space.
Context {D : Type} (o : sops D) (RT : is_ring o) (CJ : is_conj o).
Let rsub (x y : D) : D := sadd o x (sopp o y).
Let RT' : ring_theory (s0 o) (s1 o) (sadd o) (smul o) rsub (sopp o) eq := RT.
Add Ring Rr : RT'.
Notation bsum := (bsum (s0 o) (sadd o)).
Notation mat := (nat -> nat -> D).
Hypothesis DEF : forall n f, bsum n (fun g => smul o (scj o (f g)) (f g)) = s0 o -> forall g, g < n -> f g = s0 o.

Lemma bsum_cat n m f : bsum (n + m) f = sadd o (bsum n f) (bsum m (fun k => f (n + k))).
Proof. induction m; [rewrite Nat.add_0_r; simpl; ring|]. rewrite Nat.add_succ_r. simpl. rewrite IHm. ring. Qed.
Lemma bsum_grid n m f : bsum (n * m) f = bsum n (fun r => bsum m (fun c => f (r * m + c))).
Proof. induction n; auto. replace (S n * m) with (n * m + m) by lia. rewrite bsum_cat, IHn. reflexivity. Qed.
Lemma bsum_sub n f g : bsum n (fun i => rsub (f i) (g i)) = rsub (bsum n f) (bsum n g).
Proof. unfold rsub. induction n; simpl; [ring|]. rewrite IHn. ring. Qed.

(** A square matrix with orthonormal columns has orthonormal rows: I - T T^* is a projector of trace zero. *)
Variables (n : nat) (T : mat).
Hypothesis HT : forall r c, r < n -> c < n -> mprod o n (ctrans o T) T r c = delta o r c.
Let P := mprod o n T (ctrans o T).
Let E r c := rsub (delta o r c) (P r c).
Lemma P_idem r c : r < n -> c < n -> mprod o n P P r c = P r c.
Proof.
  intros Hr Hc. unfold P at 1. rewrite (mprod_assoc o RT). unfold P at 2. apply mprod_ext; auto. intros k Hk.
  unfold P. rewrite <- (mprod_assoc o RT). rewrite <- (delta_l o RT n (ctrans o T) k c Hk). apply mprod_ext; auto.
Qed.
Lemma P_herm r c : scj o (P r c) = P c r.
Proof.
  change (scj o (P r c)) with (ctrans o P c r). unfold P. rewrite (ctrans_mprod o RT CJ). apply mprod_ext; auto.
  intros k _. unfold ctrans. apply (cj_cj o CJ).
Qed.
Lemma cj_opp x : scj o (sopp o x) = sopp o (scj o x).
Proof.
  assert (A : sadd o (scj o (sopp o x)) (scj o x) = s0 o) by (rewrite <- (cj_add o CJ); replace (sadd o (sopp o x) x) with (s0 o) by ring; apply (cj_0 o RT CJ)).
  transitivity (sadd o (sadd o (scj o (sopp o x)) (scj o x)) (sopp o (scj o x))); [ring|]. rewrite A. ring.
Qed.
Lemma E_herm r c : scj o (E r c) = E c r.
Proof. unfold E, rsub. now rewrite (cj_add o CJ), (cj_delta o RT CJ), cj_opp, P_herm. Qed.
Lemma E_idem r c : r < n -> c < n -> mprod o n E E r c = E r c.
Proof.
  intros Hr Hc. unfold mprod, E.
  rewrite (bsum_ext _ _ n _ (fun h => rsub (rsub (smul o (delta o r h) (delta o h c)) (smul o (delta o r h) (P h c)))
     (rsub (smul o (P r h) (delta o h c)) (smul o (P r h) (P h c))))) by (intros; unfold rsub; ring).
  rewrite !bsum_sub.
  change (rsub (rsub (mprod o n (delta o) (delta o) r c) (mprod o n (delta o) P r c)) (rsub (mprod o n P (delta o) r c) (mprod o n P P r c)) = rsub (delta o r c) (P r c)).
  rewrite P_idem, !(delta_l o RT), (delta_r o RT) by auto. unfold rsub. ring.
Qed.
Lemma trace_P : bsum n (fun r => P r r) = bsum n (fun r => s1 o).
Proof.
  unfold P, mprod. rewrite (bsum_swap o RT). apply bsum_ext. intros c Hc. transitivity (mprod o n (ctrans o T) T c c).
  - unfold mprod. apply bsum_ext. intros. unfold ctrans. ring.
  - rewrite HT by auto. unfold delta. now rewrite Nat.eqb_refl.
Qed.
Lemma rows_orthonormal r c : r < n -> c < n -> mprod o n T (ctrans o T) r c = delta o r c.
Proof.
  intros Hr Hc. assert (Z : E r c = s0 o).
  { assert (A := DEF (n * n) (fun k => E (k mod n) (k / n))). cbv beta in A.
    assert (B : bsum (n * n) (fun k => smul o (scj o (E (k mod n) (k / n))) (E (k mod n) (k / n))) = s0 o).
    { rewrite bsum_grid. transitivity (bsum n (fun c => E c c)).
      - apply bsum_ext. intros b Hb. rewrite <- (E_idem b b Hb Hb). unfold mprod. apply bsum_ext. intros a Ha.
        replace ((b * n + a) mod n) with a by (rewrite Nat.add_comm, Nat.mod_add, Nat.mod_small; lia).
        replace ((b * n + a) / n) with b by (rewrite Nat.add_comm, Nat.div_add, Nat.div_small; lia). now rewrite E_herm.
      - unfold E. rewrite bsum_sub, trace_P. rewrite (bsum_ext _ _ n (fun r => delta o r r) (fun _ => s1 o)) by (intros; unfold delta; now rewrite Nat.eqb_refl).
        unfold rsub. ring. }
    specialize (A B (c * n + r)). replace ((c * n + r) mod n) with r in A by (rewrite Nat.add_comm, Nat.mod_add, Nat.mod_small; lia).
    replace ((c * n + r) / n) with c in A by (rewrite Nat.add_comm, Nat.div_add, Nat.div_small; lia). apply A. nia. }
  fold P. unfold E in Z. transitivity (sadd o (rsub (delta o r c) (P r c)) (P r c)); [rewrite Z; ring|unfold rsub; ring].
Qed.
End Space.

Lemma spanned_back {D} (o : sops D) (RT : is_ring o) (CJ : is_conj o) N off n V X :
  (forall m f, bsum (s0 o) (sadd o) m (fun g => smul o (scj o (f g)) (f g)) = s0 o -> forall g, g < m -> f g = s0 o) ->
  orthonormal o N off n V -> orthonormal o N off n X -> spanned o N n (from off V) (from off X) -> spanned o N n (from off X) (from off V).
Proof.
  intros DEF HV HX [T HT]. assert (TT : forall r c, r < n -> c < n -> mprod o n (ctrans o T) T r c = delta o r c).
  { intros r c Hr Hc. rewrite <- (HX r c Hr Hc).
    rewrite (mprod_ext o N (ctrans o (from off X)) (mprod o n (ctrans o T) (ctrans o (from off V))) (from off X) (mprod o n (from off V) T)).
    - rewrite (mprod_assoc o RT). apply mprod_ext; auto. intros k Hk. rewrite <- (mprod_assoc o RT).
      rewrite <- (delta_l o RT n T k c Hk) at 1. apply mprod_ext; auto. intros l Hl. symmetry. now apply HV.
    - intros k Hk. rewrite <- (ctrans_mprod o RT CJ). unfold ctrans. now rewrite HT.
    - intros k Hk. now apply HT. }
  exists (ctrans o T). intros g c Hg Hc.
  rewrite (mprod_ext o n (from off X) (mprod o n (from off V) T) (ctrans o T) (ctrans o T)); auto.
  rewrite (mprod_assoc o RT). rewrite <- (delta_r o RT n (from off V) g c Hc) at 1. apply mprod_ext; auto.
  intros k Hk. symmetry. now apply (rows_orthonormal o RT CJ DEF n T TT).
Qed.

Theorem rayleigh_ritz_space : forall D (o : sops D), is_ring o -> forall N p q mb nb rsrc csrc nevex ldh G, layout N p q mb nb rsrc csrc ->
  forall s, stores_grid p q (owned N mb p rsrc) (owned N nb q csrc) ldh G (fun i j => l_H (s i j)) ->
  is_conj o -> packable N p q mb nb rsrc csrc -> hermitian o N G -> forall block locked V,
  (forall i j, i < p -> j < q -> holds (owned N mb p rsrc i) locked block (length (owned N mb p rsrc i)) V (l_C (s i j))) ->
  (forall i j, i < p -> j < q -> holds (owned N mb p rsrc i) locked block (length (owned N mb p rsrc i)) V (l_C2 (s i j))) ->
  (forall i j, i < p -> j < q -> length (owned N mb p rsrc i) * (locked + block) <= length (l_C (s i j))) ->
  (forall i j, i < p -> j < q -> length (owned N mb p rsrc i) * (locked + block) <= length (l_C2 (s i j))) ->
  (forall i j, i < p -> j < q -> length (owned N nb q csrc j) * (locked + block) <= length (l_B (s i j))) ->
  (forall i j, i < p -> j < q -> length (owned N nb q csrc j) * (locked + block) <= length (l_B2 (s i j))) ->
  (forall j, j < q -> (Z.of_nat (length (owned N nb q csrc j) * block) < 2 ^ 31)%Z) ->
  forall ev, locked + block = nevex -> (Z.of_nat (nevex * block) < 2 ^ 31)%Z ->
  (forall i j, i < p -> j < q -> nevex * block <= length (l_A (s i j))) ->
  orthonormal o N locked block V ->
  let M := mprod o N (ctrans o (from locked V)) (mprod o N G (from locked V)) in
  eigen o block M (ev block (entries lower block M)) ->
  exists X w, orthonormal o N locked block X /\
    (forall r c, r < block -> c < block -> mprod o N (ctrans o (from locked X)) (mprod o N G (from locked X)) r c = if r =? c then w c else s0 o) /\
    spanned o N block (from locked V) (from locked X) /\
    ((forall m f, bsum (s0 o) (sadd o) m (fun g => smul o (scj o (f g)) (f g)) = s0 o -> forall g, g < m -> f g = s0 o) ->
     spanned o N block (from locked X) (from locked V)) /\
    completes (sadd o) p q (fun i j r =>
      only_columns (owned N mb p rsrc i) locked block X (l_C (s i j)) (l_C (fst r)) /\
      only_columns (owned N mb p rsrc i) locked block X (l_C2 (s i j)) (l_C2 (fst r)) /\
      snd r = map w (seq 0 block) /\ l_H (fst r) = l_H (s i j))
    (fun i j => rr o ev (bc_env N p q mb nb rsrc csrc (ldh i j) nevex i j) block locked (s i j)).
Proof.
  intros D o RT N p q mb nb rsrc csrc nevex ldh G HL s HS CJ HP HG block locked V HV HV2 LC LC2 LB LB2 Hc ev E Hn HA HO M HE.
  destruct (rayleigh_ritz o RT N p q mb nb rsrc csrc nevex ldh G HL s HS CJ HP HG block locked V HV HV2 LC LC2 LB LB2 Hc ev E Hn HA HO HE) as (X & w & A1 & A2 & A3 & A4).
  exists X, w. split; [exact A1|]. split; [exact A2|]. split; [exact A3|]. split; [|exact A4].
  intros DEF. now apply (spanned_back o RT CJ).
Qed.

(** ** C32 and C30 *)
Lemma mirrored_passes_seq {D} (o : sops D) (RT : is_ring o) : is_conj o -> forall eqb upper N ld G (H v : list D), (forall a, eqb a a = true) -> N <= ld ->
  stores (seq 0 N) (seq 0 N) ld G H -> (forall g, g < N -> G g g = scj o (G g g)) -> N <= length v ->
  exists H', seq_symherm (scj o) upper N ld H = Ok H' /\ check_sym_seq o eqb N ld H' v = Ok true.
Proof.
  intros CJ eqb upper N ld G H v Heq Hld HS HD Hv.
  destruct (seq_symherm_spec (scj o) upper N ld G H Hld HS) as (H' & E & _ & HS' & _). exists H'. split; [exact E|].
  set (G' := fun g h => if (if upper then h <? g else g <? h) then scj o (G h g) else G g h) in HS'.
  assert (HH : hermitian o N G').
  { intros r c Hr Hc. unfold G'. destruct upper; destruct (Nat.ltb_spec c r), (Nat.ltb_spec r c); try lia; rewrite ?(cj_cj o CJ); auto;
      (replace c with r by lia; now apply HD). }
  rewrite (check_sym_seq_forallb o RT eqb N ld H' v G' (fun h => nth h v (s0 o))).
  - f_equal. apply forallb_forall. intros g Hg. apply in_seq in Hg.
    rewrite (mprod_ext o N (ctrans o G') G' (fun h _ => nth h v (s0 o)) (fun h _ => nth h v (s0 o))); auto.
    intros k Hk. unfold ctrans. symmetry. apply HH; lia.
  - intros g h Hg Hh. apply HS'; rewrite nth_error_nth' with (d := 0) by (rewrite seq_length; lia); now rewrite seq_nth by lia.
  - intros h Hh. apply nth_error_nth'. lia.
Qed.
Lemma mirrored_passes_grid {D} (o : sops D) (RT : is_ring o) (half : D -> D) : is_conj o -> forall N mb nb p q upper (R C : nat -> dim) G (s : nat -> nat -> loc) nevex x far,
  let rows := owned N mb p 0 in let cols := owned N nb q 0 in let ld i (j : nat) := length (rows i) in
  layout N p q mb nb 0 0 -> (forall a, far a a = false) ->
  (forall i, i < p -> bc_ctor N mb p 0 i = Ok (R i)) -> (forall j, j < q -> bc_ctor N nb q 0 j = Ok (C j)) ->
  (forall i, i < p -> (Z.of_nat (length (rows i)) < 2 ^ 31)%Z) -> (forall j, j < q -> (Z.of_nat (length (cols j)) < 2 ^ 31)%Z) ->
  forall H, stores_grid p q rows cols ld G H ->
  exists H1 H2, (forall i j, i < p -> j < q -> dist_triangle half (s0 o) upper (R i) (C j) (ld i j) (H i j) = Ok (H1 i j)) /\
    (forall i j, i < p -> j < q ->
       dist_symherm_finish (scj o) (sadd o) (s0 o) mb nb p q ld H1 (rows i) (cols j) i j (length (rows i)) (length (cols j)) = Ok (H2 i j)) /\
    ((forall i j, i < p -> j < q -> l_H (s i j) = H2 i j) ->
     completes (sadd o) p q (fun i j b => b = true)
       (fun i j => check_sym o far (bc_env N p q mb nb 0 0 (ld i j) nevex i j) (map x (rows i)) (s i j))).
Proof.
  intros CJ N mb nb p q upper R C G s nevex x far rows cols ld HL Hf HR HC B1 B2 H HS.
  assert (Hb : 0 < mb /\ 0 < nb /\ 0 < p /\ 0 < q) by (destruct HL; tauto). destruct Hb as (Q1 & Q2 & Q3 & Q4).
  destruct (dist_symherm_grid half (scj o) (sadd o) (s0 o) N mb nb p q upper R C G H Q1 Q2 Q3 Q4) as (H1 & H2 & A1 & A2 & A3); auto.
  { intros a. rewrite (cj_0 o RT CJ). now rewrite (Radd_comm RT), (Radd_0_l RT). }
  { intros a. apply (Radd_0_l RT). }
  exists H1, H2. split; [exact A1|]. split; [exact A2|]. intros Hs. eapply sym_accepts; eauto.
  - intros i j Hi Hj. rewrite Hs by auto. now apply A3.
  - intros r c Hr Hc. cbv beta. rewrite (Nat.eqb_sym c r). destruct (Nat.eqb_spec r c) as [<-|Hne].
    + rewrite (cj_add o CJ), (cj_cj o CJ). apply (Radd_comm RT).
    + destruct upper; destruct (Nat.ltb_spec c r), (Nat.ltb_spec r c); try lia; rewrite ?(cj_cj o CJ); auto.
Qed.
