(** The kernels' results in terms of global linear algebra. *)
From Coq Require Import List Arith Bool ZArith Lia Ring_theory Ring.
Require Import Verif.Base Verif.DistModel Verif.DistSpec Verif.DistProofs2 Verif.RedistSpec Verif.FlatSpec.
Require Import Verif.SpmdModel Verif.SpmdSpec Verif.SpmdProofs Verif.SpmdProofs2 Verif.KerModel Verif.KerSpec Verif.KerProofs1 Verif.KerProofs9 Verif.KerAlg Verif.KerProofs10.
Import ListNotations.

(** ** C44: counts *)
Lemma cast_int_exact x : (- 2 ^ 31 <= x < 2 ^ 31)%Z <-> cast_int x = x.
Proof.
  unfold cast_int. split.
  - intros H. rewrite Z.mod_small by lia. lia.
  - intros H. pose proof (Z.mod_pos_bound (x + 2 ^ 31) (2 ^ 32) ltac:(lia)). lia.
Qed.
Lemma mpi_count_exact dim : mpi_count dim = Z.of_nat dim <-> (Z.of_nat dim < 2 ^ 31)%Z.
Proof. unfold mpi_count. rewrite <- cast_int_exact. lia. Qed.
Lemma nccl_count_exact factor dim : 0 < factor ->
  (nccl_count factor dim = Some (Z.of_nat (factor * dim)) <-> (Z.of_nat (factor * dim) < 2 ^ 31)%Z).
Proof.
  intros Hf. unfold nccl_count. split.
  - destruct (_ && _) eqn:E; [|discriminate]. intros H. injection H as H. rewrite H in E. apply andb_prop in E as [_ E]. now apply Z.ltb_lt in E.
  - intros H. assert (E : mpi_count dim = Z.of_nat dim) by (apply mpi_count_exact; nia). rewrite E, <- Nat2Z.inj_mul.
    rewrite (proj2 (Z.leb_le _ _)), (proj2 (Z.ltb_lt _ _)) by lia. reflexivity.
Qed.
(** one member's call: the whole block takes part in the reduction exactly when the count fits *)
Lemma all_reduce_whole {D} c (buf : list D) off dim : off + dim <= length buf ->
  ((exists k, all_reduce c buf off dim = Call c (ASum (firstn dim (skipn off buf))) k) <-> (Z.of_nat dim < 2 ^ 31)%Z).
Proof.
  intros Hl. unfold all_reduce, get_range. split.
  - intros [k E]. apply mpi_count_exact. destruct (Z.ltb_spec (mpi_count dim) 0) as [|Hc]; [discriminate|].
    destruct (_ <=? _) eqn:Eb; [|discriminate]. injection E as E1 _.
    apply (f_equal (@length D)) in E1. rewrite !firstn_length, skipn_length in E1. apply Nat.leb_le in Eb. lia.
  - intros H. apply mpi_count_exact in H. rewrite H. destruct (Z.ltb_spec (Z.of_nat dim) 0) as [|_]; [lia|]. rewrite Nat2Z.id.
    rewrite (proj2 (Nat.leb_le _ _) Hl). eauto.
Qed.

Lemma only_columns_ext {D} rows off block (V V' : nat -> nat -> D) buf buf' : (forall g c, In g rows -> off <= c < off + block -> V g c = V' g c) ->
  only_columns rows off block V buf buf' -> only_columns rows off block V' buf buf'.
Proof.
  intros E (H1 & H2 & H3). split; [exact H1|]. split; [|exact H3]. intros a g c Ha Hc. rewrite <- E; auto. now apply nth_error_In in Ha.
Qed.
Lemma axpby_herm {D} (o : sops D) N alpha beta G V W g c : hermitian o N G -> g < N ->
  axpby o N alpha beta (ctrans o G) V W g c = axpby o N alpha beta G V W g c.
Proof. intros H Hg. unfold axpby. f_equal. f_equal. apply bsum_ext. intros h Hh. unfold ctrans. now rewrite <- H. Qed.

Section Global.
Context {D : Type} (o : sops D) (RT : is_ring o).
Let rsub (x y : D) : D := sadd o x (sopp o y).
Let RT' : ring_theory (s0 o) (s1 o) (sadd o) (smul o) rsub (sopp o) eq := RT.
Add Ring Rr : RT'.
Variables (N p q mb nb rsrc csrc nevex : nat) (ldh : nat -> nat -> nat) (G : nat -> nat -> D).
Hypothesis HL : layout N p q mb nb rsrc csrc.
Notation rows := (owned N mb p rsrc).
Notation cols := (owned N nb q csrc).
Notation env i j := (bc_env N p q mb nb rsrc csrc (ldh i j) nevex i j).
Variables (s : nat -> nat -> loc (D := D)).
Hypothesis HH : stores_grid p q rows cols ldh G (fun i j => l_H (s i j)).

Theorem herm_bAc alpha beta offset block locked V W :
  let off := locked + offset in hermitian o N G ->
  (forall i j, i < p -> j < q -> l_bAc (s i j) = true /\ l_bAc_dla (s i j) = true) ->
  (forall j, j < q -> (Z.of_nat (length (cols j) * block) < 2 ^ 31)%Z) ->
  (forall i j, i < p -> j < q -> holds (rows i) off block (length (rows i)) V (l_C (s i j))) ->
  (forall i j, i < p -> j < q -> length (cols j) * (off + block) <= length (l_B (s i j))) ->
  (beta = s0 o \/ forall j, j < q -> holds (cols j) off block (length (cols j)) W (l_B (s 0 j))) ->
  completes (sadd o) p q (fun i j s' => only_columns (cols j) off block (axpby o N alpha beta G V W) (l_B (s i j)) (l_B s') /\
      s' = mk_loc (l_H (s i j)) (l_C (s i j)) (l_C2 (s i j)) (l_B s') (l_B2 (s i j)) (l_A (s i j)) false false)
    (fun i j => apply o (env i j) alpha beta offset block locked (s i j)).
Proof.
  intros off HG H1 H2 H3 H4 H5. eapply completes_mono; [|apply (lay_hemm_bAc o RT N p q mb nb rsrc csrc nevex ldh G HL s HH alpha beta offset block locked V W); auto].
  intros i j s' Hi Hj [E1 E2]. split; [|exact E2]. eapply only_columns_ext; [|exact E1]. intros g c Hg Hc. apply axpby_herm; auto. apply in_owned in Hg. tauto.
Qed.

(** ** C30 *)
Theorem sym_accepts x far : (forall a, far a a = false) -> hermitian o N G ->
  (forall i, i < p -> (Z.of_nat (length (rows i)) < 2 ^ 31)%Z) -> (forall j, j < q -> (Z.of_nat (length (cols j)) < 2 ^ 31)%Z) ->
  completes (sadd o) p q (fun i j b => b = true) (fun i j => check_sym o far (env i j) (map x (rows i)) (s i j)).
Proof.
  intros Hf HG H1 H2. eapply completes_mono; [|apply (lay_check_sym o RT N p q mb nb rsrc csrc nevex ldh G HL s HH x far); auto].
  intros i j b Hi Hj ->. now apply verdict_hermitian.
Qed.
Theorem sym_decides x far : (forall a b, far a b = false <-> a = b) ->
  (forall i, i < p -> (Z.of_nat (length (rows i)) < 2 ^ 31)%Z) -> (forall j, j < q -> (Z.of_nat (length (cols j)) < 2 ^ 31)%Z) ->
  completes (sadd o) p q (fun i j b => b = true <-> forall g, g < N ->
      bsum (s0 o) (sadd o) N (fun h => smul o (sadd o (G g h) (sopp o (scj o (G h g)))) (x h)) = s0 o)
    (fun i j => check_sym o far (env i j) (map x (rows i)) (s i j)).
Proof.
  intros Hf H1 H2. eapply completes_mono; [|apply (lay_check_sym o RT N p q mb nb rsrc csrc nevex ldh G HL s HH x far); auto].
  intros i j b Hi Hj ->. now apply verdict_iff.
Qed.

(** ** C45 *)
Section QR.
Hypothesis CJ : is_conj o.
Variables (pos : D -> Prop) (HP : positive o pos) (po : chol (D := D)) (tri : solver (D := D)).
Hypotheses (HC : exact_cholesky o pos po) (HT : exact_solver o tri).
Variable V : nat -> nat -> D.
Hypothesis Hn : (Z.of_nat (nevex * nevex) < 2 ^ 31)%Z.
Hypothesis HV : forall i j, i < p -> j < q -> holds (rows i) 0 nevex (length (rows i)) V (l_C (s i j)) /\ length (rows i) * nevex <= length (l_C (s i j)) /\ nevex * nevex <= length (l_A (s i j)).
Definition qr_ok (r : Z * (nat -> nat -> D)) : Prop :=
  (fst r = 0%Z -> orthonormal o N 0 nevex (snd r) /\ spanned o N nevex (snd r) V /\ spanned o N nevex V (snd r) /\
      forall k, k <= nevex -> orthonormal o N 0 k V -> forall g c, c < k -> snd r g c = V g c) /\
  (fst r <> 0%Z -> snd r = V).
Theorem chol1_ok : exists r, qr_ok r /\
  completes (sadd o) p q (fun i j => qr_result nevex (rows i) r (s i j)) (fun i j => cholQR1 o po tri (env i j) (s i j)).
Proof.
  exists (qr1 o N nevex po tri V). split; [|now apply (lay_qr1 o RT N p q mb nb rsrc csrc nevex ldh HL s po tri V Hn HV)].
  destruct (qr1_good o RT CJ pos HP po tri HC HT N nevex V) as [H1 H2]. split; auto.
  intros E. destruct (H1 E) as [(A1 & A2 & A3) A4]. auto.
Qed.
Theorem chol2_ok : exists r, qr_ok r /\
  completes (sadd o) p q (fun i j => qr_result nevex (rows i) r (s i j)) (fun i j => cholQR2 o po tri (env i j) (s i j)).
Proof.
  exists (qr2 o N nevex po tri V). split; [|now apply (lay_qr2 o RT N p q mb nb rsrc csrc nevex ldh HL s po tri V Hn HV)].
  destruct (qr2_good o RT CJ pos HP po tri HC HT N nevex V) as [H1 H2]. split; auto.
  intros E. destruct (H1 E) as [(A1 & A2 & A3) A4]. auto.
Qed.
Theorem schol2_ok shift : (forall d, scj o (shift d) = shift d) -> exists r : Z * (nat -> nat -> D),
  (fst r = 0%Z -> orthonormal o N 0 nevex (snd r)) /\ spanned o N nevex V (snd r) /\ spanned o N nevex (snd r) V /\
  completes (sadd o) p q (fun i j => qr_result nevex (rows i) r (s i j)) (fun i j => shiftedcholQR2 o po tri shift (env i j) (s i j)).
Proof.
  intros Hs. exists (sqr2 o N nevex po tri shift V).
  destruct (sqr2_good o RT CJ pos HP po tri HC HT N nevex shift V Hs) as (H1 & H2 & H3).
  split; [intros E; apply (H1 E)|]. split; [exact H2|]. split; [exact H3|]. now apply (lay_sqr2 o RT N p q mb nb rsrc csrc nevex ldh HL s po tri V Hn HV).
Qed.
End QR.

(** ** C46 *)
Section RR.
Hypothesis CJ : is_conj o.
Hypothesis HP : packable N p q mb nb rsrc csrc.
Hypothesis HG : hermitian o N G.
Variables (block locked : nat) (V : nat -> nat -> D).
Hypothesis HV : forall i j, i < p -> j < q -> holds (rows i) locked block (length (rows i)) V (l_C (s i j)).
Hypothesis HV2 : forall i j, i < p -> j < q -> holds (rows i) locked block (length (rows i)) V (l_C2 (s i j)).
Hypothesis LC : forall i j, i < p -> j < q -> length (rows i) * (locked + block) <= length (l_C (s i j)).
Hypothesis LC2 : forall i j, i < p -> j < q -> length (rows i) * (locked + block) <= length (l_C2 (s i j)).
Hypothesis LB : forall i j, i < p -> j < q -> length (cols j) * (locked + block) <= length (l_B (s i j)).
Hypothesis LB2 : forall i j, i < p -> j < q -> length (cols j) * (locked + block) <= length (l_B2 (s i j)).
Hypothesis Hcnt : forall j, j < q -> (Z.of_nat (length (cols j) * block) < 2 ^ 31)%Z.

Theorem rayleigh_ritz ev : locked + block = nevex -> (Z.of_nat (nevex * block) < 2 ^ 31)%Z ->
  (forall i j, i < p -> j < q -> nevex * block <= length (l_A (s i j))) ->
  orthonormal o N locked block V ->
  let M := mprod o N (ctrans o (from locked V)) (mprod o N G (from locked V)) in
  eigen o block M (ev block (entries lower block M)) ->
  exists X w, orthonormal o N locked block X /\
    (forall r c, r < block -> c < block -> mprod o N (ctrans o (from locked X)) (mprod o N G (from locked X)) r c = if r =? c then w c else s0 o) /\
    spanned o N block (from locked V) (from locked X) /\
    completes (sadd o) p q (fun i j r =>
      only_columns (rows i) locked block X (l_C (s i j)) (l_C (fst r)) /\ only_columns (rows i) locked block X (l_C2 (s i j)) (l_C2 (fst r)) /\
      snd r = map w (seq 0 block) /\ l_H (fst r) = l_H (s i j))
    (fun i j => rr o ev (env i j) block locked (s i j)).
Proof.
  intros H1 H2 H3 HO M HE.
  assert (EM : forall r c, r < block -> c < block -> ritz_matrix o N G locked V V r c = M r c).
  { intros r c Hr Hc. unfold ritz_matrix, M. apply mprod_ext; auto. intros g Hg. unfold from at 1. unfold mprod. apply bsum_ext. intros h Hh.
    unfold ctrans. now rewrite <- HG. }
  assert (EE : entries lower block (ritz_matrix o N G locked V V) = entries lower block M).
  { unfold entries. rewrite !flat_map_concat_map. f_equal. apply map_ext_in. intros c Hc. apply in_seq in Hc. apply map_ext_in. intros r Hr.
    apply filter_In in Hr as [Hr _]. apply in_seq in Hr. apply EM; lia. }
  set (zw := ev block (entries lower block M)) in *.
  set (X := fun g c => mprod o block (from locked V) (fst zw) g (c - locked)).
  assert (EX : forall g c, from locked X g c = mprod o block (from locked V) (fst zw) g c) by (intros; unfold from at 1, X; f_equal; lia).
  exists X, (snd zw).
  assert (HE' : eigen o block (mprod o N (ctrans o (from locked V)) (mprod o N (ctrans o G) (from locked V))) zw).
  { destruct HE as [A1 A2]. split; auto. intros r c Hr Hc. rewrite <- A2 by auto. apply mprod_ext; auto. intros k Hk. apply mprod_ext; auto. intros l Hl.
    apply EM; auto. }
  split; [|split; [|split]].
  - intros r c Hr Hc. pose proof (ritz_orthonormal o RT CJ zw N block G (from locked V) HE') as A.
    rewrite <- (A (fun r c Hr Hc => HO r c Hr Hc) r c Hr Hc). apply mprod_ext; intros k Hk; unfold ctrans; now rewrite ?EX.
  - intros r c Hr Hc. rewrite <- (ritz_diagonal o RT CJ zw N block G (from locked V) HG HE' r c Hr Hc). apply mprod_ext.
    + intros k Hk. unfold ctrans. now rewrite EX.
    + intros k Hk. apply mprod_ext; auto.
  - exists (fst zw). intros g c Hg Hc. apply EX.
  - eapply completes_mono; [|apply (lay_rr o RT N p q mb nb rsrc csrc nevex ldh G HL s HH HP block locked V V HV HV2 LC LC2 LB LB2 Hcnt ev H1 H2 H3)].
    rewrite EE. fold zw. intros i j r Hi Hj (A1 & A2 & A3 & _ & _ & _ & _ & _ & A4). auto.
Qed.

(** a zero residual means an exact eigenpair *)
Theorem zero_residual sqrt (ritzv : list D) (lam : nat -> D) : (Z.of_nat block < 2 ^ 31)%Z ->
  (forall c, c < block -> nth_error ritzv c = Some (lam c)) ->
  (forall x, sqrt x = s0 o -> x = s0 o) ->
  (forall f, bsum (s0 o) (sadd o) N (fun g => smul o (scj o (f g)) (f g)) = s0 o -> forall g, g < N -> f g = s0 o) ->
  exists res, (forall c, c < block -> res c = s0 o -> forall g, g < N -> mprod o N G V g (locked + c) = smul o (lam c) (V g (locked + c))) /\
    completes (sadd o) p q (fun i j r => snd r = map res (seq 0 block) /\ l_C (fst r) = l_C (s i j) /\ l_C2 (fst r) = l_C2 (s i j))
      (fun i j => resd o sqrt (env i j) ritzv locked block (s i j)).
Proof.
  intros H1 H2 Hs Hd. set (v := resvec o N G lam locked V V).
  exists (fun c => sqrt (bsum (s0 o) (sadd o) N (fun g => smul o (scj o (v g c)) (v g c)))). split.
  - intros c Hc E g Hg. apply Hs in E. pose proof (Hd (fun g => v g c) E g Hg) as F. cbv beta in F. unfold v, resvec in F.
    replace (mprod o N G V g (locked + c)) with (mprod o N (ctrans o G) V g (locked + c)) by (apply mprod_ext; auto; intros; unfold ctrans; now rewrite <- HG).
    set (a := mprod o N (ctrans o G) V g (locked + c)) in *. set (b := V g (locked + c)) in *.
    transitivity (sadd o (sadd o a (smul o (sopp o (lam c)) b)) (smul o (lam c) b)); [ring|]. rewrite F. ring.
  - eapply completes_mono; [|apply (lay_resd o RT N p q mb nb rsrc csrc nevex ldh G HL s HH HP block locked V V HV HV2 LC2 LB LB2 Hcnt sqrt ritzv lam H1 H2)].
    intros i j r Hi Hj (A1 & _ & A2 & A3 & _). auto.
Qed.
End RR.
End Global.
