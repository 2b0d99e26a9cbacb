(** Block-cyclic layouts on the process grid. *)
From Coq Require Import List Arith Bool ZArith Lia Ring_theory Ring Permutation.
Require Import Verif.Base Verif.DistModel Verif.DistSpec Verif.DistProofs Verif.DistProofs2 Verif.FlatModel Verif.FlatSpec Verif.FlatProofs Verif.FlatProofs2 Verif.FlatProofs3.
Require Import Verif.RedistModel Verif.RedistSpec Verif.RedistProofs Verif.RedistProofs2.
Require Import Verif.SpmdModel Verif.SpmdSpec Verif.SpmdProofs Verif.SpmdProofs2.
Require Import Verif.KerModel Verif.KerSpec Verif.KerProofs1 Verif.KerProofs2 Verif.KerProofs3 Verif.KerProofs4 Verif.KerProofs5 Verif.KerProofs6 Verif.KerProofs7 Verif.KerProofs8.
Import ListNotations.

Lemma step_eqv {D A} (add : D -> D -> D) p q (st st1 st' : gstate D A) : (forall i j, i < p -> j < q -> st i j = st1 i j) ->
  step add p q st st' -> step add p q st1 st'.
Proof.
  intros E H. destruct H as [c x acts r st st' Hx Ho Hr He]. apply (fire add p q c x acts r); auto.
  - rewrite <- Ho. f_equal. symmetry. apply members_eqv; auto.
  - intros i j Hi Hj. rewrite He by auto. now rewrite E.
Qed.
Lemma completes_eqv {D A} (add : D -> D -> D) p q (Q : nat -> nat -> A -> Prop) st st' : (forall i j, i < p -> j < q -> st i j = st' i j) ->
  completes add p q Q st -> completes add p q Q st'.
Proof.
  intros E H. destruct H as [Hd|[st1 H1] H2].
  - apply all_done. intros i j Hi Hj. rewrite <- E by auto. auto.
  - apply go_on.
    + exists st1. eapply step_eqv; eauto.
    + intros st2 Hs. apply H2. eapply step_eqv; [|exact Hs]. intros; symmetry; auto.
Qed.
Lemma completes_mono {D A} (add : D -> D -> D) p q (Q Q' : nat -> nat -> A -> Prop) st : (forall i j a, i < p -> j < q -> Q i j a -> Q' i j a) ->
  completes add p q Q st -> completes add p q Q' st.
Proof.
  intros E H. induction H as [st Hd|st H1 H2 IH].
  - apply all_done. intros i j Hi Hj. destruct (Hd i j Hi Hj) as (a & Ea & Ha). eauto.
  - apply go_on; auto.
Qed.

Section Layout.
Variables (N p q mb nb rsrc csrc : nat).
Hypothesis HL : layout N p q mb nb rsrc csrc.
Notation rows := (owned N mb p rsrc).
Notation cols := (owned N nb q csrc).
Definition lay_same : bool := (q =? p) && (rsrc =? csrc) && (mb =? nb).
Definition lay_c2b : list run := if lay_same then runs_same (bc_send_lens N mb p rsrc) else runs N mb p rsrc nb q csrc.
Definition lay_b2c : list run := if lay_same then runs_same (bc_send_lens N nb q csrc) else runs N nb q csrc mb p rsrc.

Lemma lay_pos : 0 < p /\ 0 < q /\ 0 < N.
Proof.
  destruct HL as (_ & _ & H1 & H2 & H3 & _). split; [lia|]. split; [lia|]. destruct N; [|lia]. exfalso. apply (H3 rsrc H1). reflexivity.
Qed.
Lemma lay_rows_ne i : i < p -> 0 < length (rows i).
Proof. intros Hi. destruct HL as (_ & _ & _ & _ & H3 & _). specialize (H3 i Hi). destruct (rows i); [congruence|simpl; lia]. Qed.
Lemma lay_cols_ne j : j < q -> 0 < length (cols j).
Proof. intros Hj. destruct HL as (_ & _ & _ & _ & _ & H3 & _). specialize (H3 j Hj). destruct (cols j); [congruence|simpl; lia]. Qed.
Lemma lay_splits_r : splits N p rows.
Proof. apply splits_owned. apply lay_pos. Qed.
Lemma lay_splits_c : splits N q cols.
Proof. apply splits_owned. apply lay_pos. Qed.
Lemma lay_same_spec : lay_same = true -> q = p /\ rsrc = csrc /\ mb = nb.
Proof. unfold lay_same. intros H. apply andb_prop in H as [H H3]. apply andb_prop in H as [H1 H2]. apply Nat.eqb_eq in H1, H2, H3. auto. Qed.
Lemma lay_same_false : lay_same = false -> rsrc = 0 /\ csrc = 0.
Proof.
  intros H. destruct HL as (_ & _ & _ & _ & _ & _ & [(E1 & E2 & E3)|E]); auto. exfalso. unfold lay_same in H. rewrite E1, E2, E3, !Nat.eqb_refl in H. discriminate.
Qed.
Lemma send_lens_length n b d src : length (bc_send_lens n b d src) = d.
Proof. unfold bc_send_lens. now rewrite map_length, seq_length. Qed.
Lemma send_lens_nth n b d src i : 0 < b -> src < d -> i < d -> nth_error (bc_send_lens n b d src) i = Some (length (owned n b d src i)).
Proof.
  intros Hb Hs Hi. unfold bc_send_lens. rewrite nth_error_map, (proj2 (nth_error_seq 0 d i i)) by lia. cbn [option_map]. f_equal. now apply numroc_counts.
Qed.
Lemma lay_c2b_ok j : j < q -> schedule p rows (cols j) j lay_c2b.
Proof.
  intros Hj. destruct HL as (H1 & H2 & H3 & H4 & H5 & H6 & H7). destruct lay_pos as (Hp & Hq & HN). unfold lay_c2b. destruct lay_same eqn:E.
  - destruct (lay_same_spec E) as (E1 & E2 & E3). clear E. subst q csrc nb. apply schedule_same; auto; [apply send_lens_length|].
    intros i Hi. now apply send_lens_nth.
  - destruct (lay_same_false E) as [-> ->]. now apply schedule_runs.
Qed.
Lemma lay_b2c_ok i : i < p -> schedule q cols (rows i) i lay_b2c.
Proof.
  intros Hi. destruct HL as (H1 & H2 & H3 & H4 & H5 & H6 & H7). destruct lay_pos as (Hp & Hq & HN). unfold lay_b2c. destruct lay_same eqn:E.
  - destruct (lay_same_spec E) as (E1 & E2 & E3). clear E. subst q csrc nb. apply schedule_same; auto; [apply send_lens_length|].
    intros k Hk. now apply send_lens_nth.
  - destruct (lay_same_false E) as [-> ->]. now apply schedule_runs.
Qed.
Lemma lay_same_ok : lay_same = true -> p = q /\ forall i, i < p -> rows i = cols i.
Proof. intros E. destruct (lay_same_spec E) as (E1 & E2 & E3). clear E. subst. auto. Qed.
Lemma lay_pk : packable N p q mb nb rsrc csrc -> lay_same = false -> forall i i', i < p -> i' < p -> length (rows i) = length (rows i').
Proof. intros [(E1 & E2 & E3)|H] E; auto. exfalso. unfold lay_same in E. rewrite E1, E2, E3, !Nat.eqb_refl in E. discriminate. Qed.
Lemma bc_genv (ldh : nat -> nat -> nat) nevex i j : i < p -> j < q ->
  genv nevex lay_same lay_c2b lay_b2c rows cols ldh i j = bc_env N p q mb nb rsrc csrc (ldh i j) nevex i j.
Proof.
  intros Hi Hj. destruct HL as (H1 & H2 & H3 & H4 & _). unfold genv, bc_env. rewrite (numroc_counts N mb p rsrc i), (numroc_counts N nb q csrc j) by auto. reflexivity.
Qed.
End Layout.

Section Kernels.
Context {D : Type} (o : sops D) (RT : is_ring o).
Variables (N p q mb nb rsrc csrc nevex : nat) (ldh : nat -> nat -> nat) (G : nat -> nat -> D).
Hypothesis HL : layout N p q mb nb rsrc csrc.
Notation rows := (owned N mb p rsrc).
Notation cols := (owned N nb q csrc).
Notation env i j := (bc_env N p q mb nb rsrc csrc (ldh i j) nevex i j).
Variables (s : nat -> nat -> loc (D := D)).
Hypothesis HH : stores_grid p q rows cols ldh G (fun i j => l_H (s i j)).

Theorem lay_hemm_bAc alpha beta offset block locked V W :
  let off := locked + offset in
  (forall i j, i < p -> j < q -> l_bAc (s i j) = true /\ l_bAc_dla (s i j) = true) ->
  (forall j, j < q -> (Z.of_nat (length (cols j) * block) < 2 ^ 31)%Z) ->
  (forall i j, i < p -> j < q -> holds (rows i) off block (length (rows i)) V (l_C (s i j))) ->
  (forall i j, i < p -> j < q -> length (cols j) * (off + block) <= length (l_B (s i j))) ->
  (beta = s0 o \/ forall j, j < q -> holds (cols j) off block (length (cols j)) W (l_B (s 0 j))) ->
  completes (sadd o) p q (fun i j s' => only_columns (cols j) off block (axpby o N alpha beta (ctrans o G) V W) (l_B (s i j)) (l_B s') /\
      s' = mk_loc (l_H (s i j)) (l_C (s i j)) (l_C2 (s i j)) (l_B s') (l_B2 (s i j)) (l_A (s i j)) false false)
    (fun i j => apply o (env i j) alpha beta offset block locked (s i j)).
Proof.
  intros off H1 H2 H3 H4 H5. destruct (lay_pos _ _ _ _ _ _ _ HL) as (Hp & Hq & HN). eapply completes_eqv; [intros i j Hi Hj; rewrite <- (bc_genv _ _ _ _ _ _ _ HL ldh nevex i j Hi Hj); reflexivity|].
  apply (hemm_bAc o RT N p q nevex _ _ _ rows cols ldh G Hp Hq); auto. apply (lay_splits_r _ _ _ _ _ _ _ HL).
Qed.
Theorem lay_hemm_cAb alpha beta offset block locked V W :
  let off := locked + offset in
  (forall i j, i < p -> j < q -> l_bAc (s i j) = false /\ l_bAc_dla (s i j) = false) ->
  (forall i, i < p -> (Z.of_nat (length (rows i) * block) < 2 ^ 31)%Z) ->
  (forall i j, i < p -> j < q -> holds (cols j) off block (length (cols j)) V (l_B (s i j))) ->
  (forall i j, i < p -> j < q -> length (rows i) * (off + block) <= length (l_C (s i j))) ->
  (beta = s0 o \/ forall i, i < p -> holds (rows i) off block (length (rows i)) W (l_C (s i 0))) ->
  completes (sadd o) p q (fun i j s' => only_columns (rows i) off block (axpby o N alpha beta G V W) (l_C (s i j)) (l_C s') /\
      s' = mk_loc (l_H (s i j)) (l_C s') (l_C2 (s i j)) (l_B (s i j)) (l_B2 (s i j)) (l_A (s i j)) true true)
    (fun i j => apply o (env i j) alpha beta offset block locked (s i j)).
Proof.
  intros off H1 H2 H3 H4 H5. destruct (lay_pos _ _ _ _ _ _ _ HL) as (Hp & Hq & HN). eapply completes_eqv; [intros i j Hi Hj; rewrite <- (bc_genv _ _ _ _ _ _ _ HL ldh nevex i j Hi Hj); reflexivity|].
  apply (hemm_cAb o RT N p q nevex _ _ _ rows cols ldh G Hp Hq); auto. apply (lay_splits_c _ _ _ _ _ _ _ HL).
Qed.

Theorem lay_check_sym x far :
  (forall i, i < p -> (Z.of_nat (length (rows i)) < 2 ^ 31)%Z) -> (forall j, j < q -> (Z.of_nat (length (cols j)) < 2 ^ 31)%Z) ->
  completes (sadd o) p q (fun i j b => b = sym_verdict o N G x far) (fun i j => check_sym o far (env i j) (map x (rows i)) (s i j)).
Proof.
  intros H1 H2. destruct (lay_pos _ _ _ _ _ _ _ HL) as (Hp & Hq & HN). eapply completes_eqv; [intros i j Hi Hj; rewrite <- (bc_genv _ _ _ _ _ _ _ HL ldh nevex i j Hi Hj); reflexivity|].
  apply (check_sym_ok o RT N p q nevex _ _ _ rows cols ldh G Hp Hq); auto.
  - apply (lay_splits_r _ _ _ _ _ _ _ HL).
  - apply (lay_splits_c _ _ _ _ _ _ _ HL).
  - apply (lay_c2b_ok _ _ _ _ _ _ _ HL).
  - apply (lay_b2c_ok _ _ _ _ _ _ _ HL).
Qed.

Section RR.
Hypothesis HP : packable N p q mb nb rsrc csrc.
Variables (block locked : nat) (V W : nat -> nat -> D).
Hypothesis HV : forall i j, i < p -> j < q -> holds (rows i) locked block (length (rows i)) W (l_C (s i j)).
Hypothesis HV2 : forall i j, i < p -> j < q -> holds (rows i) locked block (length (rows i)) V (l_C2 (s i j)).
Hypothesis LC : forall i j, i < p -> j < q -> length (rows i) * (locked + block) <= length (l_C (s i j)).
Hypothesis LC2 : forall i j, i < p -> j < q -> length (rows i) * (locked + block) <= length (l_C2 (s i j)).
Hypothesis LB : forall i j, i < p -> j < q -> length (cols j) * (locked + block) <= length (l_B (s i j)).
Hypothesis LB2 : forall i j, i < p -> j < q -> length (cols j) * (locked + block) <= length (l_B2 (s i j)).
Hypothesis Hcnt : forall j, j < q -> (Z.of_nat (length (cols j) * block) < 2 ^ 31)%Z.

Theorem lay_rr ev : locked + block = nevex -> (Z.of_nat (nevex * block) < 2 ^ 31)%Z ->
  (forall i j, i < p -> j < q -> nevex * block <= length (l_A (s i j))) ->
  let zw := ev block (entries lower block (ritz_matrix o N G locked V W)) in
  let X := fun g c => mprod o block (from locked V) (fst zw) g (c - locked) in
  completes (sadd o) p q (fun i j r =>
      only_columns (rows i) locked block X (l_C (s i j)) (l_C (fst r)) /\ only_columns (rows i) locked block X (l_C2 (s i j)) (l_C2 (fst r)) /\
      l_H (fst r) = l_H (s i j) /\ l_bAc (fst r) = l_bAc (s i j) /\ l_bAc_dla (fst r) = l_bAc_dla (s i j) /\
      only_columns (cols j) locked block V (l_B2 (s i j)) (l_B2 (fst r)) /\
      only_columns (cols j) locked block (mprod o N (ctrans o G) W) (l_B (s i j)) (l_B (fst r)) /\
      length (l_A (fst r)) = length (l_A (s i j)) /\ snd r = map (snd zw) (seq 0 block))
    (fun i j => rr o ev (env i j) block locked (s i j)).
Proof.
  intros H1 H2 H3 zw X. destruct (lay_pos _ _ _ _ _ _ _ HL) as (Hp & Hq & HN). eapply completes_eqv; [intros i j Hi Hj; rewrite <- (bc_genv _ _ _ _ _ _ _ HL ldh nevex i j Hi Hj); reflexivity|].
  apply (rr_ok o RT N p q nevex _ _ _ rows cols ldh G Hp Hq); auto.
  - apply (lay_splits_r _ _ _ _ _ _ _ HL).
  - apply (lay_splits_c _ _ _ _ _ _ _ HL).
  - apply (lay_rows_ne _ _ _ _ _ _ _ HL).
  - apply (lay_c2b_ok _ _ _ _ _ _ _ HL).
  - exact (lay_same_ok N p q mb nb rsrc csrc HL).
  - exact (lay_pk N p q mb nb rsrc csrc HP).
Qed.
Theorem lay_resd sqrt (ritzv : list D) (lam : nat -> D) : (Z.of_nat block < 2 ^ 31)%Z ->
  (forall c, c < block -> nth_error ritzv c = Some (lam c)) ->
  let res := resvec o N G lam locked V W in
  completes (sadd o) p q (fun i j r =>
      snd r = map (fun c => sqrt (bsum (s0 o) (sadd o) N (fun g => smul o (scj o (res g c)) (res g c)))) (seq 0 block) /\
      l_H (fst r) = l_H (s i j) /\ l_C (fst r) = l_C (s i j) /\ l_C2 (fst r) = l_C2 (s i j) /\ l_A (fst r) = l_A (s i j) /\
      only_columns (cols j) locked block V (l_B2 (s i j)) (l_B2 (fst r)) /\
      only_columns (cols j) locked block (fun g c => res g (c - locked)) (l_B (s i j)) (l_B (fst r)) /\
      l_bAc (fst r) = l_bAc (s i j) /\ l_bAc_dla (fst r) = l_bAc_dla (s i j))
    (fun i j => resd o sqrt (env i j) ritzv locked block (s i j)).
Proof.
  intros H1 H2 res. destruct (lay_pos _ _ _ _ _ _ _ HL) as (Hp & Hq & HN). eapply completes_eqv; [intros i j Hi Hj; rewrite <- (bc_genv _ _ _ _ _ _ _ HL ldh nevex i j Hi Hj); reflexivity|].
  apply (resd_ok o RT N p q nevex _ _ _ rows cols ldh G Hp Hq); auto.
  - apply (lay_splits_r _ _ _ _ _ _ _ HL).
  - apply (lay_splits_c _ _ _ _ _ _ _ HL).
  - apply (lay_rows_ne _ _ _ _ _ _ _ HL).
  - apply (lay_cols_ne _ _ _ _ _ _ _ HL).
  - apply (lay_c2b_ok _ _ _ _ _ _ _ HL).
  - exact (lay_same_ok N p q mb nb rsrc csrc HL).
  - exact (lay_pk N p q mb nb rsrc csrc HP).
Qed.
End RR.

Section QR.
Variables (po : chol (D := D)) (tri : solver (D := D)) (V : nat -> nat -> D).
Hypothesis Hn : (Z.of_nat (nevex * nevex) < 2 ^ 31)%Z.
Hypothesis HV : forall i j, i < p -> j < q -> holds (rows i) 0 nevex (length (rows i)) V (l_C (s i j)) /\ length (rows i) * nevex <= length (l_C (s i j)) /\ nevex * nevex <= length (l_A (s i j)).
Theorem lay_qr1 : completes (sadd o) p q (fun i j => qr_result nevex (rows i) (qr1 o N nevex po tri V) (s i j)) (fun i j => cholQR1 o po tri (env i j) (s i j)).
Proof.
  destruct (lay_pos _ _ _ _ _ _ _ HL) as (Hp & Hq & HN). eapply completes_eqv; [intros i j Hi Hj; rewrite <- (bc_genv _ _ _ _ _ _ _ HL ldh nevex i j Hi Hj); reflexivity|].
  apply good_completes; auto. 
  apply (good_last (sadd o) p q _ ColC (fun j i => qr_post nevex rows (qr1 o N nevex po tri V) i (s i j)) (fun j i => cholQR1 o po tri (genv nevex (lay_same p q mb nb rsrc csrc) (lay_c2b N p q mb nb rsrc csrc) (lay_b2c N p q mb nb rsrc csrc) rows cols ldh i j) (s i j))); auto.
  - intros j Hj. apply (crun_qr1 o RT N p q nevex); auto; try exact (lay_splits_r _ _ _ _ _ _ _ HL); try (intros i Hi; now apply HV).
  - intros i j a Hi Hj (E1 & E2 & E3 & E4). unfold qr_result. auto.
Qed.
Theorem lay_qr2 : completes (sadd o) p q (fun i j => qr_result nevex (rows i) (qr2 o N nevex po tri V) (s i j)) (fun i j => cholQR2 o po tri (env i j) (s i j)).
Proof.
  destruct (lay_pos _ _ _ _ _ _ _ HL) as (Hp & Hq & HN). eapply completes_eqv; [intros i j Hi Hj; rewrite <- (bc_genv _ _ _ _ _ _ _ HL ldh nevex i j Hi Hj); reflexivity|].
  apply good_completes; auto. 
  apply (good_last (sadd o) p q _ ColC (fun j i => qr_post nevex rows (qr2 o N nevex po tri V) i (s i j)) (fun j i => cholQR2 o po tri (genv nevex (lay_same p q mb nb rsrc csrc) (lay_c2b N p q mb nb rsrc csrc) (lay_b2c N p q mb nb rsrc csrc) rows cols ldh i j) (s i j))); auto.
  - intros j Hj. apply (crun_qr2 o RT N p q nevex); auto; try exact (lay_splits_r _ _ _ _ _ _ _ HL); try (intros i Hi; now apply HV).
  - intros i j a Hi Hj (E1 & E2 & E3 & E4). unfold qr_result. auto.
Qed.
Theorem lay_sqr2 shift : completes (sadd o) p q (fun i j => qr_result nevex (rows i) (sqr2 o N nevex po tri shift V) (s i j)) (fun i j => shiftedcholQR2 o po tri shift (env i j) (s i j)).
Proof.
  destruct (lay_pos _ _ _ _ _ _ _ HL) as (Hp & Hq & HN). eapply completes_eqv; [intros i j Hi Hj; rewrite <- (bc_genv _ _ _ _ _ _ _ HL ldh nevex i j Hi Hj); reflexivity|].
  apply good_completes; auto. 
  apply (good_last (sadd o) p q _ ColC (fun j i => qr_post nevex rows (sqr2 o N nevex po tri shift V) i (s i j)) (fun j i => shiftedcholQR2 o po tri shift (genv nevex (lay_same p q mb nb rsrc csrc) (lay_c2b N p q mb nb rsrc csrc) (lay_b2c N p q mb nb rsrc csrc) rows cols ldh i j) (s i j))); auto.
  - intros j Hj. apply (crun_sqr2 o RT N p q nevex); auto; try exact (lay_splits_r _ _ _ _ _ _ _ HL); try (intros i Hi; now apply HV).
  - intros i j a Hi Hj (E1 & E2 & E3 & E4). unfold qr_result. auto.
Qed.
End QR.
End Kernels.
