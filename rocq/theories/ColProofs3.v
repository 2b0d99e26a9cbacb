(** Whole runs on the column backends. *)
From Coq Require Import List Arith ZArith Bool Lia Permutation.
Require Import Verif.Base Verif.AlgModel Verif.AlgSpec Verif.AlgProofs1 Verif.AlgProofs2 Verif.AlgProofs3 Verif.AlgProofs4 Verif.AlgKeep Verif.AlgProofs5 Verif.AlgProofs6
  Verif.AlgTrace Verif.AlgObs Verif.DlaModel Verif.ColModel Verif.ColSpec Verif.ColProofs1 Verif.ColProofs2 Verif.InplProofs.
Import ListNotations.

Lemma tr_tr i j k : tr i j (tr i j k) = k.
Proof.
  unfold tr. destruct (Nat.eqb_spec k i) as [->|N1].
  - rewrite Nat.eqb_refl. destruct (Nat.eqb_spec j i); auto.
  - destruct (Nat.eqb_spec k j) as [->|N2]; [now rewrite Nat.eqb_refl|]. apply Nat.eqb_neq in N1, N2. now rewrite N1, N2.
Qed.
Lemma swp_swp {A} (x : list A) i j : i < length x -> j < length x -> swp (swp x i j) i j = x.
Proof. intros Hi Hj. apply nth_error_ext. intros k. rewrite !swp_nth by (rewrite ?swp_length; auto). now rewrite tr_tr. Qed.

(** ** any backend with the pairing contract *)
Section Gen.
Context {F St V : Type} (fo : fops F) (K : kernel F St) (sort_idx : list F -> list nat).
Hypothesis Hperm : forall keys, Permutation (sort_idx keys) (seq 0 (length keys)).
Context (cf : conf F) (cols : St -> list V) (J0 : St -> Prop) (J Jf Jr : nat -> St -> Prop) (Rv : F -> V -> Prop) (Rr : F -> V -> F -> Prop).
Hypothesis KC : kernel_cols fo K (c_nev cf + c_nex cf) cols J0 J Jf Jr Rv Rr.
Hypothesis HC : conf_ok cf.
Hypothesis HM : 1 <= c_maxiter cf.

Lemma gen_sorted (P : F -> Prop) fsort k ritzv resid o s : order_on fo P -> J0 k ->
  solve fo K fsort sort_idx cf k ritzv resid = Ok o -> o_exit o = Some s -> Forall P (o_ritz o) ->
  fsorted_upto fo (c_nev cf) (c_nev cf) (o_ritz o) /\ c_nev cf <= length (o_ritz o) /\ length (cols (o_k o)) = c_nev cf + c_nex cf /\
  forall i v x, i < c_nev cf -> nth_error (o_ritz o) i = Some v -> nth_error (cols (o_k o)) i = Some x -> Rv v x.
Proof.
  intros HO HJ H Hex HP.
  destruct (solve_pairs fo K sort_idx Hperm _ cols J0 J Jf Jr Rv Rr KC fsort cf k ritzv resid o s eq_refl HC HJ HM H Hex)
    as (sw & Hr & E1 & E2 & E3 & (W1 & W2 & _) & (R1 & R2 & R3)).
  assert (LB : c_nev cf + c_nex cf <= length (whole (ss_ritz s)) /\ length (cols (ss_k s)) = c_nev cf + c_nex cf /\ fsorted_upto fo (c_nev cf) (c_nev cf) (o_ritz o)).
  { pose proof H as HS. unfold solve in H. apply bind_ok in H as ([cont k0] & Hsym & H).
    assert (HJk : J0 k0).
    { destruct (c_symcheck cf); [eapply (kc_sym _ _ _ _ _ _ _ _ _ _ KC); eauto|inversion Hsym; subst; auto]. }
    destruct (negb cont); [injection H as E; subst o; discriminate|].
    apply bind_ok in H as ([ub s0] & Hinit & H). apply bind_ok in H as (t & Hloop & H).
    apply bind_ok in H as ([r k'] & Hsort & H). apply bind_ok in H as (k'' & Hend & H). injection H as E. subst o.
    cbn [o_exit o_ritz o_k o_res] in *. injection Hex as E. subst t.
    pose proof (solve_init_book fo K fsort cf k0 ritzv resid ub s0 Hinit) as (HB & Hi & Hl & _ & _ & G1 & G2 & Hpos).
    destruct (solve_init_keep fo K _ cols J0 J Jf Jr (cols_keep _ _ _ _ _ _ _ _ _ _ KC) fsort cf k0 ritzv resid ub s0 eq_refl HC HJk Hinit) as (G0 & J00).
    pose proof (solve_loop_reach fo K sort_idx cf ub _ _ _ Hloop) as [HR _].
    pose proof (reach_book fo K sort_idx Hperm cf _ _ ub s0 s HB ltac:(lia) HR) as (Bs & _).
    rewrite <- Hl in J00.
    destruct (reach_keep fo K sort_idx Hperm _ cols J0 J Jf Jr (cols_keep _ _ _ _ _ _ _ _ _ _ KC) cf _ _ ub s0 s eq_refl HC ltac:(lia) HB G0 J00 HR) as (_ & Js & _).
    destruct (bk_r _ _ _ _ Bs) as [_ Lr]. pose proof (kc_len _ _ _ _ _ _ _ _ _ _ KC _ _ Js) as Lc.
    split; [lia|]. split; auto.
    eapply (final_sort_sorted fo K P HO) in Hsort; auto; [lia|].
    apply Forall_forall. intros z Hz. rewrite Forall_forall in HP. apply HP. rewrite E1. eapply Permutation_in; [apply swps_perm|]. auto. }
  destruct LB as (LR & LC & LS). split; auto.
  assert (L1 : length (o_ritz o) = length (whole (ss_ritz s))) by (rewrite E1; symmetry; apply Permutation_length, swps_perm).
  assert (L2 : length (cols (o_k o)) = length (cols (ss_k s))) by (rewrite E2; symmetry; apply Permutation_length, swps_perm).
  split; [lia|]. split; [lia|].
  intros i v x Hi Hv Hx.
  assert (Z : exists z, nth_error (swps sw (firstn (c_nev cf) (o_res o))) i = Some z).
  { destruct (nth_error (swps sw (firstn (c_nev cf) (o_res o))) i) eqn:E; eauto. apply nth_error_None in E.
    rewrite firstn_length in R1. lia. }
  destruct Z as [z Hz]. apply (R3 i v x z); auto; rewrite nth_firstn by lia; auto.
Qed.

Lemma gen_residuals fsort k ritzv resid o s : J0 k ->
  solve fo K fsort sort_idx cf k ritzv resid = Ok o -> o_exit o = Some s ->
  fsorted_upto fo (c_nev cf) (c_nev cf) (whole (ss_ritz s)) ->
  forall i v x r, i < c_nev cf -> nth_error (o_ritz o) i = Some v -> nth_error (cols (o_k o)) i = Some x -> nth_error (o_res o) i = Some r ->
  Rv v x /\ Rr v x r.
Proof.
  intros HJ H Hex HS.
  destruct (solve_pairs fo K sort_idx Hperm _ cols J0 J Jf Jr Rv Rr KC fsort cf k ritzv resid o s eq_refl HC HJ HM H Hex)
    as (sw & Hr & E1 & E2 & E3 & (W1 & W2 & W3) & _).
  assert (X : o_ritz o = whole (ss_ritz s) /\ cols (o_k o) = cols (ss_k s)).
  { pose proof H as HS'. unfold solve in H. apply bind_ok in H as ([cont k0] & Hsym & H).
    assert (HJk : J0 k0).
    { destruct (c_symcheck cf); [eapply (kc_sym _ _ _ _ _ _ _ _ _ _ KC); eauto|inversion Hsym; subst; auto]. }
    destruct (negb cont); [injection H as E; subst o; discriminate|].
    apply bind_ok in H as ([ub s0] & Hinit & H). apply bind_ok in H as (t & Hloop & H).
    apply bind_ok in H as ([r k'] & Hsort & H). apply bind_ok in H as (k'' & Hend & H). injection H as E. subst o.
    cbn [o_exit o_ritz o_k o_res] in *. injection Hex as E. subst t.
    pose proof (solve_init_book fo K fsort cf k0 ritzv resid ub s0 Hinit) as (HB & Hi & Hl & _ & _ & G1 & G2 & Hpos).
    destruct (solve_init_keep fo K _ cols J0 J Jf Jr (cols_keep _ _ _ _ _ _ _ _ _ _ KC) fsort cf k0 ritzv resid ub s0 eq_refl HC HJk Hinit) as (G0 & J00).
    pose proof (solve_loop_reach fo K sort_idx cf ub _ _ _ Hloop) as [HR _].
    pose proof (reach_book fo K sort_idx Hperm cf _ _ ub s0 s HB ltac:(lia) HR) as (Bs & _).
    rewrite <- Hl in J00.
    destruct (reach_keep fo K sort_idx Hperm _ cols J0 J Jf Jr (cols_keep _ _ _ _ _ _ _ _ _ _ KC) cf _ _ ub s0 s eq_refl HC ltac:(lia) HB G0 J00 HR) as (_ & Js & _).
    destruct (bk_r _ _ _ _ Bs) as [_ Lr]. assert (Hn : 1 <= c_nev cf).
    { unfold final_sort in Hsort. destruct (c_nev cf =? 0) eqn:E; [discriminate|]. apply Nat.eqb_neq in E. lia. }
    rewrite (final_sort_id fo K (c_nev cf)) in Hsort by (auto; lia). injection Hsort as <- <-. split; auto.
    apply (kc_end _ _ _ _ _ _ _ _ _ _ KC) with (l := ss_locked s) in Hend as (_ & E); auto. }
  destruct X as (X1 & X2). rewrite X1, X2, E3. intros i v x r Hi Hv Hx Hr'. apply (W3 i v x r); auto; rewrite nth_firstn by lia; auto.
Qed.
End Gen.

Section Runs.
Context {F V M G T : Type} (fo : fops F) (bl : blas F V M G T) (qe : qr_env F) (td : tridiag F) (cf : conf F).
Let nev := c_nev cf.
Let nex := c_nex cf.
Let n := nev + nex.
Local Notation seqK := (cmK fo qe td (colD fo bl false (c_nev cf + c_nex cf)) (c_nev cf) (c_nex cf)).
Local Notation mpiK := (cmK fo qe td (colD fo bl true (c_nev cf + c_nex cf)) (c_nev cf) (c_nex cf)).
Local Notation inplK := (cmK fo qe td (inplD fo bl (c_nev cf + c_nex cf)) (c_nev cf) (c_nex cf)).
Local Notation seqS l0 H V1 := (mk_cm l0 (seq_state bl (c_nev cf) (c_nex cf) H V1)).
Local Notation mpiS l0 H V1 := (mk_cm l0 (mpi_state bl (c_nev cf) (c_nex cf) H V1)).
Local Notation inplS l0 H V1 := (mk_cm l0 (inpl_state bl (c_nev cf) (c_nex cf) H V1)).

Lemma seq_J0 l0 H V1 : length V1 = n -> sJ0 fo bl nev nex H (nev + nev) (seqS l0 H V1).
Proof. intros E. split; [|constructor]. unfold clen. cbn. rewrite !repeat_length. auto. Qed.
Lemma mpi_J0 l0 H V1 : length V1 = n -> sJ0 fo bl nev nex H n (mpiS l0 H V1).
Proof. intros E. split; [|constructor]. unfold clen. cbn. rewrite !repeat_length. auto. Qed.
Lemma inpl_J0 l0 H V1 : length V1 = n -> iJ0 fo bl nev nex H (inplS l0 H V1).
Proof. intros E. split; [|constructor]. unfold ilen. cbn. rewrite !repeat_length. auto. Qed.

Lemma mpi_keep H0 w : n <= w -> kernel_keep fo mpiK n (fun s => cs_C (cm_dla s)) (sJ0 fo bl nev nex H0 w)
  (sJ fo bl nev nex H0 w) (sJf fo bl nev nex H0 w) (sJr fo bl nev nex H0 w).
Proof.
  intros Hw. pose proof (cols_keep _ _ _ _ _ _ _ _ _ _ (seq_cols fo bl qe td nev nex H0 w Hw)) as KK.
  destruct KK as [A1 A2 A3 A4 A5 A6 A7 A8 A9 B1 B2 B3 B4 B5 B6]. split; auto.
  - intros l c s s' (A & B & C & D) H. pose proof (qr_keeps fo bl qe nev nex w Hw true l c s s' B H) as (Q1 & Q2 & Q3 & Q4 & Q5 & Q6 & _). rewrite A in *.
    fold n in D. fold n in Q2. replace (Nat.min l n) with l in D by lia. split; [|congruence]. unfold sJr. repeat split; auto; try apply Q3; congruence.
  - intros l s v s' HJ Hl H. apply (B2 l s v s' HJ Hl). revert H. cbn [cmK k_rr colD d_rr]. unfold c_rr. cbn [andb].
    match goal with |- context [if ?c then UB else _] => destruct c end; [cbn; discriminate|auto].
  - intros l i j s s' (A & B & C & D) Hi Hj H. cbn [cmK k_swap] in H. apply lift_inv in H as (d & E & ->). cbn [colD d_swap] in E. unfold c_swap in E.
    apply bind_ok in E as (C1 & HC1 & E). apply bind_ok in E as (C2 & HC2 & E). injection E as <-.
    pose proof HC1 as (I1 & I2 & ->)%AlgProofs1.swap_inv. apply AlgProofs1.swap_inv in HC2 as (_ & _ & ->).
    rewrite swp_swp by auto. cbn. destruct s as [ls ds], ds. cbn in *. split; auto. unfold sJ. auto.
  - intros l i j s s' (A & B & C & D) Hi Hj H. cbn [cmK k_swap] in H. apply lift_inv in H as (d & E & ->). cbn [colD d_swap] in E. unfold c_swap in E.
    apply bind_ok in E as (C1 & HC1 & E). apply bind_ok in E as (C2 & HC2 & E). injection E as <-.
    pose proof HC1 as (I1 & I2 & ->)%AlgProofs1.swap_inv. apply AlgProofs1.swap_inv in HC2 as (_ & _ & ->).
    rewrite swp_swp by auto. cbn. destruct s as [ls ds], ds. cbn in *. split; auto. unfold sJr. auto.
Qed.

(** *** locked pairs *)
Section Locked.
Context (sort_idx : list F -> list nat) (Hperm : forall keys, Permutation (sort_idx keys) (seq 0 (length keys))).
Context (fsort : list F -> list F) (l0 : nat) (H : M) (V1 : list V) (HV : length V1 = c_nev cf + c_nex cf) (HC : conf_ok cf).

Lemma seq_locked : nex <= nev -> forall k0 ritzv resid ub s0 s t,
  (if c_symcheck cf then k_sym seqK (seqS l0 H V1) else Ok (true, seqS l0 H V1)) = Ok (true, k0) ->
  solve_init fo seqK fsort cf k0 ritzv resid = Ok (ub, s0) ->
  reach fo seqK sort_idx cf ub s0 s -> reach fo seqK sort_idx cf ub s t ->
  length (fst (ss_ritz s)) = ss_locked s /\ length (fst (ss_res s)) = ss_locked s /\ ss_locked s <= ss_locked t /\
  firstn (ss_locked s) (fst (ss_ritz t)) = fst (ss_ritz s) /\
  firstn (ss_locked s) (fst (ss_res t)) = fst (ss_res s) /\
  firstn (ss_locked s) (cs_C (cm_dla (ss_k t))) = firstn (ss_locked s) (cs_C (cm_dla (ss_k s))).
Proof.
  intros Hx k0 ritzv resid ub s0 s t Hs Hi R1 R2.
  exact (run_keep fo seqK sort_idx Hperm _ _ _ _ _ _ (cols_keep _ _ _ _ _ _ _ _ _ _ (seq_cols fo bl qe td nev nex H (nev + nev) ltac:(lia)))
    fsort cf _ _ _ _ _ _ _ _ eq_refl HC (seq_J0 l0 H V1 HV) Hs Hi R1 R2).
Qed.
Lemma mpi_locked : forall k0 ritzv resid ub s0 s t,
  (if c_symcheck cf then k_sym mpiK (mpiS l0 H V1) else Ok (true, mpiS l0 H V1)) = Ok (true, k0) ->
  solve_init fo mpiK fsort cf k0 ritzv resid = Ok (ub, s0) ->
  reach fo mpiK sort_idx cf ub s0 s -> reach fo mpiK sort_idx cf ub s t ->
  length (fst (ss_ritz s)) = ss_locked s /\ length (fst (ss_res s)) = ss_locked s /\ ss_locked s <= ss_locked t /\
  firstn (ss_locked s) (fst (ss_ritz t)) = fst (ss_ritz s) /\
  firstn (ss_locked s) (fst (ss_res t)) = fst (ss_res s) /\
  firstn (ss_locked s) (cs_C (cm_dla (ss_k t))) = firstn (ss_locked s) (cs_C (cm_dla (ss_k s))).
Proof.
  intros k0 ritzv resid ub s0 s t Hs Hi R1 R2.
  exact (run_keep fo mpiK sort_idx Hperm _ _ _ _ _ _ (mpi_keep H n (le_n n)) fsort cf _ _ _ _ _ _ _ _ eq_refl HC (mpi_J0 l0 H V1 HV) Hs Hi R1 R2).
Qed.
Lemma inpl_locked : no_late_failure bl n -> forall k0 ritzv resid ub s0 s t,
  (if c_symcheck cf then k_sym inplK (inplS l0 H V1) else Ok (true, inplS l0 H V1)) = Ok (true, k0) ->
  solve_init fo inplK fsort cf k0 ritzv resid = Ok (ub, s0) ->
  reach fo inplK sort_idx cf ub s0 s -> reach fo inplK sort_idx cf ub s t ->
  length (fst (ss_ritz s)) = ss_locked s /\ length (fst (ss_res s)) = ss_locked s /\ ss_locked s <= ss_locked t /\
  firstn (ss_locked s) (fst (ss_ritz t)) = fst (ss_ritz s) /\
  firstn (ss_locked s) (fst (ss_res t)) = fst (ss_res s) /\
  firstn (ss_locked s) (is_V1 (cm_dla (ss_k t))) = firstn (ss_locked s) (is_V1 (cm_dla (ss_k s))).
Proof.
  intros NL k0 ritzv resid ub s0 s t Hs Hi R1 R2.
  exact (run_keep fo inplK sort_idx Hperm _ _ _ _ _ _ (cols_keep _ _ _ _ _ _ _ _ _ _ (inpl_cols fo bl qe td nev nex H NL))
    fsort cf _ _ _ _ _ _ _ _ eq_refl HC (inpl_J0 l0 H V1 HV) Hs Hi R1 R2).
Qed.

(** *** sorted and paired results *)
Context (HM : 1 <= c_maxiter cf) (P : F -> Prop) (HO : order_on fo P).
Lemma seq_sorted : nex <= nev -> forall ritzv resid o s,
  solve fo seqK fsort sort_idx cf (seqS l0 H V1) ritzv resid = Ok o -> o_exit o = Some s -> Forall P (o_ritz o) ->
  fsorted_upto fo (c_nev cf) (c_nev cf) (o_ritz o) /\ c_nev cf <= length (o_ritz o) /\ length (cs_C (cm_dla (o_k o))) = c_nev cf + c_nex cf /\
  forall i v x, i < c_nev cf -> nth_error (o_ritz o) i = Some v -> nth_error (cs_C (cm_dla (o_k o))) i = Some x -> ritz_pair fo bl H v x.
Proof.
  intros Hx ritzv resid o s. exact (gen_sorted fo seqK sort_idx Hperm cf _ _ _ _ _ _ _ (seq_cols fo bl qe td nev nex H (nev + nev) ltac:(lia)) HC HM P fsort _ ritzv resid o s HO (seq_J0 l0 H V1 HV)).
Qed.
Lemma inpl_sorted : no_late_failure bl n -> forall ritzv resid o s,
  solve fo inplK fsort sort_idx cf (inplS l0 H V1) ritzv resid = Ok o -> o_exit o = Some s -> Forall P (o_ritz o) ->
  fsorted_upto fo (c_nev cf) (c_nev cf) (o_ritz o) /\ c_nev cf <= length (o_ritz o) /\ length (is_V1 (cm_dla (o_k o))) = c_nev cf + c_nex cf /\
  forall i v x, i < c_nev cf -> nth_error (o_ritz o) i = Some v -> nth_error (is_V1 (cm_dla (o_k o))) i = Some x -> ritz_pair_inpl fo bl H v x.
Proof.
  intros NL ritzv resid o s. exact (gen_sorted fo inplK sort_idx Hperm cf _ _ _ _ _ _ _ (inpl_cols fo bl qe td nev nex H NL) HC HM P fsort _ ritzv resid o s HO (inpl_J0 l0 H V1 HV)).
Qed.
Lemma seq_residuals : nex <= nev -> forall ritzv resid o s,
  solve fo seqK fsort sort_idx cf (seqS l0 H V1) ritzv resid = Ok o -> o_exit o = Some s ->
  fsorted_upto fo (c_nev cf) (c_nev cf) (whole (ss_ritz s)) ->
  forall i v x r, i < c_nev cf -> nth_error (o_ritz o) i = Some v -> nth_error (cs_C (cm_dla (o_k o))) i = Some x ->
  nth_error (o_res o) i = Some r -> ritz_pair fo bl H v x /\ ritz_resid fo bl H v x r.
Proof.
  intros Hx ritzv resid o s. exact (gen_residuals fo seqK sort_idx Hperm cf _ _ _ _ _ _ _ (seq_cols fo bl qe td nev nex H (nev + nev) ltac:(lia)) HC HM fsort _ ritzv resid o s (seq_J0 l0 H V1 HV)).
Qed.
End Locked.

(** *** buffers *)
Lemma seq_init_small l0 H V1 fsort sort_idx k0 ritzv resid : length V1 = n -> nev < nex ->
  (if c_symcheck cf then k_sym seqK (seqS l0 H V1) else Ok (true, seqS l0 H V1)) = Ok (true, k0) ->
  solve fo seqK fsort sort_idx cf (seqS l0 H V1) ritzv resid = UB.
Proof.
  intros HV Hx Hs. unfold solve. rewrite Hs. cbn [bind negb].
  assert (E : cm_dla k0 = seq_state bl nev nex H V1).
  { destruct (c_symcheck cf); [|now inversion Hs]. cbn in Hs. now inversion Hs. }
  destruct k0 as [lk d]. cbn in E. subst d. unfold solve_init. cbn [cmK k_start colD d_start bind cm_dla].
  match goal with |- context [put_range ?a ?b ?c] => destruct (put_range a b c) as [x| |] eqn:E1 end; cbn [bind].
  2: reflexivity.
  2: { unfold put_range in E1. destruct (_ <=? _); discriminate. }
  cbn [cmK k_init]. unfold cm_init. cbn [cm_dla cm_locked colD d_initrnd d_init].
  assert (X : forall d : cst (V := V) (M := M), length (cs_C d) = n -> length (cs_C2 d) = nev + nev -> c_init n d = UB).
  { intros d L1 L2. unfold c_init. destruct (get_ok (cs_C d) 0 n) as (c & -> & Lc); [lia|]. cbn [bind].
    unfold put_range. rewrite Lc, L2. cbn. replace (n <=? nev + nev) with false; [reflexivity|]. symmetry. apply Nat.leb_gt. lia. }
  destruct (negb (c_approx cf)).
  - unfold c_initrnd. cbn [seq_state cs_C cs_H cs_B cs_C2 cs_B2 cs_bAc].
    match goal with |- context [put_range V1 ?b ?c] => destruct (put_ok V1 b c) as (C' & -> & LC) end; [rewrite map_length, seq_length; lia|].
    cbn [bind]. unfold lift. fold nev nex n. rewrite X; cbn; auto; rewrite ?repeat_length; auto. congruence.
  - cbn [bind]. unfold lift. fold nev nex n. rewrite X; cbn; auto. now rewrite repeat_length.
Qed.

Section Safe.
Context (sort_idx : list F -> list nat) (Hperm : forall keys, Permutation (sort_idx keys) (seq 0 (length keys))).
Context (fsort : list F -> list F) (Hfs : forall l, length (fsort l) = length l).
Context {D : Type} (L : dla F D) (I : D -> Prop) (DS : dla_safe L (c_nev cf + c_nex cf) I).
Local Notation K := (cmK fo qe td L (c_nev cf) (c_nex cf)).
Local Notation mm := (Nat.min (c_nev cf + c_nex cf) (Nat.min (c_N cf / 2) (c_lanczositer cf))).
Lemma dla_solve_safe k ritzv resid : conf_ok cf -> n <= length ritzv -> n <= length resid -> 2 <= c_N cf -> 1 <= c_lanczositer cf ->
  I (cm_dla k) ->
  (c_approx cf = false -> 1 <= c_numlanczos cf <= n /\ forall k u Th Ta rv k',
     k_lanczos2 K mm (c_numlanczos cf) k = Ok (u, Th, Ta, rv, k') -> start_ok fo (fsort Th) Th Ta (c_N cf) (c_numlanczos cf) mm n) ->
  (exists o, solve fo K fsort sort_idx cf k ritzv resid = Ok o) \/
  (solve fo K fsort sort_idx cf k ritzv resid = UB /\ degree_overflow fo K sort_idx fsort cf k ritzv resid).
Proof.
  intros HC L1 L2 HN HL HI HA.
  exact (solve_safe fo K sort_idx Hperm _ _ _ (cm_safe fo qe td L (c_nev cf) (c_nex cf) I DS) fsort cf k ritzv resid HC Hfs eq_refl L1 L2 HN HL HI HA).
Qed.
End Safe.

(** *** parity of the in-place buffers *)
Definition flips (c : call F) : bool := match c with CHemm _ _ _ _ | CRr _ => true | _ => false end.
Definition flip_step (b : bool) (c : call F) : bool := xorb b (flips c).

Ltac unkg := cbn [cmK k_sym k_start k_end k_init k_shift k_hemm k_qr k_rr k_resd k_swap k_lock k_lanczos1 k_lanczos2 k_dos
  inplD d_sym d_start d_end d_initrnd d_init d_shift d_apply d_hhqr d_chol1 d_chol2 d_schol2 d_lockcopy d_rr d_resd d_swap d_mlanczos d_dos].
Ltac sw_goal := intros; repeat match goal with
  | H : Ok _ = Ok _ |- _ => injection H; clear H; intros; subst
  | H : (_, _) = (_, _) |- _ => injection H; clear H; intros; subst
  | H : UB = Ok _ |- _ => discriminate H
  | H : (let! x := ?e in @?f x) = Ok _ |- _ => apply bind_ok in H as (? & ? & H)
  | H : (if ?c then _ else _) = Ok _ |- _ => destruct c
  | x : (_ * _)%type |- _ => destruct x
  end; cbn [cm_dla is_sw]; auto.
Lemma i_set_sw f (s s' : ist (V := V) (M := M)) : i_set n s f = Ok s' -> is_sw s' = is_sw s.
Proof. unfold i_set. sw_goal. Qed.
Lemma i_save_sw l (s s' : ist (V := V) (M := M)) : i_save l s = Ok s' -> is_sw s' = is_sw s.
Proof. unfold i_save. sw_goal. Qed.
Ltac sw2 := repeat match goal with
  | H : i_set _ _ _ = Ok _ |- _ => apply i_set_sw in H | H : i_save _ _ = Ok _ |- _ => apply i_save_sw in H end; try congruence.
Lemma i_hhqr_sw l (s s' : ist (V := V) (M := M)) : i_hhqr bl n l s = Ok s' -> is_sw s' = is_sw s.
Proof. unfold i_hhqr. sw_goal. sw2. Qed.
Lemma i_chol1_sw l (s s' : ist (V := V) (M := M)) i : i_chol1 bl n l s = Ok (i, s') -> is_sw s' = is_sw s.
Proof. unfold i_chol1. sw_goal; sw2. Qed.
Lemma i_chol2_sw l (s s' : ist (V := V) (M := M)) i : i_chol2 bl n l s = Ok (i, s') -> is_sw s' = is_sw s.
Proof. unfold i_chol2. sw_goal; sw2. Qed.
Lemma i_schol2_sw l (s s' : ist (V := V) (M := M)) i : i_schol2 bl n l s = Ok (i, s') -> is_sw s' = is_sw s.
Proof. unfold i_schol2. sw_goal; sw2. Qed.

Ltac unkh H := cbn [inplD d_sym d_start d_end d_initrnd d_init d_shift d_apply d_hhqr d_chol1 d_chol2 d_schol2 d_lockcopy d_rr d_resd d_swap d_mlanczos d_dos] in H.
Lemma inpl_obs : kernel_obs inplK (fun s => is_sw (cm_dla s)) flip_step.
Proof.
  split; unfold flip_step; cbn [flips].
  - intros s b s' H. rewrite xorb_false_r. apply lift_v_inv in H as (d & E & ->). unkh E. unfold i_sym in E. sw_goal.
  - intros s s' H. rewrite xorb_false_r. cbn in H. sw_goal.
  - intros s s' H. rewrite xorb_false_r. apply lift_inv in H as (d & E & ->). unkh E. sw_goal.
  - intros r s s' H. rewrite xorb_false_r. cbn [cmK k_init] in H. unfold cm_init in H. apply lift_inv in H as (d & E & ->). apply bind_ok in E as (d1 & E1 & E).
    unkh E. unkh E1. unfold i_init in E. unfold i_initrnd in E1. sw_goal.
  - intros c u s s' H. rewrite xorb_false_r. apply lift_inv in H as (d & E & ->). unkh E. unfold i_shift in E. sw_goal.
  - intros q a b o s s' H. rewrite xorb_true_r. apply lift_inv in H as (d & E & ->). unkh E. unfold i_apply in E. sw_goal.
  - intros l c s s' H. rewrite xorb_false_r. cbn [cmK k_qr] in H. unfold cm_qr in H. cbv zeta in H. apply bind_ok in H as ([hh d] & Hd & H).
    apply lift_inv in H as (d' & H & ->). cbn [cm_dla]. unkh H. unfold i_lockcopy in H.
    assert (X : is_sw d = is_sw (cm_dla s)).
    { match type of Hd with (if ?c then _ else _) = _ => destruct c end.
      - apply bind_ok in Hd as (d1 & H1 & Hd). injection Hd as _ <-. now apply i_hhqr_sw in H1.
      - apply bind_ok in Hd as ([i d1] & H1 & Hd).
        assert (X : is_sw d1 = is_sw (cm_dla s)).
        { match type of H1 with (if ?c then _ else _) = _ => destruct c; [eapply i_schol2_sw; exact H1|] end.
          match type of H1 with (if ?c then _ else _) = _ => destruct c; [eapply i_chol1_sw; exact H1|eapply i_chol2_sw; exact H1] end. }
        destruct (i =? 0)%Z; [injection Hd as _ <-; auto|]. apply bind_ok in Hd as (d2 & H2 & Hd). injection Hd as _ <-. apply i_hhqr_sw in H2. congruence. }
    sw_goal.
  - intros q s v s' H. rewrite xorb_true_r. apply lift_v_inv in H as (d & E & ->). unkh E. unfold i_rr in E. cbv zeta in E. sw_goal.
  - intros v l s r s' H. rewrite xorb_false_r. apply lift_v_inv in H as (d & E & ->). unkh E. unfold i_resd in E. cbv zeta in E. sw_goal.
  - intros i j s s' H. rewrite xorb_false_r. apply lift_inv in H as (d & E & ->). unkh E. unfold i_swap in E. sw_goal.
  - intros q s s' H. rewrite xorb_false_r. cbn in H. sw_goal.
  - intros m s x s' H. rewrite xorb_false_r. cbn [cmK k_lanczos1] in H. unfold cm_lanczos1 in H. apply bind_ok in H as ([[[a b] c] d] & E & H). cbv zeta in H.
    unkh E. unfold i_mlanczos in E. apply bind_ok in E as ([[[? ?] ?] ?] & _ & E). injection E as _ _ _ <-. sw_goal.
  - intros m nv s x s' H. rewrite xorb_false_r. cbn [cmK k_lanczos2] in H. unfold cm_lanczos2 in H. apply bind_ok in H as ([[[a b] c] d] & E & H).
    unkh E. unfold i_mlanczos in E. apply bind_ok in E as ([[[? ?] ?] ?] & _ & E). injection E as _ _ _ <-.
    apply bind_ok in H as ([[? ?] ?] & _ & H). apply bind_ok in H as (? & _ & H). apply bind_ok in H as (? & _ & H). apply bind_ok in H as (? & _ & H).
    apply bind_ok in H as (? & _ & H). injection H as _ <-. reflexivity.
  - intros i m rv s s' H. rewrite xorb_false_r. apply lift_inv in H as (d & E & ->). unkh E. unfold i_dos in E. sw_goal.
Qed.

Lemma flip_fold : forall t b, fold_left flip_step t b = xorb b (Nat.odd (length (filter flips t))).
Proof.
  induction t as [|c t IH]; intros b; cbn [fold_left filter]; [now rewrite xorb_false_r|]. rewrite IH. unfold flip_step.
  destruct (flips c); cbn [length]; [|now rewrite xorb_false_r].
  rewrite Nat.odd_succ, <- Nat.negb_odd. destruct b, (Nat.odd _); reflexivity.
Qed.
Lemma flips_swaps off sw : filter flips (swap_calls off sw) = [].
Proof. induction sw as [|p sw IH]; cbn; auto. Qed.
Lemma flips_start sw idx : filter flips (start_calls fo cf sw idx) = [].
Proof.
  unfold start_calls. cbv zeta. destruct (c_approx cf); [reflexivity|]. rewrite !filter_app, flips_swaps. destruct (0 <? idx); reflexivity.
Qed.
Lemma flips_filter deg degs la lo up : length (filter flips (filter_calls fo deg degs la lo up)) = deg.
Proof.
  unfold filter_calls. cbv zeta. cbn [filter flips]. rewrite filter_app, app_length. cbn [filter flips length]. rewrite Nat.add_0_r.
  match goal with |- length (filter flips (map ?f _)) = _ => set (g := f) end.
  assert (X : forall q, filter flips (map g q) = map g q) by (induction q; cbn; congruence).
  now rewrite X, map_length, seq_length.
Qed.
Lemma flips_iter ub r : iter_ok (c_nev cf) (c_nex cf) r -> Nat.odd (length (filter flips (iter_calls fo ub r))) = true.
Proof.
  intros (_ & _ & _ & _ & _ & HF & HI & _). rewrite Forall_forall in HF. destruct (HF _ HI) as (_ & HE & _).
  unfold iter_calls. rewrite !filter_app, !app_length, !flips_swaps, flips_filter. cbn.
  replace (it_deg r + 1) with (S (it_deg r)) by lia. now rewrite Nat.odd_succ.
Qed.
Lemma flips_iters ub l rs l' : iters (c_nev cf) (c_nex cf) l rs l' ->
  Nat.odd (length (filter flips (flat_map (iter_calls fo ub) rs))) = Nat.odd (length rs).
Proof.
  induction 1 as [|l rs l' r HI IH E HK]; [reflexivity|].
  rewrite flat_map_app, filter_app, !app_length. cbn [flat_map length]. rewrite app_nil_r, !Nat.odd_add, IH, flips_iter; auto.
Qed.

Lemma inpl_parity sort_idx (Hperm : forall keys, Permutation (sort_idx keys) (seq 0 (length keys))) fsort k ritzv resid o s :
  conf_ok cf -> solve fo inplK fsort sort_idx cf k ritzv resid = Ok o -> o_exit o = Some s ->
  is_sw (cm_dla (o_k o)) = xorb (is_sw (cm_dla k)) (Nat.odd (ss_iter s)).
Proof.
  intros HC H He. destruct (solve_obs_trace fo inplK _ _ sort_idx Hperm fsort cf k ritzv resid o s inpl_obs HC H He)
    as (ub & rs & sw & idx & sw' & HI & HL & _ & ->).
  rewrite flip_fold. f_equal. rewrite !filter_app, !app_length, flips_start, flips_swaps. cbn [length filter flips app].
  replace (length (filter flips (if c_symcheck cf then [CSym] else []))) with 0 by (destruct (c_symcheck cf); reflexivity).
  rewrite !Nat.add_0_r, !Nat.add_0_l. rewrite (flips_iters _ _ _ _ HI). now rewrite HL.
Qed.

Lemma inpl_user_buffer sort_idx (Hperm : forall keys, Permutation (sort_idx keys) (seq 0 (length keys))) fsort l0 H V1 ritzv resid o s :
  conf_ok cf -> solve fo inplK fsort sort_idx cf (inplS l0 H V1) ritzv resid = Ok o -> o_exit o = Some s ->
  user_V1 (cm_dla (o_k o)) = if Nat.odd (ss_iter s) then is_V2 (cm_dla (o_k o)) else is_V1 (cm_dla (o_k o)).
Proof. intros HC Hs He. unfold user_V1. rewrite (inpl_parity sort_idx Hperm fsort _ ritzv resid o s HC Hs He). cbn [cm_dla inpl_state is_sw]. now rewrite xorb_false_l. Qed.
End Runs.

(** ** QR variants *)
Lemma qr_log {F D} (fo : fops F) (qe : qr_env F) (L : dla F D) f c l d l' d' :
  cm_qr fo qe L f c (mk_cm l d) = Ok (mk_cm l' d') ->
  exists log, qr_table fo qe c log /\ l' = l /\ forall log0, cm_qr fo qe (qlogD L) f c (mk_cm l (log0, d)) = Ok (mk_cm l (log0 ++ log, d')).
Proof.
  unfold cm_qr. cbv zeta. cbn [cm_locked cm_dla]. intros H.
  assert (DD : (match q_disable qe with Some z => z | None => if q_chol qe then 0 else 1 end =? 1)%Z = true <-> chol_disabled qe).
  { unfold chol_disabled. destruct (q_disable qe); [apply Z.eqb_eq|]. destruct (q_chol qe); split; intros; try discriminate; auto. }
  fold (lower_threshold qe) in *.
  apply bind_ok in H as ([hh x] & Hx & H). apply lift_inv in H as (y & Hy & E). cbn [cm_locked] in E. injection E as -> ->.
  cbn [qlogD d_hhqr d_chol1 d_chol2 d_schol2 d_lockcopy fst snd].
  destruct (_ =? 1)%Z eqn:E1.
  - apply bind_ok in Hx as (d1 & H1 & Hx). injection Hx as <- <-. exists [(QHouse, 0%Z)]. split; [constructor; tauto|]. split; auto.
    intros log0. rewrite H1. cbn [bind]. unfold lift, qs. cbn [fst snd]. rewrite Hy. reflexivity.
  - assert (ND : ~ chol_disabled qe) by (intros X; apply DD in X; discriminate). clear DD.
    apply bind_ok in Hx as ([i d1] & H1 & Hx).
    assert (Y : exists log0, log0 = (if (i =? 0)%Z then [] else [(QHouse, 0%Z)])) by eauto. destruct Y as [fb Efb].
    destruct (f_lt fo (q_upper qe) c) eqn:E2; [|destruct (f_lt fo c (lower_threshold qe)) eqn:E3].
    1: exists ((QShifted, i) :: fallback i); split; [now constructor|].
    2: exists ((QChol1, i) :: fallback i); split; [now constructor|].
    3: exists ((QChol2, i) :: fallback i); split; [now constructor|].
    all: split; auto; intros log0; unfold qi; rewrite H1; cbn [bind fst snd]; unfold fallback; destruct (i =? 0)%Z;
      [injection Hx as <- <-; cbn [bind]; unfold lift, qs; cbn [fst snd cm_locked]; rewrite Hy; reflexivity|
       apply bind_ok in Hx as (d2 & H2 & Hx); injection Hx as <- <-; rewrite H2; cbn [bind]; unfold lift, qs; cbn [fst snd cm_locked]; rewrite Hy; cbn [bind];
       rewrite <- app_assoc; reflexivity].
Qed.

Lemma qr_table_det {F} (fo : fops F) qe c log log' : qr_table fo qe c log -> qr_table fo qe c log' ->
  match log, log' with (v, i) :: _, (v', i') :: _ => v = v' | _, _ => False end.
Proof. intros A B. destruct A, B; auto; try contradiction; congruence. Qed.

(** ** a late failure in the in-place backend *)
Lemma inpl_late {F V M G T} (fo : fops F) (bl : blas F V M G T) (qe : qr_env F) nev nex f c (s s' : cm (D := ist (V := V) (M := M))) R info R2 :
  let n := nev + nex in
  ilen n (cm_dla s) -> ~ chol_disabled qe -> f_lt fo (q_upper qe) c = false -> f_lt fo c (lower_threshold qe) = false ->
  let cs := is_V1 (cm_dla s) in
  b_potrf bl (b_syherk bl cs) = (0%Z, R) ->
  let cs1 := map (b_trsm bl R cs) (seq 0 n) in
  b_potrf bl (b_syherk bl cs1) = (info, R2) -> info <> 0%Z ->
  cm_qr fo qe (inplD fo bl n) f c s = Ok s' ->
  firstn (cm_locked s) (is_V1 (cm_dla s')) = firstn (cm_locked s) (map (b_trsm bl R2 cs1) (seq 0 n)).
Proof.
  intros n HL ND E2 E3 cs P1 cs1 P2 Hi H. unfold cm_qr in H. cbv zeta in H. fold (lower_threshold qe) in H. set (l := cm_locked s) in *.
  destruct (_ =? 1)%Z eqn:E1.
  { exfalso. apply ND. unfold chol_disabled. destruct (q_disable qe); [now apply Z.eqb_eq|]. destruct (q_chol qe); [discriminate|auto]. }
  rewrite E2, E3 in H. apply bind_ok in H as ([hh d] & Hd & H). apply bind_ok in Hd as ([i d1] & H1 & Hd).
  cbn [inplD d_chol2] in H1. unfold i_chol2 in H1. apply bind_ok in H1 as (s0 & S0 & H1).
  apply (i_save_inv nev nex) in S0 as (A1 & A2 & A3 & A4 & A5 & A6); auto.
  apply bind_ok in H1 as ([i1 R1] & F1 & H1). apply (i_factor_inv bl nev nex) in F1; auto. rewrite A3 in F1. fold cs in F1. rewrite P1 in F1. injection F1 as <- <-.
  cbn [negb Z.eqb] in H1. apply bind_ok in H1 as (s1 & S1 & H1). apply (i_set_inv nev nex) in S1 as (B1 & B2 & B3 & B4 & B5); auto.
  rewrite A3 in B5. fold cs n cs1 in B5.
  apply bind_ok in H1 as ([i2 R2'] & F2 & H1). apply (i_factor_inv bl nev nex) in F2; auto. rewrite B5, P2 in F2. injection F2 as <- <-.
  apply bind_ok in H1 as (s2 & S2 & H1). apply (i_set_inv nev nex) in S2 as (C1 & C2 & C3 & C4 & C5); auto. rewrite B5 in C5. fold n in C5.
  injection H1 as <- <-. replace (info =? 0)%Z with false in Hd by (symmetry; now apply Z.eqb_neq).
  apply bind_ok in Hd as (d2 & H2 & Hd). injection Hd as _ <-.
  apply (i_hhqr_inv fo bl nev nex) in H2 as (D1 & D2 & D3 & D4 & D5); auto.
  apply lift_inv in H as (d' & H & ->). cbn [cm_dla]. cbn [inplD d_lockcopy] in H. unfold i_lockcopy in H.
  apply bind_ok in H as (x & Hx & H). pose proof (get_range_len _ _ _ _ Hx) as Lx. apply get_range_inv in Hx as [_ ->].
  apply bind_ok in H as (v & Hv & H). injection H as <-. apply put_range_upto in Hv. cbn [is_V1].
  cbn [firstn skipn app] in *. rewrite Lx in Hv. cbn in Hv. fold l in Hv. rewrite Hv, D5, C5. reflexivity.
Qed.

(** ** forms used by the property file *)
Lemma seq_solve_safe {F V M G T} (fo : fops F) (bl : blas F V M G T) qe td (cf : conf F) sort_idx
  (Hperm : forall keys, Permutation (sort_idx keys) (seq 0 (length keys))) fsort l0 (H : M) (V1 : list V) ritzv resid :
  let n := c_nev cf + c_nex cf in let K := cmK fo qe td (colD fo bl false n) (c_nev cf) (c_nex cf) in
  let m := Nat.min n (Nat.min (c_N cf / 2) (c_lanczositer cf)) in
  c_nex cf <= c_nev cf -> length V1 = n -> conf_ok cf -> (forall l, length (fsort l) = length l) ->
  n <= length ritzv -> n <= length resid -> 2 <= c_N cf -> 1 <= c_lanczositer cf ->
  (c_approx cf = false -> 1 <= c_numlanczos cf <= n /\ forall k u Th Ta rv k',
     k_lanczos2 K m (c_numlanczos cf) k = Ok (u, Th, Ta, rv, k') -> start_ok fo (fsort Th) Th Ta (c_N cf) (c_numlanczos cf) m n) ->
  (exists o, solve fo K fsort sort_idx cf (mk_cm l0 (seq_state bl (c_nev cf) (c_nex cf) H V1)) ritzv resid = Ok o) \/
  (solve fo K fsort sort_idx cf (mk_cm l0 (seq_state bl (c_nev cf) (c_nex cf) H V1)) ritzv resid = UB /\ degree_overflow fo K sort_idx fsort cf (mk_cm l0 (seq_state bl (c_nev cf) (c_nex cf) H V1)) ritzv resid).
Proof.
  intros n K m Hx HV HC Hf L1 L2 HN HL HA.
  eapply (dla_solve_safe fo qe td cf sort_idx Hperm fsort Hf (colD fo bl false n) (clen n (c_nev cf + c_nev cf))); auto.
  - apply col_dla_safe. lia.
  - unfold clen. cbn. rewrite !repeat_length. auto.
Qed.
Lemma other_solve_safe {F V M G T} (fo : fops F) (bl : blas F V M G T) qe td (cf : conf F) sort_idx
  (Hperm : forall keys, Permutation (sort_idx keys) (seq 0 (length keys))) fsort l0 (H : M) (V1 : list V) ritzv resid :
  let n := c_nev cf + c_nex cf in
  let mK := cmK fo qe td (colD fo bl true n) (c_nev cf) (c_nex cf) in let iK := cmK fo qe td (inplD fo bl n) (c_nev cf) (c_nex cf) in
  length V1 = n -> conf_ok cf -> (forall l, length (fsort l) = length l) ->
  n <= length ritzv -> n <= length resid -> 2 <= c_N cf -> 1 <= c_lanczositer cf -> c_approx cf = true ->
  ((exists o, solve fo mK fsort sort_idx cf (mk_cm l0 (mpi_state bl (c_nev cf) (c_nex cf) H V1)) ritzv resid = Ok o) \/
   (solve fo mK fsort sort_idx cf (mk_cm l0 (mpi_state bl (c_nev cf) (c_nex cf) H V1)) ritzv resid = UB /\ degree_overflow fo mK sort_idx fsort cf (mk_cm l0 (mpi_state bl (c_nev cf) (c_nex cf) H V1)) ritzv resid)) /\
  ((exists o, solve fo iK fsort sort_idx cf (mk_cm l0 (inpl_state bl (c_nev cf) (c_nex cf) H V1)) ritzv resid = Ok o) \/
   (solve fo iK fsort sort_idx cf (mk_cm l0 (inpl_state bl (c_nev cf) (c_nex cf) H V1)) ritzv resid = UB /\ degree_overflow fo iK sort_idx fsort cf (mk_cm l0 (inpl_state bl (c_nev cf) (c_nex cf) H V1)) ritzv resid)).
Proof.
  intros n mK iK HV HC Hf L1 L2 HN HL HA. split.
  - destruct (dla_solve_safe fo qe td cf sort_idx Hperm fsort Hf (colD fo bl true n) (clen n n) (col_dla_safe fo bl true n n (le_n n))
      (mk_cm l0 (mpi_state bl (c_nev cf) (c_nex cf) H V1)) ritzv resid HC L1 L2 HN HL) as [X|X]; auto.
    + unfold clen. cbn. rewrite !repeat_length. auto.
    + rewrite HA. discriminate.
  - destruct (dla_solve_safe fo qe td cf sort_idx Hperm fsort Hf (inplD fo bl n) (ilen n) (inpl_dla_safe fo bl n)
      (mk_cm l0 (inpl_state bl (c_nev cf) (c_nex cf) H V1)) ritzv resid HC L1 L2 HN HL) as [X|X]; auto.
    + unfold ilen. cbn. rewrite !repeat_length. auto.
    + rewrite HA. discriminate.
Qed.

Lemma seq_swap_spec {V M} i j (s : cst (V := V) (M := M)) :
  i < length (cs_C s) -> j < length (cs_C s) -> i < length (cs_C2 s) -> j < length (cs_C2 s) ->
  exists s', c_swap false i j s = Ok s' /\ cs_H s' = cs_H s /\ cs_B s' = cs_B s /\ cs_B2 s' = cs_B2 s /\
    (forall k, nth_error (cs_C s') k = nth_error (cs_C s) (if k =? i then j else if k =? j then i else k)) /\
    (forall k, nth_error (cs_C2 s') k = nth_error (cs_C2 s) (if k =? i then j else if k =? j then i else k)).
Proof.
  intros A B C D. unfold c_swap. rewrite (AlgProofs1.swap_ok (cs_C s)), (AlgProofs1.swap_ok (cs_C2 s)) by auto. cbn [bind].
  eexists. split; [reflexivity|]. cbn. repeat split; auto; intros; now rewrite swp_nth.
Qed.
Lemma inpl_swap_spec {V M} i j (s : ist (V := V) (M := M)) : i < length (is_V1 s) -> j < length (is_V1 s) ->
  exists s', i_swap i j s = Ok s' /\ is_H s' = is_H s /\ is_V2 s' = is_V2 s /\ is_sw s' = is_sw s /\
    (forall k, nth_error (is_V1 s') k = nth_error (is_V1 s) (if k =? i then j else if k =? j then i else k)).
Proof.
  intros A B. unfold i_swap. rewrite AlgProofs1.swap_ok by auto. cbn [bind].
  eexists. split; [reflexivity|]. cbn. repeat split; auto; intros; now rewrite swp_nth.
Qed.
Lemma mpi_swap_spec {V M} i j (s : cst (V := V) (M := M)) : i < length (cs_C s) -> j < length (cs_C s) -> c_swap true i j s = Ok s.
Proof.
  intros A B. unfold c_swap. rewrite AlgProofs1.swap_ok by auto. cbn [bind]. rewrite AlgProofs1.swap_ok by (rewrite swp_length; auto). cbn [bind].
  rewrite swp_swp by auto. now destruct s.
Qed.
Lemma qr_nan {F D} (fo : fops F) (qe : qr_env F) (L : dla F D) f c l d s' :
  ~ chol_disabled qe -> f_lt fo (q_upper qe) c = false -> f_lt fo c (lower_threshold qe) = false ->
  cm_qr fo qe L f c (mk_cm l d) = Ok s' ->
  exists i, forall log0, cm_qr fo qe (qlogD L) f c (mk_cm l (log0, d)) = Ok (mk_cm l (log0 ++ (QChol2, i) :: fallback i, cm_dla s')).
Proof.
  intros ND E2 E3 H. destruct s' as [l1 d1]. destruct (qr_log fo qe L f c l d l1 d1 H) as (lg & HT & -> & HL).
  destruct HT; try contradiction; try congruence. eexists. exact HL.
Qed.
Lemma qr_keeps_locked {F V M G T} (fo : fops F) (bl : blas F V M G T) (qe : qr_env F) nev nex mpi w : nev + nex <= w ->
  forall f c (s s' : cm (D := cst (V := V) (M := M))), let l := cm_locked s in
  clen (nev + nex) w (cm_dla s) -> firstn l (cs_C2 (cm_dla s)) = firstn l (cs_C (cm_dla s)) ->
  cm_qr fo qe (colD fo bl mpi (nev + nex)) f c s = Ok s' ->
  cm_locked s' = l /\ firstn l (cs_C (cm_dla s')) = firstn l (cs_C (cm_dla s)) /\ cs_H (cm_dla s') = cs_H (cm_dla s) /\
  firstn (nev + nex) (cs_C2 (cm_dla s')) = cs_C (cm_dla s').
Proof.
  intros Hw f c s s' l HL HE H. destruct (qr_keeps fo bl qe nev nex w Hw mpi f c s s' HL H) as (A & B & _ & D & E & G0 & _).
  fold l in E. rewrite HE in E. auto.
Qed.
Lemma inpl_qr_keeps_locked {F V M G T} (fo : fops F) (bl : blas F V M G T) (qe : qr_env F) nev nex f c (s s' : cm (D := ist (V := V) (M := M))) :
  let l := cm_locked s in no_late_failure bl (nev + nex) -> ilen (nev + nex) (cm_dla s) ->
  cm_qr fo qe (inplD fo bl (nev + nex)) f c s = Ok s' ->
  cm_locked s' = l /\ firstn l (is_V1 (cm_dla s')) = firstn l (is_V1 (cm_dla s)) /\ is_H (cm_dla s') = is_H (cm_dla s).
Proof. intros l NL HL H. destruct (inpl_qr_keeps fo bl qe nev nex f c s s' NL HL H) as (A & _ & B & _ & C & _). auto. Qed.
