(** Which pair a returned residual belongs to. *)
From Coq Require Import List Arith ZArith Bool Lia Permutation.
Require Import Verif.Base Verif.AlgModel Verif.AlgSpec Verif.AlgProofs1 Verif.AlgProofs2 Verif.AlgProofs3 Verif.AlgProofs4 Verif.AlgKeep Verif.AlgProofs5 Verif.AlgProofs6 Verif.DlaModel Verif.ColModel Verif.ColSpec
  Verif.ColProofs1 Verif.ColProofs2 Verif.InplProofs Verif.ColProofs3.
Import ListNotations.

Section Gen.
Context {F St V : Type} (fo : fops F) (K : kernel F St) (sort_idx : list F -> list nat).
Hypothesis Hperm : forall keys, Permutation (sort_idx keys) (seq 0 (length keys)).
Context (cf : conf F) (cols : St -> list V) (J0 : St -> Prop) (J Jf Jr : nat -> St -> Prop) (Rv : F -> V -> Prop) (Rr : F -> V -> F -> Prop).
Hypothesis KC : kernel_cols fo K (c_nev cf + c_nex cf) cols J0 J Jf Jr Rv Rr.
Hypothesis HC : conf_ok cf.
Hypothesis HM : 1 <= c_maxiter cf.

Lemma gen_resid_place fsort k ritzv resid o s : J0 k ->
  solve fo K fsort sort_idx cf k ritzv resid = Ok o -> o_exit o = Some s ->
  exists f, (forall i, i < c_nev cf -> f i < c_nev cf) /\ (forall i j, i < c_nev cf -> j < c_nev cf -> f i = f j -> i = j) /\
    forall i, i < c_nev cf -> nth_error (o_ritz o) i = nth_error (whole (ss_ritz s)) (f i) /\
      exists v x r, nth_error (o_ritz o) i = Some v /\ nth_error (cols (o_k o)) i = Some x /\ nth_error (o_res o) (f i) = Some r /\ Rv v x /\ Rr v x r.
Proof.
  intros HJ H Hex.
  destruct (solve_pairs fo K sort_idx Hperm _ cols J0 J Jf Jr Rv Rr KC fsort cf k ritzv resid o s eq_refl HC HJ HM H Hex)
    as (sw & Hr & E1 & E2 & E3 & (W1 & W2 & W3) & _).
  destruct (swps_reindex _ _ Hr) as (f & Hf & Hn).
  assert (L : c_nev cf + c_nex cf <= length (whole (ss_ritz s)) /\ length (cols (ss_k s)) = c_nev cf + c_nex cf /\ c_nev cf + c_nex cf <= length (whole (ss_res s))).
  { assert (Lc : length (cols (ss_k s)) = c_nev cf + c_nex cf).
    { unfold solve in H. apply bind_ok in H as ([cont k0] & Hsym & H).
      assert (HJk : J0 k0).
      { destruct (c_symcheck cf); [eapply (kc_sym _ _ _ _ _ _ _ _ _ _ KC); eauto|inversion Hsym; subst; auto]. }
      destruct (negb cont); [injection H as E; subst o; discriminate|].
      apply bind_ok in H as ([ub s0] & Hinit & H). apply bind_ok in H as (t & Hloop & H).
      apply bind_ok in H as ([r k'] & Hsort & H). apply bind_ok in H as (k'' & Hend & H). injection H as E. subst o.
      cbn [o_exit] in Hex. injection Hex as E. subst t.
      pose proof (solve_init_book fo K fsort cf k0 ritzv resid ub s0 Hinit) as (HB & Hi & Hl & _ & _ & G1 & G2 & Hpos).
      destruct (solve_init_keep fo K _ cols J0 J Jf Jr (cols_keep _ _ _ _ _ _ _ _ _ _ KC) fsort cf k0 ritzv resid ub s0 eq_refl HC HJk Hinit) as (G0 & J00).
      pose proof (solve_loop_reach fo K sort_idx cf ub _ _ _ Hloop) as [HR _]. rewrite <- Hl in J00.
      destruct (reach_keep fo K sort_idx Hperm _ cols J0 J Jf Jr (cols_keep _ _ _ _ _ _ _ _ _ _ KC) cf _ _ ub s0 s eq_refl HC ltac:(lia) HB G0 J00 HR) as (_ & Js & _).
      exact (kc_len _ _ _ _ _ _ _ _ _ _ KC _ _ Js). }
    rewrite Lc in W1, W2. rewrite firstn_length in W1, W2. lia. }
  destruct L as (L1 & L2 & L3). exists f. split; [exact Hf|]. split.
  - intros i j Hi Hj E. pose proof (Hn nat (seq 0 (c_nev cf)) ltac:(now rewrite seq_length)) as X.
    pose proof (Permutation_NoDup (swps_perm sw (seq 0 (c_nev cf))) (seq_NoDup _ _)) as ND.
    apply (proj1 (NoDup_nth_error _) ND); [rewrite swps_length, seq_length; auto|]. now rewrite !X, E.
  - intros i Hi. pose proof (Hf i Hi). split; [rewrite E1; apply Hn; lia|].
    destruct (nth_error (whole (ss_ritz s)) (f i)) as [v|] eqn:Ev; [|apply nth_error_None in Ev; lia].
    destruct (nth_error (cols (ss_k s)) (f i)) as [x|] eqn:Ex; [|apply nth_error_None in Ex; lia].
    destruct (nth_error (whole (ss_res s)) (f i)) as [r|] eqn:Er; [|apply nth_error_None in Er; lia].
    exists v, x, r. rewrite E1, E2, E3, !Hn by lia. split; [exact Ev|]. split; [exact Ex|]. split; [exact Er|].
    apply (W3 (f i) v x r); auto; rewrite nth_firstn by lia; auto.
Qed.
End Gen.

Section Runs.
Context {F V M G T : Type} (fo : fops F) (bl : blas F V M G T) (qe : qr_env F) (td : tridiag F) (cf : conf F).
Local Notation n := (c_nev cf + c_nex cf).
Local Notation seqK := (cmK fo qe td (colD fo bl false (c_nev cf + c_nex cf)) (c_nev cf) (c_nex cf)).
Local Notation inplK := (cmK fo qe td (inplD fo bl (c_nev cf + c_nex cf)) (c_nev cf) (c_nex cf)).
Context (sort_idx : list F -> list nat) (Hperm : forall keys, Permutation (sort_idx keys) (seq 0 (length keys))).
Context (fsort : list F -> list F) (l0 : nat) (H : M) (V1 : list V) (HV : length V1 = n) (HC : conf_ok cf) (HM : 1 <= c_maxiter cf).

Lemma seq_resid_place : c_nex cf <= c_nev cf -> forall ritzv resid o s,
  solve fo seqK fsort sort_idx cf (mk_cm l0 (seq_state bl (c_nev cf) (c_nex cf) H V1)) ritzv resid = Ok o -> o_exit o = Some s ->
  exists f, (forall i, i < c_nev cf -> f i < c_nev cf) /\ (forall i j, i < c_nev cf -> j < c_nev cf -> f i = f j -> i = j) /\
    forall i, i < c_nev cf -> nth_error (o_ritz o) i = nth_error (whole (ss_ritz s)) (f i) /\
      exists v x r, nth_error (o_ritz o) i = Some v /\ nth_error (cs_C (cm_dla (o_k o))) i = Some x /\ nth_error (o_res o) (f i) = Some r /\
        ritz_pair fo bl H v x /\ ritz_resid fo bl H v x r.
Proof.
  intros Hx ritzv resid o s. exact (gen_resid_place fo seqK sort_idx Hperm cf _ _ _ _ _ _ _ (seq_cols fo bl qe td (c_nev cf) (c_nex cf) H (c_nev cf + c_nev cf) ltac:(lia)) HC HM fsort _ ritzv resid o s (seq_J0 fo bl cf l0 H V1 HV)).
Qed.
Lemma inpl_resid_place : no_late_failure bl n -> forall ritzv resid o s,
  solve fo inplK fsort sort_idx cf (mk_cm l0 (inpl_state bl (c_nev cf) (c_nex cf) H V1)) ritzv resid = Ok o -> o_exit o = Some s ->
  exists f, (forall i, i < c_nev cf -> f i < c_nev cf) /\ (forall i j, i < c_nev cf -> j < c_nev cf -> f i = f j -> i = j) /\
    forall i, i < c_nev cf -> nth_error (o_ritz o) i = nth_error (whole (ss_ritz s)) (f i) /\
      exists v x r, nth_error (o_ritz o) i = Some v /\ nth_error (is_V1 (cm_dla (o_k o))) i = Some x /\ nth_error (o_res o) (f i) = Some r /\
        ritz_pair_inpl fo bl H v x /\ ritz_resid fo bl H v x r.
Proof.
  intros NL ritzv resid o s. exact (gen_resid_place fo inplK sort_idx Hperm cf _ _ _ _ _ _ _ (inpl_cols fo bl qe td (c_nev cf) (c_nex cf) H NL) HC HM fsort _ ritzv resid o s (inpl_J0 fo bl cf l0 H V1 HV)).
Qed.
End Runs.
