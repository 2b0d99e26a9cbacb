(** Runs of the MPI backend end with the switch they start with. *)
From Coq Require Import List Arith ZArith Bool Lia Permutation.
Require Import Verif.Base Verif.AlgModel Verif.AlgSpec Verif.AlgProofs1 Verif.AlgProofs2 Verif.AlgProofs3 Verif.AlgProofs4 Verif.AlgKeep Verif.DlaModel Verif.ColModel Verif.ColSpec
  Verif.ColProofs1 Verif.ColProofs2 Verif.ColProofs3 Verif.ColSpan.
Import ListNotations.

Section Global.
Context {F V M G T : Type} (fo : fops F) (bl : blas F V M G T) (qe : qr_env F) (td : tridiag F) (cf : conf F) (sort_idx : list F -> list nat).
Notation n := (c_nev cf + c_nex cf).
Hypothesis Hperm : forall keys, Permutation (sort_idx keys) (seq 0 (length keys)).
Notation Km := (cmK fo qe td (colD fo bl true n) (c_nev cf) (c_nex cf)).

Lemma switch_after fsort l (g : cst (V := V) (M := M)) ritzv resid out : conf_ok cf -> cs_bAc g = true ->
  length (cs_C g) = n -> length (cs_B g) = n -> length (cs_C2 g) = n -> length (cs_B2 g) = n ->
  solve fo Km fsort sort_idx cf (mk_cm l g) ritzv resid = Ok out -> cs_bAc (cm_dla (o_k out)) = true.
Proof.
  intros HC Hb L1 L2 L3 L4.
  pose proof (mpi_keep fo bl qe td cf (cs_H g) n (le_n n)) as KK.
  pose proof (plain_also fo bl qe td (c_nev cf) (c_nex cf) true _ (fun l s (X : sJ fo bl (c_nev cf) (c_nex cf) (cs_H g) n l s) => proj1 X)) as PA.
  pose proof (keep_also fo Km n _ _ _ _ _ fromC KK PA) as KA.
  assert (J0 : sJ0 fo bl (c_nev cf) (c_nex cf) (cs_H g) n (mk_cm l g) /\ fromC (mk_cm l g)).
  { split; [|exact Hb]. split; [|constructor]. unfold clen. auto. }
  intros H. unfold solve in H. apply bind_ok in H as ([cont k0] & Hs & H).
  assert (HJk : sJ0 fo bl (c_nev cf) (c_nex cf) (cs_H g) n k0 /\ fromC k0)
    by (destruct (c_symcheck cf); [eapply (kk_sym _ _ _ _ _ _ _ _ KA); eauto|inversion Hs; subst; auto]).
  destruct (negb cont).
  { injection H as <-. exact (proj2 HJk). }
  apply bind_ok in H as ([ub s0] & Hi & H). apply bind_ok in H as (s & Hl & H). apply bind_ok in H as ([r k'] & Hf & H). apply bind_ok in H as (k'' & He & H).
  injection H as <-. cbn [o_k].
  pose proof (solve_init_book fo Km fsort cf k0 ritzv resid ub s0 Hi) as (HB & Hi0 & Hl0 & _).
  destruct (solve_init_keep fo Km n _ _ _ _ _ KA fsort cf k0 ritzv resid ub s0 eq_refl HC HJk Hi) as (G0 & J00). rewrite <- Hl0 in J00.
  pose proof (solve_loop_reach fo Km sort_idx cf ub _ _ _ Hl) as [HR _].
  destruct (reach_keep fo Km sort_idx Hperm n _ _ _ _ _ KA cf _ _ ub s0 s eq_refl HC ltac:(lia) HB G0 J00 HR) as (_ & (_ & Js) & _).
  pose proof (reach_book fo Km sort_idx Hperm cf _ _ ub s0 s HB ltac:(lia) HR) as (Bs & _).
  assert (Hk : fromC k').
  { assert (1 <= c_nev cf) by (unfold final_sort in Hf; destruct (c_nev cf =? 0) eqn:E; [discriminate|]; apply Nat.eqb_neq in E; lia).
    unfold final_sort in Hf. destruct (c_nev cf =? 0); [discriminate|].
    revert Hf. generalize (whole (ss_ritz s)). intros rr Hf. clear - Hf Js PA.
    assert (X : forall m i (rk : list F * cm (D := cst (V := V) (M := M))) rk', fromC (snd rk) ->
      for_ m i (fun i rk => for_ (c_nev cf - 1 - i) (i + 1) (fun j rk => final_exchange fo Km i j rk) rk) rk = Ok rk' -> fromC (snd rk')).
    { assert (Y : forall i m j (rk : list F * cm (D := cst (V := V) (M := M))) rk', fromC (snd rk) -> for_ m j (fun j rk => final_exchange fo Km i j rk) rk = Ok rk' -> fromC (snd rk')).
      { intros i m. induction m; intros j rk rk' B H; cbn [for_] in H; [injection H as <-; auto|]. apply bind_ok in H as (r1 & H1 & H). eapply IHm; [|exact H].
        destruct rk as [rs k1]. unfold final_exchange in H1. apply bind_ok in H1 as (a & _ & H1). apply bind_ok in H1 as (b & _ & H1).
        match type of H1 with (if ?c then _ else _) = _ => destruct c end; [|injection H1 as <-; exact B].
        apply bind_ok in H1 as (r' & _ & H1). apply bind_ok in H1 as (k2 & H2 & H1). injection H1 as <-. cbn [snd] in *. exact (ak_swap _ _ _ _ _ PA _ _ _ _ B H2). }
      intros m. induction m; intros i rk rk' B H; cbn [for_] in H; [injection H as <-; auto|]. apply bind_ok in H as (r1 & H1 & H). eapply IHm; [|exact H]. eapply Y; eauto. }
    apply X in Hf; auto. }
  cbn [cmK k_end] in He. apply bind_ok in He as (d & E & He). injection E as <-. injection He as <-. exact Hk.
Qed.
End Global.
