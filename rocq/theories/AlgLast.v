(** The last iteration of a run: the exit state is reached from a state between QR and locking. *)
From Coq Require Import List Arith ZArith Bool Lia Permutation.
Require Import Verif.Base Verif.AlgModel Verif.AlgSpec Verif.AlgProofs1 Verif.AlgProofs2 Verif.AlgProofs3 Verif.AlgProofs4 Verif.AlgKeep.
Import ListNotations.

Section Last.
Context {F St V : Type} (fo : fops F) (K : kernel F St) (sort_idx : list F -> list nat).
Hypothesis Hperm : forall keys, Permutation (sort_idx keys) (seq 0 (length keys)).
Context (nevex : nat) (cols : St -> list V) (J0 : St -> Prop) (J Jf Jr : nat -> St -> Prop).
Hypothesis KK : kernel_keep fo K nevex cols J0 J Jf Jr.

Lemma iterate_last cf nr ns ub s s' : nevex = c_nev cf + c_nex cf -> conf_ok cf -> book cf nr ns s -> c_nex cf < ss_unconv s ->
  degs_ok s -> J (ss_locked s) (ss_k s) -> iterate fo K sort_idx cf ub s = Ok s' ->
  exists l k m, Jr l k /\ k_lock K m k = Ok (ss_k s').
Proof.
  intros Hnv HC HB Hunc HG HJ Hit.
  pose proof HB as [B1 B2 [B3 B3'] [B4 B4'] [B5 B5'] [B6 B6']].
  apply iterate_inv in Hit as (lb0 & lam & deg & a & av & k1 & cond & k2 & vals & k3 & ritz & last & rs & k4 & resid & new & lk' & k5 &
    H1 & H2 & H3 & H4 & H5 & H6 & H7 & H8 & H9 & H10 & H11 & _ & _ & _ & _ & ->); auto. cbn [ss_k].
  pose proof H2 as H2'. apply (degree_step_degs fo K) in H2' as (D1 & D2 & D3 & D4); auto.
  apply degree_step_len in H2 as (L1 & sw & Hr & E1 & E2 & E3 & E4); auto; [|lia].
  set (lk := ss_locked s) in *. set (un := ss_unconv s) in *.
  apply (kswaps_keep K nevex cols J lk un) in E4 as (Ja & Fa); auto; [|intros ? ? ? ? Q1 Q2 Q3 Q4; exact (kk_swap _ _ _ _ _ _ _ _ KK _ _ _ _ _ Q1 Q2 Q3 Q4)|lia].
  assert (FA : filter_args lk nevex un deg (cd_deg a)).
  { split; [lia|]. split; [lia|]. split; auto. split; auto. rewrite Forall_forall in *. intros d Hd. specialize (D2 d Hd). specialize (D3 d Hd). tauto. }
  apply (kk_filter _ _ _ _ _ _ _ _ KK lk) in H3 as (J1 & F1); auto.
  apply (kk_qr _ _ _ _ _ _ _ _ KK lk) in H4 as (J2 & F2); auto.
  replace un with (nevex - lk) in H5 by lia.
  apply (kk_rr _ _ _ _ _ _ _ _ KK lk) in H5 as (J3 & F3); auto; [|lia].
  apply (kk_resd _ _ _ _ _ _ _ _ KK lk) in H8 as (J4 & F4); auto; [|lia].
  apply locking_general in H10 as (Hnew & sw' & Hr' & (G1 & G2 & G3 & G4)); auto. cbn [lk_k] in *.
  apply (kswaps_keep K nevex cols Jr lk (un - c_nex cf)) in G4 as (J5 & F5); auto; [|intros ? ? ? ? Q1 Q2 Q3 Q4; exact (kk_swap_r _ _ _ _ _ _ _ _ KK _ _ _ _ _ Q1 Q2 Q3 Q4)|lia].
  eauto.
Qed.

Lemma solve_last fsort cf k ritzv resid o s : nevex = c_nev cf + c_nex cf -> conf_ok cf -> J0 k -> 1 <= c_maxiter cf ->
  solve fo K fsort sort_idx cf k ritzv resid = Ok o -> o_exit o = Some s ->
  exists l k4 m sw k', Jr l k4 /\ k_lock K m k4 = Ok (ss_k s) /\ in_range (c_nev cf) sw /\
    kswaps K 0 sw (ss_k s) = Ok k' /\ k_end K k' = Ok (o_k o).
Proof.
  intros Hnv HC HJ Hmi H Hex. unfold solve in H. apply bind_ok in H as ([cont k0] & Hsym & H).
  assert (HJk : J0 k0).
  { destruct (c_symcheck cf); [eapply (kk_sym _ _ _ _ _ _ _ _ KK); eauto|inversion Hsym; subst; auto]. }
  destruct (negb cont); [injection H as E; subst o; discriminate|].
  apply bind_ok in H as ([ub s0] & Hinit & H). apply bind_ok in H as (t & Hloop & H).
  apply bind_ok in H as ([r k'] & Hsort & H). apply bind_ok in H as (k'' & Hend & H). injection H as E. subst o.
  cbn [o_exit] in Hex. injection Hex as E. subst t. cbn [o_k].
  pose proof (solve_init_book fo K fsort cf k0 ritzv resid ub s0 Hinit) as (HB & Hi & Hl & _ & _ & G1 & G2 & Hpos).
  destruct (solve_init_keep fo K nevex cols J0 J Jf Jr KK _ _ _ _ _ _ _ Hnv HC HJk Hinit) as (D0 & J00). rewrite <- Hl in J00.
  pose proof (solve_loop_reach fo K sort_idx cf ub _ _ _ Hloop) as [HR HX].
  pose proof (reach_book fo K sort_idx Hperm cf _ _ ub s0 s HB ltac:(lia) HR) as (Bs & _).
  assert (Hnev : 1 <= c_nev cf).
  { unfold final_sort in Hsort. destruct (c_nev cf =? 0) eqn:E; [discriminate|]. apply Nat.eqb_neq in E. lia. }
  assert (X : exists l k m, Jr l k /\ k_lock K m k = Ok (ss_k s)).
  { inversion HR as [x E1 E2|x t u R1 R2 R3 R4 E1 E2].
    - exfalso. subst s. destruct HX as [HX|HX]; [|lia]. pose proof (bk_sum _ _ _ _ HB). lia.
    - pose proof (reach_book fo K sort_idx Hperm cf _ _ ub s0 t HB ltac:(lia) R1) as (Bt & _).
      destruct (reach_keep fo K sort_idx Hperm _ cols J0 J Jf Jr KK cf _ _ ub s0 t Hnv HC ltac:(lia) HB D0 J00 R1) as (Gt & Jt & _).
      eapply iterate_last; eauto. }
  destruct X as (l & k4 & m & X1 & X2).
  apply final_sort_by in Hsort as (_ & sw & Hr & (E1 & E2)); [|destruct (bk_r _ _ _ _ Bs); pose proof (bk_sum _ _ _ _ Bs); lia].
  cbn [fst snd] in *. exists l, k4, m, sw, k'. auto.
Qed.
End Last.
