(** How long the arrays handed to the solver must be. *)
From Coq Require Import List Arith Permutation Lia.
Require Import Verif.Base Verif.AlgModel Verif.AlgSpec Verif.AlgProofs1 Verif.AlgProofs2 Verif.AlgProofs3.
Import ListNotations.

Lemma solve_room {F St} (fo : fops F) (K : kernel F St) fsort si cf k ritzv resid out st :
  solve fo K fsort si cf k ritzv resid = Ok out -> o_exit out = Some st ->
  c_nev cf + c_nex cf <= length ritzv /\ c_nev cf + c_nex cf <= length resid.
Proof.
  unfold solve. intros H E. apply bind_ok in H as ([cont k0] & _ & H). destruct (negb cont).
  - inversion H; subst. discriminate.
  - apply bind_ok in H as ([ub s0] & H0 & _). apply solve_init_book in H0. lia.
Qed.
Lemma short_values {F St} (fo : fops F) (K : kernel F St) fsort si cf k ritzv resid :
  length ritzv = c_nev cf -> 1 <= c_nex cf -> ~ exists out st, solve fo K fsort si cf k ritzv resid = Ok out /\ o_exit out = Some st.
Proof. intros Hl Hx (out & st & H & E). pose proof (solve_room _ _ _ _ _ _ _ _ _ _ H E). lia. Qed.
