(** Every specialisation of the table, one after the other. *)
From Coq Require Import List ZArith String Ascii Bool Lia.
Require Import Verif.Base Verif.ConfigModel Verif.BlasDoc Verif.WrapModel Verif.WrapTable Verif.WrapSpec Verif.WrapProofs.
Import ListNotations.
Local Open Scope string_scope.
Local Open Scope Z_scope.

(** the hypotheses that exclude the exceptions *)
Ltac not_exception NE :=
  lazymatch goal with
  | |- done_all _ _ t_gesvd_s _ => destruct NE; left; split; reflexivity
  | |- done_all _ _ t_gesvd_d _ => destruct NE; left; split; reflexivity
  | |- done_all _ _ t_lange_d _ => destruct NE; right; left; split; [reflexivity|left; reflexivity]
  | |- done_all ?cf _ t_stemr_d _ =>
      assert (upper cf = false) by (destruct (upper cf) eqn:U; [destruct NE; right; right; left; repeat split; auto|reflexivity])
  | |- done_all _ _ t_pgqr_s ?a =>
      assert (num a "k" = num a "n")
        by (destruct (Z.eq_dec (num a "k") (num a "n")); [assumption|destruct NE; right; right; right; repeat split; auto])
  | |- done_all _ _ ?w ?a =>
      lazymatch eval cbv in (w_name w) with
      | "t_lange" =>
          assert (num a "norm" <> 73) by (intro; apply NE; right; left; split; [reflexivity|right; left; assumption]);
          assert (num a "norm" <> 105) by (intro; apply NE; right; left; split; [reflexivity|right; right; assumption])
      | _ => idtac
      end
  end.

Lemma done_wrappers cf lb w a :
  In w wrappers -> args_ok w a -> reports_enough lb (routine_for (w_name w) (w_type w)) (w_type w) -> ~ exception cf w a ->
  done_all cf lb w a.
Proof.
  unfold wrappers. intros I.
  repeat (destruct I as [<-|I];
    [ abstract (intros H RE NE;
        match type of RE with reports_enough ?lb ?r ?t =>
          let r' := eval vm_compute in r in let t' := eval cbv in t in change (reports_enough lb r' t') in RE end;
        not_exception NE; trans_cases H; perform H RE) |]).
  destruct I.
Qed.
