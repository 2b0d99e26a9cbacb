(** Exact runs of the in-place backend on arrays; examples only. *)
From Coq Require Import List Arith ZArith QArith Bool Lia Permutation.
Require Import Verif.Base Verif.AlgModel Verif.AlgSpec Verif.DlaModel Verif.ColModel Verif.ColEx Verif.SfModel Verif.SfSpec Verif.SfEx Verif.SiModel.
Import ListNotations.
Local Open Scope nat_scope.

Definition iflatQ qe ldh nev nex := cmK qf qe qtd (iflatD qf (qlib 0) 3 ldh (nev + nex)) nev nex.
Definition iflat0 nev nex H V := mk_cm 0 (iflat_state (qlib 0) 3 nev nex H V).

(** two iterations: the caller's array is the one the solver works on *)
Definition V23 : list Q := [0; 1; 0;  1; 0; 3000000]%Q.
Lemma iflat_run_even : exists o s, solve qf (iflatQ qhh 5 2 0) qfs qsort (fconf 2 0 true) (iflat0 2 0 H5 V23) rv0 rs0 = Ok o /\ o_exit o = Some s /\
  ss_iter s = 2 /\ ss_locked s = 2 /\ user_array (cm_dla (o_k o)) = g_V1 (cm_dla (o_k o)) /\ skipn 3 (user_array (cm_dla (o_k o))) = [0; 1; 0]%Q /\ g_H (cm_dla (o_k o)) = H5.
Proof. do 2 eexists. repeat (split; [vm_compute; reflexivity|]). vm_compute. reflexivity. Qed.
(** one iteration: both pairs accepted, and the caller's array holds the residual vectors (zero) *)
Lemma iflat_run_odd : exists o s, solve qf (iflatQ qhh 5 2 0) qfs qsort (fconf 2 0 true) (iflat0 2 0 H5 V21) rv0 rs0 = Ok o /\ o_exit o = Some s /\
  ss_iter s = 1 /\ ss_locked s = 2 /\ o_ritz o = [1; 2]%Q /\ g_V1 (cm_dla (o_k o)) = [1; 0; 0;  0; 1; 0]%Q /\ user_array (cm_dla (o_k o)) = [0; 0; 0;  0; 0; 0]%Q.
Proof. do 2 eexists. repeat (split; [vm_compute; reflexivity|]). vm_compute. reflexivity. Qed.
Lemma iflat_run4 : exists o s, solve qf (iflatQ qchol 4 1 1) qfs qsort (fconf 1 1 true) (iflat0 1 1 H4 V21) rv0 rs0 = Ok o /\ o_exit o = Some s /\
  ss_locked s = 1 /\ o_ritz o = [1; 2]%Q /\ g_V1 (cm_dla (o_k o)) = [1; 0; 0;  0; 1; 0]%Q /\ g_H (cm_dla (o_k o)) = H4.
Proof. do 2 eexists. repeat (split; [vm_compute; reflexivity|]). vm_compute. reflexivity. Qed.
