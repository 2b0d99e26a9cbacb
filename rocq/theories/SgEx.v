(** Exact runs of the single-GPU backend on arrays; examples only. *)
From Coq Require Import List Arith ZArith QArith Bool Lia Permutation.
Require Import Verif.Base Verif.AlgModel Verif.AlgSpec Verif.DlaModel Verif.ColModel Verif.ColEx Verif.SfModel Verif.SfSpec Verif.SfEx Verif.SiModel Verif.SgModel Verif.SgSpec.
Import ListNotations.
Local Open Scope nat_scope.

Definition gflatQ qe ldh nev nex := cmK qf qe qtd (gflatD qf (qlib 0) 3 ldh (nev + nex)) nev nex.
(** an object used before: nines in the caller's vectors and in the matrix on the device, start vectors on the device *)
Definition V9 : list Q := repeat 9%Q 6.
Definition dev2 : ifst (T := Q) := mk_if (repeat 9%Q 9) V21 V9 (repeat 9%Q 4) true.
Definition used H : gfs (F := Q) (T := Q) := mk_gf H V9 dev2 [9; 9]%Q [9; 9]%Q.
Lemma gflat_run : exists o s, solve qf (gflatQ qhh 5 2 0) qfs qsort (fconf 2 0 true) (mk_cm 0 (used H5)) rv0 rs0 = Ok o /\ o_exit o = Some s /\
  ss_locked s = 2 /\ o_ritz o = [1; 2]%Q /\ u_V (cm_dla (o_k o)) = [1; 0; 0;  0; 1; 0]%Q /\ u_H (cm_dla (o_k o)) = H5 /\ g_V1 (u_d (cm_dla (o_k o))) = [1; 0; 0;  0; 1; 0]%Q.
Proof. do 2 eexists. repeat (split; [vm_compute; reflexivity|]). vm_compute. reflexivity. Qed.
Lemma gflat_run4 : exists o s, solve qf (gflatQ qchol 4 1 1) qfs qsort (fconf 1 1 true) (mk_cm 0 (used H4)) rv0 rs0 = Ok o /\ o_exit o = Some s /\
  ss_locked s = 1 /\ o_ritz o = [1; 2]%Q /\ u_V (cm_dla (o_k o)) = [1; 0; 0;  0; 1; 0]%Q /\ u_H (cm_dla (o_k o)) = H4.
Proof. do 2 eexists. repeat (split; [vm_compute; reflexivity|]). vm_compute. reflexivity. Qed.
(** a fresh object: the exact eigenvectors passed by the caller are not uploaded and are overwritten *)
Lemma gflat_fresh : exists o, solve qf (gflatQ qhh 5 2 0) qfs qsort (fconf 2 0 true) (mk_cm 0 (gflat_state qf (qlib 0) 3 2 0 H5 [1; 0; 0;  0; 1; 0]%Q)) rv0 rs0 = Ok o /\
  o_ritz o = [0; 0]%Q /\ u_V (cm_dla (o_k o)) = repeat 0%Q 6.
Proof. eexists. repeat (split; [vm_compute; reflexivity|]). vm_compute. reflexivity. Qed.
