(** Concrete runs of the single-GPU backend in the toy arithmetic of ColEx. *)
From Coq Require Import List Arith ZArith QArith Bool.
Require Import Verif.Base Verif.AlgModel Verif.AlgSpec Verif.AlgProofs3 Verif.DlaModel Verif.ColModel Verif.ColSpec Verif.ColEx Verif.LanczosSteps
  Verif.GpuModel Verif.GpuSpec.
Import ListNotations.
Local Open Scope nat_scope.

Definition gpuQ nev nex := cmK qf qhh qtd (gpuD qf inpB (nev + nex)) nev nex.
(** a fresh object on diag(1, 2, 3) and exact eigenvectors *)
Definition exact2 : list qv := [[0; 1; 0]; [1; 0; 0]]%Q.
Definition gpu_fresh := mk_cm 0 (gpu_state inpB 2 [0; 0; 0]%Q 0%Q H3 exact2).
(** an object whose device block holds start vectors, as an earlier solve leaves them *)
Definition gpu_used := mk_cm 0 (mk_gst H3 W3 (mk_ist [7; 7; 7]%Q W3 [[0; 0; 0]; [0; 0; 0]]%Q true) [9; 9]%Q).

Lemma inpB_no_late_shift n : no_late_shift inpB n.
Proof. intros cs R _ _. reflexivity. Qed.

Lemma gpu_run : exists k0 ub s0 s1 s2 o,
  k_sym (gpuQ 2 0) gpu_used = Ok (true, k0) /\ solve_init qf (gpuQ 2 0) qfs (qconf 2 0) k0 rv0 rs0 = Ok (ub, s0) /\
  iterate qf (gpuQ 2 0) qsort (qconf 2 0) ub s0 = Ok s1 /\ iterate qf (gpuQ 2 0) qsort (qconf 2 0) ub s1 = Ok s2 /\
  ss_locked s1 = 1 /\ ss_locked s2 = 2 /\
  solve qf (gpuQ 2 0) qfs qsort (qconf 2 0) gpu_used rv0 rs0 = Ok o /\ o_exit o = Some s2 /\
  (exists v x, nth_error (o_ritz o) 0 = Some v /\ nth_error (g_V1 (cm_dla (o_k o))) 0 = Some x /\ qlt (defect v x) (1 # 100) = true /\ qlt (9 # 10) (vnrm x) = true).
Proof. do 6 eexists. repeat (split; [vm_compute; reflexivity|]). do 2 eexists. repeat (split; [vm_compute; reflexivity|]). vm_compute. reflexivity. Qed.

Lemma start_ignored : exists oc og, 
  solve qf (seqQ 2 0) qfs qsort (qconf 2 0) (mk_cm 0 (seq_state seqB 2 0 H3 exact2)) rv0 rs0 = Ok oc /\
  solve qf (gpuQ 2 0) qfs qsort (qconf 2 0) gpu_fresh rv0 rs0 = Ok og /\
  c_approx (qconf 2 0) = true /\ o_ritz oc = [1; 2]%Q /\ o_ritz og = [0; 0]%Q /\ g_V1 (cm_dla (o_k og)) = [[0; 0; 0]; [0; 0; 0]]%Q.
Proof. do 2 eexists. repeat (split; [vm_compute; reflexivity|]). vm_compute. reflexivity. Qed.

Definition pair3 : list qv := [[1; 0; 1]; [0; 1; 1]]%Q.
Lemma batch_wrong : exists d e b C d1 e1 b1 C1,
  g_lanczos qf inpB H3 2 (Some 2) pair3 = Ok (d, e, b, C) /\ mlanczos qf inpB H3 2 (Some 2) pair3 = Ok (d1, e1, b1, C1) /\
  (forall x, b_mulN inpB H3 x = b_mulH inpB H3 x) /\
  nth_error d 3 = Some (14 # 9)%Q /\ nth_error d1 3 = Some (33 # 20)%Q /\ nth_error e 2 = Some (3 # 2)%Q /\ nth_error e1 2 = Some (5 # 4)%Q.
Proof. do 8 eexists. repeat (split; [vm_compute; reflexivity|]). vm_compute. reflexivity. Qed.

Lemma late_unreported : exists i s j t,
  d_chol2 (inplD qf lateB 2) 1 (mk_ist H3 exact2 exact2 false) = Ok (i, s) /\ i <> 0%Z /\
  d_chol2 (gpuD qf lateB 2) 1 (mk_gst H3 exact2 (mk_ist H3 exact2 exact2 false) [0; 0]%Q) = Ok (j, t) /\ j = 0%Z /\ is_V1 (g_dev t) = is_V1 s.
Proof. do 4 eexists. split; [vm_compute; reflexivity|]. split; [discriminate|]. repeat (split; [vm_compute; reflexivity|]). vm_compute. reflexivity. Qed.
