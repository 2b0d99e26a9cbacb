(** Concrete runs of the multi-GPU backends in the toy arithmetic of ColEx. *)
From Coq Require Import List Arith ZArith QArith Bool.
Require Import Verif.Base Verif.AlgModel Verif.AlgSpec Verif.AlgProofs3 Verif.DlaModel Verif.ColModel Verif.ColSpec Verif.ColEx Verif.GpuEx
  Verif.MgpuModel Verif.MgpuSpec Verif.CawModel Verif.CawSpec.
Import ListNotations.
Local Open Scope nat_scope.

(** matrix products that do not read the old contents when the factor is zero *)
Definition zgemm (h : qv) (a b : Q) (x y : qv) : qv :=
  if Qeq_bool b 0 then vscal a (vmap2 Qmult h x) else vmap2 Qplus (vscal a (vmap2 Qmult h x)) (vscal b y).
Definition zt (bl : blas Q qv qv (list qv * list qv) Q) : blas Q qv qv (list qv * list qv) Q := {|
  b_gemmN := zgemm; b_gemmH := zgemm; b_mulN := b_mulN bl; b_mulH := b_mulH bl; b_shift := b_shift bl;
  b_rnd := b_rnd bl; b_test := b_test bl; b_veq := b_veq bl; b_zero := b_zero bl; b_hh := b_hh bl; b_syherk := b_syherk bl;
  b_dshift := b_dshift bl; b_potrf := b_potrf bl; b_trsm := b_trsm bl; b_gram := b_gram bl; b_eval := b_eval bl;
  b_comb := b_comb bl; b_combl := b_combl bl; b_inj := b_inj bl; b_re := b_re bl; b_tneg := b_tneg bl; b_dot := b_dot bl;
  b_axpy := b_axpy bl; b_scal := b_scal bl; b_nrm2 := b_nrm2 bl |}.
Definition mB := zt seqB.
(** the Cholesky factorisation always fails *)
Definition failB := zt (toy false (fun g => (1%Z, g))).
Lemma mB_beta : beta_zero qf mB.
Proof. intros h a x y y'. split; reflexivity. Qed.
Lemma mB_no_late n : no_late_failure mB n.
Proof. intros cs sh R _ _. reflexivity. Qed.

(** the local products leave something on the devices that is not the sum *)
Definition qloc (t : bool) (h : qv) (a b : Q) (x y : qv) : qv := map (fun u => Qred (u * 5 + 77)) x.
Definition junk : list qv := [[81; -3; 5]; [7; 7; 9]]%Q.
(** a used object: the device blocks hold junk, the device matrix is another one *)
Definition mgpuQ scal (bl : blas Q qv qv (list qv * list qv) Q) qe := cmK qf qe qtd (mgpuD qf bl qloc scal 2) 2 0.
Definition mgpu_used : cm (D := mst (V := qv) (M := qv)) := mk_cm 0 (mk_mst H3 [9; 9; 9]%Q W3 junk junk junk junk junk true (Some false)).
Definition mgpu_new : cm (D := mst (V := qv) (M := qv)) := mk_cm 0 (mgpu_state mB 2 [0; 0; 0]%Q H3 W3).
Definition cpuQ (bl : blas Q qv qv (list qv * list qv) Q) qe := cmK qf qe qtd (colD qf bl true 2) 2 0.
Definition qcholon : qr_env Q := mk_qe _ true None None 100%Q 10%Q.


Lemma mgpu_run : exists k0 ub s0 s1 s2 s3 o,
  k_sym (mgpuQ false mB qcholon) mgpu_used = Ok (true, k0) /\ solve_init qf (mgpuQ false mB qcholon) qfs (qconf 2 0) k0 rv0 rs0 = Ok (ub, s0) /\
  iterate qf (mgpuQ false mB qcholon) qsort (qconf 2 0) ub s0 = Ok s1 /\ iterate qf (mgpuQ false mB qcholon) qsort (qconf 2 0) ub s1 = Ok s2 /\
  iterate qf (mgpuQ false mB qcholon) qsort (qconf 2 0) ub s2 = Ok s3 /\ ss_locked s1 = 1 /\ ss_locked s2 = 1 /\ ss_locked s3 = 2 /\
  solve qf (mgpuQ false mB qcholon) qfs qsort (qconf 2 0) mgpu_used rv0 rs0 = Ok o /\ o_exit o = Some s3 /\ nth_error (o_ritz o) 1 = Some 2%Q /\
  m_C (cm_dla (o_k o)) <> m_dC (cm_dla (o_k o)).
Proof. do 7 eexists. repeat (split; [vm_compute; reflexivity|]). vm_compute. discriminate. Qed.

(** diag(1, 2, 3): the fall-back after a failed Cholesky QR; the CPU backend finds 1 and 2 *)
Lemma scal_stale : exists o oc v vc,
  solve qf (mgpuQ true failB qcholon) qfs qsort (qconf 2 0) mgpu_new rv0 rs0 = Ok o /\ o_exit o <> None /\
  solve qf (cpuQ failB qcholon) qfs qsort (qconf 2 0) (mk_cm 0 (host (cm_dla mgpu_new))) rv0 rs0 = Ok oc /\
  nth_error (o_ritz o) 0 = Some v /\ nth_error (o_ritz oc) 0 = Some vc /\ qlt v (1 # 2) = true /\ qlt vc 1 = false /\
  solve qf (mgpuQ false failB qcholon) qfs qsort (qconf 2 0) mgpu_new rv0 rs0 <> UB.
Proof. do 4 eexists. split; [vm_compute; reflexivity|]. split; [vm_compute; discriminate|]. repeat (split; [vm_compute; reflexivity|]). vm_compute. discriminate. Qed.

(** ** CUDA-aware *)
Definition cawQ scal (bl : blas Q qv qv (list qv * list qv) Q) qe := cmK qf qe qtd (cawD qf bl scal 2 0) 2 0.
(** the device block holds start vectors, as an earlier solve leaves them *)
Definition caw_used (U : list qv) : cm (D := wst (F := Q) (V := qv) (M := qv)) := mk_cm 0 (mk_wst H3 U (mk_cst [9; 9; 9]%Q W3 junk junk junk true) [9; 9]%Q).
Lemma caw_ex : exists o s, solve qf (cawQ false mB qhh) qfs qsort (qconf 2 0) (caw_used exact2) rv0 rs0 = Ok o /\ o_exit o = Some s /\ ss_locked s = 2 /\
  nth_error (o_ritz o) 1 = Some 2%Q.
Proof. do 2 eexists. repeat (split; [vm_compute; reflexivity|]). vm_compute. reflexivity. Qed.

(** both builds report two converged pairs; with the QR lost the first vector is not normalised *)
Lemma caw_unnormalised : exists o o' s s' x x',
  solve qf (cawQ false mB qhh) qfs qsort (qconf 2 0) (caw_used exact2) rv0 rs0 = Ok o /\ o_exit o = Some s /\ ss_locked s = 2 /\
  solve qf (cawQ true mB qhh) qfs qsort (qconf 2 0) (caw_used exact2) rv0 rs0 = Ok o' /\ o_exit o' = Some s' /\ ss_locked s' = 2 /\
  nth_error (w_C (cm_dla (o_k o))) 0 = Some x /\ nth_error (w_C (cm_dla (o_k o'))) 0 = Some x' /\ qlt (vnrm x) (1 # 10) = true /\ vnrm x' = 1%Q.
Proof. do 6 eexists. repeat (split; [vm_compute; reflexivity|]). vm_compute. reflexivity. Qed.
Lemma caw_chol_ub : solve qf (cawQ false mB qcholon) qfs qsort (qconf 2 0) (caw_used exact2) rv0 rs0 = UB.
Proof. vm_compute. reflexivity. Qed.
Lemma scal_fresh_ub : solve qf (mgpuQ true mB qhh) qfs qsort (qconf 2 0) mgpu_new rv0 rs0 = UB.
Proof. vm_compute. reflexivity. Qed.
