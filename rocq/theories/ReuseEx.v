(** Concrete sessions in the toy arithmetic of ColEx, with products that ignore the old contents when their factor is zero
    and a Gram matrix that does not distinguish its arguments. *)
From Coq Require Import List Arith ZArith QArith Bool Lia Permutation.
Require Import Verif.Base Verif.AlgModel Verif.AlgSpec Verif.DlaModel Verif.ColModel Verif.ColSpec Verif.ColEx Verif.GpuModel Verif.GpuSpec Verif.GpuEx Verif.MgpuModel Verif.MgpuSpec Verif.MgpuEx
  Verif.ReuseSpec.
Import ListNotations.
Local Open Scope nat_scope.

Definition dots (a b : list qv) : list qv * list qv := (map (fun p => [vdot (fst p) (snd p)]) (combine a b), []).
Definition dvals (g : list qv * list qv) : list Q := map (fun v => nth 0 v 0%Q) (fst g).
Definition symB : blas Q qv qv (list qv * list qv) Q :=
  let t := toy false pos in {|
  b_gemmN := zgemm; b_gemmH := zgemm; b_mulN := b_mulN t; b_mulH := b_mulH t; b_shift := b_shift t; b_rnd := b_rnd t; b_test := b_test t; b_veq := b_veq t;
  b_zero := b_zero t; b_hh := b_hh t; b_syherk := b_syherk t; b_dshift := b_dshift t; b_potrf := b_potrf t; b_trsm := b_trsm t;
  b_gram := dots; b_eval := fun g i => nth (nth i (order (dvals g)) 0) (dvals g) 0%Q; b_comb := fun cs g j => coln cs (nth j (order (dvals g)) 0);
  b_combl := b_combl t; b_inj := b_inj t; b_re := b_re t; b_tneg := b_tneg t; b_dot := b_dot t; b_axpy := b_axpy t; b_scal := b_scal t; b_nrm2 := b_nrm2 t |}.
Lemma symB_beta : beta_zero qf symB.
Proof. intros h a x y y'. split; reflexivity. Qed.
Lemma symB_no_late n : no_late_failure symB n.
Proof. intros cs sh R _ _. reflexivity. Qed.
Lemma vdot_sym : forall x y, vdot x y = vdot y x.
Proof.
  unfold vdot. induction x as [|a x IH]; intros [|b y]; cbn [combine fold_right fst snd]; auto. rewrite (IH y).
  apply Qred_complete. ring.
Qed.
Lemma symB_self_adjoint : self_adjoint symB (fun _ => True).
Proof.
  split; auto. intros h cs _. cbn [symB b_gram]. unfold dots. f_equal. generalize (b_mulH symB h). intros f.
  induction cs as [|c cs IH]; cbn [map combine fst snd]; auto. rewrite IH. f_equal. f_equal. apply vdot_sym.
Qed.

(** two problems: diag(1, 2, 3) with exact vectors, then diag(3, 1, 2) with exact vectors *)
Definition jobA : job := mk_job (qconf 2 0) H3 [[0; 1; 0]; [1; 0; 0]]%Q rv0 rs0.
Definition jobB : job := mk_job (qconf 2 0) [3; 1; 2]%Q [[0; 1; 0]; [0; 0; 1]]%Q rv0 rs0.
(** diag(1, 2, 3) with inexact vectors *)
Definition jobC : job := mk_job (qconf 2 0) H3 W3 rv0 rs0.
(** random start; the DoS replaces one of three columns *)
Definition rtd : tridiag Q := mk_td _ (fun _ _ i => inject_Z (Z.of_nat i + 1)) (fun _ _ _ => 1 # 2)%Q.
Definition rconf : conf Q := {| c_N := 6; c_nev := 2; c_nex := 1; c_tol := (1#100)%Q; c_deg := 4; c_maxdeg := 4; c_degextra := 2; c_maxiter := 2;
     c_lanczositer := 3; c_numlanczos := 1; c_opt := false; c_approx := false; c_symcheck := true |}.
Definition jobR (h : qv) : job := mk_job rconf h (repeat [0; 0; 0]%Q 3) [1; 1; 1]%Q [0; 0; 0]%Q.
Definition jrun {D} (td : tridiag Q) (nex : nat) (L : dla Q D) (j : job (F := Q) (V := qv) (M := qv)) (k : cm (D := D)) := solve qf (cmK qf qhh td L 2 nex) qfs qsort (j_conf j) k (j_ritz j) (j_resid j).
Definition junk3 : list qv := [[81; -3; 5]; [7; 7; 9]; [1; 1; 1]]%Q.

(** a used Seq object: leftovers everywhere *)
Definition seq_used : cm (D := cst (V := qv) (M := qv)) := mk_cm 1 (mk_cst [9; 9; 9]%Q junk junk (junk ++ junk) (junk ++ junk) false).
Lemma seq_session_ex : exists r1 r2 r3 e v2, session cs_C (fun j k => jrun qtd 0 (colD qf symB false 2) j (load_cst j k)) [jobA; jobC; jobB] seq_used =
    [Ok ([1; 2]%Q, r1, Some [[1; 0; 0]; [0; 1; 0]]%Q); Ok ([e; 2]%Q, r2, Some v2); Ok ([1; 2]%Q, r3, Some [[0; 1; 0]; [0; 0; 1]]%Q)] /\
  qlt e 1 = true /\ qlt (99 # 100) e = true.
Proof. do 5 eexists. split; [vm_compute; reflexivity|]. split; vm_compute; reflexivity. Qed.

(** the in-place backend after one iteration: the caller's buffer has become the second block *)
Definition inp_new (j : job (F := Q) (V := qv) (M := qv)) : ist (V := qv) (M := qv) := inpl_state symB 2 0 (j_H j) (j_V j).
Lemma inpl_session_lost : exists v1 v2 v3 r1 r2,
  session is_V1 (fun j k => jrun qtd 0 (inplD qf symB 2) j (load_ist j k)) [jobA; jobB] (mk_cm 0 (inp_new jobA)) =
    [Ok ([1; 2]%Q, r1, Some v1); Ok ([1; 3]%Q, r2, Some v2)] /\
  apart is_V1 (fun j => jrun qtd 0 (inplD qf symB 2) j (mk_cm 0 (inp_new j))) [jobA; jobB] =
    [Ok ([1; 2]%Q, r1, Some v1); Ok ([1; 2]%Q, r2, Some v3)] /\
  c_approx (j_conf jobB) = true /\ v3 = [[0; 1; 0]; [0; 0; 1]]%Q.
Proof. do 5 eexists. repeat (split; [vm_compute; reflexivity|]). vm_compute. reflexivity. Qed.

(** random start: an in-place session *)
Definition inp_used : cm (D := ist (V := qv) (M := qv)) := mk_cm 2 (mk_ist [9; 9; 9]%Q junk3 (rev junk3) true).
Lemma inpl_session_ex : exists a b, session is_V1 (fun j k => jrun rtd 1 (inplD qf symB 3) j (load_ist j k)) [jobR H3; jobR [3; 1; 2]%Q] inp_used = [Ok a; Ok b] /\
  fst (fst a) <> fst (fst b) /\ snd a <> None /\ snd b <> None.
Proof. do 2 eexists. split; [vm_compute; reflexivity|]. repeat split; vm_compute; discriminate. Qed.

(** with the same random numbers Seq and the in-place backend start from different blocks: LanczosDos copies a
    column it did not compute from the second block, orthonormalised in one, raw in the other *)
Definition start_block {D} (f : D -> list qv) (L : dla Q D) (k : D) : res (list qv) :=
  let! (ub, s) := solve_init qf (cmK qf qhh rtd L 2 1) qfs rconf (mk_cm 0 k) [1; 1; 1]%Q [0; 0; 0]%Q in Ok (f (cm_dla (ss_k s))).
Lemma start_differs : exists x y a b, start_block cs_C (colD qf symB false 3) (seq_state symB 2 1 H3 junk3) = Ok x /\
  start_block is_V1 (inplD qf symB 3) (inpl_state symB 2 1 H3 junk3) = Ok y /\ nth_error x 2 = Some a /\ nth_error y 2 = Some b /\ vnrm a = 1%Q /\ vnrm b = 3%Q.
Proof. do 4 eexists. repeat (split; [vm_compute; reflexivity|]). vm_compute. reflexivity. Qed.

(** in place, on the GPU and Seq: the same run from inexact vectors; leftovers differ *)
Definition inp_c : cm (D := ist (V := qv) (M := qv)) := mk_cm 2 (mk_ist H3 W3 junk true).
Definition gpu_c : cm (D := gst (F := Q) (V := qv) (M := qv)) := mk_cm 2 (mk_gst H3 junk (mk_ist [9; 9; 9]%Q W3 junk true) [9; 9]%Q).
Definition seq_c : cm (D := cst (V := qv) (M := qv)) := mk_cm 1 (mk_cst H3 W3 junk (junk ++ junk) (junk ++ junk) false).
Lemma three_runs : exists oi og os si sg ss, jrun qtd 0 (inplD qf symB 2) jobC inp_c = Ok oi /\ jrun qtd 0 (gpuD qf symB 2) jobC gpu_c = Ok og /\
  jrun qtd 0 (colD qf symB false 2) jobC seq_c = Ok os /\ o_exit oi = Some si /\ o_exit og = Some sg /\ o_exit os = Some ss /\ ss_iter ss = 2 /\ ss_locked ss = 2 /\
  nth_error (o_ritz os) 1 = Some 2%Q.
Proof. do 6 eexists. repeat (split; [vm_compute; reflexivity|]). vm_compute. reflexivity. Qed.
