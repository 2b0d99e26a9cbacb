(** Sessions on the arrays of one object; examples only. *)
From Coq Require Import List Arith ZArith QArith Bool Lia Permutation.
Require Import Verif.Base Verif.AlgModel Verif.AlgSpec Verif.DlaModel Verif.ColModel Verif.ColEx Verif.SfModel Verif.SfSpec Verif.SfEx Verif.SiModel Verif.SgModel Verif.SgSpec Verif.ReuseSpec Verif.ReuseEx Verif.SuSpec.
Import ListNotations.
Local Open Scope nat_scope.

Lemma qlib_overwrites info : gemm_overwrites qf (qlib info).
Proof. intros tr a A x y y' i. unfold qlib. cbn [l_gemm]. change (f_zero qf) with 0%Q. apply Qred_complete. ring. Qed.

(** diag(3, 1, 2), leading dimension 5 *)
Definition H5' : list Q := [3; 0; 0; 6; 6;  0; 1; 0; 6; 6;  0; 0; 2]%Q.
Definition ajobs : list (job (F := Q) (V := Q) (M := list Q)) :=
  [mk_job (fconf 2 0 true) H5 V21 rv0 rs0; mk_job (fconf 2 0 true) H5' [0; 1; 0;  0; 0; 1]%Q rv0 rs0; mk_job (fconf 2 0 false) H5 [0; 0; 1;  0; 1; 0]%Q rv0 rs0].
Definition arun {D} (L : dla Q D) (j : job (F := Q) (V := Q) (M := list Q)) k := solve qf (cmK qf qhh qtd L 2 0) qfs qsort (j_conf j) k (j_ritz j) (j_resid j).
Definition nine6 := repeat 9%Q 6.
Definition fused : cm (D := fst_ (T := Q)) := mk_cm 2 (mk_fs (repeat 9%Q 15) nine6 nine6 (nine6 ++ nine6) (nine6 ++ nine6) (repeat 9%Q 4) false).
Lemma seq_arrays_session : session f_C (fun j k => arun (flatD qf (qlib 0) 3 5 2) j (load_flat j k)) ajobs fused =
  [Ok ([1; 2], [0; 0], Some [1; 0; 0;  0; 1; 0]); Ok ([1; 2], [0; 0], Some [0; 1; 0;  0; 0; 1]); Ok ([2; 3], [0; 0], Some [0; 1; 0;  0; 0; 1])]%Q.
Proof. vm_compute. reflexivity. Qed.
(** in place: after one iteration the array the caller fills with start vectors is no longer the one the solver reads *)
Lemma inpl_arrays_lost :
  session g_V1 (fun j k => arun (iflatD qf (qlib 0) 3 5 2) j (load_iflat j k)) (firstn 2 ajobs) (mk_cm 0 (iflat_state (qlib 0) 3 2 0 H5 V21)) =
    [Ok ([1; 2], [0; 0], Some [1; 0; 0;  0; 1; 0]); Ok ([1; 3], [0; 0], Some [0; 1; 0;  1; 0; 0])]%Q /\
  apart g_V1 (fun j => arun (iflatD qf (qlib 0) 3 5 2) j (mk_cm 0 (iflat_state (qlib 0) 3 2 0 (j_H j) (j_V j)))) (firstn 2 ajobs) =
    [Ok ([1; 2], [0; 0], Some [1; 0; 0;  0; 1; 0]); Ok ([1; 2], [0; 0], Some [0; 1; 0;  0; 0; 1])]%Q.
Proof. split; vm_compute; reflexivity. Qed.

(** random start, two matrices *)
Definition rconf1 : conf Q := {| c_N := 6; c_nev := 2; c_nex := 1; c_tol := (1#100)%Q; c_deg := 2; c_maxdeg := 2; c_degextra := 0; c_maxiter := 1;
     c_lanczositer := 3; c_numlanczos := 1; c_opt := false; c_approx := false; c_symcheck := true |}.
Definition rjobs : list (job (F := Q) (V := Q) (M := list Q)) := [mk_job rconf1 H5 (repeat 0%Q 9) [1; 1; 1]%Q [0; 0; 0]%Q; mk_job rconf1 H5' (repeat 0%Q 9) [1; 1; 1]%Q [0; 0; 0]%Q].
Definition rrun {D} (L : dla Q D) (j : job (F := Q) (V := Q) (M := list Q)) k := solve qf (cmK qf qhh rtd L 2 1) qfs qsort (j_conf j) k (j_ritz j) (j_resid j).
Definition nine9 := repeat 9%Q 9.
Definition iused : cm (D := ifst (T := Q)) := mk_cm 2 (mk_if (repeat 9%Q 15) nine9 nine9 nine9 true).
Definition gused : cm (D := gfs (F := Q) (T := Q)) := mk_cm 2 (mk_gf (repeat 9%Q 15) nine9 (mk_if nine9 nine9 nine9 nine9 true) [9; 9; 9]%Q [9; 9; 9]%Q).
Lemma inpl_arrays_session : exists a b, session g_V1 (fun j k => rrun (iflatD qf (qlib 0) 3 5 3) j (load_iflat j k)) rjobs iused = [Ok a; Ok b] /\
  fst (fst a) <> fst (fst b) /\ snd a <> None /\ snd b <> None.
Proof. do 2 eexists. split; [vm_compute; reflexivity|]. repeat split; vm_compute; discriminate. Qed.
Lemma gpu_arrays_session : exists a b, session u_V (fun j k => rrun (gflatD qf (qlib 0) 3 5 3) j (load_gflat j k)) rjobs gused = [Ok a; Ok b] /\
  fst (fst a) <> fst (fst b) /\ snd a <> None /\ snd b <> None.
Proof. do 2 eexists. split; [vm_compute; reflexivity|]. repeat split; vm_compute; discriminate. Qed.
