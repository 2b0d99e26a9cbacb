(** Property C93: eigenpairs in the arrays of a solver object that has been used before, and of one used for a list of problems, with
    exact arithmetic and library routines that do what their documentation says. *)
From Coq Require Import Permutation Lia.
From mathcomp Require Import all_ssreflect all_algebra all_real_closed.
Require Import Verif.Base Verif.AlgModel Verif.AlgSpec Verif.DlaModel Verif.ColModel Verif.ColSpec Verif.SfModel Verif.SfSpec Verif.SiModel Verif.SiSpec Verif.SgModel Verif.SgSpec
  Verif.ExactSpec Verif.OrthSpec Verif.OrthEx Verif.LapackEx Verif.BackSpec2 Verif.SxSpec Verif.SxEx Verif.P_Sx Verif.ReuseSpec Verif.SuSpec Verif.SuSpec2 Verif.SuProofs3 Verif.SuProofs4.
Set Implicit Arguments. Unset Strict Implicit. Unset Printing Implicit Defensive.
Import GRing.Theory Num.Theory.
Import Verif.ExactSpec Verif.OrthSpec Verif.ColSpec.
Local Open Scope ring_scope.
Local Open Scope complex_scope.

Section Statements.
Variables (R : rcfType) (C : fieldType) (inj : {rmorphism R -> C}) (cj : {rmorphism C -> C}) (e : {rmorphism C -> R[i]}).
Variables (fo : fops R) (lb : flib R C) (qe : qr_env R) (td : tridiag R) (cf : conf R) (N ldh : nat).
Variables (fsort : list R -> list R) (si : list R -> list nat) (l0 : nat) (ritzv resid : list R).
Local Notation nev := (c_nev cf).
Local Notation n := (Nat.add (c_nev cf) (c_nex cf)).
Local Notation arun D f := (solve fo (cmK fo qe td D (c_nev cf) (c_nex cf)) fsort si cf (mk_cm l0 f) ritzv resid).
Local Notation seqD := (flatD fo lb N ldh n).
Local Notation inplD := (iflatD fo lb N ldh n).

(** C93.  f is any object with arrays of the right sizes: whatever the workspaces hold, the vectors in the caller's array are
    orthonormal and the values and residuals belong to them and to the matrix now in the caller's array *)
Theorem C93_used_sequential_object : forall w f, le 1 N -> le N ldh -> flat_sizes N ldh n w f -> le n w -> exact_setting inj cj e fo lb cf N si -> conf_ok cf -> le 1 (c_maxiter cf) ->
  hermitian cj (matrix_of N ldh (f_H f)) -> forall o s, arun seqD f = Ok o -> o_exit o = Some s ->
  (chol_disabled qe \/ arun (stop_late (late_arr fo lb N n) seqD) f = Ok o) ->
  eigen_answer inj cj (matrix_of N ldh (f_H f)) nev n (o_ritz o) (vectors_of N n (f_C (cm_dla (o_k o)))) (o_res o).
Proof. exact (fun w f n1 nl hs hw b c d g o s E Hx HN => us_arrays n1 nl b.1 b.2.2.1 b.2.2.2 c hs b.2.1 g d hw E Hx HN). Qed.

(** in place, for the array the solver works in at the end *)
Theorem C93_used_in_place_object : forall f, le 1 N -> le N ldh -> iflat_sizes N ldh n f -> exact_setting inj cj e fo lb cf N si -> conf_ok cf -> le 1 (c_maxiter cf) ->
  hermitian cj (matrix_of N ldh (SiModel.g_H f)) -> forall o s, arun inplD f = Ok o -> o_exit o = Some s ->
  (chol_disabled qe \/ arun (stop_late (late_iarr fo lb N n) inplD) f = Ok o) ->
  eigen_answer inj cj (matrix_of N ldh (SiModel.g_H f)) nev n (o_ritz o) (vectors_of N n (SiModel.g_V1 (cm_dla (o_k o)))) (o_res o).
Proof. exact (fun f n1 nl hs b c d g o s E Hx HN => ui_arrays n1 nl b.1 b.2.2.1 b.2.2.2 c hs b.2.1 g d E Hx HN). Qed.

(** the array with the matrix is as it was *)
Theorem C93_matrix_array_unchanged : le 1 N -> le N ldh -> exact_setting inj cj e fo lb cf N si -> conf_ok cf ->
  (forall w f o, flat_sizes N ldh n w f -> arun seqD f = Ok o -> f_H (cm_dla (o_k o)) = f_H f) /\
  (forall f o, iflat_sizes N ldh n f -> arun inplD f = Ok o -> SiModel.g_H (cm_dla (o_k o)) = SiModel.g_H f).
Proof.
exact (fun n1 nl b c => conj (fun w f o hs E => us_matrix n1 nl b.1 b.2.2.1 b.2.2.2 c hs E) (fun f o hs E => ui_matrix n1 nl b.1 b.2.2.1 b.2.2.2 c hs E)).
Qed.
End Statements.
Print Assumptions C93_used_sequential_object.
Print Assumptions C93_used_in_place_object.
Print Assumptions C93_matrix_array_unchanged.

(** A list of problems of any length on one object: every solve returns, and every answer is one for its own matrix.  Fixed degree, no
    symmetry test, Householder QR; the start vectors (which in place may not be the ones supplied, C92, and on the GPU never are,
    C90) do not matter for this. *)
Section Sessions.
Variables (R : rcfType) (C : fieldType) (inj : {rmorphism R -> C}) (cj : {rmorphism C -> C}) (e : {rmorphism C -> R[i]}).
Variables (fo : fops R) (lb : flib R C) (qe : qr_env R) (td : tridiag R) (nev nex N ldh : nat) (fsort : list R -> list R) (si : list R -> list nat).
Local Notation n := (Nat.add nev nex).
Local Notation run D := (fun j k => solve fo (cmK fo qe td D nev nex) fsort si (j_conf j) k (j_ritz j) (j_resid j)).
Definition session_setting : Prop := le 1 N /\ le N ldh /\ exact_fops fo /\ in_complex inj cj e /\ exact_lib inj cj lb N n /\
  (forall keys, Permutation (si keys) (List.seq 0 (length keys))) /\ (forall l, length (fsort l) = length l) /\ chol_disabled qe.
Theorem C93_session_sequential : session_setting -> le nex nev -> forall jobs s, flat_sizes N ldh n (Nat.add nev nev) (cm_dla s) -> List.Forall (xjob_ok cj nev nex N ldh) jobs ->
  List.Forall2 (answer_ok inj cj nev nex N ldh) jobs (session f_C (fun j k => run (flatD fo lb N ldh n) j (load_flat j k)) jobs s).
Proof. exact (fun '(conj a (conj b (conj c (conj d (conj f (conj g (conj h i))))))) hx jobs s => @seq_answers R C inj cj e fo lb qe td nev nex N ldh fsort si a b c d f g h i jobs s hx). Qed.
Theorem C93_session_in_place : session_setting -> forall jobs s, iflat_sizes N ldh n (cm_dla s) -> List.Forall (xjob_ok cj nev nex N ldh) jobs ->
  List.Forall2 (answer_ok inj cj nev nex N ldh) jobs (session SiModel.g_V1 (fun j k => run (iflatD fo lb N ldh n) j (load_iflat j k)) jobs s).
Proof. exact (fun '(conj a (conj b (conj c (conj d (conj f (conj g (conj h i))))))) jobs s => @inpl_answers R C inj cj e fo lb qe td nev nex N ldh fsort si a b c d f g h i jobs s). Qed.
Theorem C93_session_gpu : session_setting -> forall jobs s, gflat_sizes N ldh n (cm_dla s) -> List.Forall (xjob_ok cj nev nex N ldh) jobs ->
  List.Forall2 (answer_ok inj cj nev nex N ldh) jobs (session u_V (fun j k => run (gflatD fo lb N ldh n) j (load_gflat j k)) jobs s).
Proof. exact (fun '(conj a (conj b (conj c (conj d (conj f (conj g (conj h i))))))) jobs s => @gpu_answers R C inj cj e fo lb qe td nev nex N ldh fsort si a b c d f g h i jobs s). Qed.
End Sessions.
Print Assumptions C93_session_sequential.
Print Assumptions C93_session_in_place.
Print Assumptions C93_session_gpu.

(** All hypotheses together: the matrix of C89 and the zero matrix, any number of times in turn, on an object full of ones. *)
Definition ex_job (R : rcfType) tol (z : bool) : job (F := R) (V := complex_numClosedFieldType R) (M := seq (complex_numClosedFieldType R)) :=
  mk_job (mk_conf R 3 2 1 tol 10 20 2 3 4 1 false true false) (if z then nseq 12 0 else ex_H R) (nseq 9 0) (nseq 3 0) (nseq 3 0).
Lemma ex_job_ok (R : rcfType) tol z : xjob_ok (cc R) 2 1 3 4 (@ex_job R tol z).
Proof.
have herm : hermitian (cc R) (matrix_of 3 4 (j_H (@ex_job R tol z))).
  case: z; last exact: ex_H_herm.
  by apply/matrixP => -[[|[|[|//]]] hi] -[[|[|[|//]]] hj]; rewrite !mxE; exact: rmorph0.
split; last by split; first exact: herm; do ! split=> //=; lia.
by rewrite /ajob_ok /conf_ok /=; case: z {herm}; repeat split=> //=; lia.
Qed.
Example C93_example_session : forall (R : rcfType) qe td tol (zs : seq bool), chol_disabled qe ->
  let one := (fun k => nseq k 1) : nat -> seq (complex_numClosedFieldType R) in
  List.Forall2 (answer_ok (rc R) (cc R) 2 1 3 4) (List.map (@ex_job R tol) zs)
    (session f_C (fun j k => solve (s_fops R) (cmK (s_fops R) qe td (flatD (s_fops R) (x_flib R 3 3) 3 4 3) 2 1) id (@x_sort R) (j_conf j) (load_flat j k) (j_ritz j) (j_resid j))
      (List.map (@ex_job R tol) zs) (mk_cm 2 (mk_fs (one 12%N) (one 9%N) (one 9%N) (one 12%N) (one 12%N) (one 9%N) false))).
Proof.
move=> R qe td tol zs hd one; apply: (@C93_session_sequential R _ (rc R) (cc R) (ci R)).
- have a : exact_fops (s_fops R) by [].
  have b := x_lib R (leqnn 3).
  by refine (conj _ (conj _ (conj a (conj (x_complex R) (conj b (conj (@x_sort_perm R) (conj _ hd))))))) => //; lia.
- by lia.
- by rewrite /flat_sizes /=; repeat split; lia.
- by apply/List.Forall_map; elim: zs => [|z zs IH]; constructor=> //; exact: ex_job_ok.
Qed.
