(** Property C91: what the single-GPU backend leaves in the arrays of the caller, with exact arithmetic and library routines that do
    what their documentation says. *)
From Coq Require Import Permutation Lia.
From mathcomp Require Import all_ssreflect all_algebra all_real_closed.
Require Import Verif.Base Verif.AlgModel Verif.AlgSpec Verif.DlaModel Verif.ColModel Verif.ColSpec Verif.SfModel Verif.SfSpec Verif.SiModel Verif.SiSpec Verif.SgModel Verif.SgSpec Verif.SgProofs4
  Verif.ExactSpec Verif.OrthSpec Verif.OrthEx Verif.LapackEx Verif.BackSpec2 Verif.SxSpec Verif.SxEx Verif.P_Sx.
Set Implicit Arguments. Unset Strict Implicit. Unset Printing Implicit Defensive.
Import GRing.Theory Num.Theory.
Import Verif.ExactSpec Verif.OrthSpec Verif.ColSpec.
Local Open Scope ring_scope.
Local Open Scope complex_scope.

Section Statements.
Variables (R : rcfType) (C : fieldType) (inj : {rmorphism R -> C}) (cj : {rmorphism C -> C}) (e : {rmorphism C -> R[i]}).
Variables (fo : fops R) (lb : flib R C) (qe : qr_env R) (td : tridiag R) (cf : conf R) (N ldh : nat).
Variables (fsort : list R -> list R) (si : list R -> list nat) (l0 : nat) (ritzv resid : list R) (f : gfs (F := R) (T := C)).
Local Notation nev := (c_nev cf).
Local Notation n := (Nat.add (c_nev cf) (c_nex cf)).
Local Notation gpu_run D := (solve fo (cmK fo qe td D (c_nev cf) (c_nex cf)) fsort si cf (mk_cm l0 f) ritzv resid).
Local Notation gpuD := (gflatD fo lb N ldh n).
Local Notation Hm := (matrix_of N ldh (u_H f)).
(** f is any object with arrays of the right sizes, fresh or used *)
Definition gpu_arrays_ok : Prop := le 1 N /\ le N ldh /\ gflat_sizes N ldh n f.
(** no block after the filter on which the first Cholesky factorisation succeeds and a later one fails, or Cholesky QR is off *)
Local Notation gpu_chol_ok o := (chol_disabled qe \/ gpu_run (stop_late (late_garr fo lb N n) gpuD) = Ok o).

(** C91.  If the run returns, the vectors in the caller's array are orthonormal and the values and residuals handed back belong to
    them and to the matrix in the caller's array. *)
Theorem C91_gpu_arrays_hold_eigenpairs : gpu_arrays_ok -> exact_setting inj cj e fo lb cf N si -> conf_ok cf -> le 1 (c_maxiter cf) -> hermitian cj Hm ->
  forall o s, gpu_run gpuD = Ok o -> o_exit o = Some s -> gpu_chol_ok o ->
  eigen_answer inj cj Hm nev n (o_ritz o) (vectors_of N n (u_V (cm_dla (o_k o)))) (o_res o).
Proof. exact (fun a b c d g o s E Hx HN => gpu_arrays a.1 a.2.1 a.2.2 b.1 b.2.2.1 b.2.2.2 c b.2.1 g d E Hx HN). Qed.

(** With a fixed degree, no symmetry test and Householder QR no run has to be assumed: it returns, in bounds, with the answer. *)
Theorem C91_fixed_degree_gpu : gpu_arrays_ok -> exact_setting inj cj e fo lb cf N si -> conf_ok cf -> le 1 (c_maxiter cf) -> hermitian cj Hm -> fixed_setting qe cf fsort ritzv resid ->
  exists o, gpu_run gpuD = Ok o /\ u_H (cm_dla (o_k o)) = u_H f /\
    eigen_answer inj cj Hm nev n (o_ritz o) (vectors_of N n (u_V (cm_dla (o_k o)))) (o_res o).
Proof.
exact (fun a b c d g h => let: conj h1 (conj h2 (conj h3 (conj h4 (conj h5 (conj h6 (conj h7 (conj h8 h9))))))) := h in
  gpu_total td l0 a.1 a.2.1 a.2.2 b.1 b.2.2.1 b.2.2.2 c b.2.1 g d h1 h2 h3 h4 h5 h6 h7 h8 h9).
Qed.
End Statements.
Print Assumptions C91_gpu_arrays_hold_eigenpairs.
Print Assumptions C91_fixed_degree_gpu.

(** All hypotheses together: a new object, a 3 x 3 matrix in an array with leading dimension 4 and padding 7, two pairs wanted, one
    extra vector. *)
Example C91_example_run : forall (R : rcfType) (V1 : seq (complex_numClosedFieldType R)) qe td tol, size V1 = 9%N -> chol_disabled qe -> exists o,
  solve (s_fops R) (cmK (s_fops R) qe td (gflatD (s_fops R) (x_flib R 3 3) 3 4 3) 2 1) id (@x_sort R) (mk_conf R 3 2 1 tol 10 20 2 3 4 1 false true false)
    (mk_cm 0 (gflat_state (s_fops R) (x_flib R 3 3) 3 2 1 (ex_H R) V1)) (nseq 3 0) (nseq 3 0) = Ok o /\ u_H (cm_dla (o_k o)) = ex_H R /\
  eigen_answer (rc R) (cc R) (matrix_of 3 4 (ex_H R)) 2 3 (o_ritz o) (vectors_of 3 3 (u_V (cm_dla (o_k o)))) (o_res o).
Proof.
move=> R V1 qe td tol hV hd.
apply: (@C91_fixed_degree_gpu R _ (rc R) (cc R) (ci R) (s_fops R) (x_flib R 3 3) qe td (mk_conf R 3 2 1 tol 10 20 2 3 4 1 false true false) 3 4 id (@x_sort R) 0 (nseq 3 0) (nseq 3 0)
  (gflat_state (s_fops R) (x_flib R 3 3) 3 2 1 (ex_H R) V1)).
- by split; [|split] => //=; first [lia|split=> //=; lia].
- by split=> //; split; [exact: x_complex|split; [exact: x_lib|exact: x_sort_perm]].
- by rewrite /conf_ok /=; repeat split; lia.
- by rewrite /=; lia.
- exact: ex_H_herm.
- by rewrite /fixed_setting /=; repeat split=> //; lia.
Qed.
