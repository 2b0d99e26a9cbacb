(** Property C89: what the sequential and the in-place backend leave in the arrays of the caller, with exact arithmetic and
    library routines that do what their documentation says. *)
From Coq Require Import Permutation Lia.
From mathcomp Require Import all_ssreflect all_algebra all_real_closed.
Require Import Verif.Base Verif.AlgModel Verif.AlgSpec Verif.DlaModel Verif.ColModel Verif.ColSpec Verif.SfModel Verif.SfSpec Verif.SiModel Verif.SiSpec
  Verif.ExactSpec Verif.OrthSpec Verif.OrthEx Verif.LapackEx Verif.BackSpec2 Verif.SxSpec Verif.SxProofs3 Verif.SxEx.
Set Implicit Arguments. Unset Strict Implicit. Unset Printing Implicit Defensive.
Import GRing.Theory Num.Theory.
Import Verif.ExactSpec Verif.OrthSpec Verif.ColSpec.
Local Open Scope ring_scope.
Local Open Scope complex_scope.

Section Statements.
Variables (R : rcfType) (C : fieldType) (inj : {rmorphism R -> C}) (cj : {rmorphism C -> C}) (e : {rmorphism C -> R[i]}).
Variables (fo : fops R) (lb : flib R C) (qe : qr_env R) (td : tridiag R) (cf : conf R) (N ldh : nat).
Variables (fsort : list R -> list R) (si : list R -> list nat) (l0 : nat) (ritzv resid : list R) (H V1 : list C).
Local Notation nev := (c_nev cf).
Local Notation n := (Nat.add (c_nev cf) (c_nex cf)).
Local Notation seq_run D := (solve fo (cmK fo qe td D (c_nev cf) (c_nex cf)) fsort si cf (mk_cm l0 (flat_state lb N (c_nev cf) (c_nex cf) H V1)) ritzv resid).
Local Notation inpl_run D := (solve fo (cmK fo qe td D (c_nev cf) (c_nex cf)) fsort si cf (mk_cm l0 (iflat_state lb N (c_nev cf) (c_nex cf) H V1)) ritzv resid).
Local Notation seqD := (flatD fo lb N ldh n).
Local Notation inplD := (iflatD fo lb N ldh n).
Definition arrays_ok : Prop := le 1 N /\ le N ldh /\ le (Nat.add (Nat.mul (Nat.sub N 1) ldh) N) (length H) /\ length V1 = Nat.mul N n.
Definition exact_setting : Prop := exact_fops fo /\ in_complex inj cj e /\ exact_lib inj cj lb N n /\ (forall keys, Permutation (si keys) (List.seq 0 (length keys))).
(** no block after the filter on which the first Cholesky factorisation succeeds and a later one fails, or Cholesky QR is off *)
Local Notation seq_chol_ok o := (chol_disabled qe \/ seq_run (stop_late (late_arr fo lb N n) seqD) = Ok o).
Local Notation inpl_chol_ok o := (chol_disabled qe \/ inpl_run (stop_late (late_iarr fo lb N n) inplD) = Ok o).

(** C89.  The caller passes an array with a Hermitian matrix (leading dimension [ldh], any padding) and one with the start vectors.
    If the run of the sequential backend returns, the vectors in its array are orthonormal and the values and residuals handed back
    belong to them. *)
Theorem C89_sequential_arrays_hold_eigenpairs : arrays_ok -> exact_setting -> conf_ok cf -> le 1 (c_maxiter cf) -> le (c_nex cf) (c_nev cf) -> hermitian cj (matrix_of N ldh H) ->
  forall o s, seq_run seqD = Ok o -> o_exit o = Some s -> seq_chol_ok o ->
  eigen_answer inj cj (matrix_of N ldh H) nev n (o_ritz o) (vectors_of N n (f_C (cm_dla (o_k o)))) (o_res o).
Proof. exact (fun a b c d f g o s E Hx HN => seq_arrays a.1 a.2.1 a.2.2.1 a.2.2.2 b.1 b.2.2.1 b.2.2.2 c b.2.1 g d f E Hx HN). Qed.

(** the same for the in-place backend, for the array it works in at the end *)
Theorem C89_in_place_arrays_hold_eigenpairs : arrays_ok -> exact_setting -> conf_ok cf -> le 1 (c_maxiter cf) -> hermitian cj (matrix_of N ldh H) ->
  forall o s, inpl_run inplD = Ok o -> o_exit o = Some s -> inpl_chol_ok o ->
  eigen_answer inj cj (matrix_of N ldh H) nev n (o_ritz o) (vectors_of N n (g_V1 (cm_dla (o_k o)))) (o_res o).
Proof. exact (fun a b c d g o s E Hx HN => inpl_arrays a.1 a.2.1 a.2.2.1 a.2.2.2 b.1 b.2.2.1 b.2.2.2 c b.2.1 g d E Hx HN). Qed.

(** and for the array the caller passed if the number of iterations is even (C88: after an odd number it need not hold) *)
Theorem C89_in_place_caller_array : arrays_ok -> exact_setting -> conf_ok cf -> le 1 (c_maxiter cf) -> hermitian cj (matrix_of N ldh H) ->
  forall o s, inpl_run inplD = Ok o -> o_exit o = Some s -> inpl_chol_ok o -> Nat.even (ss_iter s) = true ->
  eigen_answer inj cj (matrix_of N ldh H) nev n (o_ritz o) (vectors_of N n (user_array (cm_dla (o_k o)))) (o_res o).
Proof. exact (fun a b c d g o s E Hx HN Hev => inpl_user a.1 a.2.1 a.2.2.1 a.2.2.2 b.1 b.2.2.1 b.2.2.2 c b.2.1 g d E Hx HN Hev). Qed.

(** the array with the matrix is as it was, padding included, though every filter step shifts and unshifts its diagonal *)
Theorem C89_matrix_array_unchanged : arrays_ok -> exact_setting -> conf_ok cf ->
  (forall o, seq_run seqD = Ok o -> f_H (cm_dla (o_k o)) = H) /\ (forall o, inpl_run inplD = Ok o -> SiModel.g_H (cm_dla (o_k o)) = H).
Proof.
exact (fun a b c => conj (fun o E => seq_matrix a.1 a.2.1 a.2.2.1 a.2.2.2 b.1 b.2.2.1 b.2.2.2 c E) (fun o E => inpl_matrix a.1 a.2.1 a.2.2.1 a.2.2.2 b.1 b.2.2.1 b.2.2.2 c E)).
Qed.

(** With a fixed degree, no symmetry test and Householder QR no run has to be assumed: it returns, in bounds, with the answer. *)
Definition fixed_setting : Prop := c_opt cf = false /\ c_symcheck cf = false /\ c_approx cf = true /\ (forall l, length (fsort l) = length l) /\
  le n (length ritzv) /\ le n (length resid) /\ le 2 (c_N cf) /\ le 1 (c_lanczositer cf) /\ chol_disabled qe.
Theorem C89_fixed_degree_sequential : arrays_ok -> exact_setting -> conf_ok cf -> le 1 (c_maxiter cf) -> le (c_nex cf) (c_nev cf) -> hermitian cj (matrix_of N ldh H) -> fixed_setting ->
  exists o, seq_run seqD = Ok o /\ f_H (cm_dla (o_k o)) = H /\
    eigen_answer inj cj (matrix_of N ldh H) nev n (o_ritz o) (vectors_of N n (f_C (cm_dla (o_k o)))) (o_res o).
Proof.
exact (fun a b c d f g h => let: conj h1 (conj h2 (conj h3 (conj h4 (conj h5 (conj h6 (conj h7 (conj h8 h9))))))) := h in
  seq_total td l0 a.1 a.2.1 a.2.2.1 a.2.2.2 b.1 b.2.2.1 b.2.2.2 c b.2.1 g d h1 h2 h3 h4 h5 h6 h7 h8 f h9).
Qed.
Theorem C89_fixed_degree_in_place : arrays_ok -> exact_setting -> conf_ok cf -> le 1 (c_maxiter cf) -> hermitian cj (matrix_of N ldh H) -> fixed_setting ->
  exists o, inpl_run inplD = Ok o /\ SiModel.g_H (cm_dla (o_k o)) = H /\
    eigen_answer inj cj (matrix_of N ldh H) nev n (o_ritz o) (vectors_of N n (g_V1 (cm_dla (o_k o)))) (o_res o).
Proof.
exact (fun a b c d g h => let: conj h1 (conj h2 (conj h3 (conj h4 (conj h5 (conj h6 (conj h7 (conj h8 h9))))))) := h in
  inpl_total td l0 a.1 a.2.1 a.2.2.1 a.2.2.2 b.1 b.2.2.1 b.2.2.2 c b.2.1 g d h1 h2 h3 h4 h5 h6 h7 h8 h9).
Qed.
End Statements.
Print Assumptions C89_sequential_arrays_hold_eigenpairs.
Print Assumptions C89_in_place_arrays_hold_eigenpairs.
Print Assumptions C89_in_place_caller_array.
Print Assumptions C89_matrix_array_unchanged.
Print Assumptions C89_fixed_degree_sequential.
Print Assumptions C89_fixed_degree_in_place.

(** The library calls exist over the complex numbers of any real closed field. *)
Example C89_example_library : forall (R : rcfType) N n, (n <= N)%N -> exact_lib (rc R) (cc R) (x_flib R N n) N n.
Proof. exact x_lib. Qed.

(** All hypotheses together: a 3 x 3 matrix in an array with leading dimension 4 and padding 7, two pairs wanted, one extra vector. *)
Definition ex_H (R : rcfType) : seq (complex_numClosedFieldType R) := [:: 2%:R; 1; 0; 7%:R; 1; 2%:R; 'i; 7%:R; 0; - 'i; 2%:R; 7%:R].
Lemma ex_H_herm (R : rcfType) : hermitian (cc R) (matrix_of 3 4 (ex_H R)).
Proof.
pose X := complex_numClosedFieldType R.
have c0 : cc R 0 = 0 by exact: rmorph0.
have c1 : cc R 1 = 1 by exact: rmorph1.
have c2 : cc R 2%:R = 2%:R by exact: rmorph_nat.
have ci' : cc R 'i = - 'i by exact: (conjCi X).
have cm : cc R (- 'i) = 'i by rewrite rmorphN [X in - X](conjCi X) opprK.
by apply/matrixP => -[[|[|[|//]]] hi] -[[|[|[|//]]] hj]; rewrite !mxE; first [exact: c0|exact: c1|exact: c2|exact: ci'|exact: cm].
Qed.
Example C89_example_run : forall (R : rcfType) (V1 : seq (complex_numClosedFieldType R)) qe td tol, size V1 = 9%N -> chol_disabled qe -> exists o,
  solve (s_fops R) (cmK (s_fops R) qe td (flatD (s_fops R) (x_flib R 3 3) 3 4 3) 2 1) id (@x_sort R) (mk_conf R 3 2 1 tol 10 20 2 3 4 1 false true false)
    (mk_cm 0 (flat_state (x_flib R 3 3) 3 2 1 (ex_H R) V1)) (nseq 3 0) (nseq 3 0) = Ok o /\ f_H (cm_dla (o_k o)) = ex_H R /\
  eigen_answer (rc R) (cc R) (matrix_of 3 4 (ex_H R)) 2 3 (o_ritz o) (vectors_of 3 3 (f_C (cm_dla (o_k o)))) (o_res o).
Proof.
move=> R V1 qe td tol hV hd.
apply: (@C89_fixed_degree_sequential R _ (rc R) (cc R) (ci R) (s_fops R) (x_flib R 3 3) qe td (mk_conf R 3 2 1 tol 10 20 2 3 4 1 false true false) 3 4 id (@x_sort R) 0 (nseq 3 0) (nseq 3 0) (ex_H R) V1).
- by split; [|split; [|split]] => //=; lia.
- by split=> //; split; [exact: x_complex|split; [exact: x_lib|exact: x_sort_perm]].
- by rewrite /conf_ok /=; repeat split; lia.
- by rewrite /=; lia.
- by rewrite /=; lia.
- exact: ex_H_herm.
- by rewrite /fixed_setting /=; repeat split=> //; lia.
Qed.
Example C89_example_in_place : forall (R : rcfType) (V1 : seq (complex_numClosedFieldType R)) qe td tol, size V1 = 9%N -> chol_disabled qe -> exists o,
  solve (s_fops R) (cmK (s_fops R) qe td (iflatD (s_fops R) (x_flib R 3 3) 3 4 3) 1 2) id (@x_sort R) (mk_conf R 3 1 2 tol 10 20 2 3 4 1 false true false)
    (mk_cm 0 (iflat_state (x_flib R 3 3) 3 1 2 (ex_H R) V1)) (nseq 3 0) (nseq 3 0) = Ok o /\ SiModel.g_H (cm_dla (o_k o)) = ex_H R /\
  eigen_answer (rc R) (cc R) (matrix_of 3 4 (ex_H R)) 1 3 (o_ritz o) (vectors_of 3 3 (g_V1 (cm_dla (o_k o)))) (o_res o).
Proof.
move=> R V1 qe td tol hV hd.
apply: (@C89_fixed_degree_in_place R _ (rc R) (cc R) (ci R) (s_fops R) (x_flib R 3 3) qe td (mk_conf R 3 1 2 tol 10 20 2 3 4 1 false true false) 3 4 id (@x_sort R) 0 (nseq 3 0) (nseq 3 0) (ex_H R) V1).
- by split; [|split; [|split]] => //=; lia.
- by split=> //; split; [exact: x_complex|split; [exact: x_lib|exact: x_sort_perm]].
- by rewrite /conf_ok /=; repeat split; lia.
- by rewrite /=; lia.
- exact: ex_H_herm.
- by rewrite /fixed_setting /=; repeat split=> //; lia.
Qed.
