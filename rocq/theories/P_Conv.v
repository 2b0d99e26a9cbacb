(** Property C74: convergence of the solver in exact arithmetic. *)
From Coq Require Import Permutation ZArith.
From mathcomp Require Import all_ssreflect all_algebra all_real_closed.
Require Import Verif.Base Verif.AlgModel Verif.AlgSpec Verif.DlaModel Verif.ColModel Verif.ColSpec Verif.ExactSpec Verif.ExactEx Verif.OrthSpec Verif.OrthEx Verif.ConvSpec Verif.ApproxSpec
  Verif.ConvSolve Verif.ConvEx.
Set Implicit Arguments. Unset Strict Implicit. Unset Printing Implicit Defensive.
Import Order.TTheory GRing.Theory Num.Theory.
Local Open Scope ring_scope.

Notation mpiK fo bl qe td cf := (cmK fo qe td (colD fo bl true (Nat.add (c_nev cf) (c_nex cf))) (c_nev cf) (c_nex cf)).
Notation stopK fo bl qe td cf := (cmK fo qe td (stop_late (late_failure bl (Nat.add (c_nev cf) (c_nex cf))) (colD fo bl false (Nat.add (c_nev cf) (c_nex cf)))) (c_nev cf) (c_nex cf)).
Notation mpiS bl cf l0 H V1 := (mk_cm l0 (mpi_state bl (c_nev cf) (c_nex cf) H V1)).
Notation stopS bl cf l0 H V1 := (mk_cm l0 (seq_state bl (c_nev cf) (c_nex cf) H V1)).

(** the returned block contains a vector near each of the m lowest eigenvectors: the squared distance falls by the factor rate^2 per iteration,
    which is below 1 *)
Theorem C74_mpi_vectors_converge : forall (R : rcfType) (C : fieldType) (inj : {rmorphism R -> C}) (cj : {rmorphism C -> C}) (e : {rmorphism C -> R[i]}) (N1 : nat) (G : Type)
  (fo : fops R) (bl : blas R 'cV[C]_N1.+1 'M[C]_N1.+1 G C) qe td (cf : conf R) sort_idx (H : 'M[C]_N1.+1) fsort l0 (V1 : list 'cV[C]_N1.+1) ritzv resid,
  let n := Nat.add (c_nev cf) (c_nex cf) in let d := Nat.min (Nat.add (c_deg cf) (Nat.modulo (c_deg cf) 2)) (c_maxdeg cf) in
  (forall keys, Permutation (sort_idx keys) (List.seq 0 (length keys))) ->
  exact_fops fo -> (forall x y, f_lt fo x y = (x < y)) -> exact_mv inj cj bl -> exact_qr cj bl n -> exact_rr inj cj bl H n ->
  hermitian cj H -> in_complex inj cj e -> length V1 = n -> conf_ok cf -> le 1 (c_maxiter cf) ->
  forall us ls m Y, eigenbasis inj cj H us ls -> forall o s ub s0,
  let k := mpiS bl cf l0 H V1 in let V0 := cs_C (cm_dla (ss_k s0)) in
  solve fo (mpiK fo bl qe td cf) fsort sort_idx cf k ritzv resid = Ok o -> o_exit o = Some s -> unlocked_run fo (mpiK fo bl qe td cf) sort_idx fsort cf k ritzv resid ub s0 s ->
  (c_opt cf = true -> le (ss_iter s) 1) -> splits ls m (ss_lambda s0) (ss_lowerb s0) ub -> reaches cj us V0 m Y ->
  forall i, (i < m)%N -> 0 < rate (ss_lowerb s0) ub d ls`_i < 1 /\
    exists2 w, in_span (cs_C (cm_dla (o_k o))) w & dist2 cj e w us`_i <= err cj e us ls V0 Y (ss_lowerb s0) ub d (ss_iter s) i.
Proof. exact mpi_conv_vec. Qed.
Print Assumptions C74_mpi_vectors_converge.

(** the values too: from above, with an error bounded by that of the vectors *)
Theorem C74_mpi_values_converge : forall (R : rcfType) (C : fieldType) (inj : {rmorphism R -> C}) (cj : {rmorphism C -> C}) (e : {rmorphism C -> R[i]}) (N1 : nat) (G : Type)
  (fo : fops R) (bl : blas R 'cV[C]_N1.+1 'M[C]_N1.+1 G C) qe td (cf : conf R) sort_idx (H : 'M[C]_N1.+1) fsort l0 (V1 : list 'cV[C]_N1.+1) ritzv resid,
  let n := Nat.add (c_nev cf) (c_nex cf) in let d := Nat.min (Nat.add (c_deg cf) (Nat.modulo (c_deg cf) 2)) (c_maxdeg cf) in
  (forall keys, Permutation (sort_idx keys) (List.seq 0 (length keys))) ->
  exact_fops fo -> (forall x y, f_lt fo x y = (x < y)) -> exact_mv inj cj bl -> exact_qr cj bl n -> exact_rr inj cj bl H n ->
  hermitian cj H -> in_complex inj cj e -> length V1 = n -> conf_ok cf -> le 1 (c_maxiter cf) ->
  forall us ls m Y, eigenbasis inj cj H us ls -> forall o s ub s0,
  let k := mpiS bl cf l0 H V1 in let V0 := cs_C (cm_dla (ss_k s0)) in
  solve fo (mpiK fo bl qe td cf) fsort sort_idx cf k ritzv resid = Ok o -> o_exit o = Some s -> unlocked_run fo (mpiK fo bl qe td cf) sort_idx fsort cf k ritzv resid ub s0 s ->
  (c_opt cf = true -> le (ss_iter s) 1) -> splits ls m (ss_lambda s0) (ss_lowerb s0) ub -> reaches cj us V0 m Y -> ordered_rr cj bl H n ->
  forall j, (j < m)%N -> (j < c_nev cf)%N -> let v := (sort <=%R (take (c_nev cf) (o_ritz o)))`_j in
    ls`_j <= v <= ls`_j + (ub - ls`_j) * \sum_(i < j.+1) err cj e us ls V0 Y (ss_lowerb s0) ub d (ss_iter s) i.
Proof. exact mpi_conv_val. Qed.
Print Assumptions C74_mpi_values_converge.

(** the same for Seq, provided the shifted Cholesky QR does not meet a second factorisation that fails *)
Theorem C74_seq_vectors_converge : forall (R : rcfType) (C : fieldType) (inj : {rmorphism R -> C}) (cj : {rmorphism C -> C}) (e : {rmorphism C -> R[i]}) (N1 : nat) (G : Type)
  (fo : fops R) (bl : blas R 'cV[C]_N1.+1 'M[C]_N1.+1 G C) qe td (cf : conf R) sort_idx (H : 'M[C]_N1.+1) fsort l0 (V1 : list 'cV[C]_N1.+1) ritzv resid,
  let n := Nat.add (c_nev cf) (c_nex cf) in let d := Nat.min (Nat.add (c_deg cf) (Nat.modulo (c_deg cf) 2)) (c_maxdeg cf) in
  (forall keys, Permutation (sort_idx keys) (List.seq 0 (length keys))) ->
  exact_fops fo -> (forall x y, f_lt fo x y = (x < y)) -> exact_mv inj cj bl -> exact_qr cj bl n -> exact_rr inj cj bl H n ->
  hermitian cj H -> in_complex inj cj e -> length V1 = n -> conf_ok cf -> le 1 (c_maxiter cf) ->
  forall us ls m Y, eigenbasis inj cj H us ls -> le (c_nex cf) (c_nev cf) -> forall o s ub s0,
  let k := stopS bl cf l0 H V1 in let V0 := cs_C (cm_dla (ss_k s0)) in
  solve fo (stopK fo bl qe td cf) fsort sort_idx cf k ritzv resid = Ok o -> o_exit o = Some s -> unlocked_run fo (stopK fo bl qe td cf) sort_idx fsort cf k ritzv resid ub s0 s ->
  (c_opt cf = true -> le (ss_iter s) 1) -> splits ls m (ss_lambda s0) (ss_lowerb s0) ub -> reaches cj us V0 m Y ->
  forall i, (i < m)%N -> 0 < rate (ss_lowerb s0) ub d ls`_i < 1 /\
    exists2 w, in_span (cs_C (cm_dla (o_k o))) w & dist2 cj e w us`_i <= err cj e us ls V0 Y (ss_lowerb s0) ub d (ss_iter s) i.
Proof. exact seq_conv_vec. Qed.
Print Assumptions C74_seq_vectors_converge.

Theorem C74_seq_values_converge : forall (R : rcfType) (C : fieldType) (inj : {rmorphism R -> C}) (cj : {rmorphism C -> C}) (e : {rmorphism C -> R[i]}) (N1 : nat) (G : Type)
  (fo : fops R) (bl : blas R 'cV[C]_N1.+1 'M[C]_N1.+1 G C) qe td (cf : conf R) sort_idx (H : 'M[C]_N1.+1) fsort l0 (V1 : list 'cV[C]_N1.+1) ritzv resid,
  let n := Nat.add (c_nev cf) (c_nex cf) in let d := Nat.min (Nat.add (c_deg cf) (Nat.modulo (c_deg cf) 2)) (c_maxdeg cf) in
  (forall keys, Permutation (sort_idx keys) (List.seq 0 (length keys))) ->
  exact_fops fo -> (forall x y, f_lt fo x y = (x < y)) -> exact_mv inj cj bl -> exact_qr cj bl n -> exact_rr inj cj bl H n ->
  hermitian cj H -> in_complex inj cj e -> length V1 = n -> conf_ok cf -> le 1 (c_maxiter cf) ->
  forall us ls m Y, eigenbasis inj cj H us ls -> le (c_nex cf) (c_nev cf) -> forall o s ub s0,
  let k := stopS bl cf l0 H V1 in let V0 := cs_C (cm_dla (ss_k s0)) in
  solve fo (stopK fo bl qe td cf) fsort sort_idx cf k ritzv resid = Ok o -> o_exit o = Some s -> unlocked_run fo (stopK fo bl qe td cf) sort_idx fsort cf k ritzv resid ub s0 s ->
  (c_opt cf = true -> le (ss_iter s) 1) -> splits ls m (ss_lambda s0) (ss_lowerb s0) ub -> reaches cj us V0 m Y -> ordered_rr cj bl H n ->
  forall j, (j < m)%N -> (j < c_nev cf)%N -> let v := (sort <=%R (take (c_nev cf) (o_ritz o)))`_j in
    ls`_j <= v <= ls`_j + (ub - ls`_j) * \sum_(i < j.+1) err cj e us ls V0 Y (ss_lowerb s0) ub d (ss_iter s) i.
Proof. exact seq_conv_val. Qed.
Print Assumptions C74_seq_values_converge.

(** the hypotheses are met: by one iteration from any vector that is not orthogonal to the lowest eigenvector, for any Hermitian matrix whose
    lowest eigenvalue is simple.  The exact oracles are those of [C49_example_oracles]. *)
Example C74_example : forall (R : rcfType) N2 (H : 'M[complex_numClosedFieldType R]_N2.+2) qe tol deg fsort u v w resid, hermitian (cc R) H ->
  (forall l, length (fsort l) = length l) -> le 1 deg -> le 2 (length resid) -> forall us ls, eigenbasis (rc R) (cc R) H us ls -> ls`_0 < u <= ls`_1 -> dot (cc R) us`_0 v != 0 ->
  let cf := mk_conf R N2.+2 1 1 tol deg 36 2 1 25 4 false true false in
  let k := mpiS (xblas R N2.+2) cf 0 H [:: v; w] in
  conf_ok cf /\ exists td o s ub s0 Y,
    solve (ex_fops R) (mpiK (ex_fops R) (xblas R N2.+2) qe td cf) fsort (@x_sort R) cf k [:: u - 1; u] resid = Ok o /\ o_exit o = Some s /\
    unlocked_run (ex_fops R) (mpiK (ex_fops R) (xblas R N2.+2) qe td cf) (@x_sort R) fsort cf k [:: u - 1; u] resid ub s0 s /\ ss_iter s = 1%N /\
    splits ls 1 (ss_lambda s0) (ss_lowerb s0) ub /\ reaches (cc R) us (cs_C (cm_dla (ss_k s0))) 1 Y.
Proof. exact x_conv. Qed.
Example C74_example_basis : forall (R : rcfType) N (H : 'M[complex_numClosedFieldType R]_N), hermitian (cc R) H -> exists us ls, eigenbasis (rc R) (cc R) H us ls.
Proof. exact x_basis. Qed.
