(** C11 in IEEE arithmetic. *)
From Coq Require Import List ZArith Permutation.
From Flocq Require Import Core BinarySingleNaN.
Require Import Verif.Base Verif.AlgModel Verif.AlgSpec Verif.DlaModel Verif.ColModel Verif.FloatSpec Verif.FloatDrift Verif.FloatEx.

(** in every IEEE binary format the matrix a solve leaves behind differs from the one it was given by a bounded number of rounding errors *)
Theorem C11_matrix_drift_ieee : forall (prec emax : Z) (Hp : Prec_gt_0 prec) (Hm : Prec_lt_emax prec emax) (V M G T O : Type)
  (fo : fops (binary_float prec emax)) (bl : blas (binary_float prec emax) V M G T) diag (off : M -> O), ieee_shift fo bl diag off ->
  forall qe td (cf : conf (binary_float prec emax)) sort_idx, (forall keys, Permutation (sort_idx keys) (seq 0 (length keys))) ->
  forall fsort ritzv resid, conf_ok cf -> let n := Nat.add (c_nev cf) (c_nex cf) in
  (forall mpi k o s, let K := cmK fo qe td (colD fo bl mpi n) (c_nev cf) (c_nex cf) in
     solve fo K fsort sort_idx cf k ritzv resid = Ok o -> o_exit o = Some s ->
     float_drift fo K (fun x => cs_H (cm_dla x)) diag off fsort sort_idx cf k ritzv resid (o_k o) s) /\
  (forall k o s, let K := cmK fo qe td (inplD fo bl n) (c_nev cf) (c_nex cf) in
     solve fo K fsort sort_idx cf k ritzv resid = Ok o -> o_exit o = Some s ->
     float_drift fo K (fun x => is_H (cm_dla x)) diag off fsort sort_idx cf k ritzv resid (o_k o) s).
Proof. exact float_solve. Qed.
Print Assumptions C11_matrix_drift_ieee.
