(** Solver objects on arrays that have been used before: sizes, contents as columns, sessions. *)
From Coq Require Import List Arith ZArith Bool.
Require Import Verif.Base Verif.AlgModel Verif.AlgSpec Verif.DlaModel Verif.ColModel Verif.SfModel Verif.SfSpec Verif.SiModel Verif.SiSpec Verif.SgModel Verif.SgSpec Verif.ReuseSpec.
Import ListNotations.

Section Spec.
Context {F T : Type}.
(** sizes of the arrays of an object of the sequential and of the in-place backend; the contents are arbitrary.  [w]: columns of the
    two workspaces that the constructor allocates with maxBlock_ columns *)
Definition flat_sizes (N ldh n w : nat) (f : fst_ (T := T)) : Prop :=
  (N - 1) * ldh + N <= length (f_H f) /\ length (f_C f) = N * n /\ length (f_B f) = N * n /\ length (f_C2 f) = N * w /\ length (f_B2 f) = N * w /\ length (f_A f) = n * n.
Definition iflat_sizes (N ldh n : nat) (f : ifst (T := T)) : Prop :=
  (N - 1) * ldh + N <= length (g_H f) /\ length (g_V1 f) = N * n /\ length (g_V2 f) = N * n /\ length (g_A f) = n * n.
(** the objects as columns *)
Definition flat_columns (lib : flib F T) (N ldh n w : nat) (f : fst_ (T := T)) : cst (V := list T) (M := list (list T)) :=
  mk_cst (window lib N ldh (f_H f)) (columns N n (f_C f)) (columns N n (f_B f)) (columns N w (f_C2 f)) (columns N w (f_B2 f)) (f_bAc f).
Definition iflat_columns (lib : flib F T) (N ldh n : nat) (f : ifst (T := T)) : ist (V := list T) (M := list (list T)) :=
  mk_ist (window lib N ldh (g_H f)) (columns N n (g_V1 f)) (columns N n (g_V2 f)) (g_sw f).

(** a product with factor zero for the old contents does not read them (the BLAS document this of gemm) *)
Definition gemm_overwrites (fo : fops F) (lib : flib F T) : Prop := forall tr a A x y y' i, l_gemm lib tr a (f_zero fo) A x y i = l_gemm lib tr a (f_zero fo) A x y' i.
(** the N x N matrices in two arrays are the same *)
Definition same_matrix (N ldh ldh' : nat) (H H' : list T) : Prop := forall i j, i < N -> j < N -> nth_error H (i + j * ldh) = nth_error H' (i + j * ldh').

(** same outcome: undefined behaviour in both, or the same values, residuals and, unless the solver returned early, the same
    array of vectors; and the same matrix left in the array of the caller *)
Definition same_arrays {D1 D2 : Type} (N ldh ldh' : nat) (H1 c1 : D1 -> list T) (H2 c2 : D2 -> list T)
    (x : res (outcome (F := F) (St := cm (D := D1)))) (y : res (outcome (F := F) (St := cm (D := D2)))) : Prop :=
  match x, y with
  | Ok a, Ok b => o_ritz a = o_ritz b /\ o_res a = o_res b /\ (o_exit a = None <-> o_exit b = None) /\
      same_matrix N ldh ldh' (H1 (cm_dla (o_k a))) (H2 (cm_dla (o_k b))) /\ (o_exit a <> None -> c1 (cm_dla (o_k a)) = c2 (cm_dla (o_k b)))
  | UB, UB => True | Fuel, Fuel => True | _, _ => False end.

(** a problem put into the arrays of an object: the caller overwrites the array with the matrix and, if the solver is told that they
    are approximate eigenvectors, the array passed to the constructor for the vectors.  In place that array may by now be the
    second one of the object (C88); the GPU backend never reads it (C90). *)
Local Notation ajob := (job (F := F) (V := T) (M := list T)).
Definition load_flat (j : ajob) (s : cm (D := fst_ (T := T))) : cm (D := fst_ (T := T)) :=
  let d := cm_dla s in mk_cm (cm_locked s) (mk_fs (j_H j) (if c_approx (j_conf j) then j_V j else f_C d) (f_B d) (f_C2 d) (f_B2 d) (f_A d) (f_bAc d)).
Definition load_iflat (j : ajob) (s : cm (D := ifst (T := T))) : cm (D := ifst (T := T)) :=
  let d := cm_dla s in mk_cm (cm_locked s)
    (if c_approx (j_conf j) then (if g_sw d then mk_if (j_H j) (g_V1 d) (j_V j) (g_A d) true else mk_if (j_H j) (j_V j) (g_V2 d) (g_A d) false)
     else mk_if (j_H j) (g_V1 d) (g_V2 d) (g_A d) (g_sw d)).
Definition load_gflat (j : ajob) (s : cm (D := gfs (F := F) (T := T))) : cm (D := gfs (F := F) (T := T)) :=
  let d := cm_dla s in mk_cm (cm_locked s) (mk_gf (j_H j) (if c_approx (j_conf j) then j_V j else u_V d) (u_d d) (u_ritz d) (u_res d)).
(** problems of one size, with matrix arrays of leading dimension [ldh] *)
Definition ajob_ok (any : bool) (N ldh nev nex : nat) (j : ajob) : Prop :=
  conf_ok (j_conf j) /\ c_nev (j_conf j) = nev /\ c_nex (j_conf j) = nex /\ (N - 1) * ldh + N <= length (j_H j) /\ length (j_V j) = N * (nev + nex) /\
  (any = false -> c_approx (j_conf j) = false).
End Spec.
