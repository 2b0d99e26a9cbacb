(** Specification for the single-GPU backend on arrays: states that represent the same columns. *)
From Coq Require Import List Arith ZArith Bool.
Require Import Verif.Base Verif.AlgModel Verif.AlgSpec Verif.DlaModel Verif.ColModel Verif.GpuModel Verif.SfModel Verif.SfSpec Verif.SiModel Verif.SiSpec Verif.BackSpec Verif.SgModel.
Import ListNotations.

(** [H0] is the caller's matrix array: it is the host matrix at all times *)
Definition gflat_rel {F T} (lib : flib F T) (N ldh n : nat) (H0 : list T) (f : gfs (F := F) (T := T)) (s : gst (F := F) (V := list T) (M := list (list T))) : Prop :=
  u_H f = H0 /\ GpuModel.g_H s = window lib N ldh H0 /\ packs N (u_V f) (GpuModel.g_V1 s) /\ length (GpuModel.g_V1 s) = n /\
  iflat_rel lib N N n (repeat (l_zero lib) (N * N)) (u_d f) (g_dev s) /\ u_ritz f = g_ritz s /\ length (g_ritz s) = n /\ length (u_res f) = n.

(** two runs: the first on arrays, the second on columns; [H] is the caller's matrix array *)
Definition same_run_g {F T} (N : nat) (H : list T) (x : res (outcome (F := F) (St := cm (D := gfs (F := F) (T := T)))))
  (y : res (outcome (F := F) (St := cm (D := gst (F := F) (V := list T) (M := list (list T)))))) : Prop :=
  match x, y with
  | Ok a, Ok b =>
      o_ritz a = o_ritz b /\ o_res a = o_res b /\ cm_locked (o_k a) = cm_locked (o_k b) /\
      u_V (cm_dla (o_k a)) = concat (GpuModel.g_V1 (cm_dla (o_k b))) /\ Forall (fun c => length c = N) (GpuModel.g_V1 (cm_dla (o_k b))) /\
      u_H (cm_dla (o_k a)) = H /\
      match o_exit a, o_exit b with
      | Some s, Some t => ss_iter s = ss_iter t /\ ss_locked s = ss_locked t
      | None, None => True | _, _ => False end
  | UB, UB => True | Fuel, Fuel => True | _, _ => False end.

(** sizes of the arrays of a solver object; the contents are arbitrary, so earlier solves may have run on the object *)
Definition gflat_sizes {F T} (N ldh n : nat) (f : gfs (F := F) (T := T)) : Prop :=
  (N - 1) * ldh + N <= length (u_H f) /\ length (u_V f) = N * n /\ length (SiModel.g_H (u_d f)) = N * N /\ length (SiModel.g_V1 (u_d f)) = N * n /\
  length (g_V2 (u_d f)) = N * n /\ length (g_A (u_d f)) = n * n /\ length (u_ritz f) = n /\ length (u_res f) = n.
(** the object as columns *)
Definition gpu_columns {F T} (lib : flib F T) (N ldh n : nat) (f : gfs (F := F) (T := T)) : gst (F := F) (V := list T) (M := list (list T)) :=
  mk_gst (window lib N ldh (u_H f)) (columns N n (u_V f))
    (mk_ist (window lib N N (SiModel.g_H (u_d f))) (columns N n (SiModel.g_V1 (u_d f))) (columns N n (g_V2 (u_d f))) (g_sw (u_d f))) (u_ritz f).
(** the shifted factorisation of the vectors now on the device would succeed and the second one would fail *)
Definition late_garr {F T} (fo : fops F) (lib : flib F T) (N n : nat) (s : gfs (F := F) (T := T)) : bool :=
  late_block (col_blas fo lib N) n (columns N n (SiModel.g_V1 (u_d s))).
