(** Specification for the in-place backend on arrays: states that represent the same columns. *)
From Coq Require Import List Arith ZArith Bool.
Require Import Verif.Base Verif.AlgModel Verif.AlgSpec Verif.DlaModel Verif.ColModel Verif.SfModel Verif.SfSpec Verif.SiModel.
Import ListNotations.

Definition iflat_rel {F T} (lib : flib F T) (N ldh n : nat) (H0 : list T) (f : ifst (T := T)) (s : ist (V := list T) (M := list (list T))) : Prop :=
  length (g_H f) = length H0 /\ (forall p, padding N ldh p -> nth p (g_H f) (l_zero lib) = nth p H0 (l_zero lib)) /\ is_H s = window lib N ldh (g_H f) /\
  packs N (g_V1 f) (is_V1 s) /\ length (is_V1 s) = n /\ packs N (g_V2 f) (is_V2 s) /\ length (is_V2 s) = n /\ length (g_A f) = n * n /\ g_sw f = is_sw s.

(** two runs: the first on arrays, the second on columns; [H] is the caller's matrix array *)
Definition same_run_i {F T} (lib : flib F T) (N ldh : nat) (H : list T) (x : res (outcome (F := F) (St := cm (D := ifst (T := T)))))
  (y : res (outcome (F := F) (St := cm (D := ist (V := list T) (M := list (list T)))))) : Prop :=
  match x, y with
  | Ok a, Ok b =>
      o_ritz a = o_ritz b /\ o_res a = o_res b /\ cm_locked (o_k a) = cm_locked (o_k b) /\
      user_array (cm_dla (o_k a)) = concat (user_V1 (cm_dla (o_k b))) /\ Forall (fun c => length c = N) (user_V1 (cm_dla (o_k b))) /\
      g_V1 (cm_dla (o_k a)) = concat (is_V1 (cm_dla (o_k b))) /\ Forall (fun c => length c = N) (is_V1 (cm_dla (o_k b))) /\
      window lib N ldh (g_H (cm_dla (o_k a))) = is_H (cm_dla (o_k b)) /\
      length (g_H (cm_dla (o_k a))) = length H /\ (forall p, padding N ldh p -> nth_error (g_H (cm_dla (o_k a))) p = nth_error H p) /\
      match o_exit a, o_exit b with
      | Some s, Some t => ss_iter s = ss_iter t /\ ss_locked s = ss_locked t
      | None, None => True | _, _ => False end
  | UB, UB => True | Fuel, Fuel => True | _, _ => False end.
