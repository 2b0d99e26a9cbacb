(** Specification vocabulary for the single-GPU backend. *)
From Coq Require Import List Arith ZArith.
Require Import Verif.Base Verif.DlaModel Verif.ColModel Verif.GpuModel.
Import ListNotations.

(** once the shifted Cholesky step succeeded, the plain one on the improved columns succeeds too *)
Definition no_late_shift {F V M G T} (bl : blas F V M G T) (n : nat) : Prop := forall (cs : list V) (R : G), length cs = n ->
  b_potrf bl (b_dshift bl (b_syherk bl cs)) = (0%Z, R) ->
  fst (b_potrf bl (b_syherk bl (map (b_trsm bl R cs) (seq 0 n)))) = 0%Z.

(** all blocks have n columns; the contents are arbitrary, so earlier solves may have run on the object *)
Definition gpu_sizes {F V M} (n : nat) (s : gst (F := F) (V := V) (M := M)) : Prop :=
  length (g_V1 s) = n /\ length (is_V1 (g_dev s)) = n /\ length (is_V2 (g_dev s)) = n /\ length (g_ritz s) = n.
