(** Specification for the in-place and GPU backends in exact arithmetic. *)
From Coq Require Import List Arith ZArith Bool.
Require Import Verif.Base Verif.AlgModel Verif.DlaModel Verif.ColModel Verif.GpuModel.
Import ListNotations.

(** The same library with the arguments of the small product exchanged: the in-place and single-GPU backends form
    (H^H V)^H V where Seq and Mpi form V^H (H^H V). *)
Definition gram_swapped {F V M G T} (bl : blas F V M G T) : blas F V M G T := {|
  b_gemmN := b_gemmN bl; b_gemmH := b_gemmH bl; b_mulN := b_mulN bl; b_mulH := b_mulH bl; b_shift := b_shift bl; b_rnd := b_rnd bl;
  b_test := b_test bl; b_veq := b_veq bl; b_zero := b_zero bl; b_hh := b_hh bl; b_syherk := b_syherk bl; b_dshift := b_dshift bl;
  b_potrf := b_potrf bl; b_trsm := b_trsm bl; b_gram := fun x y => b_gram bl y x; b_eval := b_eval bl; b_comb := b_comb bl;
  b_combl := b_combl bl; b_inj := b_inj bl; b_re := b_re bl; b_tneg := b_tneg bl; b_dot := b_dot bl; b_axpy := b_axpy bl;
  b_scal := b_scal bl; b_nrm2 := b_nrm2 bl |}.

(** the shifted factorisation of the block succeeds and the second one fails *)
Definition late_block {F V M G T : Type} (bl : blas F V M G T) (n : nat) (cs : list V) : bool :=
  let (i, R) := b_potrf bl (b_dshift bl (b_syherk bl cs)) in
  andb (i =? 0)%Z (negb (fst (b_potrf bl (b_syherk bl (map (b_trsm bl R cs) (seq 0 n)))) =? 0)%Z).
Definition late_ist {F V M G T : Type} (bl : blas F V M G T) (n : nat) (s : ist (V := V) (M := M)) : bool := late_block bl n (is_V1 s).
Definition late_gst {F V M G T : Type} (bl : blas F V M G T) (n : nat) (s : gst (F := F) (V := V) (M := M)) : bool := late_block bl n (is_V1 (g_dev s)).
