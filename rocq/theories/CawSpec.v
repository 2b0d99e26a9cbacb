(** Specification vocabulary for the CUDA-aware multi-GPU backend. *)
From Coq Require Import List Arith ZArith Bool.
Require Import Verif.Base Verif.AlgModel Verif.DlaModel Verif.ColModel Verif.CawModel.
Import ListNotations.

(** the same library routines except for the Householder QR *)
Definition swap_hh {F V M G T} (bl : blas F V M G T) (h : list V -> nat -> V) : blas F V M G T := {|
  b_gemmN := b_gemmN bl; b_gemmH := b_gemmH bl; b_mulN := b_mulN bl; b_mulH := b_mulH bl; b_shift := b_shift bl;
  b_rnd := b_rnd bl; b_test := b_test bl; b_veq := b_veq bl; b_zero := b_zero bl; b_hh := h; b_syherk := b_syherk bl;
  b_dshift := b_dshift bl; b_potrf := b_potrf bl; b_trsm := b_trsm bl; b_gram := b_gram bl; b_eval := b_eval bl;
  b_comb := b_comb bl; b_combl := b_combl bl; b_inj := b_inj bl; b_re := b_re bl; b_tneg := b_tneg bl; b_dot := b_dot bl;
  b_axpy := b_axpy bl; b_scal := b_scal bl; b_nrm2 := b_nrm2 bl |}.

(** Cholesky QR is allowed *)
Definition chol_on {F} (qe : qr_env F) : Prop := match q_disable qe with Some z => z <> 1%Z | None => q_chol qe = true end.

(** the arrays of the caller have the right sizes *)
Definition caw_len {F V M} (n : nat) (s : wst (F := F) (V := V) (M := M)) : Prop := length (w_C s) = n /\ length (w_ritz s) = n.
(** a CUDA-aware object s and a CPU object t for the same problem: the matrix of the caller and, with approximate vectors, the block on the
    device agree with t; everything else may differ *)
Definition caw_same_problem {F V M} (n : nat) (approx : bool) (s : cm (D := wst (F := F) (V := V) (M := M))) (t : cm (D := cst (V := V) (M := M))) : Prop :=
  let a := cm_dla s in let b := cm_dla t in caw_len n a /\ w_H a = cs_H b /\
  length (cs_C (w_dev a)) = n /\ length (cs_C b) = n /\ (approx = true -> cs_C (w_dev a) = cs_C b) /\
  length (cs_B (w_dev a)) = length (cs_B b) /\ length (cs_C2 (w_dev a)) = length (cs_C2 b) /\ length (cs_B2 (w_dev a)) = length (cs_B2 b).
