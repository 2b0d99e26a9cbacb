(** Specification vocabulary for the multi-GPU backend. *)
From Coq Require Import List Arith ZArith.
Require Import Verif.Base Verif.AlgModel Verif.DlaModel Verif.ColModel Verif.MgpuModel.
Import ListNotations.

(** all blocks have n columns; the contents are arbitrary *)
Definition mgpu_sizes {V M} (n : nat) (s : mst (V := V) (M := M)) : Prop :=
  length (m_C s) = n /\ length (m_B s) = n /\ length (m_C2 s) = n /\ length (m_B2 s) = n /\
  length (m_dC s) = n /\ length (m_dB s) = n.

(** the object of the CPU backend with the same host data *)
Definition host {V M} (s : mst (V := V) (M := M)) : cst (V := V) (M := M) :=
  mk_cst (m_H s) (m_C s) (m_B s) (m_C2 s) (m_B2 s) (m_bAc s).

(** a matrix product with factor zero for the old contents does not depend on them *)
Definition beta_zero {F V M G T} (fo : fops F) (bl : blas F V M G T) : Prop := forall h a x y y',
  b_gemmH bl h a (f_zero fo) x y = b_gemmH bl h a (f_zero fo) x y' /\ b_gemmN bl h a (f_zero fo) x y = b_gemmN bl h a (f_zero fo) x y'.
