(** Specification: parameters a solve cannot do without. *)
From Coq Require Import List Arith ZArith Bool.
Require Import Verif.Base Verif.AlgModel.

(** The matrix has fewer than two rows, the number of Lanczos steps or of columns is zero, or a solve from random vectors is told to use no
    Lanczos vectors or more of them than the nev + nex columns it has *)
Definition unusable {F} (cf : conf F) : Prop :=
  c_N cf < 2 \/ c_lanczositer cf = 0 \/ c_nev cf + c_nex cf = 0 \/
  (c_approx cf = false /\ (c_numlanczos cf = 0 \/ c_nev cf + c_nex cf < c_numlanczos cf)).
(** an access outside an array, unless the symmetry test rejected the matrix before *)
Definition no_answer {F St} (r : res (outcome (F := F) (St := St))) : Prop :=
  match r with UB => True | Ok o => o_exit o = None | Fuel => False end.
(** the way out of [no_answer] is the symmetry test and nothing else *)
Definition no_answer_ub {F St} (K : kernel F St) (cf : conf F) (k : St) (r : res (outcome (F := F) (St := St))) : Prop :=
  match r with UB => True | Ok o => o_exit o = None /\ c_symcheck cf = true /\ k_sym K k = Ok (false, o_k o) | Fuel => False end.
