(** Vocabulary for the convergence of the solver. *)
From Coq Require Import List Arith.
Require Import Verif.Base Verif.AlgModel Verif.AlgSpec.
Import ListNotations.

(** the solve reached [s]; it found the bound [ub] and entered its loop in [s0]; no pair was locked before the last iteration *)
Definition unlocked_run {F St} (fo : fops F) (K : kernel F St) (sort_idx : list F -> list nat) (fsort : list F -> list F) (cf : conf F) (k : St)
  (ritzv resid : list F) (ub : F) (s0 s : @sstate F St) : Prop :=
  exists k0 h, (if c_symcheck cf then k_sym K k else Ok (true, k)) = Ok (true, k0) /\ solve_init fo K fsort cf k0 ritzv resid = Ok (ub, s0) /\
    run fo K sort_idx cf ub s0 h s /\ Forall (fun t => ss_locked t = 0) h.
