(** Vocabulary for the end of the solver's loop. *)
From Coq Require Import List Arith.
Require Import Verif.Base Verif.AlgModel Verif.AlgSpec.
Import ListNotations.

(** the solve found the bound [ub] and enters its loop in [s0] *)
Definition entered {F St} (fo : fops F) (K : kernel F St) (fsort : list F -> list F) (cf : conf F) (k : St) (ritzv resid : list F) (ub : F) (s0 : @sstate F St) : Prop :=
  exists k0, (if c_symcheck cf then k_sym K k else Ok (true, k)) = Ok (true, k0) /\ solve_init fo K fsort cf k0 ritzv resid = Ok (ub, s0).

(** all wanted pairs are locked, with residuals that are not above the tolerance *)
Definition converged {F St} (fo : fops F) (cf : conf F) (s : @sstate F St) : Prop :=
  ss_locked s = c_nev cf /\ Forall (fun r => f_lt fo (c_tol cf) r = false) (firstn (c_nev cf) (whole (ss_res s))).

(** the same configuration with another iteration limit *)
Definition with_maxiter {F} (cf : conf F) (M : nat) : conf F :=
  mk_conf F (c_N cf) (c_nev cf) (c_nex cf) (c_tol cf) (c_deg cf) (c_maxdeg cf) (c_degextra cf) M (c_lanczositer cf) (c_numlanczos cf) (c_opt cf) (c_approx cf) (c_symcheck cf).
