(** Concrete heaps for the memory theorems. *)
From Coq Require Import List Arith ZArith Bool.
Require Import Verif.Base Verif.AlgModel Verif.AlgTrace Verif.AlgEx Verif.MemModel Verif.MemSpec.
Import ListNotations.

(** the caller's matrix, vectors, Ritz values and properties object, next to a buffer of somebody else that is already gone *)
Definition user_heap (N nevex : nat) : heap :=
  mk_hp [mk_blk Host (N * N) true; mk_blk Host (N * nevex) true; mk_blk Host nevex true; mk_blk Host 1 true; mk_blk Dev 7 false] [].
Definition dims6 (same scal : bool) : dims := mk_dims 6 4 3 2 1 same 5 64 3 scal.
Definition calls1 : list mcall := [MHhqr; MLanczos 4 3; MDos 2 3; MSwap; MSwap; MDiagSum; MHhqr; MSwap].
Lemma user_valid N nevex : valid (user_heap N nevex) 0 /\ valid (user_heap N nevex) 1 /\ valid (user_heap N nevex) 2.
Proof. repeat split; eexists; (split; [reflexivity|reflexivity]). Qed.
(** a run of the interface as memory calls: always hhQR *)
Definition as_mem {F} (c : call F) : list mcall :=
  match c with CLanczos1 m => [MLanczos 1 m] | CLanczos2 m nv => [MLanczos nv m] | CDos i m => [MDos i m] | CSwap _ _ => [MSwap] | CQr _ _ => [MHhqr] | _ => [] end.
Lemma as_mem_expands {F} (log : list (call F)) : expands log (flat_map as_mem log).
Proof. induction log as [|c log IH]; cbn; constructor; auto. destruct c; cbn; auto. Qed.
Definition mem_conf : conf oz :=
  {| c_N := 100; c_nev := 2; c_nex := 1; c_tol := Some 1%Z; c_deg := 4; c_maxdeg := 8; c_degextra := 2; c_maxiter := 5;
     c_lanczositer := 10; c_numlanczos := 2; c_opt := true; c_approx := true; c_symcheck := true |}.
