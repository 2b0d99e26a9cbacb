(** One distributed solver object used for several problems: what each process does, and what the callers get. *)
From Coq Require Import List Arith Bool.
Require Import Verif.Base Verif.AlgModel Verif.DlaModel Verif.ColModel Verif.SpmdModel Verif.KerModel Verif.KerSpec Verif.ClientModel Verif.DsModel Verif.DsSpec Verif.FlatSpec Verif.ReuseSpec.
Import ListNotations.

Section Spec.
Context {F D : Type}.

(** A problem as one process sees it: the solver (for each number of locked columns an earlier run may have left), its block
    of the matrix, and its rows of the start vectors if the solver is to use them. *)
Record pjob := mk_pjob { pj_solve : nat -> client F (list F * list F * nat); pj_H : list D; pj_C : option (list D) }.
(** the caller on this process fills the array of the matrix and, with approximate vectors, the array of the vectors
    (the arrays given to the constructor, chase_mpi_matrices.hpp:389-412; this backend never exchanges them with its own blocks); all else stays as the run before left it *)
Definition pj_write (j : pjob) (s : loc (D := D)) : loc :=
  mk_loc (pj_H j) (match pj_C j with Some C => C | None => l_C s end) (l_C2 s) (l_B s) (l_B2 s) (l_A s) (l_bAc s) (l_bAc_dla s).
(** one problem after the other; after each the caller reads the Ritz values, the residuals and the array of the vectors *)
Fixpoint proc_session (ker : forall c : call F, loc (D := D) -> prog D (ClientModel.answer c * loc)) (jobs : list pjob) (l : nat) (s : loc) :
    prog D (list (list F * list F * list D)) :=
  match jobs with
  | [] => Ret []
  | j :: rest =>
    pbind (run_proc ker (pj_solve j l) (pj_write j s)) (fun x =>
    pbind (proc_session ker rest (snd (fst x)) (snd x)) (fun r => Ret ((fst (fst (fst x)), snd (fst (fst x)), l_C (snd x)) :: r)))
  end.

(** The parts handed to a process: [solver J l] is the solver for problem J, [Hp J] its block of the matrix, [Cp J] its rows of the vectors. *)
Definition parts {V M : Type} (solver : job (F := F) (V := V) (M := M) -> nat -> client F (list F * list F * nat)) (Hp Cp : job -> list D) (jobs : list job) : list pjob :=
  map (fun J => mk_pjob (solver J) (Hp J) (if c_approx (j_conf J) then Some (Cp J) else None)) jobs.
(** they are parts of matrices and vectors given by their entries *)
Definition parts_of {V M : Type} (entry : M -> nat -> nat -> D) (comp : V -> nat -> D) (rows cols : list nat) (ldh : nat) (jobs : list (job (F := F) (V := V) (M := M))) (Hp Cp : job -> list D) : Prop :=
  forall J, In J jobs -> stores rows cols ldh (entry (j_H J)) (Hp J) /\ (c_approx (j_conf J) = true -> carries rows (map comp (j_V J)) (Cp J)).
(** what a process reports about a problem: the values and residuals of the run [x] and, unless it returned early, its rows of the vectors *)
Definition reports (rows : list nat) (x : res (outcome (F := F) (St := cm (D := cst (V := nat -> D) (M := nat -> nat -> D))))) (a : list F * list F * list D) : Prop :=
  forall out, x = Ok out -> fst a = (o_ritz out, o_res out) /\ (o_exit out <> None -> carries rows (cs_C (cm_dla (o_k out))) (snd a)).
End Spec.
