(** What it means for a grid of communicating processes to complete. *)
From Coq Require Import List Arith.
Require Import Verif.SpmdModel.

(** Every execution - whatever order the ready collectives complete in - finishes: no process is ever stuck in a
    collective (mismatched or missing partner), none runs into undefined behaviour, and process (i, j) ends with a result
    satisfying [Q i j]. *)
Inductive completes {D A} (add : D -> D -> D) (p q : nat) (Q : nat -> nat -> A -> Prop) (st : gstate D A) : Prop :=
| all_done : (forall i j, i < p -> j < q -> exists a, st i j = Ret a /\ Q i j a) -> completes add p q Q st
| go_on : (exists st', step add p q st st') -> (forall st', step add p q st st' -> completes add p q Q st') -> completes add p q Q st.

(** Sum of f 0 .. f (n-1). *)
Fixpoint bsum {D} (zero : D) (add : D -> D -> D) (n : nat) (f : nat -> D) : D :=
  match n with O => zero | S n' => add (bsum zero add n' f) (f n') end.
