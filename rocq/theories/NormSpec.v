(** Sums of the first k terms, from the first to the last. *)
From Coq Require Import List ZArith.
Require Import Verif.Base.
Local Open Scope Z_scope.

Fixpoint partial {R : Type} (zero : R) (add : R -> R -> R) (term : nat -> R) (k : nat) : R :=
  match k with O => zero | S j => add (partial zero add term j) (term j) end.
(** the entries of a strided vector *)
Definition entry {T : Type} (x : Z -> option T) (inc : Z) (v : nat -> T) (n : Z) : Prop :=
  forall j : nat, Z.of_nat j < n -> x (Z.of_nat j * inc) = Some (v j).
