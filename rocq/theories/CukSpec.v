(** What it means for a kernel launch to produce a given memory. *)
From Coq Require Import List Arith ZArith.
Require Import Verif.CukModel.
Import ListNotations.

Fixpoint stepn {V R} (add : V -> V -> V) (r0 : R) (nb nt n : nat) (c d : cfg V R) : Prop :=
  match n with O => c = d | S k => exists e, step add r0 nb nt c e /\ stepn add r0 nb nt k e d end.

(** Whatever the interleaving: no undefined operation is reached, the launch can always proceed until all threads are done, it
    takes at most B steps, and the memory is then [spec]. *)
Definition yields {V} (add : V -> V -> V) (k : kernel V) (m : mem V) (spec : mem V) : Prop :=
  exists B, forall n c, stepn add [] (kn_blocks k) (kn_threads k) n (launch k m) c ->
    n <= B /\ ~ faulty add (kn_blocks k) (kn_threads k) c /\
    (final (kn_blocks k) (kn_threads k) c -> forall x, c_mem c x = spec x) /\
    (~ final (kn_blocks k) (kn_threads k) c -> exists d, step add [] (kn_blocks k) (kn_threads k) c d).
(** some interleaving reaches an undefined operation *)
Definition may_fault {V} (add : V -> V -> V) (k : kernel V) (m : mem V) : Prop :=
  exists n c, stepn add [] (kn_blocks k) (kn_threads k) n (launch k m) c /\ faulty add (kn_blocks k) (kn_threads k) c.
(** some interleaving runs the launch to its end and leaves the memory m' *)
Definition ran {V} (add : V -> V -> V) (k : kernel V) (m m' : mem V) : Prop :=
  exists n c, stepn add [] (kn_blocks k) (kn_threads k) n (launch k m) c /\ final (kn_blocks k) (kn_threads k) c /\ forall x, c_mem c x = m' x.
(** launches one after the other on the same stream *)
Fixpoint yields_all {V} (add : V -> V -> V) (ks : list (kernel V)) (m : mem V) (spec : mem V) : Prop :=
  match ks with
  | [] => forall x, m x = spec x
  | k :: l => exists m', yields add k m m' /\ yields_all add l m' spec
  end.

(** order in which numbered terms are added up *)
Inductive stree := SZ | SL (i : nat) | SN (l r : stree).
Fixpoint leaves (t : stree) : list nat := match t with SZ => [] | SL i => [i] | SN l r => leaves l ++ leaves r end.
Fixpoint sval {V} (zero : V) (add : V -> V -> V) (f : nat -> V) (t : stree) : V :=
  match t with SZ => zero | SL i => f i | SN l r => add (sval zero add f l) (sval zero add f r) end.
(** sum in the order of the list *)
Definition total {V} (zero : V) (add : V -> V -> V) (f : nat -> V) (l : list nat) : V := fold_right (fun i s => add (f i) s) zero l.
(** array [arr] of the device memory holds the buffer H *)
Definition holds {V} (arr : nat) (H : list V) (m : mem V) : Prop := forall k, m (Glob arr (Zn k)) = nth_error H k.
(** entry (i, j) of a column-major matrix *)
Definition entry (arr ld i j : nat) : addr := Glob arr (Zn i + Zn j * Zn ld)%Z.
