(** Specification of data distributions, independent of the code's formulas:
    who owns a global index, and which global indices a coordinate holds. *)
From Coq Require Import List Arith.
Import ListNotations.

(** ScaLAPACK rule: block k of size nb lives on coordinate (k + src) mod p. *)
Definition owner (nb p src g : nat) : nat := (g / nb + src) mod p.

(** The global indices held by coordinate i, ascending. *)
Definition owned (N nb p src i : nat) : list nat :=
  filter (fun g => owner nb p src g =? i) (seq 0 N).

(** Number of blocks (the last one possibly partial). *)
Definition nblocks (N nb : nat) : nat := (N + nb - 1) / nb.

Definition owned_blocks (N nb p src i : nat) : list nat :=
  filter (fun k => (k + src) mod p =? i) (seq 0 (nblocks N nb)).

(** The global index denoted by every local position, as described by offset/length tables. *)
Definition expand (offs lens : list nat) : list nat :=
  flat_map (fun ol => seq (fst ol) (snd ol)) (combine offs lens).

(** A family of ranges [off i, off i + size i), i < p, partitions 0..N-1:
    every index lies in exactly one range and ranges contain nothing else. *)
Definition partitions (N p : nat) (off size : nat -> nat) : Prop :=
  (forall g, g < N -> exists i, i < p /\ off i <= g < off i + size i /\
              forall j, j < p -> off j <= g < off j + size j -> j = i) /\
  (forall i g, i < p -> off i <= g < off i + size i -> g < N).
