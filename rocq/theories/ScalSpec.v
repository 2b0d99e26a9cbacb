(** Specification of array descriptors: the local arrays are column-major with as many rows per column as the process holds. *)
From Coq Require Import List Arith.
Require Import Verif.ScalModel.
Import ListNotations.

(** Where ScaLAPACK looks for entry (g, c) of the described array: the process and the position in its local array. *)
Definition sl_process (p : nat) (d : desc) (g : nat) : nat := indxg2p (s_mb d) (s_rsrc d) p g.
Definition sl_place (p : nat) (d : desc) (g c : nat) : nat := indxg2l (s_mb d) p g + indxg2l (s_nb d) 1 c * s_lld d.
(** On process i, which holds the rows [rows i] of n columns, the descriptor is right: it describes N x n entries, gives every row to
    the process that holds it, and the rows of process i to the places where they are. *)
Definition right_desc (N n p : nat) (rows : nat -> list nat) (i : nat) (d : desc) : Prop :=
  s_m d = N /\ s_n d = n /\ forall g c, g < N -> c < n ->
    In g (rows (sl_process p d g)) /\ sl_process p d g < p /\
    forall a, nth_error (rows i) a = Some g -> sl_process p d g = i /\ sl_place p d g c = a + c * length (rows i).
