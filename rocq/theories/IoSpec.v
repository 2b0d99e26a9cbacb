(** Specification of matrix files. *)
From Coq Require Import List Arith Permutation.
Require Import Verif.Base Verif.IoModel.
Import ListNotations.

(** The file holds the N x N matrix G column by column. *)
Definition matrix_file {T} (N : nat) (G : nat -> nat -> T) (f : file T) : Prop := forall g h, g < N -> h < N -> f (g + h * N) = Some (G g h).
(** A list of numbers read from the file from its beginning. *)
Definition contents {T} (f : file T) (l : list T) : Prop := forall k x, nth_error l k = Some x -> f k = Some x.
(** [ws]: the element writes [w r] of the processes r < P, in any order. *)
Definition interleaving {T} (P : nat) (w : nat -> list (nat * T)) (ws : list (nat * T)) : Prop := Permutation (concat (map w (seq 0 P))) ws.
