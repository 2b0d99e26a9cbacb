(** Operation counts as integers. *)
From Coq Require Import List ZArith.
Require Import Verif.Base.
Import ListNotations.
Local Open Scope Z_scope.

(** one multiplication with H for every filtered vector *)
Definition filter_ops (factor N vecs : Z) : Z := factor * (2 * N * N * vecs).
(** CholeskyQR, Rayleigh-Ritz and residuals of a block of [b] columns *)
Definition block_ops (N b : Z) : Z :=
  (2 * N * b ^ 2 + 2 * b ^ 3 + 2 * N * b ^ 2) + (2 * N ^ 2 * b + 2 * N * b ^ 2 + 4 * b ^ 3 + 2 * N * b ^ 2) + (2 * N ^ 2 * b + 3 * N * b + N * b).
Definition all_ops (factor N : Z) (blocks : list Z) (vecs : Z) : Z :=
  factor * fold_right Z.add 0 (map (block_ops N) blocks) + filter_ops factor N vecs.
(** in units of 10^9 operations *)
Definition giga (x : Z) : Z := x / 10 ^ 9.
