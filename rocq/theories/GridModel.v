(** Model of [create2DGrid] and of the BLACS process map. *)
From Coq Require Import List Arith Bool.
Require Import Verif.Base.
Import ListNotations.

(** MPI_Cart_create / MPI_Cart_coords without reordering (MPI standard: row-major ranks). *)
Definition cart_coords (d1 r : nat) : nat * nat := (r / d1, r mod d1).

(** MPI_Cart_sub: the members of the caller's sub-communicator are the ranks agreeing with it on the
    coordinates that are not free; they are ordered as in the parent. *)
Definition cart_sub (d0 d1 : nat) (free0 free1 : bool) (r : nat) : list nat :=
  filter (fun s => (free0 || (fst (cart_coords d1 s) =? fst (cart_coords d1 r))) &&
                   (free1 || (snd (cart_coords d1 s) =? snd (cart_coords d1 r))))
         (seq 0 (d0 * d1)).

(** chase_mpi_properties.hpp:87-121: coordinates coord_[0], coord_[1] of a rank. *)
Definition grid_coord (col_major : bool) (row_dim col_dim r : nat) : nat * nat :=
  if col_major then
    let t := cart_coords row_dim r in (snd t, fst t)   (* tmp_dims = {col_dim, row_dim}, lines 87-91, 112-116 *)
  else cart_coords col_dim r.

(** chase_mpi_properties.hpp:123-136 row communicator. *)
Definition row_comm (col_major : bool) (row_dim col_dim r : nat) : list nat :=
  if col_major then cart_sub col_dim row_dim true false r
  else cart_sub row_dim col_dim false true r.

(** chase_mpi_properties.hpp:138-151 column communicator. *)
Definition col_comm (col_major : bool) (row_dim col_dim r : nat) : list nat :=
  if col_major then cart_sub col_dim row_dim false true r
  else cart_sub row_dim col_dim true false r.

(** chase_mpi_properties.hpp:443-457 userMap handed to blacs_gridmap_. *)
Definition user_map (col_major : bool) (row_dim col_dim r : nat) : list nat :=
  if col_major then map (fun i => (r / row_dim) * row_dim + i) (seq 0 row_dim)
  else map (fun i => r mod col_dim + col_dim * i) (seq 0 row_dim).

(** chase_mpi_properties.hpp:489-511 (HAS_NCCL): position in the gathered id array of the unique id used
    for the row and for the column communicator of a process with the given coordinates. *)
Definition nccl_row_id (coord : nat * nat) : nat := fst coord.
Definition nccl_col_id (row_dim : nat) (coord : nat * nat) : nat := snd coord * row_dim.
