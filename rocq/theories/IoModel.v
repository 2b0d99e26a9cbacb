(** Model of the matrix files written and read through MPI-IO (chase_mpi_properties.hpp:1443-1628). *)
From Coq Require Import List Arith ZArith Bool.
Require Import Verif.Base Verif.GridModel Verif.SpmdModel.
Import ListNotations.

(** A file of numbers; [None]: nothing has been written there. *)
Definition file (T : Type) : Type := nat -> option T.

(** MPI_Type_create_darray with MPI_DISTRIBUTE_CYCLIC (MPI standard, 5.1.4): array indices of one dimension belonging to process
    coordinate c of P, blocks of size b. *)
Definition darray_dim (n b P c : nat) : list nat := filter (fun g => (g / b) mod P =? c) (seq 0 n).
(** Positions of the elements with given row and column indices in an N x N array, MPI_ORDER_FORTRAN. *)
Definition cells (N : nat) (rows cols : list nat) : list nat := flat_map (fun h => map (fun g => g + N * h) rows) cols.
(** lines 1536-1544, 1599-1607: the file view of a rank.  The standard numbers the process grid row-major whatever the order is. *)
Definition darray (N p q mb nb rank : nat) : list nat :=
  cells N (darray_dim N mb p (fst (cart_coords q rank))) (darray_dim N nb q (snd (cart_coords q rank))).
(** lines 1460-1465, 1510-1516: MPI_Type_create_subarray *)
Definition subarray (N m n off0 off1 : nat) : list nat := cells N (seq off0 m) (seq off1 n).

(** Position in the file of element k of a view: the file type is repeated with extent ext.  An empty view has no elements. *)
Definition view_at (view : list nat) (ext k : nat) : res nat :=
  match length view with
  | O => UB
  | S _ => let! x := rd view (k mod length view) in Ok (k / length view * ext + x)
  end.
Fixpoint view_all (view : list nat) (ext k todo : nat) : res (list nat) :=
  match todo with O => Ok [] | S t => let! x := view_at view ext k in let! l := view_all view ext (S k) t in Ok (x :: l) end.

(** The count parameter of MPI_File_read_all/write_all is an int; the code passes m_ * n_. *)
Definition io_count (m n : nat) : res nat :=
  let c := cast_int (Z.of_nat m * Z.of_nat n) in if (c <? 0)%Z then UB else Ok (Z.to_nat c).

(** MPI_File_write_all of one process: the elements it writes (lines 1517-1519, 1618-1620) *)
Definition write_view {T} (view : list nat) (N m n : nat) (H : list T) : res (list (nat * T)) :=
  let! c := io_count m n in
  let! ps := view_all view (N * N) 0 c in
  let! xs := get_range H 0 c in
  Ok (combine ps xs).
(** the file after some element writes *)
Definition put {T} (f : file T) (w : nat * T) : file T := fun k => if k =? fst w then Some (snd w) else f k.
Definition after {T} (f : file T) (ws : list (nat * T)) : file T := fold_left put ws f.

(** MPI_File_read_all of one process (lines 1466-1467, 1557-1558); reading an element that is not there is UB *)
Fixpoint fetch {T} (f : file T) (ps : list nat) : res (list T) :=
  match ps with
  | [] => Ok []
  | k :: t => match f k with None => UB | Some x => let! l := fetch f t in Ok (x :: l) end
  end.
Definition read_view {T} (view : list nat) (N m n : nat) (f : file T) (H : list T) : res (list T) :=
  let! c := io_count m n in
  let! ps := view_all view (N * N) 0 c in
  let! xs := fetch f ps in
  put_range H 0 xs.

(** 1497-1527, 1443-1470 (USE_MPI_IO); (off0, off1) = off_, m x n = local size *)
Definition write_block_mpi {T} (N m n off0 off1 : nat) (H : list T) := write_view (subarray N m n off0 off1) N m n H.
Definition read_block_mpi {T} (N m n off0 off1 : nat) (f : file T) (H : list T) := read_view (subarray N m n off0 off1) N m n f H.
(** 1597-1628, 1534-1565 (USE_MPI_IO); irsrc_, icsrc_ are not used *)
Definition write_cyclic_mpi {T} (N p q mb nb rank m n : nat) (H : list T) := write_view (darray N p q mb nb rank) N m n H.
Definition read_cyclic_mpi {T} (N p q mb nb rank m n : nat) (f : file T) (H : list T) := read_view (darray N p q mb nb rank) N m n f H.
