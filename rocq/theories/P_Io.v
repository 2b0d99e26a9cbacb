(** Property C42: matrix files written through MPI-IO.  [interleaving P w ws]: ws is any order of the element writes [w r] of all ranks;
    [after f ws]: a file with previous contents f after these writes. *)
From Coq Require Import List Arith ZArith.
Require Import Verif.Base Verif.GridModel Verif.DistModel Verif.DistSpec Verif.FlatSpec Verif.FlatModel Verif.IoModel Verif.IoSpec Verif.IoProofs.
Import ListNotations.

(** Block-cyclic, row-major grid, source (0, 0): the file is the matrix. *)
Theorem C42_block_cyclic_file_written : forall T N p q mb nb (G : nat -> nat -> T) (H : nat -> list T), 0 < p -> 0 < q ->
  (forall r, r < p * q -> let rows := owned N mb p 0 (fst (grid_coord false p q r)) in let cols := owned N nb q 0 (snd (grid_coord false p q r)) in
     stores rows cols (length rows) G (H r) /\ length (H r) = length rows * length cols /\ (Z.of_nat (length rows) * Z.of_nat (length cols) < 2 ^ 31)%Z) ->
  exists w, (forall r, r < p * q -> write_cyclic_mpi N p q mb nb r (length (owned N mb p 0 (fst (grid_coord false p q r))))
                                      (length (owned N nb q 0 (snd (grid_coord false p q r)))) (H r) = Ok (w r)) /\
    forall ws f, interleaving (p * q) w ws -> matrix_file N G (after f ws).
Proof. exact @cyclic_file. Qed.
Print Assumptions C42_block_cyclic_file_written.

(** What the stream version of the reader (C41) then finds in the file. *)
Theorem C42_written_file_is_readable : forall T N p q mb nb (G : nat -> nat -> T) (H : nat -> list T), 0 < p -> 0 < q ->
  (forall r, r < p * q -> let rows := owned N mb p 0 (fst (grid_coord false p q r)) in let cols := owned N nb q 0 (snd (grid_coord false p q r)) in
     stores rows cols (length rows) G (H r) /\ length (H r) = length rows * length cols /\ (Z.of_nat (length rows) * Z.of_nat (length cols) < 2 ^ 31)%Z) ->
  exists w, (forall r, r < p * q -> write_cyclic_mpi N p q mb nb r (length (owned N mb p 0 (fst (grid_coord false p q r))))
                                      (length (owned N nb q 0 (snd (grid_coord false p q r)))) (H r) = Ok (w r)) /\
    forall ws f l, interleaving (p * q) w ws -> contents (after f ws) l -> length l = N * N -> in_file l N G.
Proof. exact @write_then_stream_read. Qed.
Print Assumptions C42_written_file_is_readable.

(** Block-block, either order of the grid ([cm]: column-major). *)
Theorem C42_block_file_written : forall T cm N p q off0 off1 m n (G : nat -> nat -> T) (H : nat -> list T), partitions N p off0 m -> partitions N q off1 n ->
  (forall r, r < p * q -> let i := fst (grid_coord cm p q r) in let j := snd (grid_coord cm p q r) in
     stores (seq (off0 i) (m i)) (seq (off1 j) (n j)) (m i) G (H r) /\ length (H r) = m i * n j /\ (Z.of_nat (m i) * Z.of_nat (n j) < 2 ^ 31)%Z) ->
  exists w, (forall r, r < p * q -> let i := fst (grid_coord cm p q r) in let j := snd (grid_coord cm p q r) in
               write_block_mpi N (m i) (n j) (off0 i) (off1 j) (H r) = Ok (w r)) /\
    forall ws f, interleaving (p * q) w ws -> matrix_file N G (after f ws).
Proof. exact @block_file. Qed.
Print Assumptions C42_block_file_written.

(** Writing and reading back on the same grid with MPI-IO. *)
Theorem C42_block_cyclic_roundtrip : forall T cm N p q mb nb rsrc csrc (H : nat -> list T),
  (forall i, i < p -> owned N mb p 0 i <> []) -> (forall j, j < q -> owned N nb q 0 j <> []) ->
  let m := fun r => length (owned N mb p rsrc (fst (grid_coord cm p q r))) in
  let n := fun r => length (owned N nb q csrc (snd (grid_coord cm p q r))) in
  (forall r, r < p * q -> length (H r) = m r * n r /\ (Z.of_nat (m r) * Z.of_nat (n r) < 2 ^ 31)%Z) ->
  exists w, (forall r, r < p * q -> write_cyclic_mpi N p q mb nb r (m r) (n r) (H r) = Ok (w r)) /\
    forall ws f r buf, interleaving (p * q) w ws -> r < p * q -> length buf = m r * n r ->
      read_cyclic_mpi N p q mb nb r (m r) (n r) (after f ws) buf = Ok (H r).
Proof. exact @cyclic_roundtrip. Qed.
Print Assumptions C42_block_cyclic_roundtrip.

Theorem C42_block_roundtrip : forall T cm N p q off0 off1 m n (H : nat -> list T), partitions N p off0 m -> partitions N q off1 n ->
  (forall i, i < p -> 0 < m i) -> (forall j, j < q -> 0 < n j) ->
  (forall r, r < p * q -> let i := fst (grid_coord cm p q r) in let j := snd (grid_coord cm p q r) in
     length (H r) = m i * n j /\ (Z.of_nat (m i) * Z.of_nat (n j) < 2 ^ 31)%Z) ->
  exists w, (forall r, r < p * q -> let i := fst (grid_coord cm p q r) in let j := snd (grid_coord cm p q r) in
               write_block_mpi N (m i) (n j) (off0 i) (off1 j) (H r) = Ok (w r)) /\
    forall ws f r buf, interleaving (p * q) w ws -> r < p * q -> let i := fst (grid_coord cm p q r) in let j := snd (grid_coord cm p q r) in
      length buf = m i * n j -> read_block_mpi N (m i) (n j) (off0 i) (off1 j) (after f ws) buf = Ok (H r).
Proof. exact @block_roundtrip. Qed.
Print Assumptions C42_block_roundtrip.

(** On a column-major grid, and with a source other than (0, 0), the block-cyclic file is not the matrix, not even for a symmetric one. *)
Theorem C42_column_major_refuted : exists N p q mb nb (G : nat -> nat -> nat) H w,
  (forall g h, g < N -> h < N -> G g h = G h g) /\
  (forall r, r < p * q -> let rows := owned N mb p 0 (fst (grid_coord true p q r)) in let cols := owned N nb q 0 (snd (grid_coord true p q r)) in
     stores rows cols (length rows) G (H r) /\ length (H r) = length rows * length cols /\
     write_cyclic_mpi N p q mb nb r (length rows) (length cols) (H r) = Ok (w r)) /\
  forall ws f, interleaving (p * q) w ws -> ~ matrix_file N G (after f ws).
Proof. exact col_major_witness. Qed.
Print Assumptions C42_column_major_refuted.

Theorem C42_source_refuted : exists N p q mb nb rsrc csrc (G : nat -> nat -> nat) H w, rsrc < p /\ csrc < q /\
  (forall g h, g < N -> h < N -> G g h = G h g) /\
  (forall r, r < p * q -> let rows := owned N mb p rsrc (fst (grid_coord false p q r)) in let cols := owned N nb q csrc (snd (grid_coord false p q r)) in
     stores rows cols (length rows) G (H r) /\ length (H r) = length rows * length cols /\
     write_cyclic_mpi N p q mb nb r (length rows) (length cols) (H r) = Ok (w r)) /\
  forall ws f, interleaving (p * q) w ws -> ~ matrix_file N G (after f ws).
Proof. exact source_witness. Qed.
Print Assumptions C42_source_refuted.

(** The element count is an int: with 2^31 or more local elements the call is an error, with 2^32 nothing is written. *)
Theorem C42_large_local_block : forall T view N m n (H : list T),
  ((2 ^ 31 <= Z.of_nat m * Z.of_nat n < 2 ^ 32)%Z -> write_view view N m n H = UB) /\
  ((Z.of_nat m * Z.of_nat n = 2 ^ 32)%Z -> write_view view N m n H = Ok []).
Proof. exact @large_block. Qed.
Print Assumptions C42_large_local_block.

(** A 3 x 3 matrix on 2 x 3 processes, blocks of size 1: rank 2 of the row-major grid writes rows 0 and 2 of column 2. *)
Example C42_example :
  write_cyclic_mpi 3 2 3 1 1 2 2 1 [30; 90] = Ok [(6, 30); (8, 90)] /\ write_block_mpi 3 2 1 1 2 [7; 8] = Ok [(7, 7); (8, 8)] /\
  read_cyclic_mpi 3 2 3 1 1 2 2 1 (fun k => Some (10 * k)) [0; 0] = Ok [60; 80].
Proof. vm_compute. repeat split. Qed.
