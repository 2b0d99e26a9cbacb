(** Properties C10, C32, C41: kernels that walk over the stored matrix. *)
From Coq Require Import List Arith ZArith Bool.
Require Import Verif.Base Verif.DistModel Verif.DistSpec Verif.FlatModel Verif.FlatSpec Verif.FlatProofs Verif.FlatProofs2 Verif.FlatProofs3
  Verif.FlatProofs4.
Import ListNotations.

(** C10 *)
Theorem C10_sequential_shift_is_the_diagonal : forall T (addc : T -> T) N ld G (H : list T),
  N <= ld -> stores (seq 0 N) (seq 0 N) ld G H ->
  exists H', seq_shift addc N ld H = Ok H' /\ (length H' = length H /\
    stores (seq 0 N) (seq 0 N) ld (fun g h => if g =? h then addc (G g h) else G g h) H' /\
    (forall k, padding N N ld k -> nth_error H' k = nth_error H k)).
Proof. exact @seq_shift_spec. Qed.
Print Assumptions C10_sequential_shift_is_the_diagonal.

Theorem C10_block_cyclic_shift_is_the_global_diagonal : forall T (addc : T -> T) N mb nb p q rsrc csrc ld G (R C : nat -> dim) (H : nat -> nat -> list T),
  0 < mb -> 0 < nb -> rsrc < p -> csrc < q ->
  (forall i, i < p -> bc_ctor N mb p rsrc i = Ok (R i)) -> (forall j, j < q -> bc_ctor N nb q csrc j = Ok (C j)) ->
  (forall i j, i < p -> j < q -> length (owned N mb p rsrc i) <= ld i j) ->
  stores_grid p q (owned N mb p rsrc) (owned N nb q csrc) ld G H ->
  exists H', (forall i j, i < p -> j < q -> dist_shift addc (R i) (C j) (ld i j) (H i j) = Ok (H' i j)) /\
    stores_grid p q (owned N mb p rsrc) (owned N nb q csrc) ld (fun g h => if g =? h then addc (G g h) else G g h) H' /\
    (forall i j k, i < p -> j < q -> padding (length (owned N mb p rsrc i)) (length (owned N nb q csrc j)) (ld i j) k ->
       nth_error (H' i j) k = nth_error (H i j) k).
Proof. exact @bc_shift_grid. Qed.
Print Assumptions C10_block_cyclic_shift_is_the_global_diagonal.

Theorem C10_block_shift_is_the_global_diagonal : forall T (addc : T -> T) N ml nl p q ld G (H : nat -> nat -> list T),
  let rows i := seq (i * ml) (blk_size N ml p i) in let cols j := seq (j * nl) (blk_size N nl q j) in
  (forall i j, i < p -> j < q -> length (rows i) <= ld i j) -> stores_grid p q rows cols ld G H ->
  exists H', (forall i j, i < p -> j < q -> dist_shift addc (blk_ctor N ml p i) (blk_ctor N nl q j) (ld i j) (H i j) = Ok (H' i j)) /\
    stores_grid p q rows cols ld (fun g h => if g =? h then addc (G g h) else G g h) H' /\
    (forall i j k, i < p -> j < q -> padding (length (rows i)) (length (cols j)) (ld i j) k -> nth_error (H' i j) k = nth_error (H i j) k).
Proof. exact @blk_shift_grid. Qed.
Print Assumptions C10_block_shift_is_the_global_diagonal.

(** N=3, blocks of 1x2, 2x1 grid, row source 1, leading dimension 3: process 0 holds row 1, process 1 rows 0 and 2. *)
Example C10_example :
  bc_ctor 3 1 2 1 0 = Ok (mk_dim 1 1 [1] [1] [0]) /\ bc_ctor 3 1 2 1 1 = Ok (mk_dim 2 2 [0; 2] [1; 1] [0; 1]) /\
  bc_ctor 3 2 1 0 0 = Ok (mk_dim 3 2 [0; 2] [2; 1] [0; 2]) /\
  dist_shift (Z.add 100) (mk_dim 1 1 [1] [1] [0]) (mk_dim 3 2 [0; 2] [2; 1] [0; 2]) 3 [10; -1; -1; 11; -1; -1; 12; -1; -1]%Z
    = Ok [10; -1; -1; 111; -1; -1; 12; -1; -1]%Z /\
  dist_shift (Z.add 100) (mk_dim 2 2 [0; 2] [1; 1] [0; 1]) (mk_dim 3 2 [0; 2] [2; 1] [0; 2]) 3 [0; 20; -1; 1; 21; -1; 2; 22; -1]%Z
    = Ok [100; 20; -1; 1; 21; -1; 2; 122; -1]%Z /\
  seq_shift (Z.add 100) 2 3 [0; 1; -1; 2; 3; -1]%Z = Ok [100; 1; -1; 2; 103; -1]%Z.
Proof. vm_compute. repeat split. Qed.

(** C32 *)
Theorem C32_sequential_mirror : forall T (cj : T -> T) upper N ld G (H : list T), N <= ld -> stores (seq 0 N) (seq 0 N) ld G H ->
  exists H', seq_symherm cj upper N ld H = Ok H' /\ (length H' = length H /\
    stores (seq 0 N) (seq 0 N) ld (fun g h => if (if upper then h <? g else g <? h) then cj (G h g) else G g h) H' /\
    (forall k, padding N N ld k -> nth_error H' k = nth_error H k)).
Proof. exact @seq_symherm_spec. Qed.
Print Assumptions C32_sequential_mirror.

Theorem C32_sequential_hermitian_iff : forall T (cj : T -> T) upper N ld G (H : list T), (forall x, cj (cj x) = x) ->
  N <= ld -> stores (seq 0 N) (seq 0 N) ld G H ->
  exists H' G', seq_symherm cj upper N ld H = Ok H' /\ stores (seq 0 N) (seq 0 N) ld G' H' /\
    ((forall g h, g < N -> h < N -> G' g h = cj (G' h g)) <-> (forall g, g < N -> G g g = cj (G g g))).
Proof. exact @seq_symherm_hermitian. Qed.
Print Assumptions C32_sequential_hermitian_iff.

(** The grid version, with leading dimension equal to the number of local rows and source process (0,0). *)
Theorem C32_grid_mirror : forall T (half cj : T -> T) (add : T -> T -> T) (zero : T) N mb nb p q upper (R C : nat -> dim) G (H : nat -> nat -> list T),
  let rows := owned N mb p 0 in let cols := owned N nb q 0 in let ld i (j : nat) := length (rows i) in
  0 < mb -> 0 < nb -> 0 < p -> 0 < q ->
  (forall x, add x (cj zero) = x) -> (forall x, add zero x = x) ->
  (forall i, i < p -> bc_ctor N mb p 0 i = Ok (R i)) -> (forall j, j < q -> bc_ctor N nb q 0 j = Ok (C j)) ->
  stores_grid p q rows cols ld G H ->
  exists H1 H2, (forall i j, i < p -> j < q -> dist_triangle half zero upper (R i) (C j) (ld i j) (H i j) = Ok (H1 i j)) /\
    (forall i j, i < p -> j < q ->
       dist_symherm_finish cj add zero mb nb p q ld H1 (rows i) (cols j) i j (length (rows i)) (length (cols j)) = Ok (H2 i j)) /\
    stores_grid p q rows cols ld
      (fun g h => if g =? h then add (half (G g g)) (cj (half (G g g))) else if (if upper then h <? g else g <? h) then cj (G h g) else G g h) H2.
Proof. exact @dist_symherm_grid. Qed.
Print Assumptions C32_grid_mirror.

(** One process, N = 2, leading dimension 3, upper triangle ((2,5),(.,4)): the result should be ((2,5),(5,4)) but entry (1,1) is 2. *)
Theorem C32_leading_dimension_refuted : exists (N ld : nat) (H H1 H2 : list Z) (R C : dim), N < ld /\
  bc_ctor N 2 1 0 0 = Ok R /\ bc_ctor N 2 1 0 0 = Ok C /\
  dist_triangle (fun x => Z.div x 2) 0%Z true R C ld H = Ok H1 /\
  dist_symherm_finish (fun x => x) Z.add 0%Z 2 2 1 1 (fun _ _ => ld) (fun _ _ => H1) (owned N 2 1 0 0) (owned N 2 1 0 0) 0 0 N N = Ok H2 /\
  nth_error H (1 + 1 * ld) = Some 4%Z /\ nth_error H2 (1 + 1 * ld) = Some 2%Z.
Proof. exact symherm_ld_witness. Qed.
Print Assumptions C32_leading_dimension_refuted.

(** A 2x1 grid whose first row lives on process row 1: the upper entry (0,1) = 5 is changed and not mirrored. *)
Theorem C32_source_refuted : exists (R0 R1 C : dim) (A0 A1 B0 B1 D0 D1 : list Z),
  bc_ctor 2 1 2 1 0 = Ok R0 /\ bc_ctor 2 1 2 1 1 = Ok R1 /\ bc_ctor 2 2 1 0 0 = Ok C /\
  stores (owned 2 1 2 1 0) (owned 2 2 1 0 0) 1 (fun g h => nth (g + 2 * h) [2; 0; 5; 4]%Z 0%Z) A0 /\
  stores (owned 2 1 2 1 1) (owned 2 2 1 0 0) 1 (fun g h => nth (g + 2 * h) [2; 0; 5; 4]%Z 0%Z) A1 /\
  dist_triangle (fun x => Z.div x 2) 0%Z true R0 C 1 A0 = Ok B0 /\ dist_triangle (fun x => Z.div x 2) 0%Z true R1 C 1 A1 = Ok B1 /\
  (let fam := fun i (_ : nat) => if i =? 0 then B0 else B1 in
   dist_symherm_finish (fun x => x) Z.add 0%Z 1 2 2 1 (fun _ _ => 1) fam (owned 2 1 2 0 0) (owned 2 2 1 0 0) 0 0 1 2 = Ok D0 /\
   dist_symherm_finish (fun x => x) Z.add 0%Z 1 2 2 1 (fun _ _ => 1) fam (owned 2 1 2 0 1) (owned 2 2 1 0 0) 1 0 1 2 = Ok D1) /\
  D0 = [0; 3]%Z /\ D1 = [3; 10]%Z.
Proof. exact symherm_src_witness. Qed.
Print Assumptions C32_source_refuted.

(** Gaussian integers as pairs: the lower triangle is overwritten by the conjugated upper one, padding (9,9) stays. *)
Example C32_example :
  seq_symherm (fun z : Z * Z => (fst z, - snd z)%Z) true 2 3 [(1, 0); (7, 7); (9, 9); (2, 5); (3, 0); (9, 9)]%Z
    = Ok [(1, 0); (2, -5); (9, 9); (2, 5); (3, 0); (9, 9)]%Z /\
  seq_symherm (fun z : Z * Z => (fst z, - snd z)%Z) false 2 3 [(1, 0); (7, 7); (9, 9); (2, 5); (3, 0); (9, 9)]%Z
    = Ok [(1, 0); (7, 7); (9, 9); (7, -7); (3, 0); (9, 9)]%Z.
Proof. vm_compute. repeat split. Qed.

(** A 2x1 grid, N = 3, blocks of one row: both phases on both processes. *)
Example C32_grid_example : exists R0 R1 C, bc_ctor 3 1 2 0 0 = Ok R0 /\ bc_ctor 3 1 2 0 1 = Ok R1 /\ bc_ctor 3 3 1 0 0 = Ok C /\
  dist_triangle (fun x => Z.div x 2) 0%Z true R0 C 2 [2; 77; 1; 77; 3; 8]%Z = Ok [1; 0; 1; 0; 3; 4]%Z /\
  dist_triangle (fun x => Z.div x 2) 0%Z true R1 C 1 [77; 4; 5]%Z = Ok [0; 2; 5]%Z /\
  (let fam := fun i (_ : nat) => if i =? 0 then [1; 0; 1; 0; 3; 4]%Z else [0; 2; 5]%Z in let ld := fun i (_ : nat) => if i =? 0 then 2 else 1 in
   dist_symherm_finish (fun x => x) Z.add 0%Z 1 3 2 1 ld fam (owned 3 1 2 0 0) (owned 3 3 1 0 0) 0 0 2 3 = Ok [2; 3; 1; 5; 3; 8]%Z /\
   dist_symherm_finish (fun x => x) Z.add 0%Z 1 3 2 1 ld fam (owned 3 1 2 0 1) (owned 3 3 1 0 0) 1 0 1 3 = Ok [1; 4; 5]%Z).
Proof. eexists _, _, _. vm_compute. repeat split. Qed.

(** C41 *)
Theorem C41_block_file_read : forall T (file : list T) N G m n off0 off1 (H : list T), in_file file N G ->
  off0 + m <= N -> off1 + n <= N -> length H = m * n ->
  exists H', read_block file N m n off0 off1 H = Ok H' /\ (length H' = length H /\ stores (seq off0 m) (seq off1 n) m G H').
Proof. exact @read_block_spec. Qed.
Print Assumptions C41_block_file_read.

Theorem C41_block_cyclic_file_read : forall T (file : list T) N mb nb p q rsrc csrc i j G R C (H : list T), in_file file N G ->
  0 < mb -> 0 < nb -> rsrc < p -> csrc < q -> i < p -> j < q ->
  bc_ctor N mb p rsrc i = Ok R -> bc_ctor N nb q csrc j = Ok C ->
  length H = length (owned N mb p rsrc i) * length (owned N nb q csrc j) ->
  exists H', read_cyclic file N R C H = Ok H' /\ (length H' = length H /\
    stores (owned N mb p rsrc i) (owned N nb q csrc j) (length (owned N mb p rsrc i)) G H').
Proof. exact @bc_read_spec. Qed.
Print Assumptions C41_block_cyclic_file_read.

(** A buffer with leading dimension larger than the number of local rows is filled as if it were packed. *)
Theorem C41_leading_dimension_refuted : exists (file H H' : list Z) (G : nat -> nat -> Z), in_file file 2 G /\ length H = 3 * 2 /\
  read_block file 2 2 2 0 0 H = Ok H' /\ ~ stores (seq 0 2) (seq 0 2) 3 G H'.
Proof. exact read_ld_witness. Qed.
Print Assumptions C41_leading_dimension_refuted.

(** the 4x4 file with entry 10*row + column; process (0,1) of a 2x2 grid *)
Example C41_example : exists R C, bc_ctor 4 1 2 0 0 = Ok R /\ bc_ctor 4 2 2 0 1 = Ok C /\
  let file := flat_map (fun h => map (fun g => 10 * g + h) (seq 0 4)) (seq 0 4) in
  read_cyclic file 4 R C [0; 0; 0; 0] = Ok [2; 22; 3; 23] /\ read_block file 4 2 1 2 3 [0; 0] = Ok [23; 33].
Proof. eexists _, _. vm_compute. repeat split. Qed.
