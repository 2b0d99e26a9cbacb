(** Properties C01-C06: data distribution and process grid. *)
From Coq Require Import List Arith ZArith Sorted.
Require Import Verif.Base Verif.DistModel Verif.DistSpec Verif.DistProofs Verif.DistProofs2
  Verif.GridModel Verif.GridProofs.
Import ListNotations.

(** C01 *)
Theorem C01_local_size_counts_owned : forall N nb p src i, 0 < nb -> src < p -> i < p ->
  fst (numroc N nb i src p) = length (owned N nb p src i) /\
  snd (numroc N nb i src p) = length (owned_blocks N nb p src i).
Proof. exact (fun N nb p src i H1 H2 H3 =>
  conj (numroc_counts N nb p src i H1 H2 H3) (numroc_snd N nb i src p H1 H2 H3)). Qed.
Print Assumptions C01_local_size_counts_owned.

Theorem C01_local_sizes_sum_to_N : forall N nb p src, 0 < nb -> src < p ->
  list_sum (map (fun i => fst (numroc N nb i src p)) (seq 0 p)) = N.
Proof. exact numroc_sum. Qed.
Print Assumptions C01_local_sizes_sum_to_N.

Theorem C01_replicated_sizes_agree : forall N nb p src i, 0 < nb -> src < p -> i < p ->
  nth_error (bc_send_lens N nb p src) i = Some (length (owned N nb p src i)).
Proof. exact bc_send_lens_nth. Qed.
Print Assumptions C01_replicated_sizes_agree.

(** N=11, nb=2, 3 processes, source 1: process 0 holds blocks 2 and 5 (the partial one) *)
Example C01_example : owned 11 2 3 1 0 = [4; 5; 10] /\ numroc 11 2 0 1 3 = (3, 2) /\
  owned 11 2 3 1 1 = [0; 1; 6; 7] /\ owned 11 2 3 1 2 = [2; 3; 8; 9].
Proof. vm_compute. repeat split. Qed.

(** C02 *)
Theorem C02_tables_are_local_global_bijection : forall N mb p src i d, 0 < mb -> src < p -> i < p ->
  bc_ctor N mb p src i = Ok d ->
  expand (d_offs d) (d_lens d) = owned N mb p src i /\
  d_m d = length (owned N mb p src i) /\
  length (d_offs d) = d_blocks d /\ length (d_lens d) = d_blocks d /\ length (d_offs_l d) = d_blocks d /\
  (forall b t off len ol, nth_error (d_offs d) b = Some off -> nth_error (d_lens d) b = Some len ->
     nth_error (d_offs_l d) b = Some ol -> t < len ->
     nth_error (owned N mb p src i) (ol + t) = Some (off + t)) /\
  (forall pos, pos < d_m d -> exists b t off len ol,
     nth_error (d_offs d) b = Some off /\ nth_error (d_lens d) b = Some len /\
     nth_error (d_offs_l d) b = Some ol /\ t < len /\ pos = ol + t).
Proof. exact bc_tables. Qed.
Print Assumptions C02_tables_are_local_global_bijection.

Theorem C02_owned_ascending : forall N mb p src i, StronglySorted lt (owned N mb p src i).
Proof. exact owned_sorted. Qed.
Print Assumptions C02_owned_ascending.

Theorem C02_every_index_on_exactly_one_process : forall N mb p src g, 0 < p -> g < N ->
  exists i, i < p /\ In g (owned N mb p src i) /\ forall j, In g (owned N mb p src j) -> j = i.
Proof. exact owner_unique. Qed.
Print Assumptions C02_every_index_on_exactly_one_process.

Theorem C02_replicated_blocks_agree : forall N mb p src i, 0 < mb -> src < p -> i < p ->
  exists st, bc_blocks_of N mb p src i = Ok st /\ expand (t_offs st) (t_lens st) = owned N mb p src i.
Proof. exact bc_blocks_of_spec. Qed.
Print Assumptions C02_replicated_blocks_agree.

Example C02_example : bc_ctor 11 2 3 1 0 = Ok (mk_dim 3 2 [4; 10] [2; 1] [0; 2]).
Proof. vm_compute. reflexivity. Qed.

(** C03 *)
Theorem C03_ctor_out_of_bounds_iff_no_block : forall N mb p src i, 0 < mb -> src < p -> i < p ->
  (bc_ctor N mb p src i = UB <-> nblocks N mb <= mydist i src p) /\
  ((exists d, bc_ctor N mb p src i = Ok d) <-> mydist i src p < nblocks N mb).
Proof. exact bc_ctor_safe_iff. Qed.
Print Assumptions C03_ctor_out_of_bounds_iff_no_block.

Theorem C03_all_processes_safe_iff_enough_blocks : forall N mb p src, 0 < mb -> src < p ->
  ((forall i, i < p -> exists d, bc_ctor N mb p src i = Ok d) <-> p <= nblocks N mb).
Proof. exact bc_all_safe_iff. Qed.
Print Assumptions C03_all_processes_safe_iff_enough_blocks.

(** 100 rows, block size 64, 4 process rows: process 2 owns nothing and writes outside its table. *)
Theorem C03_small_matrix_refuted : bc_ctor 100 64 4 0 2 = UB.
Proof. vm_compute. reflexivity. Qed.
Print Assumptions C03_small_matrix_refuted.
Example C03_example : bc_ctor 100 25 4 0 2 = Ok (mk_dim 25 1 [50] [25] [0]).
Proof. vm_compute. reflexivity. Qed.

(** C04 *)
Theorem C04_auto_block_partition_iff : forall N d, 0 < d -> (Z.of_nat N < 2 ^ 64)%Z ->
  (Z.of_nat ((d - 1) * ((N + d - 1) / d)) < 2 ^ 64)%Z ->
  (partitions N d (blk_off (auto_len N d)) (blk_size N (auto_len N d) d) <-> (d - 1) * ((N + d - 1) / d) <= N).
Proof. exact auto_partition_iff. Qed.
Print Assumptions C04_auto_block_partition_iff.

Theorem C04_auto_block_enough_rows : forall N d, 0 < d -> (d - 1) * (d - 1) <= N -> (d - 1) * auto_len N d <= N.
Proof. exact auto_len_enough. Qed.
Print Assumptions C04_auto_block_enough_rows.

Theorem C04_last_size_wraps : forall N len d, 0 < d -> (Z.of_nat ((d - 1) * len) < 2 ^ 64)%Z ->
  N < (d - 1) * len ->
  Z.of_nat (blk_size N len d (d - 1)) = (2 ^ 64 - (Z.of_nat ((d - 1) * len) - Z.of_nat N))%Z.
Proof. exact blk_last_wraps. Qed.
Print Assumptions C04_last_size_wraps.

(** 5 rows on 4 process rows: lengths 2,2,2 and the last one is 2^64-1 *)
Theorem C04_auto_block_partition_refuted :
  exists N d, 0 < d /\ d < N /\ ~ partitions N d (blk_off (auto_len N d)) (blk_size N (auto_len N d) d).
Proof. exact auto_refuted_witness. Qed.
Print Assumptions C04_auto_block_partition_refuted.
Example C04_example : map (blk_size 11 (auto_len 11 3) 3) [0; 1; 2] = [4; 4; 3] /\
  map (blk_off (auto_len 11 3)) [0; 1; 2] = [0; 4; 8].
Proof. vm_compute. auto. Qed.

(** C05 *)
Theorem C05_user_block_partition_iff : forall N m d, 0 < d -> (Z.of_nat N < 2 ^ 64)%Z ->
  (Z.of_nat ((d - 1) * m) < 2 ^ 64)%Z ->
  (partitions N d (blk_off m) (blk_size N m d) <-> (d - 1) * m <= N).
Proof. exact blk_partition_iff. Qed.
Print Assumptions C05_user_block_partition_iff.

Theorem C05_block_size_same_on_every_rank : forall N m d coord, 1 < d -> coord < d ->
  (Z.of_nat N < 2 ^ 64)%Z -> (d - 1) * m <= N -> blk_mb N m d coord = m.
Proof. exact blk_mb_eq. Qed.
Print Assumptions C05_block_size_same_on_every_rank.

Theorem C05_ownership_rule_iff : forall N m d, 1 < d -> 0 < m -> (Z.of_nat N < 2 ^ 64)%Z -> (d - 1) * m <= N ->
  ((forall g i, g < N -> i < d ->
      (blk_off m i <= g < blk_off m i + blk_size N m d i <-> owner (blk_mb N m d i) d 0 g = i))
   <-> N <= d * m).
Proof. exact blk_owner_rule_iff. Qed.
Print Assumptions C05_ownership_rule_iff.

Theorem C05_replicated_tables_agree : forall N m d i, i < d ->
  nth_error (blk_send_lens N m d) i = Some (blk_size N m d i) /\
  nth_error (blk_displs m d) i = Some (blk_off m i).
Proof. exact (fun N m d i H => conj (blk_send_lens_nth N m d i H) (blk_displs_nth m d i H)). Qed.
Print Assumptions C05_replicated_tables_agree.

Example C05_example : map (blk_size 10 4 3) [0; 1; 2] = [4; 4; 2] /\ map (blk_mb 10 4 3) [0; 1; 2] = [4; 4; 4].
Proof. vm_compute. auto. Qed.
(** an accepted but unusable choice: 10 rows, m = 3 on 3 process rows; row 9 is stored by process 2 but the
    redistribution code believes it is on process 0 *)
Example C05_example_bad : map (blk_size 10 3 3) [0; 1; 2] = [3; 3; 4] /\ owner 3 3 0 9 = 0.
Proof. vm_compute. auto. Qed.

(** C06 *)
Theorem C06_grid_bijection : forall col_major p q,
  (forall r, r < p * q -> let c := grid_coord col_major p q r in fst c < p /\ snd c < q) /\
  (forall i j, i < p -> j < q -> exists r, r < p * q /\ grid_coord col_major p q r = (i, j)) /\
  (forall r s, r < p * q -> s < p * q -> grid_coord col_major p q r = grid_coord col_major p q s -> r = s).
Proof. exact grid_bijection. Qed.
Print Assumptions C06_grid_bijection.

Theorem C06_communicator_ranks : forall col_major p q r, r < p * q ->
  let c := grid_coord col_major p q r in
  (length (row_comm col_major p q r) = q /\
   (forall k s, nth_error (row_comm col_major p q r) k = Some s ->
      s < p * q /\ grid_coord col_major p q s = (fst c, k)) /\
   nth_error (row_comm col_major p q r) (snd c) = Some r) /\
  (length (col_comm col_major p q r) = p /\
   (forall k s, nth_error (col_comm col_major p q r) k = Some s ->
      s < p * q /\ grid_coord col_major p q s = (k, snd c)) /\
   nth_error (col_comm col_major p q r) (fst c) = Some r).
Proof. exact comm_ranks. Qed.
Print Assumptions C06_communicator_ranks.

Theorem C06_blacs_map_is_column_communicator : forall col_major p q r, r < p * q ->
  user_map col_major p q r = col_comm col_major p q r.
Proof. exact user_map_spec. Qed.
Print Assumptions C06_blacs_map_is_column_communicator.

Theorem C06_nccl_ids_match_communicators : forall col_major p q r s, r < p * q -> s < p * q ->
  let c := grid_coord col_major p q r in let c' := grid_coord col_major p q s in
  nccl_row_id c < p * q /\ nccl_col_id p c < p * q /\
  (nccl_row_id c = nccl_row_id c' <-> In s (row_comm col_major p q r)) /\
  (nccl_col_id p c = nccl_col_id p c' <-> In s (col_comm col_major p q r)).
Proof. exact nccl_ids. Qed.
Print Assumptions C06_nccl_ids_match_communicators.

Example C06_example : grid_coord true 2 3 3 = (1, 1) /\ row_comm true 2 3 3 = [1; 3; 5] /\ col_comm true 2 3 3 = [2; 3] /\
  grid_coord false 2 3 3 = (1, 0) /\ row_comm false 2 3 3 = [3; 4; 5] /\ col_comm false 2 3 3 = [0; 3] /\
  user_map false 2 3 3 = [0; 3].
Proof. vm_compute. repeat split. Qed.
