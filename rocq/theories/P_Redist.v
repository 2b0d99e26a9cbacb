(** Properties C07 and C08: redistribution, gathering and scattering of blocks of vectors. *)
From Coq Require Import List Arith ZArith.
Require Import Verif.Base Verif.DistModel Verif.DistSpec Verif.FlatModel Verif.FlatSpec Verif.FlatProofs2 Verif.RedistModel Verif.RedistSpec
  Verif.RedistProofs Verif.RedistProofs2 Verif.GatherProofs Verif.GatherProofs2 Verif.GatherProofs3 Verif.KerModel Verif.KerSpec Verif.BlkEx.
Import ListNotations.

(** C07.  Source layout: blocks of ms rows over ps processes; destination layout: blocks of md rows over pd processes. *)
Theorem C07_schedule_moves_every_row_once : forall ms ps md pd, 0 < ms -> 0 < ps -> 0 < md -> 0 < pd -> forall N, 0 < N ->
  explode (runs N ms ps 0 md pd 0) =
    map (fun g => (owner md pd 0 g, owner ms ps 0 g, lpos md pd g, lpos ms ps g)) (seq 0 N) /\
  Forall (fun r => 0 < r_len r) (runs N ms ps 0 md pd 0).
Proof. exact runs_spec. Qed.
Print Assumptions C07_schedule_moves_every_row_once.

(** [lpos] above is the local position of a row on its owner *)
Theorem C07_local_position : forall N nb p src g, 0 < nb -> src < p -> g < N ->
  nth_error (owned N nb p src (owner nb p src g)) (lpos nb p g) = Some g.
Proof. exact lpos_owned. Qed.
Print Assumptions C07_local_position.

Theorem C07_redistribution_delivers : forall T N ms ps md pd me off block (V : nat -> nat -> T) (S : nat -> list T) (D : list T),
  0 < ms -> 0 < ps -> 0 < md -> 0 < pd -> 0 < N ->
  (forall s, s < ps -> holds (owned N ms ps 0 s) off block (length (owned N ms ps 0 s)) V (S s)) ->
  length (owned N md pd 0 me) * (off + block) <= length D -> me < pd ->
  exists D', redist (runs N ms ps 0 md pd 0) me (fun s => length (owned N ms ps 0 s)) (length (owned N md pd 0 me)) off block S D = Ok D' /\
    (length D' = length D /\ holds (owned N md pd 0 me) off block (length (owned N md pd 0 me)) V D' /\
     (forall k, (k / length (owned N md pd 0 me) < off \/ off + block <= k / length (owned N md pd 0 me)) -> nth_error D' k = nth_error D k)).
Proof. exact @redist_ok. Qed.
Print Assumptions C07_redistribution_delivers.

(** The variants that pack into a buffer: if a call completes it delivers the same data ... *)
Theorem C07_packed_redistribution_delivers : forall T N ms ps md pd off block K (V : nat -> nat -> T) (S : nat -> list T),
  0 < ms -> 0 < ps -> 0 < md -> 0 < pd -> 0 < N ->
  (forall s, s < ps -> holds (owned N ms ps 0 s) 0 K (length (owned N ms ps 0 s)) V (S s)) ->
  0 < block -> off + block = K -> forall me mine (D D' : list T), me < pd -> mine < ps -> length (owned N md pd 0 me) * K <= length D ->
  redist_pack (runs N ms ps 0 md pd 0) me (fun s => length (owned N ms ps 0 s)) (length (owned N md pd 0 me)) off block S mine D = Ok D' ->
  length D' = length D /\ holds (owned N md pd 0 me) off block (length (owned N md pd 0 me)) V D' /\
  (forall k, (k / length (owned N md pd 0 me) < off \/ off + block <= k / length (owned N md pd 0 me)) -> nth_error D' k = nth_error D k).
Proof. exact @redist_pack_delivers. Qed.
Print Assumptions C07_packed_redistribution_delivers.

(** ... but, for calls that reach the last column of the block (as RR and Resd do), no process reads outside its own
    array if and only if all processes hold the same number of rows. *)
Theorem C07_packed_redistribution_in_bounds_iff : forall T N ms ps md pd off block K (V : nat -> nat -> T) (S : nat -> list T),
  0 < ms -> 0 < ps -> 0 < md -> 0 < pd -> 0 < N ->
  (forall s, s < ps -> holds (owned N ms ps 0 s) 0 K (length (owned N ms ps 0 s)) V (S s)) ->
  (forall s, s < ps -> length (S s) = length (owned N ms ps 0 s) * K) -> 0 < block -> off + block = K ->
  ((forall me mine (D : list T), me < pd -> mine < ps -> length (owned N md pd 0 me) * K <= length D ->
     exists D', redist_pack (runs N ms ps 0 md pd 0) me (fun s => length (owned N ms ps 0 s)) (length (owned N md pd 0 me)) off block S mine D = Ok D') <->
   (forall s s', s < ps -> s' < ps -> length (owned N ms ps 0 s) = length (owned N ms ps 0 s'))).
Proof. exact @redist_pack_iff. Qed.
Print Assumptions C07_packed_redistribution_in_bounds_iff.

(** Coinciding layouts: whole local blocks move, whatever the source process is. *)
Theorem C07_same_layout_delivers : forall T m off block (V : nat -> nat -> T) (S : nat -> list T) (D : list T) rows me mine,
  length rows = m -> 0 < m -> holds rows off block m V (S me) -> m * (off + block) <= length (S me) -> m * (off + block) <= length D ->
  exists D', redist_same me mine m m off block S D = Ok D' /\ length D' = length D /\ holds rows off block m V D' /\
    (forall k, (k / m < off \/ off + block <= k / m) -> nth_error D' k = nth_error D k).
Proof. exact @redist_same_ok. Qed.
Print Assumptions C07_same_layout_delivers.

(** Block layouts whose last part is not longer than the others are single-round block-cyclic ones, so the above applies. *)
Theorem C07_block_layout_is_single_round_cyclic : forall N len d i, 0 < len -> i < d -> (Z.of_nat N < 2 ^ 64)%Z ->
  (d - 1) * len <= N -> N <= d * len -> owned N len d 0 i = seq (i * len) (blk_size N len d i).
Proof. exact blk_owned. Qed.
Print Assumptions C07_block_layout_is_single_round_cyclic.

(** Different layouts with a nonzero source process: wrong rows arrive. *)
Theorem C07_nonzero_source_refuted : exists N mb p src nb q (V : nat -> nat -> Z) (S : nat -> list Z) D', src < p /\ src <> 0 /\
  (forall s, s < p -> holds (owned N mb p src s) 0 1 (length (owned N mb p src s)) V (S s)) /\
  redist (runs N mb p src nb q 0) 0 (fun s => length (owned N mb p src s)) (length (owned N nb q 0 0)) 0 1 S (repeat 0%Z N) = Ok D' /\
  ~ holds (owned N nb q 0 0) 0 1 (length (owned N nb q 0 0)) V D'.
Proof. exact runs_source_wrong. Qed.
Print Assumptions C07_nonzero_source_refuted.

(** Pieces given by the user whose last one is longer than the others (accepted by the constructor, C05): every process stores the size of
    the first piece as block size, and wrong rows arrive.  [e_c2b]: the schedule of the process. *)
Theorem C07_long_last_piece_refuted : exists N ml p nl q (V : nat -> nat -> Z) (S : nat -> list Z) D', (p - 1) * ml < N /\ in_blocks N nl q /\
  (forall s, s < p -> holds (seq (s * ml) (blk_size N ml p s)) 0 2 (blk_size N ml p s) V (S s)) /\
  redist (e_c2b (blk_env N p q ml nl N 2 0 0)) 0 (blk_size N ml p) N 0 1 S (repeat 0%Z N) = Ok D' /\
  ~ holds (piece N nl q 0) 0 1 N V D'.
Proof. exact long_piece. Qed.
Print Assumptions C07_long_last_piece_refuted.

(** N = 5, blocks of 2 over 2 processes to blocks of 3 over 1 process; two columns *)
Example C07_example :
  runs 5 2 2 0 3 1 0 = [mk_run 0 0 2 0 0; mk_run 0 1 2 2 0; mk_run 0 0 1 4 2] /\
  redist (runs 5 2 2 0 3 1 0) 0 (fun s => if s =? 0 then 3 else 2) 5 0 2
    (fun s => if s =? 0 then [0; 1; 4; 10; 11; 14] else [2; 3; 12; 13]) (repeat 99 10) = Ok [0; 1; 2; 3; 4; 10; 11; 12; 13; 14] /\
  redist_pack (runs 5 2 2 0 3 1 0) 0 (fun s => if s =? 0 then 3 else 2) 5 0 2
    (fun s => if s =? 0 then [0; 1; 4; 10; 11; 14] else [2; 3; 12; 13]) 1 (repeat 99 10) = UB.
Proof. vm_compute. repeat split. Qed.

(** C08 *)
Theorem C08_scatter_places_every_row : forall T N R rows locked block (V : nat -> nat -> T) (Vl C : list T),
  describes rows R -> Forall (fun l => 0 < l) (d_lens R) -> (forall g, In g rows -> g < N) -> 0 < length rows ->
  holds (seq 0 N) locked block N V Vl -> length rows * (locked + block) <= length C ->
  exists C', pre_application N R locked block Vl C = Ok C' /\ (length C' = length C /\ holds rows locked block (length rows) V C' /\
    (forall k, (k / length rows < locked \/ locked + block <= k / length rows) -> nth_error C' k = nth_error C k)).
Proof. exact @pre_application_ok. Qed.
Print Assumptions C08_scatter_places_every_row.

Theorem C08_gather_block_cyclic : forall T N mb p src, 0 < mb -> src < p -> p <= nblocks N mb ->
  forall block (st : nat -> tabs) (V : nat -> nat -> T) (S : nat -> list T) (buf target : list T),
  (forall i, i < p -> bc_blocks_of N mb p src i = Ok (st i)) ->
  (forall i, i < p -> holds (owned N mb p src i) 0 block (length (owned N mb p src i)) V (S i)) ->
  N * block <= length buf -> N * block <= length target ->
  exists t', collect_cyclic N block (map (fun i => t_lens (st i)) (seq 0 p)) (map (fun i => t_offs (st i)) (seq 0 p)) (bc_send_lens N mb p src) S buf target = Ok t' /\
    (length t' = length target /\ holds (seq 0 N) 0 block N V t' /\ (forall k, block <= k / N -> nth_error t' k = nth_error target k)).
Proof. exact @gather_cyclic. Qed.
Print Assumptions C08_gather_block_cyclic.

Theorem C08_gather_block : forall T N len d, 0 < d -> 0 < len -> (Z.of_nat N < 2 ^ 64)%Z -> (d - 1) * len < N ->
  forall block (V : nat -> nat -> T) (S : nat -> list T) (target : list T),
  (forall i, i < d -> holds (seq (i * len) (blk_size N len d i)) 0 block (blk_size N len d i) V (S i)) ->
  N * block <= length target ->
  exists t', collect_block N block (map (fun x => [x]) (blk_send_lens N len d)) (blk_send_lens N len d) S target = Ok t' /\
    (length t' = length target /\ holds (seq 0 N) 0 block N V t' /\ (forall k, block <= k / N -> nth_error t' k = nth_error target k)).
Proof. exact @gather_block. Qed.
Print Assumptions C08_gather_block.

Theorem C08_gather_undoes_scatter : forall T N mb p src, 0 < mb -> src < p -> p <= nblocks N mb ->
  forall block (st : nat -> tabs) (R : nat -> dim) (V : nat -> nat -> T) (Vl : list T) (C : nat -> list T) (buf target : list T),
  (forall i, i < p -> bc_blocks_of N mb p src i = Ok (st i)) -> (forall i, i < p -> bc_ctor N mb p src i = Ok (R i)) ->
  holds (seq 0 N) 0 block N V Vl -> length Vl = N * block ->
  (forall i, i < p -> length (C i) = length (owned N mb p src i) * block) -> length buf = N * block -> length target = N * block ->
  exists C', (forall i, i < p -> pre_application N (R i) 0 block Vl (C i) = Ok (C' i) /\ length (C' i) = length (C i)) /\
    collect_cyclic N block (map (fun i => t_lens (st i)) (seq 0 p)) (map (fun i => t_offs (st i)) (seq 0 p)) (bc_send_lens N mb p src) C' buf target = Ok Vl.
Proof. exact @gather_scatter_cyclic. Qed.
Print Assumptions C08_gather_undoes_scatter.

Theorem C08_scatter_undoes_gather : forall T N mb p src, 0 < mb -> src < p -> p <= nblocks N mb ->
  forall block (st : nat -> tabs) (R : nat -> dim) (V : nat -> nat -> T) (C D : nat -> list T) (buf target : list T),
  (forall i, i < p -> bc_blocks_of N mb p src i = Ok (st i)) -> (forall i, i < p -> bc_ctor N mb p src i = Ok (R i)) ->
  (forall i, i < p -> holds (owned N mb p src i) 0 block (length (owned N mb p src i)) V (C i)) ->
  (forall i, i < p -> length (C i) = length (owned N mb p src i) * block /\ length (D i) = length (owned N mb p src i) * block) ->
  length buf = N * block -> length target = N * block ->
  exists t, collect_cyclic N block (map (fun i => t_lens (st i)) (seq 0 p)) (map (fun i => t_offs (st i)) (seq 0 p)) (bc_send_lens N mb p src) C buf target = Ok t /\
    forall i, i < p -> pre_application N (R i) 0 block t (D i) = Ok (C i).
Proof. exact @scatter_gather_cyclic. Qed.
Print Assumptions C08_scatter_undoes_gather.

(** the same for block layouts (pieces of len rows, the last one with what remains) *)
Theorem C08_block_gather_undoes_scatter : forall T N len d, 0 < d -> 0 < len -> (Z.of_nat N < 2 ^ 64)%Z -> (d - 1) * len < N ->
  forall block (V : nat -> nat -> T) (Vl : list T) (C : nat -> list T) (target : list T),
  holds (seq 0 N) 0 block N V Vl -> length Vl = N * block ->
  (forall i, i < d -> length (C i) = blk_size N len d i * block) -> length target = N * block ->
  exists C', (forall i, i < d -> pre_application N (blk_ctor N len d i) 0 block Vl (C i) = Ok (C' i) /\ length (C' i) = length (C i)) /\
    collect_block N block (map (fun x => [x]) (blk_send_lens N len d)) (blk_send_lens N len d) C' target = Ok Vl.
Proof. exact @gather_scatter_block. Qed.
Print Assumptions C08_block_gather_undoes_scatter.

Theorem C08_block_scatter_undoes_gather : forall T N len d, 0 < d -> 0 < len -> (Z.of_nat N < 2 ^ 64)%Z -> (d - 1) * len < N ->
  forall block (V : nat -> nat -> T) (C D : nat -> list T) (target : list T),
  (forall i, i < d -> holds (seq (i * len) (blk_size N len d i)) 0 block (blk_size N len d i) V (C i)) ->
  (forall i, i < d -> length (C i) = blk_size N len d i * block /\ length (D i) = blk_size N len d i * block) ->
  length target = N * block ->
  exists t, collect_block N block (map (fun x => [x]) (blk_send_lens N len d)) (blk_send_lens N len d) C target = Ok t /\
    forall i, i < d -> pre_application N (blk_ctor N len d i) 0 block t (D i) = Ok (C i).
Proof. exact @scatter_gather_block. Qed.
Print Assumptions C08_block_scatter_undoes_gather.

(** N = 5, blocks of 2 over 2 processes, source 1, two columns *)
Example C08_example : exists R0 R1 st0 st1, bc_ctor 5 2 2 1 0 = Ok R0 /\ bc_ctor 5 2 2 1 1 = Ok R1 /\
  bc_blocks_of 5 2 2 1 0 = Ok st0 /\ bc_blocks_of 5 2 2 1 1 = Ok st1 /\
  pre_application 5 R0 0 2 [0; 1; 2; 3; 4; 10; 11; 12; 13; 14] (repeat 99 4) = Ok [2; 3; 12; 13] /\
  pre_application 5 R1 0 2 [0; 1; 2; 3; 4; 10; 11; 12; 13; 14] (repeat 99 6) = Ok [0; 1; 4; 10; 11; 14] /\
  collect_cyclic 5 2 [t_lens st0; t_lens st1] [t_offs st0; t_offs st1] (bc_send_lens 5 2 2 1)
    (fun i => if i =? 0 then [2; 3; 12; 13] else [0; 1; 4; 10; 11; 14]) (repeat 98 10) (repeat 99 10) = Ok [0; 1; 2; 3; 4; 10; 11; 12; 13; 14].
Proof. eexists _, _, _, _. vm_compute. repeat split. Qed.

(** N = 5 in pieces of 2, 2 and 1 *)
Example C08_block_example :
  map (fun i => pre_application 5 (blk_ctor 5 2 3 i) 0 2 [0; 1; 2; 3; 4; 10; 11; 12; 13; 14] (repeat 99 (if i <? 2 then 4 else 2))) [0; 1; 2]
    = [Ok [0; 1; 10; 11]; Ok [2; 3; 12; 13]; Ok [4; 14]] /\
  collect_block 5 2 (map (fun x => [x]) (blk_send_lens 5 2 3)) (blk_send_lens 5 2 3)
    (fun i => nth i [[0; 1; 10; 11]; [2; 3; 12; 13]; [4; 14]] []) (repeat 99 10) = Ok [0; 1; 2; 3; 4; 10; 11; 12; 13; 14].
Proof. split; vm_compute; reflexivity. Qed.
