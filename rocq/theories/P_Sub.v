(** Processes, process grids and devices on a communicator of the caller's choice. *)
From Coq Require Import List Arith Bool.
Require Import Verif.Base Verif.GridModel Verif.SubModel Verif.SubProofs.
Import ListNotations.

Theorem C80_world_grids : forall cm p q r, r < p * q -> let members := seq 0 (p * q) in
  map Some (blacs_column cm p q members r) = wanted_column cm p q members r /\ blacs_grid p q members = members.
Proof. exact world_ok. Qed.
Print Assumptions C80_world_grids.

Theorem C80_column_grid_iff : forall cm p q members r, r < p * q ->
  map Some (blacs_column cm p q members r) = wanted_column cm p q members r <->
  forall s, In s (col_comm cm p q r) -> nth_error members s = Some s.
Proof. exact blacs_column_iff. Qed.
Print Assumptions C80_column_grid_iff.

Theorem C80_sub_communicator_grids_refuted : forall cm p q members r w,
  length members = p * q -> (forall x, In x members -> p * q <= x) -> r < p * q -> nth_error members r = Some w ->
  ~ In w (blacs_column cm p q members r) /\ ~ In w (blacs_grid p q members).
Proof. exact elsewhere. Qed.
Print Assumptions C80_sub_communicator_grids_refuted.

(** the second half of eight processes, as a 2 x 2 grid: process 5 asks for a grid of processes 1 and 3 *)
Example C80_example : blacs_column false 2 2 [4; 5; 6; 7] 1 = [1; 3] /\ wanted_column false 2 2 [4; 5; 6; 7] 1 = [Some 5; Some 7] /\
  wanted_column false 2 2 [0; 1; 2; 3] 1 = [Some 1; Some 3].
Proof. vm_compute. repeat split. Qed.

Theorem C80_output_once : forall members, NoDup members -> In 0 members ->
  exists r, r < length members /\ prints members r = true /\ forall s, prints members s = true -> s = r.
Proof. exact prints_once. Qed.
Print Assumptions C80_output_once.

Theorem C80_output_silent_refuted : forall members r, ~ In 0 members -> prints members r = false.
Proof. exact prints_never. Qed.
Print Assumptions C80_output_silent_refuted.

Theorem C80_devices_distinct : forall ndev node members r, r < length members -> length (shm_comm node members r) <= ndev ->
  device (set_device ndev node members r) < ndev /\
  forall s, s < length members -> on_node node members r s = true ->
    device (set_device ndev node members s) = device (set_device ndev node members r) -> s = r.
Proof. exact devices_distinct. Qed.
Print Assumptions C80_devices_distinct.

Theorem C80_too_few_devices_refuted : forall ndev node members r, r < length members -> ndev < length (shm_comm node members r) ->
  device (set_device ndev node members r) = 0 /\ (r = 0 -> says (set_device ndev node members r) = Some WillTerminate).
Proof. exact devices_oversubscribed. Qed.
Print Assumptions C80_too_few_devices_refuted.

Theorem C80_two_solvers_on_a_node_refuted : forall ndev node a b x y, nth_error a 0 = Some x -> nth_error b 0 = Some y -> node x = node y ->
  (forall w, In w a -> ~ In w b) -> x <> y /\ device (set_device ndev node a 0) = device (set_device ndev node b 0).
Proof. exact devices_shared. Qed.
Print Assumptions C80_two_solvers_on_a_node_refuted.

(** six processes on two nodes, dealt out in turn; three devices per node *)
Example C80_example_devices : let node w := w mod 2 in
  map (fun r => device (set_device 3 node [0; 1; 2; 3; 4; 5] r)) [0; 1; 2; 3; 4; 5] = [0; 0; 1; 1; 2; 2] /\
  set_device 2 node [0; 1; 2; 3; 4; 5] 0 = Started 0 (Some WillTerminate) /\
  map (fun r => device (set_device 2 node [0; 1; 2; 3; 4; 5] r)) [0; 2; 4] = [0; 0; 0].
Proof. vm_compute. repeat split. Qed.
