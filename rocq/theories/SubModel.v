(** Which process of MPI_COMM_WORLD ends up where, when the solver is given a communicator: [members] lists the world ranks of its processes,
    in the order of the communicator. *)
From Coq Require Import List Arith Bool.
Require Import Verif.Base Verif.GridModel.
Import ListNotations.

(** chase_mpi_properties.hpp:439-459, 729-750, 1017-1028: blacs_get_ hands out the default system context, whose process numbers are the
    ranks in MPI_COMM_WORLD (BLACS user's guide), and userMap is filled from rank_, the rank in [comm] (244, 572, 853).
    The result is the column of world ranks of the process grid asked for by the process of rank r *)
Definition blacs_column (cm : bool) (p q : nat) (members : list nat) (r : nat) : list nat := user_map cm p q r.
(** chase_mpi_properties.hpp:467-477, 758-768, 1037-1041: blacs_gridinit_ takes the first p * q processes of the system context *)
Definition blacs_grid (p q : nat) (members : list nat) : list nat := seq 0 (p * q).

(** chase_mpi.hpp:197-200, 217-220, 562-566: Output prints on the process of world rank 0 *)
Definition prints (members : list nat) (r : nat) : bool := match nth_error members r with Some 0 => true | _ => false end.

(** MPI_Comm_split_type(comm, MPI_COMM_TYPE_SHARED, 0, ...): the ranks of [comm] on the same node, in their order; node w is the node of the
    process of world rank w *)
Definition on_node (node : nat -> nat) (members : list nat) (r s : nat) : bool :=
  match nth_error members r, nth_error members s with Some a, Some b => node a =? node b | _, _ => false end.
Definition shm_comm (node : nat -> nat) (members : list nat) (r : nat) : list nat :=
  filter (on_node node members r) (seq 0 (length members)).
Definition shm_rank (node : nat -> nat) (members : list nat) (r : nat) : nat :=
  length (filter (on_node node members r) (seq 0 r)).

Inductive message := WillTerminate | NotOptimal.
(** the device in use afterwards (0 unless cudaSetDevice is called), and what rank 0 prints; the constructor returns in every case *)
Record started := Started { device : nat; says : option message }.
(** chase_mpi_properties.hpp:246-277, 574-605, 857-889 *)
Definition set_device (ndev : nat) (node : nat -> nat) (members : list nat) (r : nat) : started :=
  let n := length (shm_comm node members r) in
  let k := shm_rank node members r in
  if ndev <? n then Started 0 (if r =? 0 then Some WillTerminate else None)
  else if n <? ndev then Started k (if r =? 0 then Some NotOptimal else None)
  else Started k None.
