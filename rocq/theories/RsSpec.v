(** What a destroyed solver object leaves behind in the libraries. *)
From Coq Require Import List Arith Bool.
Require Import Verif.RedistModel Verif.RsModel.
Import ListNotations.

Definition is_mpi_back (k : rback) : bool := match k with BMpi | BMgpu => true | _ => false end.
(** pieces of the redistribution with destination [me] *)
Definition pieces (me : nat) (rs : list run) : nat := length (filter (fun r => me =? r_dest r) rs).

(** objects of each kind left behind by one solver object *)
Definition left (b : rbuild) (j : rjob) (k : rkind) : nat :=
  let g := rj_grid j in
  match k, rj_back j with
  | RComm, (BMpi | BMgpu) => if rb_nccl b then 4 else 6
  | RType, (BMpi | BMgpu) => rg_p g + rg_q g + pieces (rg_row g) (b_runs g) + pieces (rg_col g) (c_runs g)
  | RGrid, (BMpi | BMgpu) => if rb_scalapack b then 2 else 0
  | RNccl, (BMpi | BMgpu) => if rb_nccl b then 2 else 0
  | RBlas, (BCuda | BMgpu) => 1
  | RStream, BCuda => 1
  | _, _ => 0
  end.
Definition total (b : rbuild) (js : list rjob) (k : rkind) : nat := list_sum (map (fun j => left b j k) js).
