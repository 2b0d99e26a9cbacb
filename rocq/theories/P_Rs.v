(** C97: what destroyed solver objects leave behind in the libraries. *)
From Coq Require Import List Arith Bool.
Require Import Verif.RedistModel Verif.RsModel Verif.RsSpec Verif.RsProofs.
Import ListNotations.

(** A program that creates, uses and destroys solver objects one after the other leaves behind exactly [left] per object, and touches
    nothing that existed before. *)
Theorem C97_left_behind : forall c b js t t', program c b js t = Done t' ->
  firstn (length t) t' = t /\ forall k, live_in k t' = live_in k t + total b js k.
Proof. exact program_effect. Qed.
Print Assumptions C97_left_behind.

(** Nothing is released twice, before it exists, or through a handle of another kind. *)
Theorem C97_no_wrong_release : forall c b js t, match c with Some m => live_in RComm t <= m | None => True end -> program c b js t <> Bad.
Proof. exact never_bad. Qed.
Print Assumptions C97_no_wrong_release.

(** With room for [m] communicators the program completes if and only if all those it ever creates fit at once. *)
Theorem C97_completes_iff : forall m b js t, live_in RComm t <= m ->
  (live_in RComm t + total b js RComm <= m /\ (exists t', program (Some m) b js t = Done t')) \/
  (m < live_in RComm t + total b js RComm /\ program (Some m) b js t = Full).
Proof. exact completes_iff. Qed.
Print Assumptions C97_completes_iff.

(** "Any number of distributed solver objects may be created one after the other" is false, whatever the bound and the grid. *)
Theorem C97_any_number_of_objects_refuted : forall m b j t, is_mpi_back (rj_back j) = true -> live_in RComm t <= m ->
  exists n, program (Some m) b (repeat j n) t = Full.
Proof. exact exhausted. Qed.
Print Assumptions C97_any_number_of_objects_refuted.

(** Using one object longer leaves nothing more: any number of solves and of matrix files read or written. *)
Theorem C97_calls_leave_nothing : forall c b bk g xs t,
  match c with Some m => live_in RComm t + left b (mk_rjob bk g []) RComm <= m | None => True end ->
  exists t1 t2, program c b [mk_rjob bk g []] t = Done t1 /\ program c b [mk_rjob bk g xs] t = Done t2 /\ forall k, live_in k t1 = live_in k t2.
Proof. exact calls_leave_nothing. Qed.
Print Assumptions C97_calls_leave_nothing.

(** Everything is given back exactly by the programs that use the sequential CPU backends only. *)
Theorem C97_clean_iff : forall b js, (forall k, total b js k = 0) <-> Forall (fun j => rj_back j = BSeq \/ rj_back j = BInplace) js.
Proof. exact clean_iff. Qed.
Print Assumptions C97_clean_iff.

(** Process (0,1) of a 2 x 2 grid, block-cyclic with different block sizes; ten communicators allowed, the world communicators (2) exist:
    one object fits, two do not; it leaves 6 communicators and 12 datatypes. *)
Definition ex_grid := mk_rg 2 2 0 1 12 2 3 0 0 [6; 6] [6; 6].
Definition ex_job := mk_rjob BMpi ex_grid [RSolve; RFileCyclic; RSolve; RFileBlock].
Definition ex_b := mk_rb false false.
Definition ex_world : rtab := [(RComm, true); (RComm, true)].
Example C97_example :
  (match program (Some 10) ex_b [ex_job] ex_world with Done t => map (fun k => live_in k t) [RComm; RType; RFile] | _ => [] end) = [8; 12; 0]
  /\ program (Some 10) ex_b [ex_job; ex_job] ex_world = Full
  /\ live_in RComm ex_world <= 10 /\ is_mpi_back (rj_back ex_job) = true
  /\ (match program None (mk_rb true true) [mk_rjob BMgpu ex_grid [RSolve]; mk_rjob BCuda ex_grid []] [] with
      | Done t => map (fun k => live_in k t) [RComm; RGrid; RNccl; RBlas; RSolver; RStream] | _ => [] end) = [4; 2; 2; 2; 0; 1].
Proof. vm_compute. repeat split; auto. repeat constructor. Qed.
