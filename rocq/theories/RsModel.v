(** Library objects (communicators, datatypes, process grids, handles, streams, files) that solver objects create and release. *)
From Coq Require Import List Arith Bool.
Require Import Verif.RedistModel.
Import ListNotations.
Local Open Scope bool_scope.

(** MPI communicators, MPI datatypes, BLACS contexts, NCCL communicators, cuBLAS and cuSOLVER handles, CUDA streams, MPI files *)
Inductive rkind := RComm | RType | RGrid | RNccl | RBlas | RSolver | RStream | RFile.
Definition rkind_eqb (a b : rkind) : bool :=
  match a, b with
  | RComm, RComm | RType, RType | RGrid, RGrid | RNccl, RNccl | RBlas, RBlas | RSolver, RSolver | RStream, RStream | RFile, RFile => true
  | _, _ => false
  end.
(** the variables that hold handles *)
Inductive rname :=
| v_shm | v_cart | v_row | v_col | v_rowdup | v_coldup          (* shm_comm_, cartComm, row_comm_, col_comm_, row_comm_dup, col_comm_dup *)
| v_colctx | v_ctx2d                                            (* colcomm_ctxt_, comm2d_ctxt_ *)
| v_newtype (d j : nat) | v_bc (i : nat) | v_cb (i : nat)       (* newType_[d][j]; b_sends_/c_recvs_[i]; c_sends_/b_recvs_[i] *)
| v_cublas | v_cublas2 | v_cusolver | v_stream1 | v_stream2     (* cublasH_, cublasH2_, cusolverH_, stream1_ (single GPU: stream_), stream2_ *)
| v_iotype | v_file.                                            (* subarray/darray, fileHandle/file *)
Definition rname_eq_dec (a b : rname) : {a = b} + {a <> b}.
Proof. decide equality; apply Nat.eq_dec. Defined.

Inductive rop := Mk (v : rname) (k : rkind) | Rel (v : rname) (k : rkind).

(** the process: every object ever created, with its kind, and whether it still exists *)
Definition rtab := list (rkind * bool).
Definition renv := list (rname * nat).
Inductive outc (A : Type) := Done (a : A) | Full | Bad.    (* Full: creation fails and the program is aborted; Bad: wrong release *)
Arguments Done {A}. Arguments Full {A}. Arguments Bad {A}.

Definition live_in (k : rkind) (t : rtab) : nat := length (filter (fun x => rkind_eqb k (fst x) && snd x) t).
Fixpoint rlook (v : rname) (e : renv) : option nat :=
  match e with [] => None | (w, i) :: e => if rname_eq_dec v w then Some i else rlook v e end.
Fixpoint kill (i : nat) (t : rtab) : rtab :=
  match t, i with [] , _ => [] | (k, _) :: t, 0 => (k, false) :: t | x :: t, S i => x :: kill i t end.

(** [cmax]: how many communicators can exist at once, if there is a bound (MPICH: 2048 context ids) *)
Definition rstep (cmax : option nat) (o : rop) (e : renv) (t : rtab) : outc (renv * rtab) :=
  match o with
  | Mk v k =>
    match k, cmax with
    | RComm, Some c => if live_in RComm t <? c then Done ((v, length t) :: e, t ++ [(k, true)]) else Full
    | _, _ => Done ((v, length t) :: e, t ++ [(k, true)])
    end
  | Rel v k =>
    match rlook v e with
    | Some i => match nth_error t i with Some (k', true) => if rkind_eqb k k' then Done (e, kill i t) else Bad | _ => Bad end
    | None => Bad
    end
  end.
Fixpoint rrun (cmax : option nat) (l : list rop) (e : renv) (t : rtab) : outc (renv * rtab) :=
  match l with
  | [] => Done (e, t)
  | o :: l => match rstep cmax o e t with Done (e, t) => rrun cmax l e t | Full => Full | Bad => Bad end
  end.

(** builds and backends *)
Record rbuild := mk_rb { rb_nccl : bool; rb_scalapack : bool }.
Inductive rback := BSeq | BInplace | BCuda | BMpi | BMgpu.
(** grid and distribution as one process sees them: dims_, coordinates, N, block sizes, source processes, lengths of the parts *)
Record rgrid := mk_rg { rg_p : nat; rg_q : nat; rg_row : nat; rg_col : nat; rg_N : nat; rg_mb : nat; rg_nb : nat;
                        rg_irsrc : nat; rg_icsrc : nat; rg_lens0 : list nat; rg_lens1 : list nat }.

(** create2DGrid, chase_mpi_properties.hpp:77-155 *)
Definition grid_ops : list rop := [Mk v_cart RComm; Mk v_row RComm; Mk v_col RComm].
(** the three constructors of ChaseMpiProperties: :232-522, :560-813, :844-1085.  All create the same objects; there is no destructor. *)
Definition properties_ops (b : rbuild) : list rop :=
  [Mk v_shm RComm] ++ grid_ops ++
  (if rb_scalapack b then [Mk v_colctx RGrid; Mk v_ctx2d RGrid] else []) ++
  (if rb_nccl b then [Mk v_rowdup RNccl; Mk v_coldup RNccl] else [Mk v_rowdup RComm; Mk v_coldup RComm]).

(** chase_mpidla.hpp:139-236: the pieces exchanged between the two layouts of the vectors *)
Definition rg_same (g : rgrid) : bool := (rg_q g =? rg_p g) && (rg_irsrc g =? rg_icsrc g) && (rg_mb g =? rg_nb g).
Definition c_runs (g : rgrid) : list run :=
  if rg_same g then runs_same (rg_lens0 g) else runs (rg_N g) (rg_mb g) (rg_p g) (rg_irsrc g) (rg_nb g) (rg_q g) (rg_icsrc g).
Definition b_runs (g : rgrid) : list run :=
  if rg_same g then runs_same (rg_lens1 g) else runs (rg_N g) (rg_nb g) (rg_q g) (rg_icsrc g) (rg_mb g) (rg_p g) (rg_irsrc g).
(** :242-304: a datatype for every piece this process sends or receives, i.e. whose destination is its row (column) *)
Definition piece_ops (v : nat -> rname) (me : nat) (rs : list run) : list rop :=
  flat_map (fun ir => if me =? r_dest (snd ir) then [Mk (v (fst ir)) RType] else []) (combine (seq 0 (length rs)) rs).
(** constructor of ChaseMpiDLA, :43-361 (datatypes at :117-134 and :242-304); its destructor is empty (:363) *)
Definition dla_ops (g : rgrid) : list rop :=
  map (fun j => Mk (v_newtype 0 j) RType) (seq 0 (rg_p g)) ++ map (fun j => Mk (v_newtype 1 j) RType) (seq 0 (rg_q g)) ++
  piece_ops v_bc (rg_row g) (b_runs g) ++ piece_ops v_cb (rg_col g) (c_runs g).

(** constructors of the backends: chase_mpidla_cuda_seq.hpp:190-196, chase_mpidla_mgpu.hpp:317-319, 372-373; the properties object is
    created by the caller before the solver object (chase_mpi.hpp:191-213) *)
Definition construct_ops (k : rback) (b : rbuild) (g : rgrid) : list rop :=
  match k with
  | BSeq | BInplace => []
  | BCuda => [Mk v_cublas RBlas; Mk v_cusolver RSolver; Mk v_stream1 RStream; Mk v_cublas2 RBlas]
  | BMpi => properties_ops b ++ dla_ops g
  | BMgpu => properties_ops b ++ [Mk v_cublas RBlas; Mk v_cublas2 RBlas; Mk v_cusolver RSolver; Mk v_stream1 RStream; Mk v_stream2 RStream] ++ dla_ops g
  end.
(** destructors: chase_mpidla_cuda_seq.hpp:245-273, chase_mpidla_mgpu.hpp:383-401 *)
Definition destroy_ops (k : rback) : list rop :=
  match k with
  | BCuda => [Rel v_cublas RBlas; Rel v_cusolver RSolver]
  | BMgpu => [Rel v_stream1 RStream; Rel v_stream2 RStream; Rel v_cublas RBlas; Rel v_cusolver RSolver]
  | _ => []
  end.
(** what the caller does with the object: Solve (creates nothing), or a matrix file with MPI-IO in the block layout
    (chase_mpi_properties.hpp:1443-1475, 1497-1527) or the block-cyclic one (:1535-1566, 1597-1628) *)
Inductive rcall := RSolve | RFileBlock | RFileCyclic.
Definition rcall_ops (c : rcall) : list rop :=
  match c with
  | RSolve => []
  | RFileBlock => [Mk v_file RFile; Mk v_iotype RType; Rel v_iotype RType; Rel v_file RFile]
  | RFileCyclic => [Mk v_iotype RType; Mk v_file RFile; Rel v_iotype RType; Rel v_file RFile]
  end.
Record rjob := mk_rjob { rj_back : rback; rj_grid : rgrid; rj_calls : list rcall }.
Definition life_ops (b : rbuild) (j : rjob) : list rop :=
  construct_ops (rj_back j) b (rj_grid j) ++ flat_map rcall_ops (rj_calls j) ++ destroy_ops (rj_back j).
(** a program that creates, uses and destroys one solver object after the other; the handles are gone with the object *)
Fixpoint program (cmax : option nat) (b : rbuild) (js : list rjob) (t : rtab) : outc rtab :=
  match js with
  | [] => Done t
  | j :: js => match rrun cmax (life_ops b j) [] t with Done (_, t) => program cmax b js t | Full => Full | Bad => Bad end
  end.
