(** Work area of cuSOLVER in the GPU backends: chase_mpidla_cuda_seq.hpp and chase_mpidla_mgpu.hpp.
    Sizes and leading dimensions only; the contents of the arrays are in SgModel and MgpuModel. *)
From Coq Require Import List Arith ZArith Bool.
Require Import Verif.Base Verif.AlgTrace.
Import ListNotations.
Local Open Scope bool_scope.

(** cuSOLVER routines that take a work area, with their size arguments (blas_cuda_wrapper.hpp:116-430; the four scalar types
    differ only in the routine called, here in the numbers the library answers) *)
Inductive dcall :=
| Dgeqrf (m n lda : nat)
| Dgqr (m n k lda : nat)
| Dheevd (n lda : nat)
| Dpotrf (n lda : nat).

(** the library: the size each bufferSize query answers for these arguments, the INFO of the i-th call *)
Record dlib := mk_dlib { dl_need : dcall -> Z; dl_info : nat -> Z }.

(** one GPU (chase_mpidla_cuda_seq.hpp) or one of several with MPI (chase_mpidla_mgpu.hpp) *)
Inductive gpus := GOne | GMany.

(** the object: rows of the device blocks (N_ or m_), nev_ + nex_, lwork_, lengths of d_V1_/C__, d_A_/A__, d_ritz_/Ritzv__,
    d_return_ and d_work_, the cell devInfo_ (None before the first call), cuSOLVER calls and QR calls made so far *)
Record dobj := mk_dobj { w_rows : nat; w_max : nat; w_lwork : Z; w_lV : nat; w_lA : nat; w_lritz : nat; w_ltau : nat; w_lbuf : Z;
                         w_info : option Z; w_calls : nat; w_qrs : nat }.

Section Dw.
Context (L : dlib) (gk : gpus).
Notation need := (dl_need L).

(** cuda_seq.hpp:206-236: the larger of geqrf and orgqr, then raised to heevd's and potrf's answer *)
Definition lwork_one (N M : nat) : Z :=
  let lwork_geqrf := need (Dgeqrf N M N) in
  let lwork_orgqr := need (Dgqr N M M N) in
  let lwork := if (lwork_geqrf >? lwork_orgqr)%Z then lwork_geqrf else lwork_orgqr in
  let lwork_heevd := need (Dheevd M M) in
  let lwork := if (lwork_heevd >? lwork)%Z then lwork_heevd else lwork in
  let lwork_potrf := need (Dpotrf M M) in
  if (lwork_potrf >? lwork)%Z then lwork_potrf else lwork.
(** mgpu.hpp:322-343, lwork_ starts as 0 (:1026); hhQR runs on the host, so no query for it *)
Definition lwork_many (M : nat) : Z :=
  let lwork_heevd := need (Dheevd M M) in
  let lwork := if (lwork_heevd >? 0)%Z then lwork_heevd else 0%Z in
  let lwork_potrf := need (Dpotrf M M) in
  if (lwork_potrf >? lwork)%Z then lwork_potrf else lwork.

(** constructors: cuda_seq.hpp:167-243 (matrices_ in mode 1: chase_mpi_matrices.hpp:333-357; d_return_ :204; d_work_ :238),
    mgpu.hpp:261-344 (no d_return_) *)
Definition construct (rows nev nex : nat) : dobj :=
  let M := nev + nex in
  let lw := match gk with GOne => lwork_one rows M | GMany => lwork_many M end in
  mk_dobj rows M lw (rows * M) (M * M) M (match gk with GOne => M | GMany => 0 end) lw None 0 0.

(** elements between the first and the last of an m x n matrix stored with leading dimension ld *)
Definition span (m n ld : nat) : nat := match n with 0 => 0 | S n' => n' * ld + m end.

(** arguments the library accepts, matrices and vectors inside their arrays, work area of the size asked for *)
Definition fits (c : dcall) (o : dobj) : bool :=
  (need c <=? w_lwork o)%Z && (w_lwork o <=? w_lbuf o)%Z &&
  match c with
  | Dgeqrf m n lda => (m <=? lda) && (1 <=? lda) && (span m n lda <=? w_lV o) && (Nat.min m n <=? w_ltau o)
  | Dgqr m n k lda => (k <=? n) && (n <=? m) && (m <=? lda) && (1 <=? lda) && (span m n lda <=? w_lV o) && (k <=? w_ltau o)
  | Dheevd n lda => (n <=? lda) && (1 <=? lda) && (span n n lda <=? w_lA o) && (n <=? w_lritz o)
  | Dpotrf n lda => (n <=? lda) && (1 <=? lda) && (span n n lda <=? w_lA o)
  end.
(** a call: undefined if the work area is too small or an array too short, otherwise devInfo_ is written *)
Definition dexec (c : dcall) (o : dobj) : res dobj :=
  if fits c o
  then Ok (mk_dobj (w_rows o) (w_max o) (w_lwork o) (w_lV o) (w_lA o) (w_lritz o) (w_ltau o) (w_lbuf o)
                   (Some (dl_info L (w_calls o))) (S (w_calls o)) (w_qrs o))
  else UB.
(** cudaMemcpy of devInfo_ to the host *)
Definition read_info (o : dobj) : res Z := match w_info o with Some i => Ok i | None => UB end.

(** hhQR: cuda_seq.hpp:521-535; with several GPUs on the host (mgpu: chase_mpidla.hpp hhQR) *)
Definition d_hhqr (o : dobj) : res dobj :=
  match gk with
  | GOne => let! o := dexec (Dgeqrf (w_rows o) (w_max o) (w_rows o)) o in dexec (Dgqr (w_rows o) (w_max o) (w_max o) (w_rows o)) o
  | GMany => Ok o
  end.
(** potrf and its INFO: cuda_seq.hpp:565-570, mgpu.hpp:656-679 with isinfo *)
Definition d_potrf (o : dobj) : res (Z * dobj) :=
  let! o := dexec (Dpotrf (w_max o) (w_max o)) o in let! i := read_info o in Ok (i, o).
(** the factorisation whose INFO is not read: 636-638, 729-731; mgpu.hpp with isinfo = false, which returns 0 *)
Definition d_potrf_ (o : dobj) : res dobj := dexec (Dpotrf (w_max o) (w_max o)) o.

(** cholQR1: cuda_seq.hpp:537-585; chase_mpidla.hpp:1145-1178 *)
Definition d_chol1 (o : dobj) : res (Z * dobj) := d_potrf o.
(** cholQR2: cuda_seq.hpp:587-649 (INFO of the first factorisation), chase_mpidla.hpp:1181-1227 (the second call returns 0) *)
Definition d_chol2 (o : dobj) : res (Z * dobj) :=
  let! (i, o) := d_potrf o in
  if (i =? 0)%Z then let! o := d_potrf_ o in Ok (match gk with GOne => i | GMany => 0%Z end, o) else Ok (i, o).
(** shiftedcholQR2: cuda_seq.hpp:651-741; chase_mpidla.hpp:1229-1306 *)
Definition d_schol2 (o : dobj) : res (Z * dobj) :=
  let! (i, o) := d_potrf o in
  if negb (i =? 0)%Z then Ok (i, o) else
  let! (i, o) := d_potrf o in
  if negb (i =? 0)%Z then Ok (i, o) else
  let! o := d_potrf_ o in Ok (i, o).

(** what ChaseMpi::QR decides from the configuration, the environment and the condition number (chase_mpi.hpp:358-411) *)
Inductive qrmode := QHouse | QShift | QOne | QTwo.
(** chase_mpi.hpp:351-430 *)
Definition d_qr (m : qrmode) (o : dobj) : res dobj :=
  let o := mk_dobj (w_rows o) (w_max o) (w_lwork o) (w_lV o) (w_lA o) (w_lritz o) (w_ltau o) (w_lbuf o) (w_info o) (w_calls o) (S (w_qrs o)) in
  match m with
  | QHouse => d_hhqr o
  | _ => let! (i, o) := match m with QShift => d_schol2 o | QOne => d_chol1 o | _ => d_chol2 o end in
         if negb (i =? 0)%Z then d_hhqr o else Ok o
  end.
(** RR: cuda_seq.hpp:447-480; chase_mpidla.hpp:952-980 with mgpu.hpp:728-760, where locked = nev_ + nex_ - n *)
Definition d_rr (block : nat) (o : dobj) : res dobj :=
  match gk with
  | GOne => dexec (Dheevd block (w_max o)) o
  | GMany => if block <=? w_max o then dexec (Dheevd block (w_max o)) o else UB
  end.

(** calls of the solver's interface; the others use cuBLAS, which takes no work area *)
Definition d_call {F} (qm : nat -> qrmode) (c : call F) (o : dobj) : res dobj :=
  match c with
  | CQr _ _ => d_qr (qm (w_qrs o)) o
  | CRr block => d_rr block o
  | _ => Ok o
  end.
Fixpoint d_calls {F} (qm : nat -> qrmode) (l : list (call F)) (o : dobj) : res dobj :=
  match l with [] => Ok o | c :: l => let! o := d_call qm c o in d_calls qm l o end.
End Dw.
