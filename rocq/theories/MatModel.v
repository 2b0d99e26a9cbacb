(** The buffers of ChASE-MPI/chase_mpi_matrices.hpp: a [Matrix] keeps a host copy (leading dimension ld) and, on a GPU build, a device copy
    (leading dimension m).  Memory is a list of elements, addressed by the element offset from the pointer; an access outside of it,
    and a dereference of a missing copy, is undefined behaviour.  Offsets are not reduced modulo 2^64. *)
From Coq Require Import List Arith ZArith Bool.
Require Import Verif.Base.
Import ListNotations.

(** std::size_t -> int at the call of a cuBLAS routine *)
Definition to_int (n : nat) : Z := let r := (Z.of_nat n mod 2 ^ 32)%Z in if (r <? 2 ^ 31)%Z then r else (r - 2 ^ 32)%Z.

Section Mat.
  Context {A : Type}.

  Record matrix := Matrix { mm : nat; mn : nat; mld : nat; mhost : option (list A); mdev : option (list A) }.
  Definition with_host (x : matrix) h := Matrix (mm x) (mn x) (mld x) (Some h) (mdev x).
  Definition with_dev (x : matrix) d := Matrix (mm x) (mn x) (mld x) (mhost x) (Some d).

  (** the transfer itself: column j of a rows x cols tile goes from src + s + j * lda to dst + d + j * ldb *)
  Definition copy_tile (rows cols : nat) (src : list A) (s lda : nat) (dst : list A) (d ldb : nat) : res (list A) :=
    for_ cols 0 (fun j b => for_ rows 0 (fun i b => let! v := rd src (s + j * lda + i) in wr b (d + j * ldb + i) v) b) dst.

  (** cublasSetMatrix / cublasGetMatrix (cuBLAS documentation): CUBLAS_STATUS_INVALID_VALUE and no transfer for rows, cols < 0 or
      lda, ldb <= 0; a pitch shorter than a column is refused by the two-dimensional copy underneath.  The callers drop the status. *)
  Definition cublas_copy (rows cols : Z) (src : list A) (s : nat) (lda : Z) (dst : list A) (d : nat) (ldb : Z) : res (list A) :=
    if ((rows <? 0) || (cols <? 0) || (lda <=? 0) || (ldb <=? 0) || (lda <? rows) || (ldb <? rows))%Z then Ok dst
    else copy_tile (Z.to_nat rows) (Z.to_nat cols) src s (Z.to_nat lda) dst d (Z.to_nat ldb).

  (** chase_mpi_matrices.hpp:222-227 H2D(nrows, ncols, offset), 260-268 syncFromPtr on a GPU build *)
  Definition h2d_part (nrows ncols off : nat) (x : matrix) : res matrix :=
    match mhost x, mdev x with
    | Some h, Some d =>
        let! d' := cublas_copy (to_int nrows) (to_int ncols) h (off * mld x) (to_int (mld x)) d (off * mm x) (to_int (mm x)) in
        Ok (with_dev x d')
    | _, _ => UB
    end.
  (** chase_mpi_matrices.hpp:235-240 D2H(nrows, ncols, offset), 243-250 sync2Ptr on a GPU build *)
  Definition d2h_part (nrows ncols off : nat) (x : matrix) : res matrix :=
    match mhost x, mdev x with
    | Some h, Some d =>
        let! h' := cublas_copy (to_int nrows) (to_int ncols) d (off * mm x) (to_int (mm x)) h (off * mld x) (to_int (mld x)) in
        Ok (with_host x h')
    | _, _ => UB
    end.
  (** chase_mpi_matrices.hpp:216-220, 270-276 *)
  Definition h2d_all (x : matrix) : res matrix :=
    match mhost x, mdev x with
    | Some h, Some d =>
        let! d' := cublas_copy (to_int (mm x)) (to_int (mn x)) h 0 (to_int (mld x)) d 0 (to_int (mm x)) in Ok (with_dev x d')
    | _, _ => UB
    end.
  (** chase_mpi_matrices.hpp:229-233, 252-258 *)
  Definition d2h_all (x : matrix) : res matrix :=
    match mhost x, mdev x with
    | Some h, Some d =>
        let! h' := cublas_copy (to_int (mm x)) (to_int (mn x)) d 0 (to_int (mm x)) h 0 (to_int (mld x)) in Ok (with_host x h')
    | _, _ => UB
    end.

  (** chase_mpi_matrices.hpp:243-276 sync2Ptr and syncFromPtr: empty without HAS_CUDA *)
  Definition sync2ptr (cuda : bool) (x : matrix) : res matrix := if cuda then d2h_all x else Ok x.
  Definition syncfromptr (cuda : bool) (x : matrix) : res matrix := if cuda then h2d_all x else Ok x.

  (** chase_mpi_matrices.hpp:28-43,82-96,128-152: owned buffers, filled with zero.  Without HAS_CUDA only case 0 exists,
      and modes 1 and 2 leave both pointers empty *)
  Definition mat_own (cuda : bool) (zero : A) (mode m n : nat) : matrix :=
    let z := repeat zero (m * n) in
    match mode with
    | 0 => Matrix m n m (Some z) None
    | 1 => if cuda then Matrix m n m (Some z) (Some z) else Matrix m n m None None
    | 2 => if cuda then Matrix m n m None (Some z) else Matrix m n m None None
    | _ => Matrix m n m None None
    end.
  (** chase_mpi_matrices.hpp:154-179: the host copy is the user's buffer [p] *)
  Definition mat_user (cuda : bool) (zero : A) (mode m n : nat) (p : list A) (ld : nat) : matrix :=
    let z := repeat zero (m * n) in
    match mode with
    | 0 => Matrix m n ld (Some p) None
    | 1 => if cuda then Matrix m n ld (Some p) (Some z) else Matrix m n ld None None
    | 2 => if cuda then Matrix m n ld (Some p) (Some z) else Matrix m n ld None None
    | _ => Matrix m n ld None None
    end.

  (** where a pointer handed out by the class points to *)
  Inductive place := OnHost | OnDevice.
  Definition has (x : matrix) (p : place) : bool :=
    match p with OnHost => if mhost x then true else false | OnDevice => if mdev x then true else false end.

  (** chase_mpi_matrices.hpp:184-195 ptr(): uninitialised when neither flag is set *)
  Definition ptr (x : matrix) : res place :=
    if has x OnHost then Ok OnHost else if has x OnDevice then Ok OnDevice else UB.
  (** chase_mpi_matrices.hpp:439-575 C_comm, C2_comm, B_comm, B2_comm, A_comm, Resid_comm, vv_comm: the switch on mode_,
      then host() or device(), which dereference the copy *)
  Definition comm_ptr (cuda : bool) (mode : nat) (x : matrix) : res place :=
    let deref p := if has x p then Ok p else UB in
    match mode with
    | 0 => deref OnHost
    | 1 => if cuda then deref OnHost else UB
    | 2 => if cuda then deref OnDevice else UB
    | _ => UB
    end.
  (** chase_mpidla.hpp:1067-1070, 1094-1097, 1315-1318: if (C != matrices_->C().ptr()) matrices_->C().sync2Ptr();
      the host and the device never share addresses *)
  Definition guarded_sync (cuda : bool) (mode : nat) (x : matrix) : res matrix :=
    let! c := comm_ptr cuda mode x in
    let! p := ptr x in
    match c, p with OnHost, OnHost | OnDevice, OnDevice => Ok x | _, _ => sync2ptr cuda x end.

  (** what happens to a matrix between two observations: transfers, and stores by host code and by kernels *)
  Inductive step := Up (nrows ncols off : nat) | Down (nrows ncols off : nat) | UpAll | DownAll | DevStore (k : nat) (v : A).
  Definition run_step (c : step) (x : matrix) : res matrix :=
    match c with
    | Up r k o => h2d_part r k o x
    | Down r k o => d2h_part r k o x
    | UpAll => h2d_all x
    | DownAll => d2h_all x
    | DevStore k v => match mdev x with Some d => let! d' := wr d k v in Ok (with_dev x d') | None => UB end
    end.
  Fixpoint run_steps (l : list step) (x : matrix) : res matrix :=
    match l with [] => Ok x | c :: l' => let! x' := run_step c x in run_steps l' x' end.
End Mat.
Arguments matrix : clear implicits.
Arguments step : clear implicits.

(** chase_mpi_matrices.hpp:389-421, the buffers of the distributed solver, m x n being the local block *)
Definition storage_flags (mode : nat) : nat * nat :=
  match mode with 0 => (0, 0) | 1 => (1, 1) | _ => (1, 2) end.
Record matrices (A R : Type) := Matrices { xH : matrix A; xC : matrix A; xC2 : matrix A; xB : matrix A; xB2 : matrix A; xA : matrix A;
                                           xRitzv : matrix R; xResid : matrix R; xvv : matrix A }.
Arguments Matrices {A R}. Arguments xH {A R}. Arguments xC {A R}. Arguments xC2 {A R}. Arguments xB {A R}. Arguments xB2 {A R}.
Arguments xA {A R}. Arguments xRitzv {A R}. Arguments xResid {A R}. Arguments xvv {A R}.
Definition make_matrices {A R} (cuda : bool) (zA : A) (zR : R) (mode m n mb : nat) (H : list A) (ldh : nat) (V1 : list A) (ritzv : list R) :=
  let '(gpu, aware) := storage_flags mode in
  Matrices (mat_user cuda zA gpu m n H ldh) (mat_user cuda zA aware m mb V1 m) (mat_own cuda zA aware m mb)
           (mat_own cuda zA aware n mb) (mat_own cuda zA aware n mb) (mat_own cuda zA aware mb mb)
           (mat_user cuda zR gpu 1 mb ritzv mb) (mat_own cuda zR gpu 1 mb) (mat_own cuda zA gpu m 1).
