(** Model of the multi-GPU backend: ChaseMpiDLA (ChASE-MPI/impl/chase_mpidla.hpp, cited as dla.hpp) on top of
    ChaseMpiDLAMultiGPU (chase_mpidla_mgpu.hpp, cited as mgpu.hpp), seen globally as in ColModel.v: rows are distributed,
    columns are not.  Every block has a host and a device copy; the copies between them are explicit.
    cuBLAS, cuSOLVER and the kernels are the oracles of [blas].  The device copies of A_, C2_ and B2_ are used only directly
    after they were uploaded and are not part of the state. *)
From Coq Require Import List Arith ZArith Bool.
Require Import Verif.Base Verif.AlgModel Verif.DlaModel Verif.ColModel.
Import ListNotations.

Section Mgpu.
Context {F V M G T : Type} (fo : fops F) (bl : blas F V M G T).
(** what the devices hold after a local product, before the sum over the processes: some column that depends on the
    operation (true: H^H x) and its arguments *)
Context (loc : bool -> M -> F -> F -> V -> V -> V).
Context (scal : bool) (* built with HAS_SCALAPACK *) (n : nat) (* nev_ + nex_ *).

(** m_hh is isHHqr of dla.hpp:1759; None: the constructor does not set it *)
Record mst := mk_mst { m_H : M; m_dH : M; m_C : list V; m_dC : list V; m_B : list V; m_dB : list V;
  m_C2 : list V; m_B2 : list V; m_bAc : bool; m_hh : option bool }.

Definition with_C (s : mst) (C dC : list V) : mst :=
  mk_mst (m_H s) (m_dH s) C dC (m_B s) (m_dB s) (m_C2 s) (m_B2 s) (m_bAc s) (m_hh s).
Definition with_hh (s : mst) (h : option bool) : mst :=
  mk_mst (m_H s) (m_dH s) (m_C s) (m_dC s) (m_B s) (m_dB s) (m_C2 s) (m_B2 s) (m_bAc s) h.

(** Matrix::H2D / D2H(rows, k, off) (chase_mpi_matrices.hpp:207-231): columns off.. off+k-1 of [src] to [dst] *)
Definition copy_cols (src dst : list V) (off k : nat) : res (list V) :=
  let! c := get_range src off k in put_range dst off c.

(** dla.hpp:757-820: on the host matrix *)
Definition m_sym (s : mst) : res (bool * mst) :=
  Ok (b_veq bl (b_mulN bl (m_H s) (b_test bl)) (b_mulH bl (m_H s) (b_test bl)), s).
(** dla.hpp:402-422, mgpu.hpp:422-434: generated on the device, then D2H *)
Definition m_initrnd (s : mst) : res mst :=
  let! dC := put_range (m_dC s) 0 (map (b_rnd bl) (seq 0 n)) in
  let! C := copy_cols dC (m_C s) 0 n in
  Ok (with_C s C dC).
(** dla.hpp:373-384, mgpu.hpp:404-415: C2 := C on the host, H is uploaded *)
Definition m_init (s : mst) : res mst :=
  let! C2 := copy_cols (m_C s) (m_C2 s) 0 n in
  Ok (mk_mst (m_H s) (m_H s) (m_C s) (m_dC s) (m_B s) (m_dB s) C2 (m_B2 s) true (m_hh s)).
(** dla.hpp:725-741 (preApplication(V, 0, .) copies nothing, mgpu.hpp:438-447), mgpu.hpp:503-508: the device matrix *)
Definition m_shift (c : F) (_ : bool) (s : mst) : res mst :=
  Ok (mk_mst (m_H s) (b_shift bl (m_dH s) c) (m_C s) (m_dC s) (m_B s) (m_dB s) (m_C2 s) (m_B2 s) (m_bAc s) (m_hh s)).

(** dla.hpp:472-523, mgpu.hpp:452-494.  The factor block is uploaded; the block that is updated is used as it is on the
    device.  The local results go to the host, are summed there, and the sum stays on the host. *)
Definition m_apply (alpha beta : F) (off blk locked : nat) (s : mst) : res mst :=
  if m_bAc s then
    let! dC := copy_cols (m_C s) (m_dC s) (locked + off) blk in
    let! c := get_range dC (locked + off) blk in
    let! b := get_range (m_dB s) (locked + off) blk in
    let! B := put_range (m_B s) (locked + off) (zip (b_gemmH bl (m_dH s) alpha beta) c b) in
    let! dB := put_range (m_dB s) (locked + off) (zip (loc true (m_dH s) alpha beta) c b) in
    Ok (mk_mst (m_H s) (m_dH s) (m_C s) dC B dB (m_C2 s) (m_B2 s) false (m_hh s))
  else
    let! dB := copy_cols (m_B s) (m_dB s) (locked + off) blk in
    let! b := get_range dB (locked + off) blk in
    let! c := get_range (m_dC s) (locked + off) blk in
    let! C := put_range (m_C s) (locked + off) (zip (b_gemmN bl (m_dH s) alpha beta) b c) in
    let! dC := put_range (m_dC s) (locked + off) (zip (loc false (m_dH s) alpha beta) b c) in
    Ok (mk_mst (m_H s) (m_dH s) C dC (m_B s) dB (m_C2 s) (m_B2 s) true (m_hh s)).

(** asynCxHGatherC (dla.hpp:657-716, mgpu.hpp:512-534) *)
Definition m_gather (locked blk : nat) (copied : bool) (s : mst) : res mst :=
  let! c2 := get_range (m_C2 s) locked blk in
  let! B2 := put_range (m_B2 s) locked c2 in
  let! dC := (if copied then Ok (m_dC s) else copy_cols (m_C s) (m_dC s) locked blk) in
  let! c := get_range dC locked blk in
  let! b := get_range (m_dB s) locked blk in
  let! B := put_range (m_B s) locked (map (b_mulH bl (m_dH s)) c) in
  let! dB := put_range (m_dB s) locked (zip (loc true (m_dH s) (f_one fo) (f_zero fo)) c b) in
  Ok (mk_mst (m_H s) (m_dH s) (m_C s) dC B dB (m_C2 s) B2 (m_bAc s) (m_hh s)).

(** dla.hpp:952-982 with mgpu.hpp:618-636 and 725-763: isHHqr decides whether C is uploaded; B and B2 are uploaded, A is
    summed on the host and uploaded again; the new vectors go to the host and from there to C2 *)
Definition m_rr (blk locked : nat) (s : mst) : res (list F * mst) :=
  if negb (locked + blk =? n) then UB else
  match m_hh s with
  | None => UB
  | Some h =>
    let! s1 := m_gather locked blk (negb h) s in
    let! dB := copy_cols (m_B s1) (m_dB s1) locked blk in
    let! b := get_range dB locked blk in
    let! b2 := get_range (m_B2 s1) locked blk in
    let A := b_gram bl b2 b in
    let! c2 := get_range (m_C2 s1) locked blk in
    let! dC := put_range (m_dC s1) locked (map (b_comb bl c2 A) (seq 0 blk)) in
    let! C := copy_cols dC (m_C s1) locked blk in
    let! C2 := copy_cols C (m_C2 s1) locked blk in
    Ok (map (b_eval bl A) (seq 0 blk), mk_mst (m_H s1) (m_dH s1) C dC (m_B s1) dB C2 (m_B2 s1) (m_bAc s1) (m_hh s1))
  end.

(** dla.hpp:984-1020 with mgpu.hpp:697-720: C is not uploaded; the differences are formed on the host *)
Definition m_resd (ritzv : list F) (locked unc : nat) (s : mst) : res (list F * mst) :=
  let! s1 := m_gather locked unc true s in
  let! v := get_range ritzv 0 unc in
  let! b := get_range (m_B s1) locked unc in
  let! b2 := get_range (m_B2 s1) locked unc in
  let b' := zip (fun vx y => b_axpy bl (b_inj bl (f_neg fo (fst vx))) (snd vx) y) (combine v b2) b in
  let! B := put_range (m_B s1) locked b' in
  Ok (map (b_nrm2 bl) b', mk_mst (m_H s1) (m_dH s1) (m_C s1) (m_dC s1) B (m_dB s1) (m_C2 s1) (m_B2 s1) (m_bAc s1) (m_hh s1)).

(** columns of a block replaced by a function of the block *)
Definition set_cols (l : list V) (f : list V -> nat -> V) : res (list V) :=
  let! c := get_range l 0 n in put_range l 0 (map (f c) (seq 0 n)).

(** dla.hpp:1054-1118: on the host block.  Without ScaLAPACK the result is written back by preApplication (424-449), which
    sets next_, and isHHqr is set; with ScaLAPACK (1067-1088) neither happens. *)
Definition m_hhqr (_ : nat) (s : mst) : res mst :=
  let! C := set_cols (m_C s) (b_hh bl) in
  let s1 := with_C s C (m_dC s) in
  if scal then Ok s1
  else Ok (mk_mst (m_H s1) (m_dH s1) (m_C s1) (m_dC s1) (m_B s1) (m_dB s1) (m_C2 s1) (m_B2 s1) true (Some true)).

(** syherk with first = true (mgpu.hpp:638-667): C is uploaded *)
Definition m_up (s : mst) : res mst := let! dC := copy_cols (m_C s) (m_dC s) 0 n in Ok (with_C s (m_C s) dC).
(** syherk + sum + potrf (670-694) of the device block *)
Definition m_factor (shift : bool) (s : mst) : res (Z * G) :=
  let! c := get_range (m_dC s) 0 n in
  let A := b_syherk bl c in
  Ok (b_potrf bl (if shift then b_dshift bl A else A)).
(** trsm (697-716): on the device block; [last]: D2H follows *)
Definition m_trsm (R : G) (last : bool) (s : mst) : res mst :=
  let! dC := set_cols (m_dC s) (b_trsm bl R) in
  let! C := (if last then copy_cols dC (m_C s) 0 n else Ok (m_C s)) in
  Ok (with_C s C dC).

(** dla.hpp:1145-1179 *)
Definition m_chol1 (_ : nat) (s : mst) : res (Z * mst) :=
  let! s0 := m_up (with_hh s (Some false)) in
  let! (info, R) := m_factor false s0 in
  if negb (info =? 0)%Z then Ok (info, s0)
  else let! s1 := m_trsm R true s0 in Ok (info, s1).
(** dla.hpp:1181-1227: the second potrf is called with isinfo = false and returns 0 *)
Definition m_chol2 (_ : nat) (s : mst) : res (Z * mst) :=
  let! s0 := m_up (with_hh s (Some false)) in
  let! (info, R) := m_factor false s0 in
  if negb (info =? 0)%Z then Ok (info, s0)
  else
    let! s1 := m_trsm R false s0 in
    let! (_, R2) := m_factor false s1 in
    let! s2 := m_trsm R2 true s1 in
    Ok (0%Z, s2).
(** dla.hpp:1229-1306: if the second potrf fails the host block still is the one before the first solve *)
Definition m_schol2 (_ : nat) (s : mst) : res (Z * mst) :=
  let! s0 := m_up (with_hh s (Some false)) in
  let! (info, R) := m_factor true s0 in
  if negb (info =? 0)%Z then Ok (info, s0)
  else
    let! s1 := m_trsm R false s0 in
    let! (info2, R2) := m_factor false s1 in
    if negb (info2 =? 0)%Z then Ok (info2, s1)
    else
      let! s2 := m_trsm R2 false s1 in
      let! (_, R3) := m_factor false s2 in
      let! s3 := m_trsm R3 true s2 in
      Ok (info2, s3).

(** dla.hpp:1344-1358: on the host *)
Definition m_lockcopy (locked : nat) (_ : bool) (s : mst) : res mst :=
  let! C := copy_cols (m_C2 s) (m_C s) 0 locked in
  let! C2 := copy_cols C (m_C2 s) locked (n - locked) in
  Ok (mk_mst (m_H s) (m_dH s) C (m_dC s) (m_B s) (m_dB s) C2 (m_B2 s) (m_bAc s) (m_hh s)).
(** dla.hpp:1360-1369: on the host, twice *)
Definition m_swap (i j : nat) (s : mst) : res mst :=
  let! C := swap_ (m_C s) i j in
  let! C' := swap_ C i j in
  Ok (with_C s C' (m_dC s)).
(** mgpu.hpp:794-822, branch without CUDA_AWARE: on the host *)
Definition m_dos (idx m : nat) (rv : list F) (s : mst) : res mst :=
  let! rv := get_range rv 0 (idx * m) in
  let! c := get_range (m_C s) 0 m in
  let! C2 := put_range (m_C2 s) 0 (map (b_combl bl c rv) (seq 0 idx)) in
  let! C := copy_cols C2 (m_C s) 0 m in
  Ok (mk_mst (m_H s) (m_dH s) C (m_dC s) (m_B s) (m_dB s) C2 (m_B2 s) (m_bAc s) (m_hh s)).
(** dla.hpp:1376-1505: vectors on the host; applyVec (mgpu.hpp:925-946) uploads them and multiplies with the device matrix *)
Definition m_mlanczos (Mn : nat) (nv : option nat) (s : mst) : res (list F * list F * list F * mst) :=
  let! (d, e, b, C) := mlanczos fo bl (m_dH s) Mn nv (m_C s) in
  Ok (d, e, b, with_C s C (m_dC s)).

Definition mgpuD : dla F mst := {|
  d_sym := m_sym; d_start := fun s => Ok s; d_end := fun s => Ok s; d_initrnd := m_initrnd; d_init := m_init;
  d_shift := m_shift; d_apply := m_apply; d_hhqr := m_hhqr; d_chol1 := m_chol1; d_chol2 := m_chol2;
  d_schol2 := m_schol2; d_lockcopy := m_lockcopy; d_rr := m_rr; d_resd := m_resd; d_swap := m_swap;
  d_mlanczos := m_mlanczos; d_dos := m_dos |}.

(** constructor (mgpu.hpp:262-371, chase_mpi_matrices.hpp:384-423): H and V1 are the caller's arrays, everything else is zero
    filled; nothing is uploaded.  [zH] is the zero matrix. *)
Definition mgpu_state (zH H : M) (V1 : list V) : mst :=
  let z := repeat (b_zero bl) n in mk_mst H zH V1 z z z z z true None.
End Mgpu.
