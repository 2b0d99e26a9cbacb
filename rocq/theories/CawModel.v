(** Model of the multi-GPU backend built with CUDA_AWARE (ChaseMpiDLA, cited as dla.hpp, with ChaseMpiDLAMultiGPU, cited as
    mgpu.hpp): the blocks live on the devices, C, B, C2, B2, A and vv of ChaseMpiDLA are device pointers, and the collective
    operations work on them.  The device part is a [cst]; what it shares with the CPU version is taken from ColModel.v. *)
From Coq Require Import List Arith ZArith Bool.
Require Import Verif.Base Verif.AlgModel Verif.DlaModel Verif.ColModel Verif.MgpuModel.
Import ListNotations.

Section Caw.
Context {F V M G T : Type} (fo : fops F) (bl : blas F V M G T).
Context (scal : bool) (* built with HAS_SCALAPACK *) (nev nex : nat).
Local Notation n := (nev + nex).

(** w_H and w_C: the arrays of the caller; w_ritz: Ritzv__ on the device *)
Record wst := mk_wst { w_H : M; w_C : list V; w_dev : cst (V := V) (M := M); w_ritz : list F }.
Definition on_w (s : wst) (x : res (cst (V := V) (M := M))) : res wst :=
  let! d := x in Ok (mk_wst (w_H s) (w_C s) d (w_ritz s)).
Definition on_w_v {X} (s : wst) (x : res (X * cst (V := V) (M := M))) : res (X * wst) :=
  let! (v, d) := x in Ok (v, mk_wst (w_H s) (w_C s) d (w_ritz s)).

(** dla.hpp:757-820: on the host matrix *)
Definition w_sym (s : wst) : res (bool * wst) :=
  Ok (b_veq bl (b_mulN bl (w_H s) (b_test bl)) (b_mulH bl (w_H s) (b_test bl)), s).
(** mgpu.hpp:404-415: C2 := C on the device, then H is uploaded *)
Definition w_init (s : wst) : res wst :=
  let! d := c_init n (w_dev s) in
  on_w s (Ok (mk_cst (w_H s) (cs_C d) (cs_B d) (cs_C2 d) (cs_B2 d) (cs_bAc d))).
(** dla.hpp:952-982, mgpu.hpp:725-763: the values stay on the device as well *)
Definition w_rr (blk locked : nat) (s : wst) : res (list F * wst) :=
  let! (v, d) := c_rr bl true n blk locked (w_dev s) in
  let! r := put_range (w_ritz s) 0 v in
  Ok (v, mk_wst (w_H s) (w_C s) d r).
(** dla.hpp:984-1020, mgpu.hpp:700-706: residual_gpu reads Ritzv__; the argument ritzv is not used; B is not changed *)
Definition w_resd (_ : list F) (locked unc : nat) (s : wst) : res (list F * wst) :=
  let! d := c_gather bl locked unc (w_dev s) in
  let! v := get_range (w_ritz s) 0 unc in
  let! b := get_range (cs_B d) locked unc in
  let! b2 := get_range (cs_B2 d) locked unc in
  on_w_v s (Ok (map (b_nrm2 bl) (zip (fun vx y => b_axpy bl (b_inj bl (f_neg fo (fst vx))) (snd vx) y) (combine v b2) b), d)).
(** dla.hpp:1054-1118: C is downloaded (sync2Ptr) and orthonormalised on the host.  With ScaLAPACK it is uploaded again
    (syncFromPtr, 1085-1088); without, preApplication (424-449) stores it in the host array only. *)
Definition w_hhqr (_ : nat) (s : wst) : res wst :=
  let! h := copy_cols (cs_C (w_dev s)) (w_C s) 0 n in
  let! C := set_cols n h (b_hh bl) in
  let d := w_dev s in
  if scal then
    let! dC := copy_cols C (cs_C d) 0 n in
    Ok (mk_wst (w_H s) C (mk_cst (cs_H d) dC (cs_B d) (cs_C2 d) (cs_B2 d) (cs_bAc d)) (w_ritz s))
  else Ok (mk_wst (w_H s) C (mk_cst (cs_H d) (cs_C d) (cs_B d) (cs_C2 d) (cs_B2 d) true) (w_ritz s)).
(** dla.hpp:1181-1227: the second potrf is called with isinfo = false and returns 0 *)
Definition w_chol2 (l : nat) (s : wst) : res (Z * wst) :=
  let d := w_dev s in
  let! (info, R) := c_factor bl n false d in
  if negb (info =? 0)%Z then Ok (info, s)
  else
    let! d1 := set_C n d (b_trsm bl R) in
    let! (_, R2) := c_factor bl n false d1 in
    let! d2 := set_C n d1 (b_trsm bl R2) in
    on_w_v s (Ok (0%Z, d2)).
(** dla.hpp:1344-1358: memcpy_mode[0] is device to device; memcpy_mode[1] is device to host (328), but both pointers of the
    copy are device pointers.  cudaMemcpy with a direction that does not match the pointers is undefined. *)
Definition w_lockcopy (locked : nat) (hh : bool) (s : wst) : res wst :=
  if negb hh then UB else on_w s (c_lockcopy n locked hh (w_dev s)).
(** mgpu.hpp:563-568: the first nev columns *)
Definition w_end (s : wst) : res wst :=
  let! C := copy_cols (cs_C (w_dev s)) (w_C s) 0 nev in
  Ok (mk_wst (w_H s) C (w_dev s) (w_ritz s)).

Definition cawD : dla F wst := {|
  d_sym := w_sym; d_start := fun s => Ok s; d_end := w_end;
  d_initrnd := fun s => on_w s (c_initrnd bl n (w_dev s));          (* mgpu.hpp:422-434 *)
  d_init := w_init;
  d_shift := fun c u s => on_w s (c_shift bl c u (w_dev s));        (* mgpu.hpp:503-508 *)
  d_apply := fun a b off blk l s => on_w s (c_apply bl a b off blk l (w_dev s));  (* dla.hpp:472-523, mgpu.hpp:452-494 *)
  d_hhqr := w_hhqr;
  d_chol1 := fun l s => on_w_v s (c_chol1 bl n l (w_dev s));        (* dla.hpp:1145-1179 *)
  d_chol2 := w_chol2;
  d_schol2 := fun l s => on_w_v s (c_schol2 bl true n l (w_dev s)); (* dla.hpp:1229-1306 *)
  d_lockcopy := w_lockcopy; d_rr := w_rr; d_resd := w_resd;
  d_swap := fun i j s => on_w s (c_swap true i j (w_dev s));        (* dla.hpp:1360-1369 *)
  d_mlanczos := fun m nv s => let! (a, e, b, d) := c_mlanczos fo bl m nv (w_dev s) in
                Ok (a, e, b, mk_wst (w_H s) (w_C s) d (w_ritz s));  (* dla.hpp:1376-1505 *)
  d_dos := fun i m rv s => on_w s (c_dos bl i m rv (w_dev s)) |}.   (* mgpu.hpp:794-822 *)

(** constructor (mgpu.hpp:262-371, chase_mpi_matrices.hpp:384-423): device memory is zero filled, nothing is uploaded *)
Definition caw_state (zH : M) (zf : F) (H : M) (V1 : list V) : wst :=
  let z := repeat (b_zero bl) n in mk_wst H V1 (mk_cst zH z z z z true) (repeat zf n).
End Caw.
