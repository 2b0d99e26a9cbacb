(** Model of the single-GPU backend ChaseMpiDLACudaSeq (ChASE-MPI/impl/chase_mpidla_cuda_seq.hpp, cited as cuda_seq.hpp).
    Matrices are lists of columns; cuBLAS, cuSOLVER and the kernels of shift.cu are the oracles of [blas] (the index
    arithmetic of the kernels is modelled in CukModel.v).  Kernels run on the default stream and on [stream_], which
    cudaStreamCreate makes synchronise with the default stream, so operations take effect in program order. *)
From Coq Require Import List Arith ZArith Bool.
Require Import Verif.Base Verif.AlgModel Verif.DlaModel Verif.ColModel.
Import ListNotations.

Section Gpu.
Context {F V M G T : Type} (fo : fops F) (bl : blas F V M G T) (n : nat) (* nev_ + nex_ *).

(** H_ and V1_ are the caller's arrays; the device has a copy of H, the two blocks d_V1_ and d_V2_ whose pointers are
    exchanged, and the array d_ritz_ *)
Record gst := mk_gst { g_H : M; g_V1 : list V; g_dev : ist (V := V) (M := M); g_ritz : list F }.
Definition on_dev (s : gst) (x : res (ist (V := V) (M := M))) : res gst :=
  let! d := x in Ok (mk_gst (g_H s) (g_V1 s) d (g_ritz s)).
Definition on_dev_v {X} (s : gst) (x : res (X * ist (V := V) (M := M))) : res (X * gst) :=
  let! (v, d) := x in Ok (v, mk_gst (g_H s) (g_V1 s) d (g_ritz s)).

(** Constructor (167-240) with chase_mpi_matrices.hpp:114-170, 315-341: device blocks are zero filled; nothing of H or V1
    is copied.  [zH] is the zero matrix. *)
Definition gpu_state (zH : M) (zf : F) (H : M) (V1 : list V) : gst :=
  let z := repeat (b_zero bl) n in mk_gst H V1 (mk_ist zH z z false) (repeat zf n).

(** 335-379: on the host matrix *)
Definition g_sym (s : gst) : res (bool * gst) :=
  Ok (b_veq bl (b_mulN bl (g_H s) (b_test bl)) (b_mulH bl (g_H s) (b_test bl)), s).
(** 279-284 *)
Definition g_initrnd (s : gst) : res gst := on_dev s (i_initrnd bl n (g_dev s)).
(** 273-278: d_V2_ := d_V1_, then H_ is copied to d_H_ *)
Definition g_init (s : gst) : res gst :=
  let! d := i_init n (g_dev s) in
  Ok (mk_gst (g_H s) (g_V1 s) (mk_ist (g_H s) (is_V1 d) (is_V2 d) (is_sw d)) (g_ritz s)).
(** 305-308 *)
Definition g_shift (c : F) (u : bool) (s : gst) : res gst := on_dev s (i_shift bl c u (g_dev s)).
(** 293-303 *)
Definition g_apply (alpha beta : F) (off blk locked : nat) (s : gst) : res gst :=
  on_dev s (i_apply bl alpha beta off blk locked (g_dev s)).
(** 447-478: the values go to d_ritz_ and from there to the caller *)
Definition g_rr (blk locked : nat) (s : gst) : res (list F * gst) :=
  let! (v, d) := i_rr bl blk locked (g_dev s) in
  let! r := put_range (g_ritz s) 0 v in
  Ok (v, mk_gst (g_H s) (g_V1 s) d r).
(** 502-519 with the values as an argument; d_V2_ keeps H^H V1 (the residual kernel forms the differences in registers) *)
Definition dv_resd (ritzv : list F) (locked unc : nat) (d : ist (V := V) (M := M)) : res (list F * ist) :=
  let! c := get_range (is_V1 d) locked unc in
  let! v := get_range ritzv 0 unc in
  let w := map (b_mulH bl (is_H d)) c in
  let! v2 := put_range (is_V2 d) locked w in
  Ok (map (b_nrm2 bl) (zip (fun vx y => b_axpy bl (b_inj bl (f_neg fo (fst vx))) (snd vx) y) (combine v c) w),
      mk_ist (is_H d) (is_V1 d) v2 (is_sw d)).
(** the values are taken from d_ritz_; the argument ritzv is not used *)
Definition g_resd (_ : list F) (locked unc : nat) (s : gst) : res (list F * gst) :=
  on_dev_v s (dv_resd (g_ritz s) locked unc (g_dev s)).
(** 521-535 *)
Definition g_hhqr (locked : nat) (s : gst) : res gst := on_dev s (i_hhqr bl n locked (g_dev s)).
(** 537-585 *)
Definition g_chol1 (locked : nat) (s : gst) : res (Z * gst) := on_dev_v s (i_chol1 bl n locked (g_dev s)).
(** 587-649: devInfo_ of the second factorisation is not read; the first one's value is returned *)
Definition dv_chol2 (locked : nat) (s : ist (V := V) (M := M)) : res (Z * ist) :=
  let! s0 := i_save locked s in
  let! (info, R) := i_factor bl n false s0 in
  if negb (info =? 0)%Z then Ok (info, s0)
  else
    let! s1 := i_set n s0 (b_trsm bl R) in
    let! (_, R2) := i_factor bl n false s1 in
    let! s2 := i_set n s1 (b_trsm bl R2) in
    Ok (info, s2).
Definition g_chol2 (locked : nat) (s : gst) : res (Z * gst) := on_dev_v s (dv_chol2 locked (g_dev s)).
(** 651-741: the third one is not read; the second one's value is returned *)
Definition dv_schol2 (locked : nat) (s : ist (V := V) (M := M)) : res (Z * ist) :=
  let! s0 := i_save locked s in
  let! (info, R) := i_factor bl n true s0 in
  if negb (info =? 0)%Z then Ok (info, s0)
  else
    let! s1 := i_set n s0 (b_trsm bl R) in
    let! (info2, R2) := i_factor bl n false s1 in
    if negb (info2 =? 0)%Z then Ok (info2, s1)
    else
      let! s2 := i_set n s1 (b_trsm bl R2) in
      let! (_, R3) := i_factor bl n false s2 in
      let! s3 := i_set n s2 (b_trsm bl R3) in
      Ok (info2, s3).
Definition g_schol2 (locked : nat) (s : gst) : res (Z * gst) := on_dev_v s (dv_schol2 locked (g_dev s)).
(** 773-777 *)
Definition g_lockcopy (locked : nat) (hh : bool) (s : gst) : res gst := on_dev s (i_lockcopy locked hh (g_dev s)).
(** 779-787 *)
Definition g_swap (i j : nat) (s : gst) : res gst := on_dev s (i_swap i j (g_dev s)).
(** 789-800 *)
Definition g_dos (idx m : nat) (rv : list F) (s : gst) : res gst := on_dev s (i_dos bl idx m rv (g_dev s)).

(** axpy_batch (971-979): the pointer to the first coefficient is passed for every vector *)
Definition axpy_batch (a : list T) (x y : list V) : list V :=
  match a with [] => y | a0 :: _ => zip (b_axpy bl a0) x y end.

(** mLanczos (802-903); the differences to [ml_body] are applyVec (OP_N, 950-961) and [axpy_batch] *)
Definition g_body (H : M) (second : bool) (Mn numvec k : nat) (s : ml (F := F) (V := V)) : res (ml * list V) :=
  let! C := (if second then Ok (ml_C s)
             else for_ numvec 0 (fun i C => let! x := rd (ml_v1 s) i in wr C k x) (ml_C s)) in
  let v2 := map (b_mulN bl H) (ml_v1 s) in
  let alpha := map (b_tneg bl) (zip (b_dot bl) (ml_v1 s) v2) in
  let v2a := axpy_batch alpha (ml_v1 s) v2 in
  let! d := for_ numvec 0 (fun i d => let! a := rd alpha i in wr d (k + Mn * i) (b_re bl (b_tneg bl a))) (ml_d s) in
  let v2b := if k =? 0 then v2a
             else axpy_batch (map (fun b => b_inj bl (f_neg fo b)) (ml_b s)) (ml_v0 s) v2a in
  Ok (mk_ml C (ml_v0 s) (ml_v1 s) d (ml_e s) (map (b_nrm2 bl) v2b), v2b).
Fixpoint g_loop (todo k : nat) (H : M) (second : bool) (Mn numvec : nat) (s : ml) : res ml :=
  match todo with
  | O => Ok s
  | S t => let! (s1, v2) := g_body H second Mn numvec k s in
           match t with
           | O => Ok s1
           | S _ => let! s2 := ml_next fo bl Mn numvec k s1 v2 in g_loop t (k + 1) H second Mn numvec s2
           end
  end.
Definition g_lanczos (H : M) (Mn : nat) (nv : option nat) (C : list V) : res (list F * list F * list F * list V) :=
  let '(second, numvec) := match nv with None => (true, 1) | Some n => (false, n) end in
  let! start := get_range C 0 numvec in
  let v1 := map (fun x => b_scal bl (b_inj bl (f_div fo (f_one fo) (b_nrm2 bl x))) x) start in
  let z := repeat (f_zero fo) in
  let! s := g_loop Mn 0 H second Mn numvec
      (mk_ml C (repeat (b_zero bl) numvec) v1 (z (Mn * numvec)) (z (Mn * numvec)) (z numvec)) in
  let! C' := (if second then Ok (ml_C s) else put_range (ml_C s) 0 (ml_v1 s)) in
  Ok (ml_d s, ml_e s, ml_b s, C').
Definition dv_mlanczos (Mn : nat) (nv : option nat) (d : ist (V := V) (M := M)) : res (list F * list F * list F * ist) :=
  let! (x, e, b, C) := g_lanczos (is_H d) Mn nv (is_V1 d) in
  Ok (x, e, b, mk_ist (is_H d) C (is_V2 d) (is_sw d)).
Definition g_mlanczos (Mn : nat) (nv : option nat) (s : gst) : res (list F * list F * list F * gst) :=
  let! (x, e, b, d) := dv_mlanczos Mn nv (g_dev s) in Ok (x, e, b, mk_gst (g_H s) (g_V1 s) d (g_ritz s)).

(** 405-409: V1_ := d_V1_ *)
Definition g_end (s : gst) : res gst :=
  let! c := get_range (is_V1 (g_dev s)) 0 n in
  let! v := put_range (g_V1 s) 0 c in Ok (mk_gst (g_H s) v (g_dev s) (g_ritz s)).

Definition gpuD : dla F gst := {|
  d_sym := g_sym; d_start := fun s => Ok s; d_end := g_end; d_initrnd := g_initrnd; d_init := g_init;
  d_shift := g_shift; d_apply := g_apply; d_hhqr := g_hhqr; d_chol1 := g_chol1; d_chol2 := g_chol2;
  d_schol2 := g_schol2; d_lockcopy := g_lockcopy; d_rr := g_rr; d_resd := g_resd; d_swap := g_swap;
  d_mlanczos := g_mlanczos; d_dos := g_dos |}.
End Gpu.
