(** What the asynchronous multi-GPU backend is compared with. *)
From Coq Require Import List Arith ZArith Bool.
Require Import Verif.Base Verif.AlgModel Verif.DlaModel Verif.ColModel Verif.MgpuModel Verif.AsyncModel Verif.AsyncSpec Verif.ReuseSpec Verif.AmgModel.
Import ListNotations.

(** the sums over the processes give the whole products *)
Record sums {F V M G T} (fo : fops F) (bl : blas F V M G T) (loc : bool -> M -> F -> F -> V -> V -> V) (locv : M -> V -> V)
    (locS : list V -> G) (locR : list V -> list V -> G) (red : V -> V) (redG : G -> G) : Prop := mk_sums {
  sum_H : forall h a b x y, red (loc true h a b x y) = b_gemmH bl h a b x y;
  sum_N : forall h a b x y, red (loc false h a b x y) = b_gemmN bl h a b x y;
  sum_mul : forall h x y, b_gemmH bl h (f_one fo) (f_zero fo) x y = b_mulH bl h x;
  sum_vec : forall h x, red (locv h x) = b_mulH bl h x;
  sum_syherk : forall c, redG (locS c) = b_syherk bl c;
  sum_gram : forall b2 b, redG (locR b2 b) = b_gram bl b2 b }.

(** host memory [h] and device memory [d] make up the object [s] of MgpuModel *)
Definition mmakes {F V M G : Type} (n : nat) (h : mhost (V := V) (M := M)) (d : mdev (F := F) (V := V) (M := M) (G := G)) (s : mst (V := V) (M := M)) : Prop :=
  s = mk_mst (y_H h) (x_H d) (y_C h) (x_C d) (y_B h) (x_B d) (y_C2 h) (y_B2 h) (y_bAc h) (y_hh h) /\
  length (x_C2 d) = length (y_C2 h) /\ length (x_B2 d) = length (y_B2 h) /\ n <= length (x_ritz d).
(** the object stands for [s]: it will be [s] once the device has finished *)
Definition mstands {F V M G : Type} (n : nat) (a : amst (F := F) (V := V) (M := M) (G := G)) (s : mst (V := V) (M := M)) : Prop :=
  exists d, finished (mt_cfg a) = Ok d /\ Forall (fun o => fst o = Legacy) (c_queue (mt_cfg a)) /\ mmakes n (mt_obj a) d s.

(** the caller writes the next problem into host memory, while the devices may still be working *)
Definition load_amg {F V M G : Type} (j : job (F := F) (V := V) (M := M)) (s : cm (D := amst (F := F) (V := V) (M := M) (G := G))) :=
  let a := cm_dla s in let h := mt_obj a in
  mk_cm (cm_locked s) (mk_amst (mk_mhost (j_H j) (if c_approx (j_conf j) then j_V j else y_C h) (y_B h) (y_C2 h) (y_B2 h) (y_bAc h) (y_hh h)) (mt_now a) (mt_cfg a)).
(** the same for the single-GPU backend; only the matrix, since that backend starts from what is on the device (C54) *)
Definition load_async {F V M G : Type} (j : job (F := F) (V := V) (M := M)) (s : cm (D := ast (F := F) (V := V) (M := M) (G := G))) :=
  let a := cm_dla s in let h := t_obj a in mk_cm (cm_locked s) (mk_ast (mk_hobj (j_H j) (h_V1 h) (h_sw h)) (t_now a) (t_cfg a)).
