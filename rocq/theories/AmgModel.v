(** The multi-GPU backend with communication staged through the host (ChASE-MPI/impl/chase_mpidla.hpp, cited as dla.hpp, on top of
    chase_mpidla_mgpu.hpp, cited as mgpu.hpp, built without CUDA_AWARE) on the asynchronous machine of AsyncModel: kernels, cuBLAS and
    cuSOLVER calls are only enqueued.  Seen globally as in MgpuModel: one value stands for the parts of all processes. *)
From Coq Require Import List Arith ZArith Bool.
Require Import Verif.Base Verif.AlgModel Verif.DlaModel Verif.ColModel Verif.MgpuModel Verif.AsyncModel.
Import ListNotations.

Section Amg.
Context {F V M G T : Type} (fo : fops F) (bl : blas F V M G T).
(** what the devices compute before the sums over the processes: products (true: H^H x), applyVec, syherk, the projected matrix *)
Context (loc : bool -> M -> F -> F -> V -> V -> V) (locv : M -> V -> V) (locS : list V -> G) (locR : list V -> list V -> G).
(** the sums (and, for a product in mLanczos, B2C), on what was copied to the host *)
Context (red : V -> V) (redG : G -> G).
Context (scal : bool) (* built with HAS_SCALAPACK *) (n : nat) (* nev_ + nex_ *).

(** device memory of C_, B_, C2_, B2_, A_, ritzv_, devInfo_ and of v_1, v_w in mLanczos *)
Record mdev := mk_mdev { x_H : M; x_C : list V; x_B : list V; x_C2 : list V; x_B2 : list V; x_A : G; x_ritz : list F; x_info : Z;
  x_v : list V; x_w : list V }.
Definition sx_H (d : mdev) h := mk_mdev h (x_C d) (x_B d) (x_C2 d) (x_B2 d) (x_A d) (x_ritz d) (x_info d) (x_v d) (x_w d).
Definition sx_C (d : mdev) c := mk_mdev (x_H d) c (x_B d) (x_C2 d) (x_B2 d) (x_A d) (x_ritz d) (x_info d) (x_v d) (x_w d).
Definition sx_B (d : mdev) c := mk_mdev (x_H d) (x_C d) c (x_C2 d) (x_B2 d) (x_A d) (x_ritz d) (x_info d) (x_v d) (x_w d).
Definition sx_C2 (d : mdev) c := mk_mdev (x_H d) (x_C d) (x_B d) c (x_B2 d) (x_A d) (x_ritz d) (x_info d) (x_v d) (x_w d).
Definition sx_B2 (d : mdev) c := mk_mdev (x_H d) (x_C d) (x_B d) (x_C2 d) c (x_A d) (x_ritz d) (x_info d) (x_v d) (x_w d).
Definition sx_A (d : mdev) a := mk_mdev (x_H d) (x_C d) (x_B d) (x_C2 d) (x_B2 d) a (x_ritz d) (x_info d) (x_v d) (x_w d).
Definition sx_ritz (d : mdev) r := mk_mdev (x_H d) (x_C d) (x_B d) (x_C2 d) (x_B2 d) (x_A d) r (x_info d) (x_v d) (x_w d).
Definition sx_info (d : mdev) i := mk_mdev (x_H d) (x_C d) (x_B d) (x_C2 d) (x_B2 d) (x_A d) (x_ritz d) i (x_v d) (x_w d).
Definition sx_v (d : mdev) v := mk_mdev (x_H d) (x_C d) (x_B d) (x_C2 d) (x_B2 d) (x_A d) (x_ritz d) (x_info d) v (x_w d).
Definition sx_w (d : mdev) v := mk_mdev (x_H d) (x_C d) (x_B d) (x_C2 d) (x_B2 d) (x_A d) (x_ritz d) (x_info d) (x_v d) v.

(** host memory, next_ and isHHqr *)
Record mhost := mk_mhost { y_H : M; y_C : list V; y_B : list V; y_C2 : list V; y_B2 : list V; y_bAc : bool; y_hh : option bool }.
Definition sy_C (h : mhost) c := mk_mhost (y_H h) c (y_B h) (y_C2 h) (y_B2 h) (y_bAc h) (y_hh h).
Definition sy_B (h : mhost) c := mk_mhost (y_H h) (y_C h) c (y_C2 h) (y_B2 h) (y_bAc h) (y_hh h).
Definition sy_C2 (h : mhost) c := mk_mhost (y_H h) (y_C h) (y_B h) c (y_B2 h) (y_bAc h) (y_hh h).
Definition sy_B2 (h : mhost) c := mk_mhost (y_H h) (y_C h) (y_B h) (y_C2 h) c (y_bAc h) (y_hh h).
Definition sy_next (h : mhost) b := mk_mhost (y_H h) (y_C h) (y_B h) (y_C2 h) (y_B2 h) b (y_hh h).
Definition sy_hh (h : mhost) b := mk_mhost (y_H h) (y_C h) (y_B h) (y_C2 h) (y_B2 h) (y_bAc h) b.
Local Notation P := (prog mdev).

(** The cuBLAS and cuSOLVER handles have no stream set (mgpu.hpp:317-319) and the kernels get stream 0: everything is on the default
    stream.  cublasSetMatrix and cudaMemcpy from the host have read host memory when they return, cublasGetMatrix and cudaMemcpy to the
    host wait (chase_mpi_matrices.hpp:207-231). *)
(** mgpu.hpp:422-434 *)
Definition x_initrnd (h : mhost) : P mhost :=
  Dev Legacy (fun d => let! c := put_range (x_C d) 0 (map (b_rnd bl) (seq 0 n)) in Ok (sx_C d c))
  (Get Legacy (fun d => get_range (x_C d) 0 n) (fun c => AsyncModel.host (put_range (y_C h) 0 c) (fun C => Ret (sy_C h C)))).
(** mgpu.hpp:404-415 *)
Definition x_init (h : mhost) : P mhost :=
  AsyncModel.host (copy_cols (y_C h) (y_C2 h) 0 n) (fun C2 =>
  Dev Legacy (fun d => Ok (sx_H d (y_H h))) (Ret (sy_next (sy_C2 h C2) true))).
(** mgpu.hpp:503-508 *)
Definition x_shift (c : F) (_ : bool) (h : mhost) : P mhost := Dev Legacy (fun d => Ok (sx_H d (b_shift bl (x_H d) c))) (Ret h).

(** uploads of columns *)
Definition up_C {A} (h : mhost) (off k : nat) (K : P A) : P A :=
  AsyncModel.host (get_range (y_C h) off k) (fun c => Dev Legacy (fun d => let! v := put_range (x_C d) off c in Ok (sx_C d v)) K).
Definition up_B {A} (h : mhost) (off k : nat) (K : P A) : P A :=
  AsyncModel.host (get_range (y_B h) off k) (fun c => Dev Legacy (fun d => let! v := put_range (x_B d) off c in Ok (sx_B d v)) K).
Definition up_B2 {A} (h : mhost) (off k : nat) (K : P A) : P A :=
  AsyncModel.host (get_range (y_B2 h) off k) (fun c => Dev Legacy (fun d => let! v := put_range (x_B2 d) off c in Ok (sx_B2 d v)) K).
Definition up_C2 {A} (h : mhost) (off k : nat) (K : P A) : P A :=
  AsyncModel.host (get_range (y_C2 h) off k) (fun c => Dev Legacy (fun d => let! v := put_range (x_C2 d) off c in Ok (sx_C2 d v)) K).

(** mgpu.hpp:452-494, then the sum of the host copy (dla.hpp:472-523) *)
Definition x_prodB (alpha beta : F) (off k : nat) (d : mdev) : res mdev :=
  let! c := get_range (x_C d) off k in let! b := get_range (x_B d) off k in
  let! v := put_range (x_B d) off (zip (loc true (x_H d) alpha beta) c b) in Ok (sx_B d v).
Definition x_prodC (alpha beta : F) (off k : nat) (d : mdev) : res mdev :=
  let! b := get_range (x_B d) off k in let! c := get_range (x_C d) off k in
  let! v := put_range (x_C d) off (zip (loc false (x_H d) alpha beta) b c) in Ok (sx_C d v).
Definition x_apply (alpha beta : F) (off blk locked : nat) (h : mhost) : P mhost :=
  if y_bAc h then
    up_C h (locked + off) blk
    (Dev Legacy (x_prodB alpha beta (locked + off) blk)
    (Get Legacy (fun d => get_range (x_B d) (locked + off) blk) (fun w =>
     AsyncModel.host (put_range (y_B h) (locked + off) (map red w)) (fun B => Ret (sy_next (sy_B h B) false)))))
  else
    up_B h (locked + off) blk
    (Dev Legacy (x_prodC alpha beta (locked + off) blk)
    (Get Legacy (fun d => get_range (x_C d) (locked + off) blk) (fun w =>
     AsyncModel.host (put_range (y_C h) (locked + off) (map red w)) (fun C => Ret (sy_next (sy_C h C) true))))).

(** asynCxHGatherC: dla.hpp:657-716, mgpu.hpp:512-534 *)
Definition x_gather {A} (locked blk : nat) (copied : bool) (h : mhost) (K : mhost -> P A) : P A :=
  AsyncModel.host (get_range (y_C2 h) locked blk) (fun c2 =>
  AsyncModel.host (put_range (y_B2 h) locked c2) (fun B2 =>
  let rest := Dev Legacy (x_prodB (f_one fo) (f_zero fo) locked blk)
    (Get Legacy (fun d => get_range (x_B d) locked blk) (fun w =>
     AsyncModel.host (put_range (y_B h) locked (map red w)) (fun B => K (sy_B (sy_B2 h B2) B)))) in
  if copied then rest else up_C h locked blk rest)).
(** dla.hpp:952-982, mgpu.hpp:609-625, 728-765: the projected matrix goes to the host, is summed and comes back *)
Definition x_rr (blk locked : nat) (h : mhost) : P (list F * mhost) :=
  if negb (locked + blk =? n) then Bad else
  match y_hh h with
  | None => Bad
  | Some f =>
    x_gather locked blk (negb f) h (fun h1 =>
    up_B h1 locked blk (up_B2 h1 locked blk
    (Dev Legacy (fun d => let! b := get_range (x_B d) locked blk in let! b2 := get_range (x_B2 d) locked blk in Ok (sx_A d (locR b2 b)))
    (Get Legacy (fun d => Ok (x_A d)) (fun a =>
     Dev Legacy (fun d => Ok (sx_A d (redG a)))
     (Dev Legacy (fun d => let! r := put_range (x_ritz d) 0 (map (b_eval bl (x_A d)) (seq 0 blk)) in Ok (sx_ritz d r)) (* heevd: A_ now stands for its eigenvectors *)
     (Get Legacy (fun d => get_range (x_ritz d) 0 blk) (fun w =>
      up_C2 h1 locked blk
      (Dev Legacy (fun d => let! c2 := get_range (x_C2 d) locked blk in
                            let! v := put_range (x_C d) locked (map (b_comb bl c2 (x_A d)) (seq 0 blk)) in Ok (sx_C d v))
      (Get Legacy (fun d => get_range (x_C d) locked blk) (fun c =>
       AsyncModel.host (put_range (y_C h1) locked c) (fun C =>
       AsyncModel.host (copy_cols C (y_C2 h1) locked blk) (fun C2 => Ret (w, sy_C2 (sy_C h1 C) C2)))))))))))))) 
  end.
(** dla.hpp:984-1020, mgpu.hpp:706-724 *)
Definition x_resd (ritzv : list F) (locked unc : nat) (h : mhost) : P (list F * mhost) :=
  x_gather locked unc true h (fun h1 =>
  AsyncModel.host (get_range ritzv 0 unc) (fun v => AsyncModel.host (get_range (y_B h1) locked unc) (fun b => AsyncModel.host (get_range (y_B2 h1) locked unc) (fun b2 =>
  let b' := zip (fun vx y => b_axpy bl (b_inj bl (f_neg fo (fst vx))) (snd vx) y) (combine v b2) b in
  AsyncModel.host (put_range (y_B h1) locked b') (fun B => Ret (map (b_nrm2 bl) b', sy_B h1 B)))))).

(** dla.hpp:1054-1118: on the host *)
Definition x_hhqr (_ : nat) (h : mhost) : P mhost :=
  AsyncModel.host (set_cols n (y_C h) (b_hh bl)) (fun C =>
  let h1 := sy_C h C in Ret (if scal then h1 else sy_hh (sy_next h1 true) (Some true))).
(** syherk (mgpu.hpp:627-653), the sum and, on the host, the shift (847-871), potrf (656-680); [isinfo]: the status is read *)
Definition x_factor {A} (shift isinfo : bool) (K : Z -> P A) : P A :=
  Dev Legacy (fun d => let! c := get_range (x_C d) 0 n in Ok (sx_A d (locS c)))
  (Get Legacy (fun d => Ok (x_A d)) (fun a =>
   let a1 := if shift then b_dshift bl (redG a) else redG a in
   Dev Legacy (fun d => Ok (sx_A d a1))
   (Dev Legacy (fun d => let '(i, R) := b_potrf bl (x_A d) in Ok (sx_info (sx_A d R) i))
   (if isinfo then Get Legacy (fun d => Ok (x_info d)) K else K 0%Z)))).
(** mgpu.hpp:682-698 *)
Definition x_trsm {A} (last : bool) (h : mhost) (K : mhost -> P A) : P A :=
  Dev Legacy (fun d => let! c := set_cols n (x_C d) (b_trsm bl (x_A d)) in Ok (sx_C d c))
  (if last then Get Legacy (fun d => get_range (x_C d) 0 n) (fun c => AsyncModel.host (put_range (y_C h) 0 c) (fun C => K (sy_C h C))) else K h).
(** dla.hpp:1145-1179, 1181-1227, 1229-1306 *)
Definition x_chol1 (_ : nat) (h : mhost) : P (Z * mhost) :=
  let h := sy_hh h (Some false) in
  up_C h 0 n (x_factor false true (fun info =>
  if negb (info =? 0)%Z then Ret (info, h) else x_trsm true h (fun h1 => Ret (info, h1)))).
Definition x_chol2 (_ : nat) (h : mhost) : P (Z * mhost) :=
  let h := sy_hh h (Some false) in
  up_C h 0 n (x_factor false true (fun info =>
  if negb (info =? 0)%Z then Ret (info, h)
  else x_trsm false h (fun h1 => x_factor false false (fun info2 => x_trsm true h1 (fun h2 => Ret (info2, h2)))))).
Definition x_schol2 (_ : nat) (h : mhost) : P (Z * mhost) :=
  let h := sy_hh h (Some false) in
  up_C h 0 n (x_factor true true (fun info =>
  if negb (info =? 0)%Z then Ret (info, h)
  else x_trsm false h (fun h1 => x_factor false true (fun info2 =>
       if negb (info2 =? 0)%Z then Ret (info2, h1)
       else x_trsm false h1 (fun h2 => x_factor false false (fun _ => x_trsm true h2 (fun h3 => Ret (info2, h3)))))))).
(** dla.hpp:1344-1358, 1360-1369, mgpu.hpp:794-822: on the host *)
Definition x_lockcopy (locked : nat) (_ : bool) (h : mhost) : P mhost :=
  AsyncModel.host (copy_cols (y_C2 h) (y_C h) 0 locked) (fun C =>
  AsyncModel.host (copy_cols C (y_C2 h) locked (n - locked)) (fun C2 => Ret (sy_C2 (sy_C h C) C2))).
Definition x_swap (i j : nat) (h : mhost) : P mhost :=
  AsyncModel.host (swap_ (y_C h) i j) (fun C => AsyncModel.host (swap_ C i j) (fun C' => Ret (sy_C h C'))).
Definition x_dos (idx m : nat) (rv : list F) (h : mhost) : P mhost :=
  AsyncModel.host (get_range rv 0 (idx * m)) (fun rv => AsyncModel.host (get_range (y_C h) 0 m) (fun c =>
  AsyncModel.host (put_range (y_C2 h) 0 (map (b_combl bl c rv) (seq 0 idx))) (fun C2 =>
  AsyncModel.host (copy_cols C2 (y_C h) 0 m) (fun C => Ret (sy_C2 (sy_C h C) C2))))).

(** mLanczos (dla.hpp:1376-1505): the vectors are on the host; applyVec (mgpu.hpp:909-924) uploads v_1, multiplies, and copies v_w back *)
Definition ml_after (Mn numvec k : nat) (s : ml (F := F) (V := V)) (C v2 : list V) : res (ml (F := F) (V := V) * list V) :=
  let alpha := map (b_tneg bl) (zip (b_dot bl) (ml_v1 s) v2) in
  let v2a := zip (fun av y => b_axpy bl (fst av) (snd av) y) (combine alpha (ml_v1 s)) v2 in
  let! d := for_ numvec 0 (fun i d => let! a := rd alpha i in wr d (k + Mn * i) (b_re bl (b_tneg bl a))) (ml_d s) in
  let v2b := if k =? 0 then v2a
             else zip (fun bv y => b_axpy bl (b_inj bl (f_neg fo (fst bv))) (snd bv) y) (combine (ml_b s) (ml_v0 s)) v2a in
  Ok (mk_ml C (ml_v0 s) (ml_v1 s) d (ml_e s) (map (b_nrm2 bl) v2b), v2b).
Definition x_body {A} (second : bool) (Mn numvec k : nat) (s : ml (F := F) (V := V)) (K : ml (F := F) (V := V) -> list V -> P A) : P A :=
  AsyncModel.host (if second then Ok (ml_C s) else for_ numvec 0 (fun i C => let! x := rd (ml_v1 s) i in wr C k x) (ml_C s)) (fun C =>
  Dev Legacy (fun d => Ok (sx_v d (ml_v1 s)))
  (Dev Legacy (fun d => Ok (sx_w d (map (locv (x_H d)) (x_v d))))
  (Get Legacy (fun d => Ok (x_w d)) (fun w =>
   AsyncModel.host (ml_after Mn numvec k s C (map red w)) (fun r => K (fst r) (snd r)))))).
Fixpoint x_loop {A} (todo k : nat) (second : bool) (Mn numvec : nat) (s : ml (F := F) (V := V)) (K : ml (F := F) (V := V) -> P A) : P A :=
  match todo with
  | O => K s
  | S t => x_body second Mn numvec k s (fun s1 v2 =>
           match t with
           | O => K s1
           | S _ => AsyncModel.host (ml_next fo bl Mn numvec k s1 v2) (fun s2 => x_loop t (k + 1) second Mn numvec s2 K)
           end)
  end.
Definition x_mlanczos (Mn : nat) (nv : option nat) (h : mhost) : P (list F * list F * list F * mhost) :=
  let '(second, numvec) := match nv with None => (true, 1) | Some n => (false, n) end in
  AsyncModel.host (get_range (y_C h) 0 numvec) (fun start =>
  let v1 := map (fun x => b_scal bl (b_inj bl (f_div fo (f_one fo) (b_nrm2 bl x))) x) start in
  let z := repeat (f_zero fo) in
  x_loop Mn 0 second Mn numvec (mk_ml (y_C h) (repeat (b_zero bl) numvec) v1 (z (Mn * numvec)) (z (Mn * numvec)) (z numvec)) (fun s =>
  AsyncModel.host (if second then Ok (ml_C s) else put_range (ml_C s) 0 (ml_v1 s)) (fun C' => Ret (ml_d s, ml_e s, ml_b s, sy_C h C')))).

(** the backend: the object on the host, the clock of the host, the device *)
Record amst := mk_amst { mt_obj : mhost; mt_now : nat; mt_cfg : cfg mdev }.
Context (sch : nat -> list nat).
Definition mact (s : amst) (p : mhost -> P mhost) : res amst :=
  let! (h, (t, c)) := exec sch (p (mt_obj s)) (mt_now s) (mt_cfg s) in Ok (mk_amst h t c).
Definition mact_v {X} (s : amst) (p : mhost -> P (X * mhost)) : res (X * amst) :=
  let! (xh, (t, c)) := exec sch (p (mt_obj s)) (mt_now s) (mt_cfg s) in Ok (fst xh, mk_amst (snd xh) t c).
Definition amgD : dla F amst := {|
  d_sym := fun s => Ok (b_veq bl (b_mulN bl (y_H (mt_obj s)) (b_test bl)) (b_mulH bl (y_H (mt_obj s)) (b_test bl)), s);
  d_start := fun s => Ok s; d_end := fun s => Ok s; d_initrnd := fun s => mact s x_initrnd; d_init := fun s => mact s x_init;
  d_shift := fun c u s => mact s (x_shift c u);
  d_apply := fun a b off blk l s => mact s (x_apply a b off blk l);
  d_hhqr := fun l s => mact s (x_hhqr l);
  d_chol1 := fun l s => mact_v s (x_chol1 l); d_chol2 := fun l s => mact_v s (x_chol2 l); d_schol2 := fun l s => mact_v s (x_schol2 l);
  d_lockcopy := fun l b s => mact s (x_lockcopy l b);
  d_rr := fun blk l s => mact_v s (x_rr blk l);
  d_resd := fun v l u s => mact_v s (x_resd v l u);
  d_swap := fun i j s => mact s (x_swap i j);
  d_mlanczos := fun m nv s => mact_v s (x_mlanczos m nv);
  d_dos := fun i m rv s => mact s (x_dos i m rv) |}.
End Amg.
