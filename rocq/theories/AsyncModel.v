(** Model of asynchronous execution on a GPU: kernels, cuBLAS and cuSOLVER calls and device-to-device copies are only
    enqueued by the host, which goes on; a scheduler decides when the device runs them.  The second half gives the calls
    of the single-GPU backend ChaseMpiDLACudaSeq (ChASE-MPI/impl/chase_mpidla_cuda_seq.hpp, cited as cuda_seq.hpp) in
    that form, with the stream of each call. *)
From Coq Require Import List Arith ZArith Bool.
Require Import Verif.Base Verif.AlgModel Verif.DlaModel Verif.ColModel.
Import ListNotations.

(** ** Streams (CUDA programming guide, default stream): the legacy default stream, streams made by cudaStreamCreate,
    streams made with cudaStreamNonBlocking (the code makes none) *)
Inductive stream := Legacy | Blk (i : nat) | NonBlk (i : nat).
(** operations of the two streams run in the order in which they were enqueued: one stream is a queue; the legacy stream
    waits for every earlier operation of a blocking stream, and these wait for it *)
Definition ordered (a b : stream) : bool :=
  match a, b with
  | Legacy, Legacy => true
  | Legacy, Blk _ | Blk _, Legacy => true
  | Blk i, Blk j => i =? j
  | NonBlk i, NonBlk j => i =? j
  | _, _ => false
  end.

Section Machine.
Context {D : Type}.   (* contents of device memory *)

(** host programs *)
Inductive prog (A : Type) : Type :=
| Ret (a : A)
| Bad                                                     (* undefined behaviour on the host *)
| Dev (s : stream) (f : D -> res D) (k : prog A)          (* enqueue and go on *)
| Get (X : Type) (s : stream) (f : D -> res X) (k : X -> prog A) (* enqueue a read of device memory and wait for it:
                                                             cudaMemcpy device to host, cuBLAS calls with a host result *)
| Direct (f : D -> res D) (k : prog A).                   (* something else than the GPU's queues (an MPI library that
                                                             was given a device pointer) accesses device memory now *)
Arguments Ret {A} a. Arguments Bad {A}. Arguments Dev {A} s f k. Arguments Get {A} X s f k. Arguments Direct {A} f k.

(** device memory and the operations that have not run yet, oldest first *)
Definition op := (stream * (D -> res D))%type.
Record cfg := mk_cfg { c_mem : D; c_queue : list op }.

(** an operation can run when no operation enqueued before it is ordered with it *)
Fixpoint take (i : nat) (before : list op) (q : list op) : option (op * list op) :=
  match q with
  | [] => None
  | o :: q' => match i with
               | O => if forallb (fun e => negb (ordered (fst e) (fst o))) before then Some (o, before ++ q') else None
               | S j => take j (before ++ [o]) q'
               end
  end.
(** the device runs the [i]-th waiting operation if it can *)
Definition pick (i : nat) (c : cfg) : res cfg :=
  match take i [] (c_queue c) with
  | None => Ok c
  | Some ((_, f), q) => let! d := f (c_mem c) in Ok (mk_cfg d q)
  end.
Fixpoint picks (l : list nat) (c : cfg) : res cfg :=
  match l with [] => Ok c | i :: l' => let! c1 := pick i c in picks l' c1 end.
(** the host waits for everything that runs before a new operation of stream [s] *)
Fixpoint wait (fuel : nat) (s : stream) (c : cfg) : res cfg :=
  if existsb (fun e => ordered (fst e) s) (c_queue c) then
    match fuel with O => Fuel | S n => let! c1 := pick 0 c in wait n s c1 end
  else Ok c.

(** [sch t] is what the device does before step [t] of the host *)
Section Run.
Context (sch : nat -> list nat).
Fixpoint exec {A} (p : prog A) (t : nat) (c : cfg) : res (A * (nat * cfg)) :=
  match p with
  | Ret a => Ok (a, (t, c))
  | Bad => UB
  | Dev s f k => let! c1 := picks (sch t) c in exec k (S t) (mk_cfg (c_mem c1) (c_queue c1 ++ [(s, f)]))
  | Get X s f k => let! c1 := picks (sch t) c in
                   let! c2 := wait (length (c_queue c1)) s c1 in
                   let! x := f (c_mem c2) in exec (k x) (S t) c2
  | Direct f k => let! c1 := picks (sch t) c in
                  let! d := f (c_mem c1) in exec k (S t) (mk_cfg d (c_queue c1))
  end.
End Run.

(** host work between the calls *)
Definition host {X A} (x : res X) (k : X -> prog A) : prog A := match x with Ok a => k a | _ => Bad end.
End Machine.
Arguments prog : clear implicits. Arguments cfg : clear implicits. Arguments op : clear implicits.
Arguments Ret {D A} a. Arguments Bad {D A}. Arguments Dev {D A} s f k. Arguments Get {D A X} s f k. Arguments Direct {D A} f k.

(** ** The single-GPU backend *)
Section Gpu.
Context {F V M G T : Type} (fo : fops F) (bl : blas F V M G T) (n : nat) (* nev_ + nex_ *).
(** the shift of shiftedcholQR2: the sum of absolute diagonal entries is computed on the device and copied to the host,
    the shift computed from it is added by another kernel *)
Context (trace : G -> F) (gshift : G -> F -> G).

(** contents of d_A_: a Gram matrix or a factor, or the eigenvectors copied there by LanczosDos *)
Inductive amat := AG (g : G) | AL (l : list F).
(** device memory.  d_V1_ and d_V2_ point to [v_X] and [v_Y] or the other way round; [v_L] are the arrays of the three
    matrices made by mLanczos.  Work arrays of cuSOLVER are not modelled. *)
Record dev := mk_dev { v_H : M; v_X : list V; v_Y : list V; v_tmp : list V (* d_v1_ *); v_ritz : list F; v_A : amat;
  v_info : Z; v_res : list F; v_sum : F; v_L : nat -> list V }.
(** the object on the host: the caller's arrays, and whether the pointers d_V1_, d_V2_ are exchanged *)
Record hobj := mk_hobj { h_H : M; h_V1 : list V; h_sw : bool }.

Definition blk1 (sw : bool) (d : dev) : list V := if sw then v_Y d else v_X d.
Definition blk2 (sw : bool) (d : dev) : list V := if sw then v_X d else v_Y d.
Definition set_X (d : dev) x := mk_dev (v_H d) x (v_Y d) (v_tmp d) (v_ritz d) (v_A d) (v_info d) (v_res d) (v_sum d) (v_L d).
Definition set_Y (d : dev) x := mk_dev (v_H d) (v_X d) x (v_tmp d) (v_ritz d) (v_A d) (v_info d) (v_res d) (v_sum d) (v_L d).
Definition set1 (sw : bool) (d : dev) (x : list V) : dev := if sw then set_Y d x else set_X d x.
Definition set2 (sw : bool) (d : dev) (x : list V) : dev := if sw then set_X d x else set_Y d x.
Definition set_H (d : dev) x := mk_dev x (v_X d) (v_Y d) (v_tmp d) (v_ritz d) (v_A d) (v_info d) (v_res d) (v_sum d) (v_L d).
Definition set_tmp (d : dev) x := mk_dev (v_H d) (v_X d) (v_Y d) x (v_ritz d) (v_A d) (v_info d) (v_res d) (v_sum d) (v_L d).
Definition set_ritz (d : dev) x := mk_dev (v_H d) (v_X d) (v_Y d) (v_tmp d) x (v_A d) (v_info d) (v_res d) (v_sum d) (v_L d).
Definition set_A (d : dev) x := mk_dev (v_H d) (v_X d) (v_Y d) (v_tmp d) (v_ritz d) x (v_info d) (v_res d) (v_sum d) (v_L d).
Definition set_info (d : dev) x := mk_dev (v_H d) (v_X d) (v_Y d) (v_tmp d) (v_ritz d) (v_A d) x (v_res d) (v_sum d) (v_L d).
Definition set_res (d : dev) x := mk_dev (v_H d) (v_X d) (v_Y d) (v_tmp d) (v_ritz d) (v_A d) (v_info d) x (v_sum d) (v_L d).
Definition set_sum (d : dev) x := mk_dev (v_H d) (v_X d) (v_Y d) (v_tmp d) (v_ritz d) (v_A d) (v_info d) (v_res d) x (v_L d).
Definition set_L (d : dev) (i : nat) x :=
  mk_dev (v_H d) (v_X d) (v_Y d) (v_tmp d) (v_ritz d) (v_A d) (v_info d) (v_res d) (v_sum d) (fun j => if j =? i then x else v_L d j).
Definition the_G (a : amat) : res G := match a with AG g => Ok g | AL _ => UB end.
Definition the_L (a : amat) : res (list F) := match a with AL l => Ok l | AG _ => UB end.

(** stream_ (192-198): cublasH_ and cusolverH_ use it *)
Definition S_ : stream := Blk 0.
Local Notation P := (prog dev).

(** 279-284 *)
Definition a_initrnd (h : hobj) : P hobj :=
  Dev Legacy (fun d => let! v := put_range (blk1 (h_sw h) d) 0 (map (b_rnd bl) (seq 0 n)) in Ok (set1 (h_sw h) d v)) (Ret h).
(** 273-278; cublasSetMatrix has read the host matrix when it returns *)
Definition a_init (h : hobj) : P hobj :=
  Dev Legacy (fun d => let! c := get_range (blk1 (h_sw h) d) 0 n in
                       let! v := put_range (blk2 (h_sw h) d) 0 c in Ok (set2 (h_sw h) d v))
  (Dev Legacy (fun d => Ok (set_H d (h_H h))) (Ret h)).
(** 305-308 *)
Definition a_shift (c : F) (_ : bool) (h : hobj) : P hobj :=
  Dev S_ (fun d => Ok (set_H d (b_shift bl (v_H d) c))) (Ret h).
(** 293-303; the exchange of the pointers happens on the host at once *)
Definition a_apply (alpha beta : F) (off blk locked : nat) (h : hobj) : P hobj :=
  let sw := h_sw h in
  Dev S_ (fun d => let! x := get_range (blk1 sw d) (locked + off) blk in
                   let! y := get_range (blk2 sw d) (locked + off) blk in
                   let! v := put_range (blk2 sw d) (locked + off) (zip (b_gemmN bl (v_H d) alpha beta) x y) in Ok (set2 sw d v))
  (Ret (mk_hobj (h_H h) (h_V1 h) (negb sw))).
(** d_V2_ := H^H d_V1_ on [blk] columns (452-456, 508-511) *)
Definition k_mulH (sw : bool) (locked blk : nat) (d : dev) : res dev :=
  let! c := get_range (blk1 sw d) locked blk in
  let! v := put_range (blk2 sw d) locked (map (b_mulH bl (v_H d)) c) in Ok (set2 sw d v).
(** 447-478 *)
Definition a_rr (blk locked : nat) (h : hobj) : P (list F * hobj) :=
  let sw := h_sw h in
  Dev S_ (k_mulH sw locked blk)
  (Dev S_ (fun d => let! w := get_range (blk2 sw d) locked blk in
                    let! c := get_range (blk1 sw d) locked blk in Ok (set_A d (AG (b_gram bl w c))))
  (Dev S_ (fun d => let! A := the_G (v_A d) in
                    let! r := put_range (v_ritz d) 0 (map (b_eval bl A) (seq 0 blk)) in Ok (set_ritz d r)) (* heevd: d_A_ now stands for its eigenvectors *)
  (Get Legacy (fun d => get_range (v_ritz d) 0 blk) (fun ritzv =>
   Dev S_ (fun d => let! c := get_range (blk1 sw d) locked blk in
                    let! A := the_G (v_A d) in
                    let! v := put_range (blk2 sw d) locked (map (b_comb bl c A) (seq 0 blk)) in Ok (set2 sw d v))
   (Ret (ritzv, mk_hobj (h_H h) (h_V1 h) (negb sw))))))).
(** 502-519: the kernel residual_gpu runs on the default stream *)
Definition a_resd (_ : list F) (locked unc : nat) (h : hobj) : P (list F * hobj) :=
  let sw := h_sw h in
  Dev S_ (k_mulH sw locked unc)
  (Dev Legacy (fun d => let! w := get_range (blk2 sw d) locked unc in
                        let! c := get_range (blk1 sw d) locked unc in
                        let! v := get_range (v_ritz d) 0 unc in
                        let! r := put_range (v_res d) 0 (map (b_nrm2 bl)
                          (zip (fun vx y => b_axpy bl (b_inj bl (f_neg fo (fst vx))) (snd vx) y) (combine v c) w)) in Ok (set_res d r))
  (Get Legacy (fun d => get_range (v_res d) 0 unc) (fun r => Ret (r, h)))).
(** first statement of the QR variants (524, 556, 610, 675) *)
Definition k_save (sw : bool) (locked : nat) (d : dev) : res dev :=
  let! c := get_range (blk1 sw d) 0 locked in
  let! v := put_range (blk2 sw d) 0 c in Ok (set2 sw d v).
(** the n columns of d_V1_ are replaced (trsm; geqrf and gqr) *)
Definition k_set (sw : bool) (g : dev -> res (list V -> nat -> V)) (d : dev) : res dev :=
  let! c := get_range (blk1 sw d) 0 n in
  let! f := g d in
  let! v := put_range (blk1 sw d) 0 (map (f c) (seq 0 n)) in Ok (set1 sw d v).
Definition k_syherk (sw : bool) (d : dev) : res dev :=
  let! c := get_range (blk1 sw d) 0 n in Ok (set_A d (AG (b_syherk bl c))).
Definition k_potrf (d : dev) : res dev :=
  let! A := the_G (v_A d) in let '(info, R) := b_potrf bl A in Ok (set_info (set_A d (AG R)) info).
Definition k_trsm (sw : bool) : dev -> res dev := k_set sw (fun d => let! R := the_G (v_A d) in Ok (b_trsm bl R)).
(** 521-535 (geqrf and gqr are one oracle; both are enqueued on stream_ with nothing in between) *)
Definition a_hhqr (locked : nat) (h : hobj) : P hobj :=
  Dev Legacy (k_save (h_sw h) locked) (Dev S_ (k_set (h_sw h) (fun _ => Ok (b_hh bl))) (Ret h)).
(** 537-585 *)
Definition a_chol1 (locked : nat) (h : hobj) : P (Z * hobj) :=
  let sw := h_sw h in
  Dev Legacy (k_save sw locked) (Dev S_ (k_syherk sw) (Dev S_ k_potrf
  (Get Legacy (fun d => Ok (v_info d)) (fun info =>
   if negb (info =? 0)%Z then Ret (info, h)
   else Dev S_ (k_trsm sw) (Ret (info, h)))))).
(** 587-649 *)
Definition a_chol2 (locked : nat) (h : hobj) : P (Z * hobj) :=
  let sw := h_sw h in
  Dev Legacy (k_save sw locked) (Dev S_ (k_syherk sw) (Dev S_ k_potrf
  (Get Legacy (fun d => Ok (v_info d)) (fun info =>
   if negb (info =? 0)%Z then Ret (info, h)
   else Dev S_ (k_trsm sw) (Dev S_ (k_syherk sw) (Dev S_ k_potrf (Dev S_ (k_trsm sw) (Ret (info, h))))))))).
(** 651-741 with computeDiagonalAbsSum (921-927) and shiftMatrixForQR (916-919) *)
Definition a_schol2 (locked : nat) (h : hobj) : P (Z * hobj) :=
  let sw := h_sw h in
  Dev Legacy (k_save sw locked) (Dev S_ (k_syherk sw)
  (Dev Legacy (fun d => let! A := the_G (v_A d) in Ok (set_sum d (trace A)))
  (Get Legacy (fun d => Ok (v_sum d)) (fun nrmf =>
   Dev S_ (fun d => let! A := the_G (v_A d) in Ok (set_A d (AG (gshift A nrmf))))
   (Dev S_ k_potrf
   (Get Legacy (fun d => Ok (v_info d)) (fun info =>
    if negb (info =? 0)%Z then Ret (info, h)
    else Dev S_ (k_trsm sw) (Dev S_ (k_syherk sw) (Dev S_ k_potrf
         (Get Legacy (fun d => Ok (v_info d)) (fun info2 =>
          if negb (info2 =? 0)%Z then Ret (info2, h)
          else Dev S_ (k_trsm sw) (Dev S_ (k_syherk sw) (Dev S_ k_potrf (Dev S_ (k_trsm sw) (Ret (info2, h))))))))))))))))  .
(** 773-777 *)
Definition a_lockcopy (locked : nat) (_ : bool) (h : hobj) : P hobj :=
  Dev Legacy (fun d => let! c := get_range (blk2 (h_sw h) d) 0 locked in
                       let! v := put_range (blk1 (h_sw h) d) 0 c in Ok (set1 (h_sw h) d v)) (Ret h).
(** 779-787: three copies on the default stream *)
Definition a_swap (i j : nat) (h : hobj) : P hobj :=
  let sw := h_sw h in
  Dev Legacy (fun d => let! x := rd (blk1 sw d) i in Ok (set_tmp d [x]))
  (Dev Legacy (fun d => let! x := rd (blk1 sw d) j in let! v := wr (blk1 sw d) i x in Ok (set1 sw d v))
  (Dev Legacy (fun d => let! x := rd (v_tmp d) 0 in let! v := wr (blk1 sw d) j x in Ok (set1 sw d v)) (Ret h))).
(** 789-800 *)
Definition a_dos (idx m : nat) (rv : list F) (h : hobj) : P hobj :=
  let sw := h_sw h in
  host (get_range rv 0 (idx * m)) (fun r =>
  Dev Legacy (fun d => Ok (set_A d (AL r)))
  (Dev S_ (fun d => let! r := the_L (v_A d) in
                    let! c := get_range (blk1 sw d) 0 m in
                    let! v := put_range (blk2 sw d) 0 (map (b_combl bl c r) (seq 0 idx)) in Ok (set2 sw d v))
  (Dev Legacy (fun d => let! c := get_range (blk2 sw d) 0 m in
                        let! v := put_range (blk1 sw d) 0 c in Ok (set1 sw d v)) (Ret h)))).

(** mLanczos (802-903).  The calls of one batch (929-979) follow each other on stream_ and are one operation here.
    [i0 i1 i2]: the arrays that v_0, v_1, v_2 stand for; Matrix::swap exchanges the pointers on the host. *)
Definition axpy_batch1 (a : list T) (x y : list V) : list V :=
  match a with [] => y | a0 :: _ => zip (b_axpy bl a0) x y end.
Definition a_body (sw second : bool) (Mn numvec k : nat) (i0 i1 i2 : nat) (ds bs : list F) {A} (K : list F -> list F -> P A) : P A :=
  let rest :=
    Dev S_ (fun d => Ok (set_L d i2 (map (b_mulN bl (v_H d)) (v_L d i1))))                      (* applyVec *)
    (Get S_ (fun d => Ok (zip (b_dot bl) (v_L d i1) (v_L d i2))) (fun dots =>                     (* dot_batch *)
     let alpha := map (b_tneg bl) dots in
     Dev S_ (fun d => Ok (set_L d i2 (axpy_batch1 alpha (v_L d i1) (v_L d i2))))
     (host (for_ numvec 0 (fun i d => let! a := rd alpha i in wr d (k + Mn * i) (b_re bl (b_tneg bl a))) ds) (fun ds' =>
      let fin := Get S_ (fun d => Ok (map (b_nrm2 bl) (v_L d i2))) (fun bs' => K ds' bs') in
      if k =? 0 then fin
      else Dev S_ (fun d => Ok (set_L d i2 (axpy_batch1 (map (fun b => b_inj bl (f_neg fo b)) bs) (v_L d i0) (v_L d i2)))) fin)))) in
  if second then rest
  else Dev Legacy (fun d => let! v := for_ numvec 0 (fun i C => let! x := rd (v_L d i1) i in wr C k x) (blk1 sw d) in Ok (set1 sw d v)) rest.
Fixpoint a_loop (todo k : nat) (sw second : bool) (Mn numvec : nat) (i0 i1 i2 : nat) (ds es bs : list F)
    {A} (K : nat -> list F -> list F -> list F -> P A) : P A :=
  match todo with
  | O => K i1 ds es bs
  | S t => a_body sw second Mn numvec k i0 i1 i2 ds bs (fun ds' bs' =>
           match t with
           | O => K i1 ds' es bs'
           | S _ => Dev S_ (fun d => Ok (set_L d i2 (zip (fun b x => b_scal bl (b_inj bl (f_div fo (f_one fo) b)) x) bs' (v_L d i2))))
                    (host (for_ numvec 0 (fun i e => let! b := rd bs' i in wr e (k + Mn * i) b) es) (fun es' =>
                     a_loop t (k + 1) sw second Mn numvec i1 i2 i0 ds' es' bs' K))
           end)
  end.
Definition a_mlanczos (Mn : nat) (nv : option nat) (h : hobj) : P (list F * list F * list F * hobj) :=
  let sw := h_sw h in
  let '(second, numvec) := match nv with None => (true, 1) | Some n => (false, n) end in
  let z := repeat (f_zero fo) in
  Dev Legacy (fun d => Ok (set_L (set_L (set_L d 0 (repeat (b_zero bl) numvec)) 1 (repeat (b_zero bl) numvec)) 2 (repeat (b_zero bl) numvec)))
  (Dev Legacy (fun d => let! c := get_range (blk1 sw d) 0 numvec in Ok (set_L d 1 c))
  (Get S_ (fun d => Ok (map (b_nrm2 bl) (v_L d 1))) (fun nrms =>
   Dev S_ (fun d => Ok (set_L d 1 (zip (fun b x => b_scal bl (b_inj bl (f_div fo (f_one fo) b)) x) nrms (v_L d 1))))
   (a_loop Mn 0 sw second Mn numvec 0 1 2 (z (Mn * numvec)) (z (Mn * numvec)) (z numvec) (fun i1 ds es bs =>
    if second then Ret (ds, es, bs, h)
    else Dev Legacy (fun d => let! v := put_range (blk1 sw d) 0 (v_L d i1) in Ok (set1 sw d v)) (Ret (ds, es, bs, h))))))).
(** 405-409 *)
Definition a_end (h : hobj) : P hobj :=
  let sw := h_sw h in
  Get Legacy (fun d => get_range (blk1 sw d) 0 n) (fun c =>
  host (put_range (h_V1 h) 0 c) (fun v => Ret (mk_hobj (h_H h) v sw))).

(** the backend on the asynchronous machine: the object, the clock of the host, the device *)
Record ast := mk_ast { t_obj : hobj; t_now : nat; t_cfg : cfg dev }.
Context (sch : nat -> list nat).
Definition act (s : ast) (p : hobj -> P hobj) : res ast :=
  let! (h, (t, c)) := exec sch (p (t_obj s)) (t_now s) (t_cfg s) in Ok (mk_ast h t c).
Definition act_v {X} (s : ast) (p : hobj -> P (X * hobj)) : res (X * ast) :=
  let! (xh, (t, c)) := exec sch (p (t_obj s)) (t_now s) (t_cfg s) in Ok (fst xh, mk_ast (snd xh) t c).
Definition asyncD : dla F ast := {|
  d_sym := fun s => Ok (b_veq bl (b_mulN bl (h_H (t_obj s)) (b_test bl)) (b_mulH bl (h_H (t_obj s)) (b_test bl)), s);
  d_start := fun s => Ok s; d_end := fun s => act s a_end; d_initrnd := fun s => act s a_initrnd; d_init := fun s => act s a_init;
  d_shift := fun c u s => act s (a_shift c u);
  d_apply := fun a b off blk l s => act s (a_apply a b off blk l);
  d_hhqr := fun l s => act s (a_hhqr l);
  d_chol1 := fun l s => act_v s (a_chol1 l); d_chol2 := fun l s => act_v s (a_chol2 l); d_schol2 := fun l s => act_v s (a_schol2 l);
  d_lockcopy := fun l b s => act s (a_lockcopy l b);
  d_rr := fun blk l s => act_v s (a_rr blk l);
  d_resd := fun v l u s => act_v s (a_resd v l u);
  d_swap := fun i j s => act s (a_swap i j);
  d_mlanczos := fun m nv s => act_v s (a_mlanczos m nv);
  d_dos := fun i m rv s => act s (a_dos i m rv) |}.
(** a new object on a device whose memory holds [d0], nothing running *)
Definition async_state (H : M) (V1 : list V) (d0 : dev) : ast := mk_ast (mk_hobj H V1 false) 0 (mk_cfg d0 []).
End Gpu.

(** ** One product of the multi-GPU backend (chase_mpidla.hpp:472-523 with chase_mpidla_mgpu.hpp:452-494): the local product
    on the default stream (the cuBLAS handle has no stream set), then the sum over the communicator.  Device memory is the
    destination block here; [prod] is the local product as a function of the old destination, [others] what the other
    processes contribute. *)
Section Mgpu.
Context {B : Type} (prod : B -> B) (sum : B -> B).
(** without CUDA_AWARE: device to host, MPI on host memory, (later) host to device *)
Definition hemm_staged : prog B B :=
  Dev Legacy (fun d => Ok (prod d)) (Get Legacy (fun d => Ok d) (fun x => Dev Legacy (fun _ => Ok (sum x)) (Ret (sum x)))).
(** CUDA_AWARE with NCCL (mpi_wrapper.hpp:89-94): the reduction is enqueued on the default stream *)
Definition hemm_nccl : prog B unit := Dev Legacy (fun d => Ok (prod d)) (Dev Legacy (fun d => Ok (sum d)) (Ret tt)).
(** CUDA_AWARE without NCCL (mpi_wrapper.hpp:97-99): MPI_Allreduce gets the device pointer; no synchronisation before it
    (mgpu.hpp:455 is commented out) *)
Definition hemm_mpi : prog B unit := Dev Legacy (fun d => Ok (prod d)) (Direct (fun d => Ok (sum d)) (Ret tt)).
(** the same with cudaDeviceSynchronize before the reduction *)
Definition hemm_mpi_sync : prog B unit :=
  Dev Legacy (fun d => Ok (prod d)) (Get Legacy (fun _ => Ok tt) (fun _ => Direct (fun d => Ok (sum d)) (Ret tt))).
End Mgpu.
