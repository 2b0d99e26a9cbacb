(** Model of CUDA kernel launches and of the kernels in ChASE-MPI/kernels/shift.cu (cited as shift.cu).
    A launch is a set of blocks of threads that run in any interleaving; __syncthreads separates phases: a block enters its
    next phase when all its threads have finished the current one.  Every load, store and atomicAdd is one step.  The four
    element types of the source share one body and are represented by one type of values. *)
From Coq Require Import List Arith ZArith Bool.
Import ListNotations.

(** elements of arrays in global memory, and of the shared array of a block *)
Inductive addr := Glob (arr : nat) (i : Z) | Shm (blk : nat) (i : Z).
Definition addr_eq_dec (a b : addr) : {a = b} + {a <> b}.
Proof. decide equality; first [apply Z.eq_dec | apply Nat.eq_dec]. Defined.

Section Machine.
Context {V R : Type} (add : V -> V -> V).

(** None: outside every allocation *)
Definition mem := addr -> option V.
Definition upd_mem (m : mem) (x : addr) (v : V) : mem := fun y => if addr_eq_dec y x then Some v else m y.

(** R is the type of a thread's registers; [Bad] is an undefined operation (signed overflow) *)
Inductive action :=
| Ld (x : addr) (f : V -> R -> R)
| St (x : addr) (g : R -> V)
| At (x : addr) (g : R -> V)       (* atomicAdd *)
| Bad.
Definition act (a : action) (r : R) (m : mem) : option (R * mem) :=
  match a with
  | Ld x f => match m x with Some v => Some (f v r, m) | None => None end
  | St x g => match m x with Some _ => Some (r, upd_mem m x (g r)) | None => None end
  | At x g => match m x with Some v => Some (r, upd_mem m x (add v (g r))) | None => None end
  | Bad => None
  end.

(** what a thread still has to do: the rest of its current phase, and the phases after it *)
Record thread := mk_th { t_cur : list action; t_later : list (list action); t_reg : R }.
Record cfg := mk_cfg { c_mem : mem; c_th : nat -> nat -> thread }.
Definition set_th (f : nat -> nat -> thread) (b t : nat) (x : thread) : nat -> nat -> thread :=
  fun b' t' => if (b' =? b) && (t' =? t) then x else f b' t'.
(** enter the next phase; the kernels below carry no loaded value across a barrier, so the registers start from r0 *)
Context (r0 : R).
Definition pop (x : thread) : thread := match t_later x with [] => x | p :: l => mk_th p l r0 end.

Context (nb nt : nat) (* blocks, threads per block *).
Inductive step : cfg -> cfg -> Prop :=
| step_run : forall c b t a l r m, b < nb -> t < nt -> t_cur (c_th c b t) = a :: l ->
    act a (t_reg (c_th c b t)) (c_mem c) = Some (r, m) ->
    step c (mk_cfg m (set_th (c_th c) b t (mk_th l (t_later (c_th c b t)) r)))
| step_sync : forall c b, b < nb -> (forall t, t < nt -> t_cur (c_th c b t) = [] /\ t_later (c_th c b t) <> []) ->
    step c (mk_cfg (c_mem c) (fun b' t => if b' =? b then pop (c_th c b' t) else c_th c b' t)).
Inductive steps : cfg -> cfg -> Prop :=
| steps_0 : forall c, steps c c
| steps_S : forall c d e, step c d -> steps d e -> steps c e.

Definition final (c : cfg) : Prop := forall b t, b < nb -> t < nt -> t_cur (c_th c b t) = [] /\ t_later (c_th c b t) = [].
(** the next operation of some thread is undefined *)
Definition faulty (c : cfg) : Prop := exists b t a l, b < nb /\ t < nt /\ t_cur (c_th c b t) = a :: l /\
  act a (t_reg (c_th c b t)) (c_mem c) = None.
End Machine.
Arguments mem V : clear implicits. Arguments action V R : clear implicits. Arguments cfg V R : clear implicits. Arguments thread V R : clear implicits.
Arguments Bad {V R}.

(** a kernel: the phases of thread t of block b.  All threads have at least one phase. *)
Record kernel V := mk_kernel { kn_blocks : nat; kn_threads : nat; kn_prog : nat -> nat -> list (list (action V (list V))) }.
Arguments mk_kernel {V}. Arguments kn_blocks {V}. Arguments kn_threads {V}. Arguments kn_prog {V}.
(** registers hold the values loaded so far, the latest first *)
Definition launch {V} (k : kernel V) (m : mem V) : cfg V (list V) :=
  mk_cfg m (fun b t => pop [] (mk_th [] (kn_prog k b t) [])).
Definition push {V} (v : V) (r : list V) : list V := v :: r.

(** ** Index arithmetic: int is 32 bits; unsigned int wraps *)
Definition int_max : Z := 2147483647%Z.
Definition in_int (z : Z) : bool := ((-2147483648 <=? z) && (z <=? int_max))%Z.
Definition u32 (z : Z) : Z := (z mod 4294967296)%Z.
Definition Zn := Z.of_nat.

Section Kernels.
Context {V : Type} (zero : V).
Local Notation act := (action V (list V)).
Definition top (d : V) (r : list V) : V := nth 0 r d.
Definition second (d : V) (r : list V) : V := nth 1 r d.

(** sshift_matrix etc. (shift.cu:702-728), launched by chase_shift_matrix (1145-1171): A is array 0 *)
Definition shift_thread (plus : V -> V) (n : nat) (b t : nat) : list act :=
  let idx := (Zn b * 256 + Zn t)%Z in
  if (idx <? Zn n)%Z then
    let ix := (idx * Zn n + idx)%Z in
    if in_int (idx * Zn n)%Z && in_int ix then [Ld (Glob 0 ix) push; St (Glob 0 ix) (fun r => plus (top zero r))] else [Bad]
  else [].
Definition shift_kernel (plus : V -> V) (n : nat) : kernel V :=
  mk_kernel ((n + 255) / 256) 256 (fun b t => [shift_thread plus n b t]).

(** sshift_mgpu_matrix etc. (730-780), launched by chase_shift_mgpu_matrix (1173-1234).  The offset tables are constants. *)
Definition shift_mgpu_thread (plus : V -> V) (off_m off_n : list nat) (ldH : nat) (b t : nat) : list act :=
  match nth_error off_m (b * 256 + t), nth_error off_n (b * 256 + t) with
  | Some i, Some j => let ix := (Zn j * Zn ldH + Zn i)%Z in [Ld (Glob 0 ix) push; St (Glob 0 ix) (fun r => plus (top zero r))]
  | _, _ => []
  end.
Definition shift_mgpu_kernel (plus : V -> V) (off_m off_n : list nat) (ldH : nat) : kernel V :=
  mk_kernel (Nat.max 1 ((length off_m + 255) / 256)) 256 (fun b t => [shift_mgpu_thread plus off_m off_n ldH b t]).

(** s_normal_kernel etc. (632-700), launched with GRIDDIM = 32 blocks of BLOCKDIM = 256 (1119-1143): [draw s k] is draw k of
    stream s.  The loop [for (i = tid; i < n; i += 8192)] increments an int. *)
Definition normal_thread (draw : nat -> nat -> V) (n : nat) (b t : nat) : list act :=
  let tid := b * 256 + t in
  let count := Z.to_nat ((Zn n - Zn tid + 8191) / 8192) in
  flat_map (fun k => let i := (Zn tid + Zn k * 8192)%Z in
                     St (Glob 0 i) (fun _ => draw tid k) :: (if in_int (i + 8192)%Z then [] else [Bad])) (seq 0 count).
Definition normal_kernel (draw : nat -> nat -> V) (n : nat) : kernel V :=
  mk_kernel 32 256 (fun b t => [normal_thread draw n b t]).

(** slacpy_full_device etc. (223-356).  bx, by: block coordinates; a0, b0: offsets of dA and dB in arrays 0 and 1 *)
Definition lacpy_thread (keep : Z -> Z -> bool) (m n : nat) (a0 lda b0 ldb : Z) (bx by_ t : nat) : list act :=
  let ind := (Zn bx * 64 + Zn t)%Z in
  let iby := (Zn by_ * 64)%Z in
  if (ind <? Zn m)%Z then
    if in_int (ind + iby * lda)%Z && in_int (ind + iby * ldb)%Z && in_int (iby * lda)%Z && in_int (iby * ldb)%Z then
      flat_map (fun j => let jz := Zn j in
        if (iby + jz <? Zn n)%Z then
          if in_int (jz * ldb)%Z && in_int (jz * lda)%Z then
            let ib := (b0 + (ind + iby * ldb) + jz * ldb)%Z in
            if keep (ind - iby)%Z jz
            then [Ld (Glob 0 (a0 + (ind + iby * lda) + jz * lda)%Z) push; St (Glob 1 ib) (fun r => top zero r)]
            else [St (Glob 1 ib) (fun _ => zero)]
          else [Bad]
        else []) (seq 0 64)
    else [Bad]
  else [].
Definition lacpy_kernel (keep : Z -> Z -> bool) (m n : nat) (a0 lda b0 ldb : Z) (gx gy : nat) : kernel V :=
  mk_kernel (gx * gy) 64 (fun b t => [lacpy_thread keep m n a0 lda b0 ldb (b mod gx) (b / gx) t]).
Definition keep_full (_ _ : Z) : bool := true.
(** *lacpy_upper_device (358-492): j < copyLimit = min(ind - iby + 1, 64) *)
Definition keep_upper (d j : Z) : bool := (j <? Z.min (d + 1) 64)%Z.
(** *lacpy_lower_device (495-629): j >= copyStart = max(ind - iby, 0) *)
Definition keep_lower (d j : Z) : bool := (Z.max d 0 <=? j)%Z.

(** t_lacpy_gpu (850-1117): launches per super block of 65535*64 rows or columns.  A launch with an empty grid is rejected by
    the runtime and does nothing.  i*super_NB is unsigned, and so is (j*super_NB)*ldda. *)
Definition super_NB : nat := Z.to_nat 4194240.   (* 65535 * 64 *)
Inductive uplo := Upper | Lower | All.
Definition lacpy_launch (u : uplo) (m n : nat) (lda ldb : nat) (i j : nat) : kernel V :=
  let sx := (m + super_NB - 1) / super_NB in
  let sy := (n + super_NB - 1) / super_NB in
  let mm := if i =? sx - 1 then m mod super_NB else super_NB in
  let nn := if j =? sy - 1 then n mod super_NB else super_NB in
  let keep := match u with All => keep_full | Upper => if i =? j then keep_upper else keep_full
              | Lower => if i =? j then keep_lower else keep_full end in
  let si := u32 (Zn i * Zn super_NB)%Z in let sj := u32 (Zn j * Zn super_NB)%Z in
  lacpy_kernel keep mm nn (si + u32 (sj * Zn lda))%Z (Zn lda) (si + u32 (sj * Zn ldb))%Z (Zn ldb) ((mm + 63) / 64) ((nn + 63) / 64).
Definition lacpy_launches (u : uplo) (m n : nat) (lda ldb : nat) : list (kernel V) :=
  let sx := (m + super_NB - 1) / super_NB in
  let sy := (n + super_NB - 1) / super_NB in
  flat_map (fun i => map (fun j => lacpy_launch u m n lda ldb i j) (seq 0 sy)) (seq 0 sx).

(** cuda_sum_reduce<256> (25-40): eight halving steps, each between barriers *)
Definition reduce_step (add : V -> V -> V) (b t s : nat) : list act :=
  if (t <? s) && (t + s <? 256)
  then [Ld (Shm b (Zn t)) push; Ld (Shm b (Zn (t + s))) push; St (Shm b (Zn t)) (fun r => add (second zero r) (top zero r))]
  else [].
Definition reduce_phases (add : V -> V -> V) (b t : nat) : list (list act) := map (reduce_step add b t) [128; 64; 32; 16; 8; 4; 2; 1].

(** *_resids_kernel (98-221), launched by residual_gpu with one block per column (818-848).  Arrays: 0 A, 1 B, 2 ritzv, 3 resids.
    [term v a x] is |a - v*x|^2; blockIdx.x*lda is unsigned and lda is used for B as well. *)
Definition resid_thread (add : V -> V -> V) (term : V -> V -> V -> V) (fin : V -> V) (m lda b t : nat) : list (list act) :=
  let off := u32 (Zn b * Zn lda)%Z in
  let count := (m - t + 255) / 256 in
  let s := Shm b (Zn t) in
  (St s (fun _ => zero) ::
   flat_map (fun k => let i := (Zn t + Zn k * 256)%Z in
     [Ld (Glob 2 (Zn b)) push; Ld (Glob 1 (off + i)%Z) push; Ld (Glob 0 (off + i)%Z) push; Ld s push;
      St s (fun r => add (nth 0 r zero) (term (nth 3 r zero) (nth 1 r zero) (nth 2 r zero)))]) (seq 0 count))
  :: reduce_phases add b t
  ++ [if t =? 0 then [Ld (Shm b 0%Z) push; St (Glob 3 (Zn b)) (fun r => fin (top zero r))] else []].
Definition resid_kernel (add : V -> V -> V) (term : V -> V -> V -> V) (fin : V -> V) (m n lda : nat) : kernel V :=
  mk_kernel n 256 (resid_thread add term fin m lda).

(** *_absTraceKernel (58-96), launched by absTrace_gpu (782-816).  Arrays: 0 matrix, 1 the result *)
Definition trace_thread (add : V -> V -> V) (abs : V -> V) (n ld b t : nat) : list (list act) :=
  let idx := (Zn b * 256 + Zn t)%Z in
  (if (idx <? Zn n)%Z
   then if in_int (idx * Zn ld)%Z && in_int (idx * Zn ld + idx)%Z
        then [Ld (Glob 0 (idx * Zn ld + idx)%Z) push; St (Shm b (Zn t)) (fun r => abs (top zero r))] else [Bad]
   else [St (Shm b (Zn t)) (fun _ => zero)])
  :: reduce_phases add b t
  ++ [if t =? 0 then [Ld (Shm b 0%Z) push; At (Glob 1 0%Z) (fun r => top zero r)] else []].
Definition trace_kernel (add : V -> V -> V) (abs : V -> V) (n ld : nat) : kernel V :=
  mk_kernel ((n + 255) / 256) 256 (trace_thread add abs n ld).
End Kernels.
