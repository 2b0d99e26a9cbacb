(** Who allocates and frees the buffers of a solver: CpuMem/GpuMem/Matrix/ChaseMpiMatrices (chase_mpi_matrices.hpp) and the
    constructors, destructors and allocating calls of the backends.  Lengths are numbers of elements; contents are left out. *)
From Coq Require Import List Arith Bool.
Require Import Verif.Base.
Import ListNotations.

(** which function a buffer came from and has to go back to: std::allocator / new[] / make_unique, cudaMallocHost, cudaMalloc *)
Inductive mkind := Host | Pinned | Dev.
Definition mkind_eqb (a b : mkind) : bool := match a, b with Host, Host | Pinned, Pinned | Dev, Dev => true | _, _ => false end.
Record block := mk_blk { bk_kind : mkind; bk_len : nat; bk_live : bool }.
(** a CpuMem (:25-75) or GpuMem (:77-117) behind a shared_ptr: its buffer, allocated_, the function its destructor calls, use count *)
Record mem := mk_mem { mm_blk : nat; mm_alloc : bool; mm_kind : mkind; mm_rc : nat }.
Record heap := mk_hp { hp_blk : list block; hp_mem : list mem }.

Definition hp_alloc (k : mkind) (len : nat) (h : heap) : nat * heap :=
  (length (hp_blk h), mk_hp (hp_blk h ++ [mk_blk k len true]) (hp_mem h)).
(** undefined for memory that is not allocated (any more) or came from another function *)
Definition hp_free (k : mkind) (b : nat) (h : heap) : res heap :=
  let! x := rd (hp_blk h) b in
  if bk_live x && mkind_eqb k (bk_kind x) then let! l := wr (hp_blk h) b (mk_blk (bk_kind x) (bk_len x) false) in Ok (mk_hp l (hp_mem h)) else UB.
Definition hp_use (b : nat) (h : heap) : res heap := let! x := rd (hp_blk h) b in if bk_live x then Ok h else UB.

(** make_shared<CpuMem>(size, useGPU) :29-43, make_shared<GpuMem>(size) :84-88 *)
Definition mem_new (k : mkind) (len : nat) (h : heap) : nat * heap :=
  let (b, h1) := hp_alloc k len h in (length (hp_mem h1), mk_hp (hp_blk h1) (hp_mem h1 ++ [mk_mem b true k 1])).
(** make_shared<CpuMem>(ptr, size) :45-48 *)
Definition mem_wrap (b : nat) (h : heap) : nat * heap := (length (hp_mem h), mk_hp (hp_blk h) (hp_mem h ++ [mk_mem b false Host 1])).
(** copy of the shared_ptr *)
Definition mem_copy (c : nat) (h : heap) : res heap :=
  let! x := rd (hp_mem h) c in
  if mm_rc x =? 0 then UB else let! l := wr (hp_mem h) c (mk_mem (mm_blk x) (mm_alloc x) (mm_kind x) (S (mm_rc x))) in Ok (mk_hp (hp_blk h) l).
(** end of a shared_ptr; the last one runs ~CpuMem :50-65 / ~GpuMem :95-101 *)
Definition mem_drop (c : nat) (h : heap) : res heap :=
  let! x := rd (hp_mem h) c in
  match mm_rc x with
  | 0 => UB
  | S r => let! l := wr (hp_mem h) c (mk_mem (mm_blk x) (mm_alloc x) (mm_kind x) r) in
           let h1 := mk_hp (hp_blk h) l in if (r =? 0) && mm_alloc x then hp_free (mm_kind x) (mm_blk x) h1 else Ok h1
  end.
(** ptr() of the CpuMem/GpuMem and an access through it *)
Definition mem_use (c : nat) (h : heap) : res heap :=
  let! x := rd (hp_mem h) c in if mm_rc x =? 0 then UB else hp_use (mm_blk x) h.

(** Matrix (:119-287): Host_, Device_ *)
Record matrix := mk_mx { mx_h : option nat; mx_d : option nat }.
Definition handles (m : matrix) : list nat := match mx_h m with Some c => [c] | None => [] end ++ match mx_d m with Some c => [c] | None => [] end.
(** the two constructors :127-152 (allocating) and :154-183 (around a user pointer, the device copy is allocated); mode 0: CPU,
    1: CPU and GPU, 2: GPU only / GPU next to the user's buffer.  Modes 1 and 2 occur in CUDA builds only. *)
Inductive mspec := New (mode len : nat) | Wrap (mode len ptr : nat).
Definition mat_make (s : mspec) (h : heap) : matrix * heap :=
  match s with
  | New 0 l => let (c, h) := mem_new Host l h in (mk_mx (Some c) None, h)
  | New 1 l => let (c, h) := mem_new Pinned l h in let (d, h) := mem_new Dev l h in (mk_mx (Some c) (Some d), h)
  | New _ l => let (d, h) := mem_new Dev l h in (mk_mx None (Some d), h)
  | Wrap 0 l p => let (c, h) := mem_wrap p h in (mk_mx (Some c) None, h)
  | Wrap _ l p => let (c, h) := mem_wrap p h in let (d, h) := mem_new Dev l h in (mk_mx (Some c) (Some d), h)
  end.
Fixpoint each (f : nat -> heap -> res heap) (l : list nat) (h : heap) : res heap :=
  match l with [] => Ok h | c :: l => let! h := f c h in each f l h end.
Definition mat_copy (m : matrix) (h : heap) : res heap := each mem_copy (handles m) h.
Definition mat_drop (m : matrix) (h : heap) : res heap := each mem_drop (rev (handles m)) h.  (* members die in reverse order *)
Definition mat_use (m : matrix) (h : heap) : res heap := each mem_use (handles m) h.
Fixpoint mats_make (l : list mspec) (h : heap) : list matrix * heap :=
  match l with [] => ([], h) | s :: l => let (m, h) := mat_make s h in let (r, h) := mats_make l h in (m :: r, h) end.
Fixpoint mats (f : matrix -> heap -> res heap) (l : list matrix) (h : heap) : res heap :=
  match l with [] => Ok h | m :: l => let! h := f m h in mats f l h end.
(** [matrices_.X().ptr()]: X() returns the Matrix by value, the copy dies at the end of the statement *)
Definition mat_read (m : matrix) (h : heap) : res heap := let! h := mat_copy m h in let! h := mat_use m h in mat_drop m h.

(** backends: the three of the non-MPI constructor of ChaseMpi, and ChaseMpiDLA over ChaseMpiDLABlaslapack or
    ChaseMpiDLAMultiGPU (built with CUDA-aware MPI or not) *)
Inductive backend := KSeq | KInpl | KCuda | KMpi | KMgpu (caw : bool).
Definition is_mpi (k : backend) : bool := match k with KMpi | KMgpu _ => true | _ => false end.
(** sizes; [g_same]: row and column distribution coincide (isSameDist_), [g_buf]: longest run of the redistribution,
    [g_work]: cuSOLVER work space, [g_diag]: diagonal entries of the local block, [g_scal]: ScaLAPACK build *)
Record dims := mk_dims { g_N : nat; g_m : nat; g_n : nat; g_nev : nat; g_nex : nat; g_same : bool; g_buf : nat; g_work : nat; g_diag : nat; g_scal : bool }.

Section Life.
Variables (k : backend) (g : dims).
Local Notation N := (g_N g). Local Notation m := (g_m g). Local Notation n := (g_n g).
Local Notation nevex := (g_nev g + g_nex g).

(** buffers a destructor frees: matrices that are members (by value or unique_ptr), raw device/host pointers; [o_lz]: v_0, v_1, v_2
    and v_w, raw pointers to matrices; [o_vc]: d_ritzVc_; [o_V]: V___ *)
Record obj := mk_obj { o_mats : list matrix; o_raw : list (mkind * nat); o_lz : list matrix; o_vc : option nat; o_V : option matrix }.

(** ChaseMpiMatrices, non-MPI :352-380 (mode 0 or 1) and MPI :415-456 (mode 0, 1 or 2) *)
Definition matrices_seq (mode pH pV pR : nat) : list mspec :=
  let gpu := if mode =? 1 then 1 else 0 in let only := if mode =? 1 then 2 else 0 in
  [Wrap gpu (N * N) pH; Wrap gpu (N * nevex) pV; New only (N * nevex); New only (nevex * nevex); Wrap gpu (1 * nevex) pR; New gpu (1 * nevex)].
Definition matrices_mpi (mode pH pV pR : nat) : list mspec :=
  let gpu := if mode =? 0 then 0 else 1 in
  [Wrap gpu (m * n) pH; Wrap mode (m * nevex) pV; New mode (m * nevex); New mode (n * nevex); New mode (n * nevex); New mode (nevex * nevex);
   Wrap gpu (1 * nevex) pR; New gpu (1 * nevex); New gpu (m * 1)].
(** buff__ of ChaseMpiDLA (chase_mpidla.hpp:346-354) *)
Definition redist_buf : list mspec := if g_same g then [] else [New (match k with KMgpu true => 2 | _ => 0 end) (g_buf g * nevex)].

Fixpoint raws (l : list (mkind * nat)) (h : heap) : list (mkind * nat) * heap :=
  match l with [] => ([], h) | (kd, len) :: l => let (b, h) := hp_alloc kd len h in let (r, h) := raws l h in ((kd, b) :: r, h) end.

(** constructors: Seq (blaslapack_seq.hpp:34-48; its nev_/nex_ are exchanged, so C2vec and B2vec have 2*nev columns, C27),
    SeqInplace (seq_inplace.hpp:36-49), CudaSeq (cuda_seq.hpp:164-243), Blaslapack + ChaseMpiDLA (blaslapack.hpp:31-70,
    chase_mpidla.hpp:43-361), MultiGPU + ChaseMpiDLA (mgpu.hpp:259-380).  The curand states are counted as 256*32 elements. *)
Definition construct (pH pV pR : nat) (h : heap) : res (obj * heap) :=
  match k with
  | KSeq => let (ms, h) := mats_make (matrices_seq 0 pH pV pR) h in let (xs, h) := mats_make [New 0 (N * (g_nev g + g_nev g)); New 0 (N * (g_nev g + g_nev g))] h in
            let! h := mats mat_read ms h in Ok (mk_obj (xs ++ ms) [] [] None None, h)
  | KInpl => let (ms, h) := mats_make (matrices_seq 0 pH pV pR) h in let! h := mats mat_read ms h in Ok (mk_obj ms [] [] None None, h)
  | KCuda => let (ms, h) := mats_make (matrices_seq 1 pH pV pR) h in let! h := mats mat_read ms h in
             let (rs, h) := raws [(Dev, N); (Dev, N); (Pinned, N); (Pinned, N); (Pinned, N); (Dev, 256 * 32); (Dev, 1); (Dev, nevex); (Dev, g_work g); (Dev, N); (Dev, N); (Dev, N)] h in
             Ok (mk_obj ms rs [] None None, h)
  | KMpi => let (ms, h) := mats_make (matrices_mpi 0 pH pV pR) h in let! h := mats mat_read ms h in
            let (bs, h) := mats_make redist_buf h in Ok (mk_obj (bs ++ ms) [] [] None None, h)
  | KMgpu caw =>
      let (ms, h) := mats_make (matrices_mpi (if caw then 2 else 1) pH pV pR) h in
      let! h := mats mat_copy ms h in                       (* H__ = matrices_.H(); ... : second owners *)
      let (r1, h) := raws [(Dev, 256 * 32)] h in
      let (_, h) := hp_alloc Dev m h in                     (* d_v_ :314 *)
      let (_, h) := hp_alloc Dev n h in                     (* d_w_ :315 *)
      let (r2, h) := raws [(Dev, 1); (Dev, g_work g); (Dev, g_diag g); (Dev, g_diag g); (Dev, 1)] h in
      let (bs, h) := mats_make redist_buf h in Ok (mk_obj (bs ++ ms ++ ms) (r1 ++ r2) [] None None, h)
  end.

(** calls that allocate or free *)
Inductive mcall :=
| MLanczos (numvec steps : nat)       (* mLanczos(M, numvec, ...); numvec = -1 means 1 *)
| MSwap | MDos (idx steps : nat)      (* Swap, LanczosDos(idx, m, ...) *)
| MDiagSum | MHhqr.                   (* computeDiagonalAbsSum (from shiftedcholQR2), hhQR *)

(** v_1->swap( *v_0 ); v_1->swap( *v_2 ) *)
Definition rotate (l : list matrix) : list matrix := match l with v0 :: v1 :: v2 :: r => v1 :: v2 :: v0 :: r | _ => l end.
Fixpoint iter {A} (f : A -> A) (i : nat) (a : A) : A := match i with 0 => a | S i => iter f i (f a) end.

(** mLanczos: seq.hpp:460-555, seq_inplace.hpp:435-531, cuda_seq.hpp:802-903 (mode 2), chase_mpidla.hpp:1376-1505 (mode 0 or 1) *)
Definition lanczos_mats (nv : nat) : list mspec :=
  match k with
  | KSeq | KInpl => [New 0 (N * nv); New 0 (N * nv); New 0 (N * nv)]
  | KCuda => [New 2 (N * nv); New 2 (N * nv); New 2 (N * nv)]
  | KMpi => [New 0 (m * nv); New 0 (m * nv); New 0 (m * nv); New 0 (n * nv)]
  | KMgpu _ => [New 1 (m * nv); New 1 (m * nv); New 1 (m * nv); New 1 (n * nv)]
  end.
Definition mcall_run (c : mcall) (o : obj) (h : heap) : res (obj * heap) :=
  match c with
  | MLanczos nv M =>
      let (vs, h) := mats_make (lanczos_mats nv) h in
      let! h := mats mat_use vs h in                        (* every pass of the loop uses the same buffers under other names *)
      let vs := iter rotate (M - 1) vs in
      let! h := mats mat_use vs h in
      Ok (mk_obj (o_mats o) (o_raw o) vs (o_vc o) (o_V o), h)
  | MSwap =>
      match k with
      | KSeq => let (b, h) := hp_alloc Host N h in let! h := hp_free Host b h in Ok (o, h)   (* seq.hpp:435-448: new T[N_], delete[] *)
      | KInpl => let (b, h) := hp_alloc Host N h in Ok (o, h)                               (* seq_inplace.hpp:416-423: new T[N_] only *)
      | _ => Ok (o, h)
      end
  | MDos idx M =>
      match k with
      | KMgpu true =>                                                                       (* mgpu.hpp:798-812, CUDA_AWARE *)
          let (b, h) := match o_vc o with Some b => (b, h) | None => hp_alloc Dev (M * idx) h end in
          let! x := rd (hp_blk h) b in
          if bk_live x && (M * idx <=? bk_len x) then Ok (mk_obj (o_mats o) (o_raw o) (o_lz o) (Some b) (o_V o), h) else UB
      | _ => Ok (o, h)
      end
  | MDiagSum =>
      match k with KCuda => let (b, h) := hp_alloc Dev 1 h in Ok (o, h) | _ => Ok (o, h) end (* cuda_seq.hpp:921-927 *)
  | MHhqr =>
      match k with
      | KCuda => Ok (o, h)                                                                  (* d_return_ serves as tau *)
      | _ =>
          let (t, h) := hp_alloc Host nevex h in
          let! (o, h) := (if is_mpi k && negb (g_scal g) then
              match o_V o with
              | Some v => let! h := mat_use v h in Ok (o, h)
              | None => let (v, h) := mat_make (New 0 (N * nevex)) h in Ok (mk_obj (o_mats o) (o_raw o) (o_lz o) (o_vc o) (Some v), h)
              end else Ok (o, h)) in
          let! h := hp_free Host t h in Ok (o, h)
      end
  end.
Fixpoint mcalls_run (l : list mcall) (o : obj) (h : heap) : res (obj * heap) :=
  match l with [] => Ok (o, h) | c :: l => let! (o, h) := mcall_run c o h in mcalls_run l o h end.

(** destructors: cuda_seq.hpp:245-272, mgpu.hpp:383-400, the others are empty; then the members *)
Definition destroy (o : obj) (h : heap) : res heap :=
  let! h := mats mat_drop (match o_V o with Some v => [v] | None => [] end) h in
  let! h := (fix go l h := match l with [] => Ok h | (kd, b) :: l => let! h := hp_free kd b h in go l h end) (o_raw o) h in
  let! h := (match o_vc o with Some b => hp_free Dev b h | None => Ok h end) in
  mats mat_drop (o_mats o) h.

(** a solver's life: construction, calls, destruction.  With MPI, ChaseMpi keeps the properties object [pP] in a unique_ptr
    (chase_mpi.hpp:188-227,678), whose destructor deletes it after the backend. *)
Definition life (pP pH pV pR : nat) (calls : list mcall) (h : heap) : res heap :=
  let! (o, h) := construct pH pV pR h in
  let! (o, h) := mcalls_run calls o h in
  let! h := destroy o h in
  if is_mpi k then hp_free Host pP h else Ok h.
End Life.
