(** Model of the distributed kernels of ChASE-MPI/impl/chase_mpidla.hpp with the local computations of
    ChASE-MPI/impl/chase_mpidla_blaslapack.hpp, as programs of process (i, j) over flat column-major arrays.
    Not modelled: GPU memory modes, NVTX ranges, output. *)
From Coq Require Import List Arith Bool ZArith.
Require Import Verif.Base Verif.DistModel Verif.FlatModel Verif.RedistModel Verif.SpmdModel.
Import ListNotations.

(** Scalar operations: the type T of the library. *)
Record sops (D : Type) := mk_sops { s0 : D; s1 : D; sadd : D -> D -> D; smul : D -> D -> D; sopp : D -> D; scj : D -> D }.
Arguments s0 {D} _. Arguments s1 {D} _. Arguments sadd {D} _ _ _. Arguments smul {D} _ _ _. Arguments sopp {D} _ _. Arguments scj {D} _ _.

Section Ker.
Context {D : Type} (o : sops D).

(** ** BLAS *)
(** sum of f t * g t for t < k *)
Definition dotp (k : nat) (f g : nat -> res D) : res D :=
  for_ k 0 (fun t acc => let! x := f t in let! y := g t in Ok (sadd o acc (smul o x y))) (s0 o).
(** gemm: C := alpha * op(A) * B + beta * C, C is m x n at position coff (leading dimension ldc), B is k x n at position
    boff, op(A) is m x k: A itself or (tr) its conjugate transpose *)
Definition gemm (tr : bool) (m n k : nat) (alpha : D) (A : list D) (aoff lda : nat) (B : list D) (boff ldb : nat)
  (beta : D) (C : list D) (coff ldc : nat) : res (list D) :=
  for_ n 0 (fun c C => for_ m 0 (fun r C =>
    let! s := dotp k (fun t => if tr then let! x := rd A (aoff + t + r * lda) in Ok (scj o x) else rd A (aoff + r + t * lda))
                     (fun t => rd B (boff + t + c * ldb)) in
    let! y := rd C (coff + r + c * ldc) in
    wr C (coff + r + c * ldc) (sadd o (smul o alpha s) (smul o beta y))) C) C.

(** ** State of one process: ChaseMpiDLA (next_ 352) and ChaseMpiDLABlaslapack (next_) each keep their own switch *)
Record loc := mk_loc { l_H : list D; l_C : list D; l_C2 : list D; l_B : list D; l_B2 : list D; l_A : list D;
  l_bAc : bool; l_bAc_dla : bool }.
(** Constants of one process: its coordinates, local sizes m_, n_, leading dimension, nev_ + nex_, isSameDist_ and the
    schedules of the two redistributions *)
Record env := mk_env { e_i : nat; e_j : nat; e_m : nat; e_n : nat; e_ldh : nat; e_nevex : nat; e_same : bool;
  e_c2b : list run; e_b2c : list run }.

(** chase_mpidla_blaslapack.hpp:105-137 apply *)
Definition apply_dla (e : env) (alpha beta : D) (offset block locked : nat) (s : loc) : res loc :=
  if l_bAc_dla s then
    let beta := if e_i e =? 0 then beta else s0 o in
    let! B := gemm true (e_n e) block (e_m e) alpha (l_H s) 0 (e_ldh e) (l_C s) (offset * e_m e + locked * e_m e) (e_m e)
                beta (l_B s) (locked * e_n e + offset * e_n e) (e_n e) in
    Ok (mk_loc (l_H s) (l_C s) (l_C2 s) B (l_B2 s) (l_A s) (l_bAc s) false)
  else
    let beta := if e_j e =? 0 then beta else s0 o in
    let! C := gemm false (e_m e) block (e_n e) alpha (l_H s) 0 (e_ldh e) (l_B s) (offset * e_n e + locked * e_n e) (e_n e)
                beta (l_C s) (offset * e_m e + locked * e_m e) (e_m e) in
    Ok (mk_loc (l_H s) C (l_C2 s) (l_B s) (l_B2 s) (l_A s) (l_bAc s) true).
(** chase_mpidla.hpp:472-523 apply *)
Definition apply (e : env) (alpha beta : D) (offset block locked : nat) (s : loc) : prog D loc :=
  if l_bAc s then
    let dim := e_n e * block in
    let? s := local (apply_dla e alpha beta offset block locked s) in
    let? B := all_reduce ColC (l_B s) (locked * e_n e + offset * e_n e) dim in
    Ret (mk_loc (l_H s) (l_C s) (l_C2 s) B (l_B2 s) (l_A s) false (l_bAc_dla s))
  else
    let dim := e_m e * block in
    let? s := local (apply_dla e alpha beta offset block locked s) in
    let? C := all_reduce RowC (l_C s) (locked * e_m e + offset * e_m e) dim in
    Ret (mk_loc (l_H s) C (l_C2 s) (l_B s) (l_B2 s) (l_A s) true (l_bAc_dla s)).
End Ker.

(** ** Redistribution, as programs.  The functions below serve both directions: c2b has the source layout over the column
    communicator and sends to process column [dest]; b2c the reverse. *)
Section Xfer.
Context {T : Type}.

(** the elements described by a derived type / packed into buff__: len rows at row sd, columns off .. off+block-1, contiguously *)
Definition pack_flat (lds len sd off block : nat) (S : list T) : res (list T) :=
  for_ block off (fun c acc => let! xs := get_range S (sd + c * lds) len in Ok (acc ++ xs)) [].
Definition unpack (ldd len dd off block : nat) (ys D : list T) : res (list T) :=
  for_ block off (fun c D => let! xs := get_range ys ((c - off) * len) len in put_range D (dd + c * ldd) xs) D.

(** chase_mpidla.hpp:1594-1629 C2B(T* ), 1507-1544 B2C(T* ).  [me]: this process's coordinate compared with dests[i];
    [rank]: its rank in communicator c, compared with srcs[i].  The non-blocking broadcasts are posted in this order
    and all waited for; then the source copies its own part. *)
Fixpoint xfer (c : comm) (me rank lds ldd off block : nat) (S D : list T) (rs : list run) : prog T (list T) :=
  match rs with
  | [] => Ret D
  | r :: rs' =>
    if me =? r_dest r then
      if rank =? r_src r then
        let? xs := local (pack_flat lds (r_len r) (r_sd r) off block S) in
        Call c (ABcast (r_src r) (block * r_len r) xs) (fun _ => xfer c me rank lds ldd off block S D rs')
      else
        Call c (ABcast (r_src r) (block * r_len r) [])
          (fun re => match re with
                     | RNums ys => let? D := local (unpack ldd (r_len r) (r_dd r) off block ys D) in xfer c me rank lds ldd off block S D rs'
                     | RFlag _ => Bad end)
    else xfer c me rank lds ldd off block S D rs'
  end.
Fixpoint copy_own (me rank lds ldd off block : nat) (S D : list T) (rs : list run) : res (list T) :=
  match rs with
  | [] => Ok D
  | r :: rs' =>
    if (me =? r_dest r) && (rank =? r_src r) then
      let! D := move lds ldd (r_len r) (r_sd r) (r_dd r) off block S D in copy_own me rank lds ldd off block S D rs'
    else copy_own me rank lds ldd off block S D rs'
  end.
Definition redist_prog (c : comm) (rs : list run) (me rank lds ldd off block : nat) (S D : list T) : prog T (list T) :=
  let? D := xfer c me rank lds ldd off block S D rs in local (copy_own me rank lds ldd off block S D rs).

(** chase_mpidla.hpp:691-705 (asynCxHGatherC), 1577-1590 (B2C(Matrix* )): every member packs from its own array *)
Fixpoint redist_pack_prog (c : comm) (rs : list run) (me rank lds ldd off block : nat) (S D : list T) : prog T (list T) :=
  match rs with
  | [] => Ret D
  | r :: rs' =>
    if me =? r_dest r then
      let? buf := local (pack_flat lds (r_len r) (r_sd r) off block S) in
      let? buf := bcast c (r_src r) rank buf 0 (r_len r * block) in
      let? D := local (unpack ldd (r_len r) (r_dd r) off block buf D) in
      redist_pack_prog c rs' me rank lds ldd off block S D
    else redist_pack_prog c rs' me rank lds ldd off block S D
  end.

(** chase_mpidla.hpp:666-688, 1549-1575: coinciding layouts; [m], [n]: local rows in the source and destination layout *)
Definition redist_same_prog (c : comm) (me rank m n off block : nat) (S D : list T) : prog T (list T) :=
  if rank =? me then
    let? _ := bcast c me rank S (off * m) (block * m) in
    local (move m n m 0 0 off block S D)
  else bcast c me rank D (off * n) (block * n).
End Xfer.

(** ** Kernels *)
Section Ker2.
Context {D : Type} (o : sops D).
(** Real scalars (Base<T>) are embedded in D. *)

(** Constants of process (i, j) of a p x q grid with a block-cyclic distribution: chase_mpi_properties.hpp constructor,
    chase_mpidla.hpp:138-236 (isSameDist_ and the two schedules) *)
Definition bc_env (N p q mb nb rsrc csrc ldh nevex i j : nat) : env :=
  let same := (q =? p) && (rsrc =? csrc) && (mb =? nb) in
  mk_env i j (fst (numroc N mb i rsrc p)) (fst (numroc N nb j csrc q)) ldh nevex same
    (if same then runs_same (bc_send_lens N mb p rsrc) else runs N mb p rsrc nb q csrc)
    (if same then runs_same (bc_send_lens N nb q csrc) else runs N nb q csrc mb p rsrc).
(** the same for the block constructors (chase_mpi_properties.hpp:622-726, 897-1015): irsrc_ = icsrc_ = 0, the block sizes mb_ and
    nb_ are those the process itself stores *)
Definition blk_env (N p q ml nl ldh nevex i j : nat) : env :=
  let mb := blk_mb N ml p i in let nb := blk_mb N nl q j in
  let same := (q =? p) && (mb =? nb) in
  mk_env i j (blk_size N ml p i) (blk_size N nl q j) ldh nevex same
    (if same then runs_same (blk_send_lens N ml p) else runs N mb p 0 nb q 0)
    (if same then runs_same (blk_send_lens N nl q) else runs N nb q 0 mb p 0).

(** chase_mpidla.hpp:657-716 asynCxHGatherC with chase_mpidla_blaslapack.hpp:165-174: C2 is redistributed into B2, and
    B := H^* C *)
Definition gather_c (e : env) (locked block : nat) (s : loc (D := D)) : prog D loc :=
  let? B2 := if e_same e then redist_same_prog ColC (e_j e) (e_i e) (e_m e) (e_n e) locked block (l_C2 s) (l_B2 s)
             else redist_pack_prog ColC (e_c2b e) (e_j e) (e_i e) (e_m e) (e_n e) locked block (l_C2 s) (l_B2 s) in
  let? B := local (gemm o true (e_n e) block (e_m e) (s1 o) (l_H s) 0 (e_ldh e) (l_C s) (locked * e_m e) (e_m e)
                     (s0 o) (l_B s) (locked * e_n e) (e_n e)) in
  let? B := all_reduce ColC B (locked * e_n e) (e_n e * block) in
  Ret (mk_loc (l_H s) (l_C s) (l_C2 s) B B2 (l_A s) (l_bAc s) (l_bAc_dla s)).

(** ** LAPACK and BLAS on small matrices: oracles on the triangle they read *)
(** entries (r, c), r, c < n, of the matrix at the start of A for which [keep] holds, in column order *)
Definition read_tri (keep : nat -> nat -> bool) (n lda : nat) (A : list D) : res (list D) :=
  for_ n 0 (fun c acc => for_ n 0 (fun r acc =>
    if keep r c then let! x := rd A (r + c * lda) in Ok (acc ++ [x]) else Ok acc) acc) [].
Definition write_tri (keep : nat -> nat -> bool) (n lda : nat) (Z : nat -> nat -> D) (A : list D) : res (list D) :=
  for_ n 0 (fun c A => for_ n 0 (fun r A => if keep r c then wr A (r + c * lda) (Z r c) else Ok A) A) A.
Definition lower (r c : nat) : bool := c <=? r.
Definition upper (r c : nat) : bool := r <=? c.
Definition every (r c : nat) : bool := true.

(** heevd('V', 'L'): reads the lower triangle; the eigenvectors overwrite the matrix *)
Definition eigs := nat -> list D -> (nat -> nat -> D) * (nat -> D).
Definition heevd (ev : eigs) (n lda : nat) (A : list D) : res (list D * list D) :=
  let! M := read_tri lower n lda A in
  let! A := write_tri every n lda (fst (ev n M)) A in
  Ok (A, map (snd (ev n M)) (seq 0 n)).

(** chase_mpidla.hpp:952-982 RR with chase_mpidla_blaslapack.hpp:236-245 RR and 288-300 heevd (the local product C2 * A is
    part of the latter, with its own [locked] = nev_ + nex_ - block); returns the Ritz values *)
Definition rr (ev : eigs) (e : env) (block locked : nat) (s : loc (D := D)) : prog D (loc * list D) :=
  let? s := gather_c e locked block s in
  let? A := local (gemm o true block block (e_n e) (s1 o) (l_B2 s) (locked * e_n e) (e_n e) (l_B s) (locked * e_n e) (e_n e)
                     (s0 o) (l_A s) 0 (e_nevex e)) in
  let? A := all_reduce RowC A 0 (e_nevex e * block) in
  let? Aw := local (heevd ev block (e_nevex e) A) in
  if e_nevex e <? block then Bad else
  let l2 := e_nevex e - block in
  let? C := local (gemm o false (e_m e) block block (s1 o) (l_C2 s) (l2 * e_m e) (e_m e) (fst Aw) 0 (e_nevex e)
                     (s0 o) (l_C s) (l2 * e_m e) (e_m e)) in
  let? xs := local (get_range C (locked * e_m e) (e_m e * block)) in
  let? C2 := local (put_range (l_C2 s) (locked * e_m e) xs) in
  Ret (mk_loc (l_H s) C C2 (l_B s) (l_B2 s) (fst Aw) (l_bAc s) (l_bAc_dla s), snd Aw).

(** chase_mpidla_blaslapack.hpp:273-284: one column of Resd: axpy and squared norm *)
Definition resd_col (n off : nat) (l : D) (B2 B : list D) : res (list D * D) :=
  let! B := for_ n 0 (fun r B =>
      let! x := rd B2 (off + r) in let! y := rd B (off + r) in wr B (off + r) (sadd o y (smul o (sopp o l) x))) B in
  let! s2 := dotp o n (fun r => let! y := rd B (off + r) in Ok (scj o y)) (fun r => rd B (off + r)) in
  Ok (B, s2).
(** chase_mpidla.hpp:984-1020 Resd: the squared norms of the local parts are summed over the row communicator.  [ritzv] and
    the returned residuals start at column [locked] *)
Definition resd (sqrt : D -> D) (e : env) (ritzv : list D) (locked unconverged : nat) (s : loc (D := D)) : prog D (loc * list D) :=
  let? s := gather_c e locked unconverged s in
  let? br := local (for_ unconverged 0 (fun i (br : list D * list D) =>
      let! l := rd ritzv i in
      let! b := resd_col (e_n e) (locked * e_n e + i * e_n e) l (l_B2 s) (fst br) in
      Ok (fst b, snd br ++ [snd b])) (l_B s, [])) in
  let? rs := all_reduce RowC (snd br) 0 unconverged in
  Ret (mk_loc (l_H s) (l_C s) (l_C2 s) (fst br) (l_B2 s) (l_A s) (l_bAc s) (l_bAc_dla s), map sqrt rs).

(** syherk('U', 'C'): upper triangle of A := C^* C (n columns of k rows) *)
Definition syherk (n k : nat) (C : list D) (ldc : nat) (A : list D) (lda : nat) : res (list D) :=
  for_ n 0 (fun c A => for_ n 0 (fun r A =>
    if upper r c then
      let! x := dotp o k (fun t => let! x := rd C (t + r * ldc) in Ok (scj o x)) (fun t => rd C (t + c * ldc)) in
      wr A (r + c * lda) x
    else Ok A) A) A.
(** potrf('U'): reads and overwrites the upper triangle, returns info *)
Definition chol := nat -> list D -> Z * (nat -> nat -> D).
Definition potrf (po : chol) (n lda : nat) (A : list D) : res (Z * list D) :=
  let! M := read_tri upper n lda A in
  let! A := write_tri upper n lda (snd (po n M)) A in
  Ok (fst (po n M), A).
(** trsm('R', 'U', 'N', 'N'): every row x of the m x n matrix C becomes the solution y of y * U = x *)
Definition solver := nat -> list D -> list D -> nat -> D.
Definition trsm (tri : solver) (m n : nat) (A : list D) (lda : nat) (C : list D) (ldc : nat) : res (list D) :=
  let! U := read_tri upper n lda A in
  for_ m 0 (fun r C =>
    let! x := for_ n 0 (fun c acc => let! y := rd C (r + c * ldc) in Ok (acc ++ [y])) [] in
    for_ n 0 (fun c C => wr C (r + c * ldc) (tri n U x c)) C) C.

(** One round of Cholesky QR: syherk, AllReduce, an optional shift of the diagonal (chase_mpidla.hpp:1234-1270: the shift
    is computed from the diagonal of A), potrf *)
Definition chol_step (po : chol) (shift : option (list D -> D)) (e : env) (s : loc (D := D)) : prog D (Z * loc) :=
  let n := e_nevex e in
  let? A := local (syherk n (e_m e) (l_C s) (e_m e) (l_A s) n) in
  let? A := all_reduce ColC A 0 (n * n) in
  let? iA := local (
    let! A := match shift with
              | None => Ok A
              | Some f =>
                let! d := for_ n 0 (fun i acc => let! x := rd A (i + i * n) in Ok (acc ++ [x])) [] in
                for_ n 0 (fun i A => let! x := rd A (i + i * n) in wr A (i + i * n) (sadd o x (f d))) A
              end in
    potrf po n n A) in
  Ret (fst iA, mk_loc (l_H s) (l_C s) (l_C2 s) (l_B s) (l_B2 s) (snd iA) (l_bAc s) (l_bAc_dla s)).
Definition trsm_step (tri : solver) (e : env) (s : loc (D := D)) : prog D loc :=
  let? C := local (trsm tri (e_m e) (e_nevex e) (l_A s) (e_nevex e) (l_C s) (e_m e)) in
  Ret (mk_loc (l_H s) C (l_C2 s) (l_B s) (l_B2 s) (l_A s) (l_bAc s) (l_bAc_dla s)).

(** chase_mpidla.hpp:1145-1183 cholQR1 *)
Definition cholQR1 (po : chol) (tri : solver) (e : env) (s : loc (D := D)) : prog D (Z * loc) :=
  let? is := chol_step po None e s in
  if (fst is =? 0)%Z then let? s := trsm_step tri e (snd is) in Ret (fst is, s) else Ret is.
(** chase_mpidla.hpp:1185-1232 cholQR2: the second info is returned but not looked at *)
Definition cholQR2 (po : chol) (tri : solver) (e : env) (s : loc (D := D)) : prog D (Z * loc) :=
  let? is := chol_step po None e s in
  if (fst is =? 0)%Z then
    let? s := trsm_step tri e (snd is) in
    let? is := chol_step po None e s in
    let? s := trsm_step tri e (snd is) in Ret (fst is, s)
  else Ret is.
(** chase_mpidla.hpp:1234-1306 shiftedcholQR2: the third info is not even stored *)
Definition shiftedcholQR2 (po : chol) (tri : solver) (shift : list D -> D) (e : env) (s : loc (D := D)) : prog D (Z * loc) :=
  let? is := chol_step po (Some shift) e s in
  if (fst is =? 0)%Z then
    let? s := trsm_step tri e (snd is) in
    let? is := chol_step po None e s in
    if (fst is =? 0)%Z then
      let? s := trsm_step tri e (snd is) in
      let? is3 := chol_step po None e s in
      let? s := trsm_step tri e (snd is3) in Ret (fst is, s)
    else Ret is
  else Ret is.

(** chase_mpidla.hpp:757-820 checkSymmetryEasy.  [v]: the random local part; [far x y]: |x - y| > 1e-10 *)
Definition check_sym (far : D -> D -> bool) (e : env) (v : list D) (s : loc (D := D)) : prog D bool :=
  let? v2 := redist_prog ColC (e_c2b e) (e_j e) (e_i e) (e_m e) (e_n e) 0 1 v (repeat (s0 o) (e_n e)) in
  let? u := local (gemm o true (e_n e) 1 (e_m e) (s1 o) (l_H s) 0 (e_ldh e) v 0 (e_m e) (s0 o) (repeat (s0 o) (e_n e)) 0 (e_n e)) in
  let? u := all_reduce ColC u 0 (e_n e) in
  let? uT := local (gemm o false (e_m e) 1 (e_n e) (s1 o) (l_H s) 0 (e_ldh e) v2 0 (e_n e) (s0 o) (repeat (s0 o) (e_m e)) 0 (e_m e)) in
  let? uT := all_reduce RowC uT 0 (e_m e) in
  let? v := redist_prog RowC (e_b2c e) (e_i e) (e_j e) (e_n e) (e_m e) 0 1 u v in
  let? ok := local (for_ (e_m e) 0 (fun r ok => let! x := rd v r in let! y := rd uT r in Ok (ok && negb (far x y))) true) in
  let? ok := all_land ColC ok in Ret ok.

(** chase_mpidla_blaslapack_seq.hpp:143-186 (and _seq_inplace.hpp:115-158) checkSymmetryEasy: one process, whole matrix,
    exact comparison [eqb].  The code leaves the loop at the first difference. *)
Definition check_sym_seq (eqb : D -> D -> bool) (N ldh : nat) (H v : list D) : res bool :=
  let! u := gemm o false N 1 N (s1 o) H 0 ldh v 0 N (s0 o) (repeat (s0 o) N) 0 N in
  let! uT := gemm o true N 1 N (s1 o) H 0 ldh v 0 N (s0 o) (repeat (s0 o) N) 0 N in
  for_ N 0 (fun i ok => let! x := rd u i in let! y := rd uT i in Ok (ok && eqb x y)) true.
End Ker2.
