(** Memory-level model of the sequential CPU backend (ChASE-MPI/impl/chase_mpidla_blaslapack_seq.hpp): every buffer is one
    flat array, every method computes the pointers, leading dimensions and sizes it passes to BLAS, LAPACK and memcpy.
    Library calls touch exactly the elements their documentation names and are undefined outside the array.
    Simplified: array indices are natural numbers (no wrap-around of size_t, no narrowing to the int of BLAS, see C75);
    T(x) of a real is one oracle; a leading dimension 0 is accepted for an operand without rows; memcpy of a column onto
    itself (Swap(i, i)) is accepted. *)
From Coq Require Import List Arith ZArith Bool.
Require Import Verif.Base Verif.AlgModel Verif.DlaModel Verif.ColModel.
Import ListNotations.

(** ** BLAS/LAPACK numerics: entries of the results.  Matrices are given as the list of their columns.  No laws.
    Triangular arguments are given by the columns of that triangle (the other one is not referenced). *)
Record flib (F T : Type) := mk_flib {
  l_gemm : bool -> F -> F -> list (list T) -> list T -> list T -> nat -> T; (* alpha op(A) x + beta y, entry i; true: op = A^H *)
  l_mul : bool -> list (list T) -> list T -> nat -> T;                      (* alpha = 1, beta = 0: y is not read *)
  l_add : T -> T -> T;
  l_rnd : nat -> T;                                                         (* i-th draw after seeding with 1337 *)
  l_eq : T -> T -> bool;
  l_zero : T;
  l_geqrf : list (list T) -> (nat -> nat -> T) * list T;                    (* row, column; tau *)
  l_gqr : list (list T) -> list T -> nat -> nat -> T;
  l_syherk : list (list T) -> nat -> nat -> T;                              (* A^H A; only row <= column is stored *)
  l_abs : T -> F;
  l_qshift : nat -> F -> T;                                                 (* (T)(sqrt(N) * nrmf * epsilon) *)
  l_potrf : list (list T) -> Z * (nat -> nat -> T);                         (* upper triangle -> info, upper triangle *)
  l_trsm : list (list T) -> list (list T) -> nat -> nat -> T;               (* upper triangle R, X -> X R^-1 *)
  l_heevd : list (list T) -> (nat -> F) * (nat -> nat -> T);                (* lower triangle -> values, vectors *)
  l_inj : F -> T; l_re : T -> F; l_neg : T -> T;
  l_dot : list T -> list T -> T; l_axpy : T -> T -> T -> T; l_scal : T -> T -> T; l_nrm2 : list T -> F
}.
Arguments l_gemm {F T} _. Arguments l_mul {F T} _. Arguments l_add {F T} _. Arguments l_rnd {F T} _. Arguments l_eq {F T} _.
Arguments l_zero {F T} _. Arguments l_geqrf {F T} _. Arguments l_gqr {F T} _. Arguments l_syherk {F T} _. Arguments l_abs {F T} _.
Arguments l_qshift {F T} _. Arguments l_potrf {F T} _. Arguments l_trsm {F T} _. Arguments l_heevd {F T} _. Arguments l_inj {F T} _.
Arguments l_re {F T} _. Arguments l_neg {F T} _. Arguments l_dot {F T} _. Arguments l_axpy {F T} _. Arguments l_scal {F T} _.
Arguments l_nrm2 {F T} _.

Definition tab {A} (m : nat) (f : nat -> A) : list A := map f (seq 0 m).
Definition tab2 {A} (m n : nat) (f : nat -> nat -> A) : list (list A) := tab n (fun j => tab m (fun i => f i j)).

(** ** operands of library calls: the m x k matrix at [buf + off] with leading dimension [ld] *)
Section Mem.
Context {T : Type}.
Definition area_ok (buf : list T) (off ld m k : nat) : bool :=
  (m <=? ld) && (off <=? length buf) && ((k =? 0) || (off + (k - 1) * ld + m <=? length buf)).
Definition rdm (buf : list T) (off ld m k : nat) : res (list (list T)) :=
  if area_ok buf off ld m k then Ok (map (fun j => firstn m (skipn (off + j * ld) buf)) (seq 0 k)) else UB.
(** store columns of length m *)
Definition wrm (buf : list T) (off ld m : nat) (cols : list (list T)) : res (list T) :=
  if area_ok buf off ld m (length cols)
  then for_ (length cols) 0 (fun j b => let! c := rd cols j in put_range b (off + j * ld) c) buf else UB.
(** triangles of an m x m matrix: column j has rows 0..j, respectively j..m-1 *)
Definition rdu (buf : list T) (off ld m : nat) : res (list (list T)) :=
  if area_ok buf off ld m m then Ok (map (fun j => firstn (S j) (skipn (off + j * ld) buf)) (seq 0 m)) else UB.
Definition rdl (buf : list T) (off ld m : nat) : res (list (list T)) :=
  if area_ok buf off ld m m then Ok (map (fun j => firstn (m - j) (skipn (off + j * ld + j) buf)) (seq 0 m)) else UB.
Definition wru (buf : list T) (off ld m : nat) (f : nat -> nat -> T) : res (list T) :=
  if area_ok buf off ld m m
  then for_ m 0 (fun j b => put_range b (off + j * ld) (tab (S j) (fun i => f i j))) buf else UB.
(** std::memcpy(dst + doff, src + soff, len * sizeof(T)) *)
Definition cpy (dst : list T) (doff : nat) (src : list T) (soff len : nat) : res (list T) :=
  let! x := get_range src soff len in put_range dst doff x.
End Mem.

Section Sf.
Context {F T : Type} (fo : fops F) (lib : flib F T).

(** ** library calls (documentation of BLAS/LAPACK, wrappers in ChASE-MPI/blas_templates.inc).
    gemm: op(A) is m x k, B is k x n, C is m x n *)
Definition gemm (cj : bool) (m n k : nat) (al : F) (a : list T) (aoff lda : nat) (b : list T) (boff ldb : nat) (be : F)
  (c : list T) (coff ldc : nat) : res (list T) :=
  let! A := (if cj then rdm a aoff lda k m else rdm a aoff lda m k) in
  let! B := rdm b boff ldb k n in
  let! Y := rdm c coff ldc m n in
  wrm c coff ldc m (zip (fun x y => tab m (l_gemm lib cj al be A x y)) B Y).
(** the same with alpha = 1, beta = 0 *)
Definition gemm0 (cj : bool) (m n k : nat) (a : list T) (aoff lda : nat) (b : list T) (boff ldb : nat)
  (c : list T) (coff ldc : nat) : res (list T) :=
  let! A := (if cj then rdm a aoff lda k m else rdm a aoff lda m k) in
  let! B := rdm b boff ldb k n in
  wrm c coff ldc m (map (fun x => tab m (l_mul lib cj A x)) B).
Definition lacpy (m n : nat) (a : list T) (lda : nat) (b : list T) (ldb : nat) : res (list T) :=
  let! A := rdm a 0 lda m n in wrm b 0 ldb m A.
Definition geqrf (m n : nat) (a : list T) (lda : nat) : res (list T * list T) :=
  let! A := rdm a 0 lda m n in
  let! a' := wrm a 0 lda m (tab2 m n (fst (l_geqrf lib A))) in Ok (a', snd (l_geqrf lib A)).
Definition gqr (m n : nat) (a : list T) (lda : nat) (tau : list T) : res (list T) :=
  let! A := rdm a 0 lda m n in wrm a 0 lda m (tab2 m n (l_gqr lib A tau)).
(** 'U', 'C': the upper triangle of the n x n matrix C = A^H A, A being k x n *)
Definition syherk (n k : nat) (a : list T) (lda : nat) (c : list T) (ldc : nat) : res (list T) :=
  let! A := rdm a 0 lda k n in wru c 0 ldc n (l_syherk lib A).
Definition potrf (n : nat) (a : list T) (lda : nat) : res (Z * list T) :=
  let! U := rdu a 0 lda n in
  let! a' := wru a 0 lda n (snd (l_potrf lib U)) in Ok (fst (l_potrf lib U), a').
(** 'R', 'U', 'N', 'N' *)
Definition trsm (m n : nat) (a : list T) (lda : nat) (b : list T) (ldb : nat) : res (list T) :=
  let! U := rdu a 0 lda n in
  let! B := rdm b 0 ldb m n in wrm b 0 ldb m (tab2 m n (l_trsm lib U B)).
(** 'V', 'L' *)
Definition heevd (n : nat) (a : list T) (lda : nat) : res (list F * list T) :=
  let! A := rdl a 0 lda n in
  let! a' := wrm a 0 lda n (tab2 n n (snd (l_heevd lib A))) in Ok (tab n (fst (l_heevd lib A)), a').
Definition axpy (n : nat) (a : T) (x : list T) (xoff : nat) (y : list T) (yoff : nat) : res (list T) :=
  let! u := get_range x xoff n in
  let! v := get_range y yoff n in put_range y yoff (zip (l_axpy lib a) u v).
Definition scal (n : nat) (a : T) (x : list T) (xoff : nat) : res (list T) :=
  let! u := get_range x xoff n in put_range x xoff (map (l_scal lib a) u).

(** ** the backend object: lines 641-667.  [f_A] is matrices_.A() *)
Record fst_ := mk_fs { f_H : list T; f_C : list T; f_B : list T; f_C2 : list T; f_B2 : list T; f_A : list T; f_bAc : bool }.

Section Seq.
Context (N ldh n : nat) (* N_, ldh_, nev_ + nex_ *).

(** initVecs: 57-61 *)
Definition s_init (s : fst_) : res fst_ :=
  let! C2 := lacpy N n (f_C s) N (f_C2 s) N in
  Ok (mk_fs (f_H s) (f_C s) (f_B s) C2 (f_B2 s) (f_A s) true).

(** initRndVecs: 62-73; the draws are made in the order of the loops *)
Definition s_initrnd (s : fst_) : res fst_ :=
  let! C := for_ n 0 (fun j C => for_ N 0 (fun i C => wr C (i + j * N) (l_rnd lib (j * N + i))) C) (f_C s) in
  Ok (mk_fs (f_H s) C (f_B s) (f_C2 s) (f_B2 s) (f_A s) (f_bAc s)).

(** apply: 83-105 *)
Definition s_apply (alpha beta : F) (offset block locked : nat) (s : fst_) : res fst_ :=
  if f_bAc s then
    let! B := gemm true N block N alpha (f_H s) 0 ldh (f_C s) (offset * N + locked * N) N beta (f_B s) (locked * N + offset * N) N in
    Ok (mk_fs (f_H s) (f_C s) B (f_C2 s) (f_B2 s) (f_A s) false)
  else
    let! C := gemm false N block N alpha (f_H s) 0 ldh (f_B s) (offset * N + locked * N) N beta (f_C s) (offset * N + locked * N) N in
    Ok (mk_fs (f_H s) C (f_B s) (f_C2 s) (f_B2 s) (f_A s) true).

(** shiftMatrix: 107-113 *)
Definition s_shift (c : F) (_ : bool) (s : fst_) : res fst_ :=
  let! H := for_ N 0 (fun i H => let! a := rd H (i + i * ldh) in wr H (i + i * ldh) (l_add lib a (l_inj lib c))) (f_H s) in
  Ok (mk_fs H (f_C s) (f_B s) (f_C2 s) (f_B2 s) (f_A s) (f_bAc s)).

(** asynCxHGatherC: 115-127 *)
Definition s_gather (locked block : nat) (s : fst_) : res fst_ :=
  let! B := gemm0 true N block N (f_H s) 0 ldh (f_C s) (locked * N) N (f_B s) (locked * N) N in
  let! B2 := cpy (f_B2 s) (locked * N) (f_C2 s) (locked * N) (N * block) in
  Ok (mk_fs (f_H s) (f_C s) B (f_C2 s) B2 (f_A s) (f_bAc s)).

(** checkSymmetryEasy: 143-186; the vectors are zero initialised std::vector *)
Fixpoint eq_loop (todo i : nat) (u w : list T) : res bool :=
  match todo with
  | O => Ok true
  | S t => let! a := rd u i in
           let! b := rd w i in
           if l_eq lib a b then eq_loop t (S i) u w else Ok false
  end.
Definition s_sym (s : fst_) : res (bool * fst_) :=
  let! v := for_ N 0 (fun i v => wr v i (l_rnd lib i)) (repeat (l_zero lib) N) in
  let! u := gemm0 false N 1 N (f_H s) 0 ldh v 0 N (repeat (l_zero lib) N) 0 N in
  let! w := gemm0 true N 1 N (f_H s) 0 ldh v 0 N (repeat (l_zero lib) N) 0 N in
  let! b := eq_loop N 0 u w in
  Ok (b, s).

(** RR: 240-262; the temporary A is uninitialised in the source, its first use is a store *)
Definition s_rr (block locked : nat) (s : fst_) : res (list F * fst_) :=
  let! s1 := s_gather locked block s in
  let! A := gemm0 true block block N (f_B2 s1) (locked * N) N (f_B s1) (locked * N) N (repeat (l_zero lib) (block * block)) 0 block in
  let! (w, A') := heevd block A block in
  let! C := gemm0 false N block block (f_C2 s1) (locked * N) N A' 0 block (f_C s1) (locked * N) N in
  let! C2 := cpy (f_C2 s1) (locked * N) C (locked * N) (N * block) in
  Ok (w, mk_fs (f_H s1) C (f_B s1) C2 (f_B2 s1) (f_A s1) (f_bAc s1)).

(** Resd: 286-302 *)
Definition s_resd (ritzv : list F) (locked unc : nat) (s : fst_) : res (list F * fst_) :=
  let! s1 := s_gather locked unc s in
  let! (B, r) := for_ unc 0 (fun i p =>
      let! v := rd ritzv i in
      let! B := axpy N (l_inj lib (f_neg fo v)) (f_B2 s1) (locked * N + N * i) (fst p) (locked * N + N * i) in
      let! x := get_range B (locked * N + N * i) N in
      Ok (B, snd p ++ [l_nrm2 lib x])) (f_B s1, []) in
  Ok (r, mk_fs (f_H s1) (f_C s1) B (f_C2 s1) (f_B2 s1) (f_A s1) (f_bAc s1)).

(** hhQR: 304-312 *)
Definition s_hhqr (_ : nat) (s : fst_) : res fst_ :=
  let! (C, tau) := geqrf N n (f_C s) N in
  let! C' := gqr N n C N tau in
  Ok (mk_fs (f_H s) C' (f_B s) (f_C2 s) (f_B2 s) (f_A s) (f_bAc s)).

Definition set_CA (s : fst_) (C A : list T) : fst_ := mk_fs (f_H s) C (f_B s) (f_C2 s) (f_B2 s) A (f_bAc s).

(** computeDiagonalAbsSum and shiftMatrixForQR: 572-590, called with (A_, n, n) and (A_, n) (376-380) *)
Definition abs_sum (A : list T) (m ld : nat) : res F :=
  for_ m 0 (fun i z => let! a := rd A (i * ld + i) in Ok (f_add fo z (l_abs lib a))) (f_zero fo).
Definition qr_shift (A : list T) (m : nat) (c : T) : res (list T) :=
  for_ m 0 (fun i A => let! a := rd A (i * m + i) in wr A (i * m + i) (l_add lib a c)) A.

(** cholQR1: 314-335 *)
Definition s_chol1 (_ : nat) (s : fst_) : res (Z * fst_) :=
  let! A := syherk n N (f_C s) N (f_A s) n in
  let! (info, A1) := potrf n A n in
  if negb (info =? 0)%Z then Ok (info, set_CA s (f_C s) A1)
  else let! C := trsm N n A1 n (f_C s) N in Ok (info, set_CA s C A1).

(** cholQR2: 337-363 *)
Definition s_chol2 (_ : nat) (s : fst_) : res (Z * fst_) :=
  let! A := syherk n N (f_C s) N (f_A s) n in
  let! (info, A1) := potrf n A n in
  if negb (info =? 0)%Z then Ok (info, set_CA s (f_C s) A1)
  else
    let! C := trsm N n A1 n (f_C s) N in
    let! A2 := syherk n N C N A1 n in
    let! (info2, A3) := potrf n A2 n in
    let! C' := trsm N n A3 n C N in
    Ok (info2, set_CA s C' A3).

(** shiftedcholQR2: 365-399 *)
Definition s_schol2 (_ : nat) (s : fst_) : res (Z * fst_) :=
  let! A := syherk n N (f_C s) N (f_A s) n in
  let! nrmf := abs_sum A n n in
  let! As := qr_shift A n (l_qshift lib N nrmf) in
  let! (info, A1) := potrf n As n in
  if negb (info =? 0)%Z then Ok (info, set_CA s (f_C s) A1)
  else
    let! C := trsm N n A1 n (f_C s) N in
    let! A2 := syherk n N C N A1 n in
    let! (_, A3) := potrf n A2 n in
    let! C' := trsm N n A3 n C N in
    let! A4 := syherk n N C' N A3 n in
    let! (info3, A5) := potrf n A4 n in
    let! C'' := trsm N n A5 n C' N in
    Ok (info3, set_CA s C'' A5).

(** lockVectorCopyAndOrthoConcatswap: 428-433 *)
Definition s_lockcopy (locked : nat) (_ : bool) (s : fst_) : res fst_ :=
  let! C := cpy (f_C s) 0 (f_C2 s) 0 (locked * N) in
  let! C2 := cpy (f_C2 s) (locked * N) C (locked * N) ((n - locked) * N) in
  Ok (mk_fs (f_H s) C (f_B s) C2 (f_B2 s) (f_A s) (f_bAc s)).

(** Swap: 435-448; [tmp] is copied out first *)
Definition swap_cols (buf : list T) (i j : nat) : res (list T) :=
  let! tmp := get_range buf (N * i) N in
  let! b1 := cpy buf (N * i) buf (N * j) N in
  put_range b1 (N * j) tmp.
Definition s_swap (i j : nat) (s : fst_) : res fst_ :=
  let! C := swap_cols (f_C s) i j in
  let! C2 := swap_cols (f_C2 s) i j in
  Ok (mk_fs (f_H s) C (f_B s) C2 (f_B2 s) (f_A s) (f_bAc s)).

(** LanczosDos: 450-458; ritzVc is converted to T by the caller *)
Definition s_dos (idx m : nat) (rv : list F) (s : fst_) : res fst_ :=
  let! C2 := gemm0 false N idx m (f_C s) 0 N (map (l_inj lib) rv) 0 m (f_C2 s) 0 N in
  let! C := cpy (f_C s) 0 C2 0 (m * N) in
  Ok (mk_fs (f_H s) C (f_B s) C2 (f_B2 s) (f_A s) (f_bAc s)).

(** nrm2_batch, scal_batch, dot_batch, axpy_batch, applyVec: 592-640; x->ld() is N_ *)
Definition nrm2_batch (x : list T) (count : nat) (nrms : list F) : res (list F) :=
  for_ count 0 (fun i r => let! u := get_range x (i * N) N in wr r i (l_nrm2 lib u)) nrms.
Definition scal_batch (a : list T) (x : list T) (count : nat) : res (list T) :=
  for_ count 0 (fun i x => let! c := rd a i in scal N c x (i * N)) x.
Definition dot_batch (x y : list T) (prod : list T) (count : nat) : res (list T) :=
  for_ count 0 (fun i p => let! u := get_range x (i * N) N in let! v := get_range y (i * N) N in wr p i (l_dot lib u v)) prod.
Definition axpy_batch (a : list T) (x y : list T) (count : nat) : res (list T) :=
  for_ count 0 (fun i y => let! c := rd a i in axpy N c x (i * N) y (i * N)) y.

(** mLanczos: 460-555.  m_w is v_2 *)
Record fml := mk_fm { m_C : list T; m_v0 : list T; m_v1 : list T; m_w : list T; m_d : list F; m_e : list F; m_b : list F }.

(** loop body 491-536: up to the test k == M - 1 *)
Definition fm_body (H : list T) (second : bool) (M numvec k : nat) (s : fml) : res fml :=
  let! C := (if second then Ok (m_C s)
             else for_ numvec 0 (fun i C => cpy C (k * N) (m_v1 s) (i * N) N) (m_C s)) in
  let! w := gemm0 true N numvec N H 0 ldh (m_v1 s) 0 N (m_w s) 0 N in
  let! al := dot_batch (m_v1 s) w (repeat (l_zero lib) numvec) numvec in
  let alpha := map (l_neg lib) al in
  let! w1 := axpy_batch alpha (m_v1 s) w numvec in
  let alpha' := map (l_neg lib) alpha in
  let! d := for_ numvec 0 (fun i d => let! a := rd alpha' i in wr d (k + M * i) (l_re lib a)) (m_d s) in
  let! w2 := (if k =? 0 then Ok w1
              else axpy_batch (map (fun b => l_inj lib (f_neg fo b)) (m_b s)) (m_v0 s) w1 numvec) in
  let! b := nrm2_batch w2 numvec (m_b s) in
  Ok (mk_fm C (m_v0 s) (m_v1 s) w2 d (m_e s) b).
(** 541-548: v_1 and v_0 exchange their pointers, then v_1 and v_2 *)
Definition fm_next (M numvec k : nat) (s : fml) : res fml :=
  let! w := scal_batch (map (fun b => l_inj lib (f_div fo (f_one fo) b)) (m_b s)) (m_w s) numvec in
  let! e := for_ numvec 0 (fun i e => let! b := rd (m_b s) i in wr e (k + M * i) b) (m_e s) in
  Ok (mk_fm (m_C s) (m_v1 s) w (m_v0 s) (m_d s) e (m_b s)).
Fixpoint fm_loop (todo k : nat) (H : list T) (second : bool) (M numvec : nat) (s : fml) : res fml :=
  match todo with
  | O => Ok s
  | S t => let! s1 := fm_body H second M numvec k s in
           match t with
           | O => Ok s1
           | S _ => let! s2 := fm_next M numvec k s1 in fm_loop t (k + 1) H second M numvec s2
           end
  end.
Definition s_mlanczos (M : nat) (nv : option nat) (s : fst_) : res (list F * list F * list F * fst_) :=
  let '(second, numvec) := match nv with None => (true, 1) | Some k => (false, k) end in
  let fresh := repeat (l_zero lib) (N * numvec) in
  let! v1 := cpy fresh 0 (f_C s) 0 (N * numvec) in
  let! ra := nrm2_batch v1 numvec (repeat (f_zero fo) numvec) in
  let! v1' := scal_batch (map (fun r => l_inj lib (f_div fo (f_one fo) r)) ra) v1 numvec in
  let z := repeat (f_zero fo) in
  let! m := fm_loop M 0 (f_H s) second M numvec
              (mk_fm (f_C s) fresh v1' fresh (z (M * numvec)) (z (M * numvec)) (z numvec)) in
  let! C := (if second then Ok (m_C m) else cpy (m_C m) 0 (m_v1 m) 0 (N * numvec)) in
  Ok (m_d m, m_e m, m_b m, mk_fs (f_H s) C (f_B s) (f_C2 s) (f_B2 s) (f_A s) (f_bAc s)).

Definition flatD : dla F fst_ := {|
  d_sym := s_sym; d_start := fun s => Ok s; d_end := fun s => Ok s; d_initrnd := s_initrnd; d_init := s_init;
  d_shift := s_shift; d_apply := s_apply; d_hhqr := s_hhqr; d_chol1 := s_chol1; d_chol2 := s_chol2;
  d_schol2 := s_schol2; d_lockcopy := s_lockcopy; d_rr := s_rr; d_resd := s_resd; d_swap := s_swap;
  d_mlanczos := s_mlanczos; d_dos := s_dos |}.
End Seq.

(** constructor 34-48: H and V1 are the caller's arrays; B, C2, B2 and A are allocated (Matrix: zero filled), C2 and B2 with
    maxBlock_ = nex + nex columns, where the caller passes nev for nex (chase_mpi.hpp:116) *)
Definition flat_state (N nev nex : nat) (H V1 : list T) : fst_ :=
  let z := repeat (l_zero lib) in
  mk_fs H V1 (z (N * (nev + nex))) (z (N * (nev + nev))) (z (N * (nev + nev))) (z ((nev + nex) * (nev + nex))) true.
End Sf.
