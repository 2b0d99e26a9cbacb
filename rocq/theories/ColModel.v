(** Column-level model of the backends: a vector block is a list of columns, BLAS/LAPACK calls are oracles on columns.
    Sources: ChASE-MPI/impl/chase_mpidla_blaslapack_seq.hpp (Seq), chase_mpidla.hpp + chase_mpidla_blaslapack.hpp (Mpi,
    seen globally: rows are distributed, columns are not), chase_mpidla_blaslapack_seq_inplace.hpp (Inpl). *)
From Coq Require Import List Arith ZArith Bool.
Require Import Verif.Base Verif.AlgModel Verif.DlaModel.
Import ListNotations.

(** BLAS/LAPACK.  V: column vectors of length N; M: the matrix H; G: small matrices; T: scalars.
    Results that are blocks of columns are given column by column. No laws. *)
Record blas (F V M G T : Type) := mk_blas {
  b_gemmN : M -> F -> F -> V -> V -> V;       (* alpha*H*x + beta*y *)
  b_gemmH : M -> F -> F -> V -> V -> V;       (* alpha*H^H*x + beta*y *)
  b_mulN : M -> V -> V;                       (* H*x   (alpha 1, beta 0: the destination is not read) *)
  b_mulH : M -> V -> V;                       (* H^H*x *)
  b_shift : M -> F -> M;                      (* diagonal += c *)
  b_rnd : nat -> V;                           (* j-th random start column (fixed seed) *)
  b_test : V;                                 (* random vector of the symmetry test *)
  b_veq : V -> V -> bool;                     (* entrywise test u[i] == uT[i] *)
  b_zero : V;                                 (* fresh Matrix column (zero filled) *)
  b_hh : list V -> nat -> V;                  (* geqrf + gqr *)
  b_syherk : list V -> G;
  b_dshift : G -> G;                          (* diagonal shift of shiftedcholQR2 *)
  b_potrf : G -> Z * G;                       (* info, factor *)
  b_trsm : G -> list V -> nat -> V;
  b_gram : list V -> list V -> G;             (* W^H V *)
  b_eval : G -> nat -> F;                     (* heevd, i-th value *)
  b_comb : list V -> G -> nat -> V;           (* V * (eigenvectors of the argument), j-th column *)
  b_combl : list V -> list F -> nat -> V;     (* V * ritzVc, j-th column *)
  b_inj : F -> T; b_re : T -> F; b_tneg : T -> T;
  b_dot : V -> V -> T; b_axpy : T -> V -> V -> V; b_scal : T -> V -> V; b_nrm2 : V -> F
}.
Arguments b_gemmN {F V M G T} _. Arguments b_gemmH {F V M G T} _. Arguments b_mulN {F V M G T} _.
Arguments b_mulH {F V M G T} _. Arguments b_shift {F V M G T} _. Arguments b_rnd {F V M G T} _.
Arguments b_test {F V M G T} _. Arguments b_veq {F V M G T} _. Arguments b_zero {F V M G T} _.
Arguments b_hh {F V M G T} _. Arguments b_syherk {F V M G T} _. Arguments b_dshift {F V M G T} _.
Arguments b_potrf {F V M G T} _. Arguments b_trsm {F V M G T} _. Arguments b_gram {F V M G T} _.
Arguments b_eval {F V M G T} _. Arguments b_comb {F V M G T} _. Arguments b_combl {F V M G T} _.
Arguments b_inj {F V M G T} _. Arguments b_re {F V M G T} _. Arguments b_tneg {F V M G T} _.
Arguments b_dot {F V M G T} _. Arguments b_axpy {F V M G T} _. Arguments b_scal {F V M G T} _. Arguments b_nrm2 {F V M G T} _.

(** column-wise binary operation *)
Definition zip {A B C} (f : A -> B -> C) (l : list A) (m : list B) : list C := map (fun p => f (fst p) (snd p)) (combine l m).

Section Col.
Context {F V M G T : Type} (fo : fops F) (bl : blas F V M G T).

(** ** mLanczos (seq.hpp:460-555, seq_inplace.hpp:435-531, chase_mpidla.hpp:1376-1505): the same code up to the
    reductions over the column communicator, which the dot and nrm2 oracles include.  [second]: numvec was -1. *)
Record ml := mk_ml { ml_C : list V; ml_v0 : list V; ml_v1 : list V; ml_d : list F; ml_e : list F; ml_b : list F }.

(** one pass of the loop over k without the final exchange: returns the state and the unscaled v_2 *)
Definition ml_body (H : M) (second : bool) (Mn numvec k : nat) (s : ml) : res (ml * list V) :=
  let! C := (if second then Ok (ml_C s)
             else for_ numvec 0 (fun i C => let! x := rd (ml_v1 s) i in wr C k x) (ml_C s)) in
  let v2 := map (b_mulH bl H) (ml_v1 s) in
  let alpha := map (b_tneg bl) (zip (b_dot bl) (ml_v1 s) v2) in
  let v2a := zip (fun av y => b_axpy bl (fst av) (snd av) y) (combine alpha (ml_v1 s)) v2 in
  let! d := for_ numvec 0 (fun i d => let! a := rd alpha i in wr d (k + Mn * i) (b_re bl (b_tneg bl a))) (ml_d s) in
  let v2b := if k =? 0 then v2a
             else zip (fun bv y => b_axpy bl (b_inj bl (f_neg fo (fst bv))) (snd bv) y) (combine (ml_b s) (ml_v0 s)) v2a in
  Ok (mk_ml C (ml_v0 s) (ml_v1 s) d (ml_e s) (map (b_nrm2 bl) v2b), v2b).

(** scaling, off-diagonals and v_0 <- v_1 <- v_2 *)
Definition ml_next (Mn numvec k : nat) (s : ml) (v2 : list V) : res ml :=
  let v2s := zip (fun b x => b_scal bl (b_inj bl (f_div fo (f_one fo) b)) x) (ml_b s) v2 in
  let! e := for_ numvec 0 (fun i e => let! b := rd (ml_b s) i in wr e (k + Mn * i) b) (ml_e s) in
  Ok (mk_ml (ml_C s) (ml_v1 s) v2s (ml_d s) e (ml_b s)).

Fixpoint ml_loop (todo k : nat) (H : M) (second : bool) (Mn numvec : nat) (s : ml) : res ml :=
  match todo with
  | O => Ok s
  | S t => let! (s1, v2) := ml_body H second Mn numvec k s in
           match t with
           | O => Ok s1                                   (* k == M - 1: break *)
           | S _ => let! s2 := ml_next Mn numvec k s1 v2 in ml_loop t (k + 1) H second Mn numvec s2
           end
  end.

Definition mlanczos (H : M) (Mn : nat) (nv : option nat) (C : list V) : res (list F * list F * list F * list V) :=
  let '(second, numvec) := match nv with None => (true, 1) | Some n => (false, n) end in
  let! start := get_range C 0 numvec in
  let v1 := map (fun x => b_scal bl (b_inj bl (f_div fo (f_one fo) (b_nrm2 bl x))) x) start in
  let z := repeat (f_zero fo) in
  let! s := ml_loop Mn 0 H second Mn numvec
      (mk_ml C (repeat (b_zero bl) numvec) v1 (z (Mn * numvec)) (z (Mn * numvec)) (z numvec)) in
  let! C' := (if second then Ok (ml_C s) else put_range (ml_C s) 0 (ml_v1 s)) in
  Ok (ml_d s, ml_e s, ml_b s, C').

(** ** Seq and Mpi.  [mpi] selects the differences: Swap, and whether shiftedcholQR2 checks its second potrf. *)
Record cst := mk_cst { cs_H : M; cs_C : list V; cs_B : list V; cs_C2 : list V; cs_B2 : list V; cs_bAc : bool (* next_ *) }.

Section ColK.
Context (mpi : bool) (n : nat) (* nev_ + nex_ *).

(** seq.hpp:143-186 / chase_mpidla.hpp:757-820 (the latter compares with a tolerance: another b_veq) *)
Definition c_sym (s : cst) : res (bool * cst) :=
  Ok (b_veq bl (b_mulN bl (cs_H s) (b_test bl)) (b_mulH bl (cs_H s) (b_test bl)), s).

(** seq.hpp:62-73, chase_mpidla_blaslapack.hpp:85-95 *)
Definition c_initrnd (s : cst) : res cst :=
  let! C := put_range (cs_C s) 0 (map (b_rnd bl) (seq 0 n)) in
  Ok (mk_cst (cs_H s) C (cs_B s) (cs_C2 s) (cs_B2 s) (cs_bAc s)).

(** seq.hpp:57-61, chase_mpidla.hpp:372-382 with chase_mpidla_blaslapack.hpp:75-79 *)
Definition c_init (s : cst) : res cst :=
  let! cs := get_range (cs_C s) 0 n in
  let! C2 := put_range (cs_C2 s) 0 cs in
  Ok (mk_cst (cs_H s) (cs_C s) (cs_B s) C2 (cs_B2 s) true).

(** seq.hpp:107-113, chase_mpidla.hpp:725-741 with chase_mpidla_blaslapack.hpp:144-164 (istartOfFilter_ sets next_ once
    more to bAc, which initVecs already did) *)
Definition c_shift (c : F) (_ : bool) (s : cst) : res cst :=
  Ok (mk_cst (b_shift bl (cs_H s) c) (cs_C s) (cs_B s) (cs_C2 s) (cs_B2 s) (cs_bAc s)).

(** seq.hpp:83-105, chase_mpidla.hpp:472-523 *)
Definition c_apply (alpha beta : F) (off blk locked : nat) (s : cst) : res cst :=
  let! c := get_range (cs_C s) (locked + off) blk in
  let! b := get_range (cs_B s) (locked + off) blk in
  if cs_bAc s then
    let! B := put_range (cs_B s) (locked + off) (zip (b_gemmH bl (cs_H s) alpha beta) c b) in
    Ok (mk_cst (cs_H s) (cs_C s) B (cs_C2 s) (cs_B2 s) false)
  else
    let! C := put_range (cs_C s) (locked + off) (zip (b_gemmN bl (cs_H s) alpha beta) b c) in
    Ok (mk_cst (cs_H s) C (cs_B s) (cs_C2 s) (cs_B2 s) true).

(** asynCxHGatherC: seq.hpp:115-127, chase_mpidla.hpp:657-716 *)
Definition c_gather (locked blk : nat) (s : cst) : res cst :=
  let! c := get_range (cs_C s) locked blk in
  let! B := put_range (cs_B s) locked (map (b_mulH bl (cs_H s)) c) in
  let! c2 := get_range (cs_C2 s) locked blk in
  let! B2 := put_range (cs_B2 s) locked c2 in
  Ok (mk_cst (cs_H s) (cs_C s) B (cs_C2 s) B2 (cs_bAc s)).

(** seq.hpp:240-262, chase_mpidla.hpp:952-982 with chase_mpidla_blaslapack.hpp:236-244, 288-299.  The Mpi version computes
    the first column of the result itself as n - blk; calls with n - blk <> locked mix two ranges of columns and are
    not modelled (the outcome is UB). *)
Definition c_rr (blk locked : nat) (s : cst) : res (list F * cst) :=
  if mpi && negb (locked + blk =? n) then UB else
  let! s1 := c_gather locked blk s in
  let! b := get_range (cs_B s1) locked blk in
  let! b2 := get_range (cs_B2 s1) locked blk in
  let A := b_gram bl b2 b in
  let! c2 := get_range (cs_C2 s1) locked blk in
  let new := map (b_comb bl c2 A) (seq 0 blk) in
  let! C := put_range (cs_C s1) locked new in
  let! C2 := put_range (cs_C2 s1) locked new in
  Ok (map (b_eval bl A) (seq 0 blk), mk_cst (cs_H s1) C (cs_B s1) C2 (cs_B2 s1) (cs_bAc s1)).

(** seq.hpp:286-302, chase_mpidla.hpp:984-1020 with chase_mpidla_blaslapack.hpp:273-285 *)
Definition c_resd (ritzv : list F) (locked unc : nat) (s : cst) : res (list F * cst) :=
  let! s1 := c_gather locked unc s in
  let! v := get_range ritzv 0 unc in
  let! b := get_range (cs_B s1) locked unc in
  let! b2 := get_range (cs_B2 s1) locked unc in
  let b' := zip (fun vx y => b_axpy bl (b_inj bl (f_neg fo (fst vx))) (snd vx) y) (combine v b2) b in
  let! B := put_range (cs_B s1) locked b' in
  Ok (map (b_nrm2 bl) b', mk_cst (cs_H s1) (cs_C s1) B (cs_C2 s1) (cs_B2 s1) (cs_bAc s1)).

(** replace the first n columns of C *)
Definition set_C (s : cst) (f : list V -> nat -> V) : res cst :=
  let! c := get_range (cs_C s) 0 n in
  let! C := put_range (cs_C s) 0 (map (f c) (seq 0 n)) in
  Ok (mk_cst (cs_H s) C (cs_B s) (cs_C2 s) (cs_B2 s) (cs_bAc s)).

(** seq.hpp:304-312, chase_mpidla.hpp:1054-1118; [locked] is not used.  Without ScaLAPACK the Mpi version gathers C, calls
    LAPACK and distributes the result with preApplication, which sets next_ to bAc (424-449). *)
Definition c_hhqr (_ : nat) (s : cst) : res cst :=
  let! s1 := set_C s (b_hh bl) in
  Ok (mk_cst (cs_H s1) (cs_C s1) (cs_B s1) (cs_C2 s1) (cs_B2 s1) (mpi || cs_bAc s1)).

(** syherk; potrf (optionally after a diagonal shift): info and factor *)
Definition c_factor (shift : bool) (s : cst) : res (Z * G) :=
  let! c := get_range (cs_C s) 0 n in
  let A := b_syherk bl c in
  Ok (b_potrf bl (if shift then b_dshift bl A else A)).

(** seq.hpp:314-335, chase_mpidla.hpp:1145-1179 *)
Definition c_chol1 (_ : nat) (s : cst) : res (Z * cst) :=
  let! (info, R) := c_factor false s in
  if negb (info =? 0)%Z then Ok (info, s)
  else let! s1 := set_C s (b_trsm bl R) in Ok (info, s1).

(** seq.hpp:337-363, chase_mpidla.hpp:1181-1227: the second info is returned after the solve was applied anyway *)
Definition c_chol2 (_ : nat) (s : cst) : res (Z * cst) :=
  let! (info, R) := c_factor false s in
  if negb (info =? 0)%Z then Ok (info, s)
  else
    let! s1 := set_C s (b_trsm bl R) in
    let! (info2, R2) := c_factor false s1 in
    let! s2 := set_C s1 (b_trsm bl R2) in
    Ok (info2, s2).

(** seq.hpp:365-399; chase_mpidla.hpp:1229-1306 returns early if the second factorisation fails and ignores the third info *)
Definition c_schol2 (_ : nat) (s : cst) : res (Z * cst) :=
  let! (info, R) := c_factor true s in
  if negb (info =? 0)%Z then Ok (info, s)
  else
    let! s1 := set_C s (b_trsm bl R) in
    let! (info2, R2) := c_factor false s1 in
    if mpi && negb (info2 =? 0)%Z then Ok (info2, s1)
    else
      let! s2 := set_C s1 (b_trsm bl R2) in
      let! (info3, R3) := c_factor false s2 in
      let! s3 := set_C s2 (b_trsm bl R3) in
      Ok (if mpi then info2 else info3, s3).

(** seq.hpp:428-433, chase_mpidla.hpp:1344-1358 (both branches do the same) *)
Definition c_lockcopy (locked : nat) (_ : bool) (s : cst) : res cst :=
  let! a := get_range (cs_C2 s) 0 locked in
  let! C := put_range (cs_C s) 0 a in
  let! b := get_range C locked (n - locked) in
  let! C2 := put_range (cs_C2 s) locked b in
  Ok (mk_cst (cs_H s) C (cs_B s) C2 (cs_B2 s) (cs_bAc s)).

(** seq.hpp:435-448 exchanges the columns of C_ and C2_; chase_mpidla.hpp:1360-1369 exchanges those of C twice *)
Definition c_swap (i j : nat) (s : cst) : res cst :=
  let! C := swap_ (cs_C s) i j in
  if mpi then
    let! C' := swap_ C i j in
    Ok (mk_cst (cs_H s) C' (cs_B s) (cs_C2 s) (cs_B2 s) (cs_bAc s))
  else
    let! C2 := swap_ (cs_C2 s) i j in
    Ok (mk_cst (cs_H s) C (cs_B s) C2 (cs_B2 s) (cs_bAc s)).

(** seq.hpp:450-458, chase_mpidla_blaslapack.hpp:332-340; ritzVc is read as an m x idx matrix *)
Definition c_dos (idx m : nat) (rv : list F) (s : cst) : res cst :=
  let! rv := get_range rv 0 (idx * m) in
  let! c := get_range (cs_C s) 0 m in
  let! C2 := put_range (cs_C2 s) 0 (map (b_combl bl c rv) (seq 0 idx)) in
  let! c2 := get_range C2 0 m in
  let! C := put_range (cs_C s) 0 c2 in
  Ok (mk_cst (cs_H s) C (cs_B s) C2 (cs_B2 s) (cs_bAc s)).

Definition c_mlanczos (Mn : nat) (nv : option nat) (s : cst) : res (list F * list F * list F * cst) :=
  let! (d, e, b, C) := mlanczos (cs_H s) Mn nv (cs_C s) in
  Ok (d, e, b, mk_cst (cs_H s) C (cs_B s) (cs_C2 s) (cs_B2 s) (cs_bAc s)).

Definition colD : dla F cst := {|
  d_sym := c_sym; d_start := fun s => Ok s; d_end := fun s => Ok s; d_initrnd := c_initrnd; d_init := c_init;
  d_shift := c_shift; d_apply := c_apply; d_hhqr := c_hhqr; d_chol1 := c_chol1; d_chol2 := c_chol2;
  d_schol2 := c_schol2; d_lockcopy := c_lockcopy; d_rr := c_rr; d_resd := c_resd; d_swap := c_swap;
  d_mlanczos := c_mlanczos; d_dos := c_dos |}.
End ColK.

(** ** Seq: constructor (seq.hpp:34-48) as called from chase_mpi.hpp:116.  The parameters are declared (n, nex, nev) but
    passed (N, nev, nex), so the second workspace has nex + nex = 2 nev(user) columns. *)
Definition seq_state (nev nex : nat) (H : M) (V1 : list V) : cst :=
  mk_cst H V1 (repeat (b_zero bl) (nev + nex)) (repeat (b_zero bl) (nev + nev)) (repeat (b_zero bl) (nev + nev)) true.

(** Mpi: all buffers have nev + nex columns (chase_mpi_matrices.hpp, MPI constructor) *)
Definition mpi_state (nev nex : nat) (H : M) (V1 : list V) : cst :=
  let z := repeat (b_zero bl) (nev + nex) in mk_cst H V1 z z z true.

(** ** Inpl: two blocks whose pointers are exchanged; [is_sw] tells whether V1_ currently points to the second buffer. *)
Record ist := mk_ist { is_H : M; is_V1 : list V; is_V2 : list V; is_sw : bool }.

Section Inpl.
Context (n : nat).
Definition i_sym (s : ist) : res (bool * ist) :=            (* 115-158 *)
  Ok (b_veq bl (b_mulN bl (is_H s) (b_test bl)) (b_mulH bl (is_H s) (b_test bl)), s).
Definition i_initrnd (s : ist) : res ist :=                 (* 58-69 *)
  let! v := put_range (is_V1 s) 0 (map (b_rnd bl) (seq 0 n)) in Ok (mk_ist (is_H s) v (is_V2 s) (is_sw s)).
Definition i_init (s : ist) : res ist :=                    (* 54-57 *)
  let! c := get_range (is_V1 s) 0 n in
  let! v := put_range (is_V2 s) 0 c in Ok (mk_ist (is_H s) (is_V1 s) v (is_sw s)).
Definition i_shift (c : F) (_ : bool) (s : ist) : res ist := (* 88-94 *)
  Ok (mk_ist (b_shift bl (is_H s) c) (is_V1 s) (is_V2 s) (is_sw s)).
(** 77-86: V2 = alpha H V1 + beta V2, then the pointers are exchanged *)
Definition i_apply (alpha beta : F) (off blk locked : nat) (s : ist) : res ist :=
  let! x := get_range (is_V1 s) (locked + off) blk in
  let! y := get_range (is_V2 s) (locked + off) blk in
  let! v := put_range (is_V2 s) (locked + off) (zip (b_gemmN bl (is_H s) alpha beta) x y) in
  Ok (mk_ist (is_H s) v (is_V1 s) (negb (is_sw s))).
(** 211-231 *)
Definition i_rr (blk locked : nat) (s : ist) : res (list F * ist) :=
  let! c := get_range (is_V1 s) locked blk in
  let A := b_gram bl (map (b_mulH bl (is_H s)) c) c in
  let! v := put_range (is_V2 s) locked (map (b_comb bl c A) (seq 0 blk)) in
  Ok (map (b_eval bl A) (seq 0 blk), mk_ist (is_H s) v (is_V1 s) (negb (is_sw s))).
(** 255-273 *)
Definition i_resd (ritzv : list F) (locked unc : nat) (s : ist) : res (list F * ist) :=
  let! c := get_range (is_V1 s) locked unc in
  let! v := get_range ritzv 0 unc in
  let b := zip (fun vx y => b_axpy bl (b_inj bl (f_neg fo (fst vx))) (snd vx) y) (combine v c) (map (b_mulH bl (is_H s)) c) in
  let! v2 := put_range (is_V2 s) locked b in
  Ok (map (b_nrm2 bl) b, mk_ist (is_H s) (is_V1 s) v2 (is_sw s)).
(** memcpy(V2_, V1_, locked columns) at the start of every QR variant (281, 294, 319, 349) *)
Definition i_save (locked : nat) (s : ist) : res ist :=
  let! c := get_range (is_V1 s) 0 locked in
  let! v := put_range (is_V2 s) 0 c in Ok (mk_ist (is_H s) (is_V1 s) v (is_sw s)).
Definition i_set (s : ist) (f : list V -> nat -> V) : res ist :=
  let! c := get_range (is_V1 s) 0 n in
  let! v := put_range (is_V1 s) 0 (map (f c) (seq 0 n)) in Ok (mk_ist (is_H s) v (is_V2 s) (is_sw s)).
Definition i_factor (shift : bool) (s : ist) : res (Z * G) :=
  let! c := get_range (is_V1 s) 0 n in
  let A := b_syherk bl c in
  Ok (b_potrf bl (if shift then b_dshift bl A else A)).
Definition i_hhqr (locked : nat) (s : ist) : res ist :=      (* 275-285 *)
  let! s0 := i_save locked s in i_set s0 (b_hh bl).
Definition i_chol1 (locked : nat) (s : ist) : res (Z * ist) := (* 287-310 *)
  let! s0 := i_save locked s in
  let! (info, R) := i_factor false s0 in
  if negb (info =? 0)%Z then Ok (info, s0)
  else let! s1 := i_set s0 (b_trsm bl R) in Ok (info, s1).
Definition i_chol2 (locked : nat) (s : ist) : res (Z * ist) := (* 312-339 *)
  let! s0 := i_save locked s in
  let! (info, R) := i_factor false s0 in
  if negb (info =? 0)%Z then Ok (info, s0)
  else
    let! s1 := i_set s0 (b_trsm bl R) in
    let! (info2, R2) := i_factor false s1 in
    let! s2 := i_set s1 (b_trsm bl R2) in
    Ok (info2, s2).
Definition i_schol2 (locked : nat) (s : ist) : res (Z * ist) := (* 341-382 *)
  let! s0 := i_save locked s in
  let! (info, R) := i_factor true s0 in
  if negb (info =? 0)%Z then Ok (info, s0)
  else
    let! s1 := i_set s0 (b_trsm bl R) in
    let! (info2, R2) := i_factor false s1 in
    if negb (info2 =? 0)%Z then Ok (info2, s1)
    else
      let! s2 := i_set s1 (b_trsm bl R2) in
      let! (info3, R3) := i_factor false s2 in
      let! s3 := i_set s2 (b_trsm bl R3) in
      Ok (info3, s3).
Definition i_lockcopy (locked : nat) (_ : bool) (s : ist) : res ist := (* 411-414 *)
  let! c := get_range (is_V2 s) 0 locked in
  let! v := put_range (is_V1 s) 0 c in Ok (mk_ist (is_H s) v (is_V2 s) (is_sw s)).
Definition i_swap (i j : nat) (s : ist) : res ist :=         (* 416-423 *)
  let! v := swap_ (is_V1 s) i j in Ok (mk_ist (is_H s) v (is_V2 s) (is_sw s)).
Definition i_dos (idx m : nat) (rv : list F) (s : ist) : res ist := (* 425-433 *)
  let! rv := get_range rv 0 (idx * m) in
  let! c := get_range (is_V1 s) 0 m in
  let! v2 := put_range (is_V2 s) 0 (map (b_combl bl c rv) (seq 0 idx)) in
  let! c2 := get_range v2 0 m in
  let! v := put_range (is_V1 s) 0 c2 in Ok (mk_ist (is_H s) v v2 (is_sw s)).
Definition i_mlanczos (Mn : nat) (nv : option nat) (s : ist) : res (list F * list F * list F * ist) :=
  let! (d, e, b, C) := mlanczos (is_H s) Mn nv (is_V1 s) in
  Ok (d, e, b, mk_ist (is_H s) C (is_V2 s) (is_sw s)).

Definition inplD : dla F ist := {|
  d_sym := i_sym; d_start := fun s => Ok s; d_end := fun s => Ok s; d_initrnd := i_initrnd; d_init := i_init;
  d_shift := i_shift; d_apply := i_apply; d_hhqr := i_hhqr; d_chol1 := i_chol1; d_chol2 := i_chol2;
  d_schol2 := i_schol2; d_lockcopy := i_lockcopy; d_rr := i_rr; d_resd := i_resd; d_swap := i_swap;
  d_mlanczos := i_mlanczos; d_dos := i_dos |}.
End Inpl.

(** what the caller finds in the buffer passed as V1 *)
Definition user_V1 (s : ist) : list V := if is_sw s then is_V2 s else is_V1 s.
Definition inpl_state (nev nex : nat) (H : M) (V1 : list V) : ist := mk_ist H V1 (repeat (b_zero bl) (nev + nex)) false.
End Col.
