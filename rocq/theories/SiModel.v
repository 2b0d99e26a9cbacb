(** Memory-level model of chase_mpidla_blaslapack_seq_inplace.hpp: two arrays V1_, V2_ whose pointers are exchanged, the workspace
    A_ with leading dimension nev_ + nex_.  Library calls and their operands as in SfModel.v. *)
From Coq Require Import List Arith ZArith Bool.
Require Import Verif.Base Verif.AlgModel Verif.DlaModel Verif.ColModel Verif.SfModel.
Import ListNotations.

Section Si.
Context {F T : Type} (fo : fops F) (lib : flib F T).

(** fields 616-627; [g_sw]: V1_ points to matrices_.B(), V2_ to the caller's array *)
Record ifst := mk_if { g_H : list T; g_V1 : list T; g_V2 : list T; g_A : list T; g_sw : bool }.

Section Inpl.
Context (N ldh n : nat) (* N_, ldh_, nev_ + nex_ *).

(** shiftMatrix 88-94, checkSymmetryEasy 115-158, initRndVecs 58-69, mLanczos 435-531 and the batched operations 567-613 are the
    text of the sequential backend with V1_ for C_ *)
Definition as_seq (s : ifst) : fst_ := mk_fs (g_H s) (g_V1 s) (g_V2 s) [] [] (g_A s) true.
Definition g_sym (s : ifst) : res (bool * ifst) := let! (b, _) := s_sym lib N ldh (as_seq s) in Ok (b, s).
Definition g_shift (c : F) (u : bool) (s : ifst) : res ifst :=
  let! f := s_shift lib N ldh c u (as_seq s) in Ok (mk_if (f_H f) (g_V1 s) (g_V2 s) (g_A s) (g_sw s)).
Definition g_initrnd (s : ifst) : res ifst :=
  let! f := s_initrnd lib N n (as_seq s) in Ok (mk_if (g_H s) (f_C f) (g_V2 s) (g_A s) (g_sw s)).
Definition g_mlanczos (M : nat) (nv : option nat) (s : ifst) : res (list F * list F * list F * ifst) :=
  let! (d, e, b, f) := s_mlanczos fo lib N ldh M nv (as_seq s) in
  Ok (d, e, b, mk_if (g_H s) (f_C f) (g_V2 s) (g_A s) (g_sw s)).

(** initVecs: 54-57 *)
Definition g_init (s : ifst) : res ifst :=
  let! V2 := lacpy N n (g_V1 s) N (g_V2 s) N in Ok (mk_if (g_H s) (g_V1 s) V2 (g_A s) (g_sw s)).

(** apply: 77-86 *)
Definition g_apply (alpha beta : F) (offset block locked : nat) (s : ifst) : res ifst :=
  let! V2 := gemm lib false N block N alpha (g_H s) 0 ldh (g_V1 s) (offset * N + locked * N) N beta (g_V2 s) (locked * N + offset * N) N in
  Ok (mk_if (g_H s) V2 (g_V1 s) (g_A s) (negb (g_sw s))).

(** RR: 211-231; the blk x blk matrices occupy the corner of A_ *)
Definition g_rr (block locked : nat) (s : ifst) : res (list F * ifst) :=
  let! V2 := gemm0 lib true N block N (g_H s) 0 ldh (g_V1 s) (locked * N) N (g_V2 s) (locked * N) N in
  let! A := gemm0 lib true block block N V2 (locked * N) N (g_V1 s) (locked * N) N (g_A s) 0 n in
  let! (w, A') := heevd lib block A n in
  let! V2' := gemm0 lib false N block block (g_V1 s) (locked * N) N A' 0 n V2 (locked * N) N in
  Ok (w, mk_if (g_H s) V2' (g_V1 s) A' (negb (g_sw s))).

(** Resd: 255-273 *)
Definition g_resd (ritzv : list F) (locked unc : nat) (s : ifst) : res (list F * ifst) :=
  let! V2 := gemm0 lib true N unc N (g_H s) 0 ldh (g_V1 s) (locked * N) N (g_V2 s) (locked * N) N in
  let! (V2', r) := for_ unc 0 (fun i p =>
      let! v := rd ritzv i in
      let! V := axpy lib N (l_inj lib (f_neg fo v)) (g_V1 s) (locked * N + N * i) (fst p) (locked * N + N * i) in
      let! x := get_range V (locked * N + N * i) N in
      Ok (V, snd p ++ [l_nrm2 lib x])) (V2, []) in
  Ok (r, mk_if (g_H s) (g_V1 s) V2' (g_A s) (g_sw s)).

(** memcpy(V2_, V1_, locked * N_) at the start of the QR variants: 281, 294, 319, 349 *)
Definition g_save (locked : nat) (s : ifst) : res ifst :=
  let! V2 := cpy (g_V2 s) 0 (g_V1 s) 0 (locked * N) in Ok (mk_if (g_H s) (g_V1 s) V2 (g_A s) (g_sw s)).
Definition set_VA (s : ifst) (V A : list T) : ifst := mk_if (g_H s) V (g_V2 s) A (g_sw s).

(** hhQR: 275-285 *)
Definition g_hhqr (locked : nat) (s : ifst) : res ifst :=
  let! s0 := g_save locked s in
  let! (V, tau) := geqrf lib N n (g_V1 s0) N in
  let! V' := gqr lib N n V N tau in Ok (set_VA s0 V' (g_A s0)).

(** cholQR1: 287-310 *)
Definition g_chol1 (locked : nat) (s : ifst) : res (Z * ifst) :=
  let! s0 := g_save locked s in
  let! A := syherk lib n N (g_V1 s0) N (g_A s0) n in
  let! (info, A1) := potrf lib n A n in
  if negb (info =? 0)%Z then Ok (info, set_VA s0 (g_V1 s0) A1)
  else let! V := trsm lib N n A1 n (g_V1 s0) N in Ok (info, set_VA s0 V A1).

(** cholQR2: 312-339 *)
Definition g_chol2 (locked : nat) (s : ifst) : res (Z * ifst) :=
  let! s0 := g_save locked s in
  let! A := syherk lib n N (g_V1 s0) N (g_A s0) n in
  let! (info, A1) := potrf lib n A n in
  if negb (info =? 0)%Z then Ok (info, set_VA s0 (g_V1 s0) A1)
  else
    let! V := trsm lib N n A1 n (g_V1 s0) N in
    let! A2 := syherk lib n N V N A1 n in
    let! (info2, A3) := potrf lib n A2 n in
    let! V' := trsm lib N n A3 n V N in
    Ok (info2, set_VA s0 V' A3).

(** shiftedcholQR2: 341-382; returns early when the second factorisation fails *)
Definition g_schol2 (locked : nat) (s : ifst) : res (Z * ifst) :=
  let! s0 := g_save locked s in
  let! A := syherk lib n N (g_V1 s0) N (g_A s0) n in
  let! nrmf := abs_sum fo lib A n n in
  let! As := qr_shift lib A n (l_qshift lib N nrmf) in
  let! (info, A1) := potrf lib n As n in
  if negb (info =? 0)%Z then Ok (info, set_VA s0 (g_V1 s0) A1)
  else
    let! V := trsm lib N n A1 n (g_V1 s0) N in
    let! A2 := syherk lib n N V N A1 n in
    let! (info2, A3) := potrf lib n A2 n in
    if negb (info2 =? 0)%Z then Ok (info2, set_VA s0 V A3)
    else
      let! V' := trsm lib N n A3 n V N in
      let! A4 := syherk lib n N V' N A3 n in
      let! (info3, A5) := potrf lib n A4 n in
      let! V'' := trsm lib N n A5 n V' N in
      Ok (info3, set_VA s0 V'' A5).

(** lockVectorCopyAndOrthoConcatswap: 411-414 *)
Definition g_lockcopy (locked : nat) (_ : bool) (s : ifst) : res ifst :=
  let! V := cpy (g_V1 s) 0 (g_V2 s) 0 (locked * N) in Ok (set_VA s V (g_A s)).
(** Swap: 416-423 *)
Definition g_swap (i j : nat) (s : ifst) : res ifst :=
  let! V := swap_cols N (g_V1 s) i j in Ok (set_VA s V (g_A s)).
(** LanczosDos: 425-433 *)
Definition g_dos (idx m : nat) (rv : list F) (s : ifst) : res ifst :=
  let! V2 := gemm0 lib false N idx m (g_V1 s) 0 N (map (l_inj lib) rv) 0 m (g_V2 s) 0 N in
  let! V := cpy (g_V1 s) 0 V2 0 (m * N) in Ok (mk_if (g_H s) V V2 (g_A s) (g_sw s)).

Definition iflatD : dla F ifst := {|
  d_sym := g_sym; d_start := fun s => Ok s; d_end := fun s => Ok s; d_initrnd := g_initrnd; d_init := g_init;
  d_shift := g_shift; d_apply := g_apply; d_hhqr := g_hhqr; d_chol1 := g_chol1; d_chol2 := g_chol2;
  d_schol2 := g_schol2; d_lockcopy := g_lockcopy; d_rr := g_rr; d_resd := g_resd; d_swap := g_swap;
  d_mlanczos := g_mlanczos; d_dos := g_dos |}.
End Inpl.

(** constructor 37-50 *)
Definition iflat_state (N nev nex : nat) (H V1 : list T) : ifst :=
  let z := repeat (l_zero lib) in mk_if H V1 (z (N * (nev + nex))) (z ((nev + nex) * (nev + nex))) false.
(** what the caller finds in the array passed as V1 *)
Definition user_array (s : ifst) : list T := if g_sw s then g_V2 s else g_V1 s.
End Si.
