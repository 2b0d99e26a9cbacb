(** Memory-level model of the single-GPU backend (ChASE-MPI/impl/chase_mpidla_cuda_seq.hpp, cited by line): the caller's host
    arrays H_ (leading dimension ldh_) and V1_, the device arrays d_H_ (leading dimension N_), d_V1_, d_V2_, d_A_ (leading
    dimension max_block_ = nev_ + nex_), d_ritz_ and d_resids_.  cuBLAS and cuSOLVER are the library calls of SfModel.v (the
    cuBLAS and the host gemm of one run need not round alike; here they are one oracle).  Kernels of shift.cu appear with the
    effect proved for them in C56-C60; computeDiagonalAbsSum as if its cell were cleared (it is not, see C61).  Work areas of
    cuSOLVER are not modelled.  Program order as in GpuModel.v. *)
From Coq Require Import List Arith ZArith Bool.
Require Import Verif.Base Verif.AlgModel Verif.DlaModel Verif.ColModel Verif.SfModel Verif.SiModel.
Import ListNotations.

Section Sg.
Context {F T : Type} (fo : fops F) (lib : flib F T).

(** [u_d]: the device arrays; its flag tells that d_V1_ and d_V2_ are exchanged *)
Record gfs := mk_gf { u_H : list T; u_V : list T; u_d : ifst (T := T); u_ritz : list F; u_res : list F }.
Definition with_d (s : gfs) (d : ifst) : gfs := mk_gf (u_H s) (u_V s) d (u_ritz s) (u_res s).
Definition on_d (s : gfs) (x : res ifst) : res gfs := let! d := x in Ok (with_d s d).
Definition on_dv {X} (s : gfs) (x : res (X * ifst)) : res (X * gfs) := let! (v, d) := x in Ok (v, with_d s d).

Section Gpu.
Context (N ldh n : nat) (* N_, ldh_, max_block_ *).

(** checkSymmetryEasy: 335-379, on the host with the text of the sequential backend *)
Definition u_sym (s : gfs) : res (bool * gfs) :=
  let! (b, _) := s_sym lib N ldh (mk_fs (u_H s) [] [] [] [] [] true) in Ok (b, s).

(** initRndVecs: 279-284; the kernel writes N_*(nev_+nex_) consecutive elements *)
Definition u_initrnd (s : gfs) : res gfs :=
  let d := u_d s in
  let! V := put_range (g_V1 d) 0 (tab (N * n) (l_rnd lib)) in Ok (with_d s (set_VA d V (g_A d))).

(** initVecs: 273-278; cublasSetMatrix copies the N_ x N_ matrix from leading dimension ldh_ to N_ *)
Definition u_init (s : gfs) : res gfs :=
  let d := u_d s in
  let! V2 := cpy (g_V2 d) 0 (g_V1 d) 0 (n * N) in
  let! A := rdm (u_H s) 0 ldh N N in
  let! H := wrm (g_H d) 0 N N A in
  Ok (with_d s (mk_if H (g_V1 d) V2 (g_A d) (g_sw d))).

(** shiftMatrix: 305-308, apply: 293-303 *)
Definition u_shift (c : F) (u : bool) (s : gfs) : res gfs := on_d s (g_shift lib N N c u (u_d s)).
Definition u_apply (alpha beta : F) (offset block locked : nat) (s : gfs) : res gfs :=
  on_d s (g_apply lib N N alpha beta offset block locked (u_d s)).

(** RR: 447-478; heevd stores the values in d_ritz_, from where they are copied to the caller *)
Definition u_rr (block locked : nat) (s : gfs) : res (list F * gfs) :=
  let! (w, d) := g_rr lib N N n block locked (u_d s) in
  let! r := put_range (u_ritz s) 0 w in
  let! out := get_range r 0 block in
  Ok (out, mk_gf (u_H s) (u_V s) d r (u_res s)).

(** Resd: 502-519; ritzv is not used *)
Definition u_resd (_ : list F) (locked unc : nat) (s : gfs) : res (list F * gfs) :=
  let d := u_d s in
  let! V2 := gemm0 lib true N unc N (g_H d) 0 N (g_V1 d) (locked * N) N (g_V2 d) (locked * N) N in
  let! r := for_ unc 0 (fun i r =>
      let! v := rd (u_ritz s) i in
      let! x := get_range (g_V1 d) (locked * N + i * N) N in
      let! y := get_range V2 (locked * N + i * N) N in
      wr r i (l_nrm2 lib (zip (l_axpy lib (l_inj lib (f_neg fo v))) x y))) (u_res s) in
  let! out := get_range r 0 unc in
  Ok (out, mk_gf (u_H s) (u_V s) (mk_if (g_H d) (g_V1 d) V2 (g_A d) (g_sw d)) (u_ritz s) r).

(** hhQR: 521-535, cholQR1: 537-585 *)
Definition u_hhqr (locked : nat) (s : gfs) : res gfs := on_d s (g_hhqr lib N n locked (u_d s)).
Definition u_chol1 (locked : nat) (s : gfs) : res (Z * gfs) := on_dv s (g_chol1 lib N n locked (u_d s)).

(** cholQR2: 587-649; devInfo_ is read after the first factorisation only *)
Definition ud_chol2 (locked : nat) (s : ifst) : res (Z * ifst) :=
  let! s0 := g_save N locked s in
  let! A := syherk lib n N (g_V1 s0) N (g_A s0) n in
  let! (info, A1) := potrf lib n A n in
  if negb (info =? 0)%Z then Ok (info, set_VA s0 (g_V1 s0) A1)
  else
    let! V := trsm lib N n A1 n (g_V1 s0) N in
    let! A2 := syherk lib n N V N A1 n in
    let! (_, A3) := potrf lib n A2 n in
    let! V' := trsm lib N n A3 n V N in
    Ok (info, set_VA s0 V' A3).
Definition u_chol2 (locked : nat) (s : gfs) : res (Z * gfs) := on_dv s (ud_chol2 locked (u_d s)).

(** shiftedcholQR2: 651-741; devInfo_ is not read after the third factorisation *)
Definition ud_schol2 (locked : nat) (s : ifst) : res (Z * ifst) :=
  let! s0 := g_save N locked s in
  let! A := syherk lib n N (g_V1 s0) N (g_A s0) n in
  let! nrmf := abs_sum fo lib A n n in
  let! As := qr_shift lib A n (l_qshift lib N nrmf) in
  let! (info, A1) := potrf lib n As n in
  if negb (info =? 0)%Z then Ok (info, set_VA s0 (g_V1 s0) A1)
  else
    let! V := trsm lib N n A1 n (g_V1 s0) N in
    let! A2 := syherk lib n N V N A1 n in
    let! (info2, A3) := potrf lib n A2 n in
    if negb (info2 =? 0)%Z then Ok (info2, set_VA s0 V A3)
    else
      let! V' := trsm lib N n A3 n V N in
      let! A4 := syherk lib n N V' N A3 n in
      let! (_, A5) := potrf lib n A4 n in
      let! V'' := trsm lib N n A5 n V' N in
      Ok (info2, set_VA s0 V'' A5).
Definition u_schol2 (locked : nat) (s : gfs) : res (Z * gfs) := on_dv s (ud_schol2 locked (u_d s)).

(** lockVectorCopyAndOrthoConcatswap: 773-777, Swap: 779-787 (through the buffer d_v1_) *)
Definition u_lockcopy (locked : nat) (hh : bool) (s : gfs) : res gfs := on_d s (g_lockcopy N locked hh (u_d s)).
Definition u_swap (i j : nat) (s : gfs) : res gfs := on_d s (g_swap N i j (u_d s)).

(** LanczosDos: 789-800; the m x idx coefficients go to the corner of d_A_ *)
Definition ud_dos (idx m : nat) (rv : list F) (d : ifst) : res ifst :=
  let! R := rdm (map (l_inj lib) rv) 0 m m idx in
  let! A := wrm (g_A d) 0 n m R in
  let! V2 := gemm0 lib false N idx m (g_V1 d) 0 N A 0 n (g_V2 d) 0 N in
  let! V := cpy (g_V1 d) 0 V2 0 (m * N) in
  Ok (mk_if (g_H d) V V2 A (g_sw d)).
Definition u_dos (idx m : nat) (rv : list F) (s : gfs) : res gfs := on_d s (ud_dos idx m rv (u_d s)).

(** axpy_batch: 971-979; alpha, not &alpha[i], is passed in every turn *)
Definition ua_batch (a : list T) (x y : list T) (count : nat) : res (list T) :=
  for_ count 0 (fun i y => let! c := rd a 0 in axpy lib N c x (i * N) y (i * N)) y.
(** mLanczos: 802-903; v_0, v_1, v_2 are device matrices (leading dimension N_), applyVec: 950-961 (OP_N) *)
Definition um_body (H : list T) (second : bool) (M numvec k : nat) (s : fml (F := F) (T := T)) : res fml :=
  let! C := (if second then Ok (m_C s)
             else for_ numvec 0 (fun i C => cpy C (k * N) (m_v1 s) (i * N) N) (m_C s)) in
  let! w := gemm0 lib false N numvec N H 0 N (m_v1 s) 0 N (m_w s) 0 N in
  let! al := dot_batch lib N (m_v1 s) w (repeat (l_zero lib) numvec) numvec in
  let alpha := map (l_neg lib) al in
  let! w1 := ua_batch alpha (m_v1 s) w numvec in
  let alpha' := map (l_neg lib) alpha in
  let! d := for_ numvec 0 (fun i d => let! a := rd alpha' i in wr d (k + M * i) (l_re lib a)) (m_d s) in
  let! w2 := (if k =? 0 then Ok w1
              else ua_batch (map (fun b => l_inj lib (f_neg fo b)) (m_b s)) (m_v0 s) w1 numvec) in
  let! b := nrm2_batch lib N w2 numvec (m_b s) in
  Ok (mk_fm C (m_v0 s) (m_v1 s) w2 d (m_e s) b).
Fixpoint um_loop (todo k : nat) (H : list T) (second : bool) (M numvec : nat) (s : fml) : res fml :=
  match todo with
  | O => Ok s
  | S t => let! s1 := um_body H second M numvec k s in
           match t with
           | O => Ok s1
           | S _ => let! s2 := fm_next fo lib N M numvec k s1 in um_loop t (k + 1) H second M numvec s2
           end
  end.
Definition ud_mlanczos (M : nat) (nv : option nat) (d : ifst) : res (list F * list F * list F * ifst) :=
  let '(second, numvec) := match nv with None => (true, 1) | Some k => (false, k) end in
  let fresh := repeat (l_zero lib) (N * numvec) in
  let! v1 := cpy fresh 0 (g_V1 d) 0 (N * numvec) in
  let! ra := nrm2_batch lib N v1 numvec (repeat (f_zero fo) numvec) in
  let! v1' := scal_batch lib N (map (fun r => l_inj lib (f_div fo (f_one fo) r)) ra) v1 numvec in
  let z := repeat (f_zero fo) in
  let! m := um_loop M 0 (g_H d) second M numvec
              (mk_fm (g_V1 d) fresh v1' fresh (z (M * numvec)) (z (M * numvec)) (z numvec)) in
  let! C := (if second then Ok (m_C m) else cpy (m_C m) 0 (m_v1 m) 0 (N * numvec)) in
  Ok (m_d m, m_e m, m_b m, set_VA d C (g_A d)).
Definition u_mlanczos (M : nat) (nv : option nat) (s : gfs) : res (list F * list F * list F * gfs) :=
  let! (x, e, b, d) := ud_mlanczos M nv (u_d s) in Ok (x, e, b, with_d s d).

(** End: 405-409 *)
Definition u_end (s : gfs) : res gfs :=
  let! V := cpy (u_V s) 0 (g_V1 (u_d s)) 0 (n * N) in Ok (mk_gf (u_H s) V (u_d s) (u_ritz s) (u_res s)).

Definition gflatD : dla F gfs := {|
  d_sym := u_sym; d_start := fun s => Ok s; d_end := u_end; d_initrnd := u_initrnd; d_init := u_init;
  d_shift := u_shift; d_apply := u_apply; d_hhqr := u_hhqr; d_chol1 := u_chol1; d_chol2 := u_chol2;
  d_schol2 := u_schol2; d_lockcopy := u_lockcopy; d_rr := u_rr; d_resd := u_resd; d_swap := u_swap;
  d_mlanczos := u_mlanczos; d_dos := u_dos |}.
End Gpu.

(** constructor 167-240 with chase_mpi_matrices.hpp:114-170, 315-341: device arrays are zero filled, nothing is copied *)
Definition gflat_state (N nev nex : nat) (H V1 : list T) : gfs :=
  let z := repeat (l_zero lib) in let n := nev + nex in
  mk_gf H V1 (mk_if (z (N * N)) (z (N * n)) (z (N * n)) (z (n * n)) false) (repeat (f_zero fo) n) (repeat (f_zero fo) n).
End Sg.
