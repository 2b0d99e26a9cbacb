(** All calls of the distributed backend (ChASE-MPI/impl/chase_mpidla.hpp with chase_mpidla_blaslapack.hpp) as programs of
    process (i, j).  Block-cyclic layout, no ScaLAPACK, CPU memory.  Floating point numbers of type Base<T> are F, numbers
    of type T are D; [inj] is the conversion T(x), [re] is std::real. *)
From Coq Require Import List Arith ZArith Bool.
Require Import Verif.Base Verif.AlgModel Verif.DlaModel Verif.DistModel Verif.FlatModel Verif.RedistModel Verif.SpmdModel Verif.KerModel Verif.ClientModel.
Import ListNotations.

(** Constants used by the gathered Householder QR and the shift: N, the process's row and column tables
    (chase_mpi_properties.hpp constructor) and, for every rank of the column communicator, block lengths, block offsets and
    number of rows (blocklens_, blockdispls_, send_lens_) *)
Record gtab := mk_gtab { g_cyc : bool (* data_layout == "Block-Cyclic" *); g_N : nat; g_R : dim; g_C : dim; g_lens : list (list nat); g_offs : list (list nat); g_ms : list nat }.

(** the tables of process (i, j): chase_mpi_properties.hpp:231-460 (block-cyclic constructor), chase_mpidla.hpp:100-236 *)
Definition grid_tab (N p q mb nb rsrc csrc i j : nat) : res gtab :=
  let! R := bc_ctor N mb p rsrc i in
  let! C := bc_ctor N nb q csrc j in
  let! ts := for_ p 0 (fun k ts => let! t := bc_blocks_of N mb p rsrc k in Ok (ts ++ [t])) [] in
  Ok (mk_gtab true N R C (map (@t_lens) ts) (map (@t_offs) ts) (bc_send_lens N mb p rsrc)).
(** block constructors: chase_mpi_properties.hpp:622-726 ([ml], [nl] given by the user), 897-1015 (computed); one block per process *)
Definition blk_tab (N p q ml nl i j : nat) : gtab :=
  mk_gtab false N (blk_ctor N ml p i) (blk_ctor N nl q j) (map (fun x => [x]) (blk_send_lens N ml p)) (map (fun x => [x]) (blk_displs ml p)) (blk_send_lens N ml p).

(** LAPACK and random numbers.  [or_rnd i k]: k-th number of the generator seeded with 1337 + i drawn by initRndVecs,
    [or_test i k]: by checkSymmetryEasy; [or_far x y]: |x - y| > 1e-10; [or_hh N n A]: geqrf + gqr of the N x n array A;
    [or_shift]: the shift computed from the diagonal of the Gram matrix (chase_mpidla.hpp:1244-1258). *)
Record oracles (D : Type) := mk_or { or_rnd : nat -> nat -> D; or_test : nat -> nat -> D; or_far : D -> D -> bool;
  or_hh : nat -> nat -> list D -> nat -> nat -> D; or_po : chol (D := D); or_tri : solver (D := D); or_shift : list D -> D; or_ev : eigs (D := D) }.
Arguments or_rnd {D} _. Arguments or_test {D} _. Arguments or_far {D} _. Arguments or_hh {D} _. Arguments or_po {D} _.
Arguments or_tri {D} _. Arguments or_shift {D} _. Arguments or_ev {D} _.

Section Grid.
Context {F D : Type} (o : sops D) (fo : fops F) (inj : F -> D) (re : D -> F) (oc : oracles D).
Notation loc := (loc (D := D)).

Definition with_C (s : loc) (C : list D) : loc := mk_loc (l_H s) C (l_C2 s) (l_B s) (l_B2 s) (l_A s) (l_bAc s) (l_bAc_dla s).

(** chase_mpidla_blaslapack.hpp:85-95 *)
Definition p_initrnd (e : env) (s : loc) : res loc :=
  let! C := put_range (l_C s) 0 (map (or_rnd oc (e_i e)) (seq 0 (e_m e * e_nevex e))) in Ok (with_C s C).
(** chase_mpidla.hpp:373-382, chase_mpidla_blaslapack.hpp:75-79 *)
Definition p_init (e : env) (s : loc) : res loc :=
  let! xs := get_range (l_C s) 0 (e_m e * e_nevex e) in
  let! C2 := put_range (l_C2 s) 0 xs in
  Ok (mk_loc (l_H s) (l_C s) C2 (l_B s) (l_B2 s) (l_A s) true true).
(** chase_mpidla.hpp:725-741, chase_mpidla_blaslapack.hpp:144-164.  Simplified: the first call sets both switches to bAc,
    which initVecs has done and the QR variants keep. *)
Definition p_shift (e : env) (t : gtab) (c : F) (s : loc) : res loc :=
  let! H := dist_shift (fun x => sadd o x (inj c)) (g_R t) (g_C t) (e_ldh e) (l_H s) in
  Ok (mk_loc H (l_C s) (l_C2 s) (l_B s) (l_B2 s) (l_A s) (l_bAc s) (l_bAc_dla s)).

(** chase_mpidla.hpp:533-628 collecRedundantVecs, dimsIdx 0: the broadcasts are posted in rank order, the own part is copied
    and all are waited for; the root passes a count of send_lens_[i] * block elements (converted to int), the receivers
    block elements of a type of send_lens_[i] elements *)
Fixpoint collect_bcasts (N block rank : nat) (displs : list (list nat)) (C : list D) (ms : list nat) (i : nat) (buf : list D) : prog D (list D) :=
  match ms with
  | [] => Ret buf
  | m :: ms' =>
    if rank =? i then
      if (mpi_count (m * block) <? 0)%Z then Bad else
      let? xs := local (get_range C 0 (Z.to_nat (mpi_count (m * block)))) in
      Call ColC (ABcast i (Z.to_nat (mpi_count (m * block))) xs) (fun _ => collect_bcasts N block rank displs C ms' (S i) buf)
    else
      let? ds := local (rd displs i) in let? d := local (rd ds 0) in
      Call ColC (ABcast i (block * m) [])
        (fun r => match r with
                  | RNums ys => let? buf := local (unpack N m d 0 block ys buf) in collect_bcasts N block rank displs C ms' (S i) buf
                  | RFlag _ => Bad end)
  end.
Definition collect_part (e : env) (t : gtab) (block : nat) (C buf : list D) : prog D (list D) :=
  let displs := displs_all 0 (g_lens t) in
  let? buf := collect_bcasts (g_N t) block (e_i e) displs C (g_ms t) 0 buf in
  let? m := local (rd (g_ms t) (e_i e)) in
  let? ds := local (rd displs (e_i e)) in let? d := local (rd ds 0) in
  local (move m (g_N t) m 0 d 0 block C buf).
(** block-cyclic: through Buff_ ([buf]), then every block to its place (614-627); block: directly into the target (578-590, 602-611) *)
Definition collect_prog (e : env) (t : gtab) (block : nat) (C buf target : list D) : prog D (list D) :=
  if g_cyc t then
    let? buf := collect_part e t block C buf in
    local (gather_sort (g_N t) block (displs_all 0 (g_lens t)) (g_lens t) (g_offs t) buf target)
  else collect_part e t block C target.
(** chase_mpidla.hpp:1054-1118 without ScaLAPACK *)
Definition p_hhqr (e : env) (t : gtab) (s : loc) : prog D loc :=
  let N := g_N t in let n := e_nevex e in
  let? V := collect_prog e t n (l_C s) (repeat (s0 o) (n * N)) (repeat (s0 o) (n * N)) in
  let Q := or_hh oc N n V in
  let? C := local (pre_application N (g_R t) 0 n (flat_map (fun c => map (fun g => Q g c) (seq 0 N)) (seq 0 n)) (l_C s)) in
  Ret (mk_loc (l_H s) C (l_C2 s) (l_B s) (l_B2 s) (l_A s) true true).

(** chase_mpidla.hpp:1344-1358 *)
Definition p_lockcopy (e : env) (locked : nat) (s : loc) : res loc :=
  if e_nevex e <? locked then UB else
  let! xs := get_range (l_C2 s) 0 (locked * e_m e) in
  let! C := put_range (l_C s) 0 xs in
  let! ys := get_range C (locked * e_m e) ((e_nevex e - locked) * e_m e) in
  let! C2 := put_range (l_C2 s) (locked * e_m e) ys in
  Ok (mk_loc (l_H s) C C2 (l_B s) (l_B2 s) (l_A s) (l_bAc s) (l_bAc_dla s)).
(** chase_mpidla.hpp:1360-1369 *)
Definition swap_cols (m i j : nat) (C : list D) : res (list D) :=
  let! vv := get_range C (m * i) m in
  let! x := get_range C (m * j) m in
  let! C := put_range C (m * i) x in
  put_range C (m * j) vv.
Definition p_swap (e : env) (i j : nat) (s : loc) : res loc :=
  let! C := swap_cols (e_m e) i j (l_C s) in
  let! C := swap_cols (e_m e) i j C in Ok (with_C s C).
(** chase_mpidla_blaslapack.hpp:332-340; ritzVc is converted to T by the caller *)
Definition p_dos (e : env) (idx m : nat) (rv : list F) (s : loc) : res loc :=
  let! C2 := gemm o false (e_m e) idx m (s1 o) (l_C s) 0 (e_m e) (map inj rv) 0 m (s0 o) (l_C2 s) 0 (e_m e) in
  let! xs := get_range C2 0 (m * e_m e) in
  let! C := put_range (l_C s) 0 xs in
  Ok (mk_loc (l_H s) C C2 (l_B s) (l_B2 s) (l_A s) (l_bAc s) (l_bAc_dla s)).

(** ** mLanczos (chase_mpidla.hpp:1376-1505): blocks of nv vectors with m local rows *)
(** dot_batch; nrm2_batch followed by squaring is the same with x = y (simplified: no rounding of sqrt and pow) *)
Definition dots (m nv : nat) (x y : list D) : res (list D) :=
  for_ nv 0 (fun i acc =>
    let! d := dotp o m (fun r => let! a := rd x (i * m + r) in Ok (scj o a)) (fun r => rd y (i * m + r)) in Ok (acc ++ [d])) [].
(** axpy_batch: y_i += a_i x_i *)
Definition axpys (m nv : nat) (a x y : list D) : res (list D) :=
  for_ nv 0 (fun i y => let! ai := rd a i in
    for_ m 0 (fun r y => let! u := rd x (i * m + r) in let! v := rd y (i * m + r) in wr y (i * m + r) (sadd o v (smul o ai u))) y) y.
(** scal_batch *)
Definition scals (m nv : nat) (a x : list D) : res (list D) :=
  for_ nv 0 (fun i x => let! ai := rd a i in
    for_ m 0 (fun r x => let! u := rd x (i * m + r) in wr x (i * m + r) (smul o ai u)) x) x.

Record lml := mk_lml { lm_C : list D; lm_v0 : list D; lm_v1 : list D; lm_v2 : list D; lm_d : list F; lm_e : list F; lm_b : list F }.
Definition p_norms (e : env) (nv : nat) (x : list D) : prog D (list F) :=
  let? n2 := local (dots (e_m e) nv x x) in
  let? n2 := all_reduce ColC n2 0 nv in
  Ret (map (fun y => f_sqrt fo (re y)) n2).
Definition recips (b : list F) : list D := map (fun x => inj (f_div fo (f_one fo) x)) b.

(** one pass of the loop over k up to the test k == M - 1 *)
Definition p_ml_body (e : env) (H : list D) (second : bool) (Mn nv k : nat) (s : lml) : prog D lml :=
  let m := e_m e in
  let? C := local (if second then Ok (lm_C s)
                   else for_ nv 0 (fun i C => let! xs := get_range (lm_v1 s) (i * m) m in put_range C (k * m) xs) (lm_C s)) in
  let? vw := local (gemm o true (e_n e) nv m (s1 o) H 0 (e_ldh e) (lm_v1 s) 0 m (s0 o) (repeat (s0 o) (e_n e * nv)) 0 (e_n e)) in
  let? vw := all_reduce ColC vw 0 (e_n e * nv) in
  let? v2 := redist_prog RowC (e_b2c e) (e_i e) (e_j e) (e_n e) m 0 nv vw (lm_v2 s) in
  let? al := local (dots m nv (lm_v1 s) v2) in
  let? al := all_reduce ColC (map (sopp o) al) 0 nv in
  let? v2 := local (axpys m nv al (lm_v1 s) v2) in
  let? d := local (for_ nv 0 (fun i d => let! a := rd (map (sopp o) al) i in wr d (k + Mn * i) (re a)) (lm_d s)) in
  let? v2 := local (if k =? 0 then Ok v2 else axpys m nv (map (fun b => inj (f_neg fo b)) (lm_b s)) (lm_v0 s) v2) in
  let? b := p_norms e nv v2 in
  Ret (mk_lml C (lm_v0 s) (lm_v1 s) v2 d (lm_e s) b).
(** scaling, off-diagonals and the two exchanges of the vector blocks *)
Definition p_ml_next (e : env) (Mn nv k : nat) (s : lml) : res lml :=
  let! v2 := scals (e_m e) nv (recips (lm_b s)) (lm_v2 s) in
  let! ee := for_ nv 0 (fun i ee => let! b := rd (lm_b s) i in wr ee (k + Mn * i) b) (lm_e s) in
  Ok (mk_lml (lm_C s) (lm_v1 s) v2 (lm_v0 s) (lm_d s) ee (lm_b s)).
Fixpoint p_ml_loop (todo k : nat) (e : env) (H : list D) (second : bool) (Mn nv : nat) (s : lml) : prog D lml :=
  match todo with
  | O => Ret s
  | S t => let? s1 := p_ml_body e H second Mn nv k s in
           match t with
           | O => Ret s1
           | S _ => let? s2 := local (p_ml_next e Mn nv k s1) in p_ml_loop t (k + 1) e H second Mn nv s2
           end
  end.
Definition p_mlanczos (e : env) (Mn : nat) (numvec : option nat) (s : loc) : prog D ((list F * list F * list F) * loc) :=
  let second := match numvec with None => true | Some _ => false end in
  let nv := match numvec with None => 1 | Some n => n end in
  let m := e_m e in
  let? v1 := local (get_range (l_C s) 0 (m * nv)) in
  let? a := p_norms e nv v1 in
  let? v1 := local (scals m nv (recips a) v1) in
  let z := repeat (f_zero fo) in
  let v0 := repeat (s0 o) (m * nv) in
  let? r := p_ml_loop Mn 0 e (l_H s) second Mn nv (mk_lml (l_C s) v0 v1 v0 (z (Mn * nv)) (z (Mn * nv)) (z nv)) in
  let? C := local (if second then Ok (lm_C r) else put_range (lm_C r) 0 (lm_v1 r)) in
  Ret ((lm_d r, lm_e r, lm_b r), with_C s C).

Definition done_ {A} (x : A) : unit * A := (tt, x).
(** every call *)
Definition ker (e : env) (t : gtab) (c : call F) : loc -> prog D (answer c * loc) :=
  match c return loc -> prog D (answer c * loc) with
  | QSym => fun s => let? b := check_sym o (or_far oc) e (map (or_test oc (e_i e)) (seq 0 (e_m e))) s in Ret (b, s)
  | QStart | QEnd => fun s => Ret (done_ s)
  | QInitRnd => fun s => let? s := local (p_initrnd e s) in Ret (done_ s)
  | QInit => fun s => let? s := local (p_init e s) in Ret (done_ s)
  | QShift c _ => fun s => let? s := local (p_shift e t c s) in Ret (done_ s)
  | QApply a b off blk l => fun s => let? s := apply o e (inj a) (inj b) off blk l s in Ret (done_ s)
  | QHhqr _ => fun s => let? s := p_hhqr e t s in Ret (done_ s)
  | QChol1 _ => cholQR1 o (or_po oc) (or_tri oc) e
  | QChol2 _ => cholQR2 o (or_po oc) (or_tri oc) e
  | QSchol2 _ => shiftedcholQR2 o (or_po oc) (or_tri oc) (or_shift oc) e
  | QLockCopy l _ => fun s => let? s := local (p_lockcopy e l s) in Ret (done_ s)
  | QRr blk l => fun s => let? r := rr o (or_ev oc) e blk l s in Ret (map re (snd r), fst r)
  | QResd v l u => fun s => let? r := resd o (fun x => inj (f_sqrt fo (re x))) e (map inj v) l u s in Ret (map re (snd r), fst r)
  | QSwap i j => fun s => let? s := local (p_swap e i j s) in Ret (done_ s)
  | QLanczos Mn nv => p_mlanczos e Mn nv
  | QDos i m rv => fun s => let? s := local (p_dos e i m rv s) in Ret (done_ s)
  end.
End Grid.
