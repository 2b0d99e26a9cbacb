(** Model of the data distribution of [ChaseMpiProperties]
    (ChASE-MPI/chase_mpi_properties.hpp). [std::size_t] values are [nat];
    where an unsigned wrap is reachable it is written [mod 2^64]
    through [Z].  The loops [for (r = 0; r < N; r += mb)] are assumed not to
    wrap, i.e. N + mb < 2^64. *)
From Coq Require Import List Arith ZArith Bool Lia.
Require Import Verif.Base.
Import ListNotations.

(** chase_mpi_properties.hpp:57 [mydist = (nprocs + iproc - isrcproc) % nprocs].
    Natural subtraction: faithful for isrc <= nprocs + iproc (the theorems assume isrc < nprocs). *)
Definition mydist (iproc isrc nprocs : nat) : nat := (nprocs + iproc - isrc) mod nprocs.

(** chase_mpi_properties.hpp:51-75 numroc; division by zero (nb = 0 or nprocs = 0) is excluded by the
    theorems' hypotheses. *)
Definition numroc (n nb iproc isrc nprocs : nat) : nat * nat :=
  let d := mydist iproc isrc nprocs in
  let nblocks := n / nb in
  let base := (nblocks / nprocs) * nb in
  let extrablks := nblocks mod nprocs in
  let r := if d <? extrablks then base + nb
           else if d =? extrablks then base + n mod nb
           else base in
  let nb_loc := r / nb in
  (r, if r mod nb =? 0 then nb_loc else nb_loc + 1).

(** State of the offset loops: counter, offset table, length table. *)
Record tabs := mk_tabs { t_cnt : nat; t_offs : list nat; t_lens : list nat }.

(** chase_mpi_properties.hpp:331-346 (rows) and 350-364 (columns):
    [for (r = 0; r < N; r += mb, send = (send+1) % dims)].  The table writes are
    bounds checked. *)
Fixpoint offs_loop (fuel N mb dims coord r send : nat) (st : tabs) : res tabs :=
  if r <? N then
    match fuel with
    | O => Fuel
    | S fuel' =>
      let nr := if N - r <? mb then N - r else mb in
      let! st' :=
        (if coord =? send then
           let! o := wr (t_offs st) (t_cnt st) r in
           let! l := wr (t_lens st) (t_cnt st) nr in
           Ok (mk_tabs (t_cnt st + 1) o l)
         else Ok st) in
      offs_loop fuel' N mb dims coord (r + mb) ((send + 1) mod dims) st'
    end
  else Ok st.

(** chase_mpi_properties.hpp:370-373: [for (i = 1; i < mblocks_; i++) offs_l[i] = offs_l[i-1] + lens[i-1]]. *)
Fixpoint prefix_loop (todo i : nat) (lens offs_l : list nat) : res (list nat) :=
  match todo with
  | O => Ok offs_l
  | S todo' =>
    let! a := rd offs_l (i - 1) in
    let! b := rd lens (i - 1) in
    let! o := wr offs_l i (a + b) in
    prefix_loop todo' (i + 1) lens o
  end.

(** Per-dimension part of a distribution object as returned by
    get_m/get_mblocks/get_offs_lens (chase_mpi_properties.hpp:1186-1230). *)
Record dim := mk_dim {
  d_m : nat;           (* m_ / n_ *)
  d_blocks : nat;      (* mblocks_ / nblocks_ *)
  d_offs : list nat;   (* r_offs_ / c_offs_ *)
  d_lens : list nat;   (* r_lens_ / c_lens_ *)
  d_offs_l : list nat  (* r_offs_l_ / c_offs_l_ *)
}.

(** One dimension of the block-cyclic constructor,
    chase_mpi_properties.hpp:302-378.  (The C++ code interleaves the two dimensions; they do not share state.) *)
Definition bc_ctor (N mb dims src coord : nat) : res dim :=
  let '(m, mblocks) := numroc N mb coord src dims in
  let! st := offs_loop N N mb dims coord 0 src
               (mk_tabs 0 (repeat 0 mblocks) (repeat 0 mblocks)) in
  let! o0 := wr (repeat 0 mblocks) 0 0 in             (* line 367: r_offs_l_[0] = 0 *)
  let! ol := prefix_loop (mblocks - 1) 1 (t_lens st) o0 in
  Ok (mk_dim m mblocks (t_offs st) (t_lens st) ol).

(** chase_mpi_properties.hpp:384-394: [send_lens_[dim][i]]: local sizes of every coordinate. *)
Definition bc_send_lens (N mb dims src : nat) : list nat :=
  map (fun i => fst (numroc N mb i src dims)) (seq 0 dims).

(** chase_mpi_properties.hpp:403-437: [block_displs_]/[block_lens_] of coordinate i: the same loop as above run for every i. *)
Definition bc_blocks_of (N mb dims src i : nat) : res tabs :=
  let cntb := snd (numroc N mb i src dims) in
  offs_loop N N mb dims i 0 src (mk_tabs 0 (repeat 0 cntb) (repeat 0 cntb)).

(** ** Block distributions *)

Definition w64 : Z := 2 ^ 64.
(** size_t subtraction *)
Definition sub64 (a b : nat) : nat := Z.to_nat ((Z.of_nat a - Z.of_nat b) mod w64).

(** chase_mpi_properties.hpp:897-904, 916-923 automatic block constructor: the local length [len];
    N % d == 0 ? N/d : min(N, N/d + 1).  (The C++ variable is an [int]: faithful for N < 2^31.) *)
Definition auto_len (N d : nat) : nat :=
  if N mod d =? 0 then N / d else Nat.min N (N / d + 1).

(** chase_mpi_properties.hpp:623-632 (user length m) and 905-914 (automatic length):
    off = coord*len; size = len for coord < d-1 and N - (d-1)*len (size_t, wraps) on the last. *)
Definition blk_off (len coord : nat) : nat := coord * len.
Definition blk_size (N len d coord : nat) : nat :=
  if coord <? d - 1 then len else sub64 N ((d - 1) * len).

(** chase_mpi_properties.hpp:647-657, 936-946: the block size mb_/nb_ stored on every rank:
    the local size, and on the last of several coordinates (N - size)/(d-1). *)
Definition blk_mb (N len d coord : nat) : nat :=
  let m := blk_size N len d coord in
  if (coord =? d - 1) && negb (d =? 1) then sub64 N m / (d - 1) else m.

(** chase_mpi_properties.hpp:659-677, 948-966: one block per rank. *)
Definition blk_ctor (N len d coord : nat) : dim :=
  mk_dim (blk_size N len d coord) 1 [blk_off len coord] [blk_size N len d coord] [0].

(** chase_mpi_properties.hpp:694-726, 983-1015: send_lens_ and block_displs_ of all coordinates, computed
    redundantly on every rank: len for all, then the last one overwritten by N - (d-1)*len. *)
Definition blk_send_lens (N len d : nat) : list nat :=
  upd (repeat len d) (d - 1) (sub64 N ((d - 1) * len)).
Definition blk_displs (len d : nat) : list nat :=
  upd (map (fun i => i * len) (seq 0 d)) (d - 1) ((d - 1) * len).
