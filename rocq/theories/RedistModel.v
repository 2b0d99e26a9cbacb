(** Model of the redistribution of vector blocks between the row layout (C: split over the column communicator like the
    rows of H) and the column layout (B: split over the row communicator like the columns of H),
    ChASE-MPI/impl/chase_mpidla.hpp.  Process (i, j): i = col_rank_ (position in its column communicator, 0 <= i < p),
    j = row_rank_ (0 <= j < q); p = col_size_, q = row_size_. *)
From Coq Require Import List Arith Bool.
Require Import Verif.Base Verif.DistModel.
Import ListNotations.

(** One entry of the parallel vectors c_dests, c_srcs, c_lens, b_disps, c_disps (chase_mpidla.hpp:139-186); the second
    set b_dests, b_srcs, b_lens, b_disps_2, c_disps_2 (189-236) is the same list with destination and source exchanged. *)
Record run := mk_run { r_dest : nat; r_src : nat; r_len : nat; r_dd : nat; r_sd : nat }.

(** chase_mpidla.hpp:163-185: the loop over i = 1 .. N-1.  [cur]: the open run (c_dest, c_src, c_len and the
    displacements pushed last); [acc]: the closed runs. *)
Fixpoint runs_loop (ms ps md pd : nat) (todo i : nat) (cur : run) (acc : list run) : list run :=
  match todo with
  | O => acc ++ [cur]
  | S todo' =>
    let src_tmp := (i / ms) mod ps in
    let dest_tmp := (i / md) mod pd in
    if (dest_tmp =? r_dest cur) && (src_tmp =? r_src cur) then
      runs_loop ms ps md pd todo' (i + 1) (mk_run (r_dest cur) (r_src cur) (r_len cur + 1) (r_dd cur) (r_sd cur)) acc
    else
      runs_loop ms ps md pd todo' (i + 1)
        (mk_run ((i / md) mod pd) ((i / ms) mod ps) 1 (i mod md + (i / md / pd) * md) (i mod ms + (i / ms / ps) * ms))
        (acc ++ [cur])
  end.
(** chase_mpidla.hpp:151-186 (source layout: block ms, ps processes, first block on ssrc; destination likewise) *)
Definition runs (N ms ps ssrc md pd dsrc : nat) : list run :=
  runs_loop ms ps md pd (N - 1) 1 (mk_run dsrc ssrc 1 0 0) [].
(** chase_mpidla.hpp:140-150: both layouts coincide; [lens] is send_lens_[0] *)
Definition runs_same (lens : list nat) : list run :=
  map (fun il => mk_run (fst il) (fst il) (snd il) 0 0) (combine (seq 0 (length lens)) lens).

Section Move.
Context {T : Type}.

(** lacpy of [len] rows and [block] columns, from row sd / column off of S (leading dimension lds) to row dd / column off of D *)
Definition move (lds ldd len sd dd off block : nat) (S D : list T) : res (list T) :=
  for_ block off (fun c D => let! xs := get_range S (sd + c * lds) len in put_range D (dd + c * ldd) xs) D.

(** chase_mpidla.hpp:1594-1631 C2B(T* ) on process (i, j) (and, with the roles of the two layouts exchanged, B2C(T* )
    1507-1544): for every run addressed to this process the data of process (src, j) arrive through the derived types
    (253-303), or by lacpy when the process is the source itself.  [S s]: the source array of member s of the communicator;
    [lds s]: its number of rows.  off2 is ignored by the code: both sides use off1. *)
Definition redist (rs : list run) (me : nat) (lds : nat -> nat) (ldd off block : nat) (S : nat -> list T) (D : list T) : res (list T) :=
  fold_left (fun D r => let! D := D in
    if me =? r_dest r then move (lds (r_src r)) ldd (r_len r) (r_sd r) (r_dd r) off block (S (r_src r)) D else Ok D) rs (Ok D).

(** chase_mpidla.hpp:691-705 (asynCxHGatherC) and 1577-1590 (B2C(Matrix)): every member of the communicator, source or
    not, first packs [len] rows at [sd] of its own array, with its own leading dimension.  [mine]: this process. *)
Definition pack (lds len sd off block : nat) (S : list T) : res (list (list T)) :=
  for_ block off (fun c acc => let! xs := get_range S (sd + c * lds) len in Ok (acc ++ [xs])) [].
Definition redist_pack (rs : list run) (me : nat) (lds : nat -> nat) (ldd off block : nat) (S : nat -> list T) (mine : nat) (D : list T) : res (list T) :=
  fold_left (fun D r => let! D := D in
    if me =? r_dest r then
      let! _ := pack (lds mine) (r_len r) (r_sd r) off block (S mine) in
      move (lds (r_src r)) ldd (r_len r) (r_sd r) (r_dd r) off block (S (r_src r)) D
    else Ok D) rs (Ok D).

(** chase_mpidla.hpp:666-688 (asynCxHGatherC, same distribution) and 1549-1575: whole columns are broadcast by the
    diagonal process of the communicator; the diagonal process copies. *)
Definition redist_same (me mine : nat) (ms md off block : nat) (S : nat -> list T) (D : list T) : res (list T) :=
  if mine =? me then move ms md ms 0 0 off block (S me) D
  else let! xs := get_range (S me) (off * ms) (block * ms) in put_range D (off * md) xs.
End Move.

(** ** Gathering a distributed block of vectors on every process, and scattering it *)
Section Gather.
Context {T : Type}.

(** chase_mpidla.hpp:103-117 block_cyclic_displs_: running sum of the block lengths over coordinates and blocks *)
Fixpoint displs_row (cnt : nat) (lens : list nat) : list nat * nat :=
  match lens with [] => ([], cnt) | x :: lens' => let '(r, c) := displs_row (cnt + x) lens' in (cnt :: r, c) end.
Fixpoint displs_all (cnt : nat) (lens : list (list nat)) : list (list nat) :=
  match lens with [] => [] | l :: lens' => let '(r, c) := displs_row cnt l in r :: displs_all c lens' end.

(** chase_mpidla.hpp:559-606: the pieces of all members arrive in [buf] (leading dimension N), each at the first
    displacement of its owner; the own piece is copied.  [ms]: send_lens_; reading displacement 0 of a member without
    blocks is out of bounds (also line 126 in the constructor). *)
Definition gather_parts (N block : nat) (displs : list (list nat)) (ms : list nat) (S : nat -> list T) (buf : list T) : res (list T) :=
  for_ (length ms) 0 (fun i buf =>
    let! ds := rd displs i in let! d := rd ds 0 in let! m := rd ms i in move m N m 0 d 0 block (S i) buf) buf.
(** chase_mpidla.hpp:610-627: block-cyclic layout: every block goes to its global place *)
Definition gather_sort (N block : nat) (displs lens offs : list (list nat)) (buf target : list T) : res (list T) :=
  for_ (length lens) 0 (fun j target =>
    let! ls := rd lens j in
    for_ (length ls) 0 (fun i target =>
      let! ds := rd displs j in let! os := rd offs j in
      let! len := rd ls i in let! d := rd ds i in let! o := rd os i in move N N len d o 0 block buf target) target) target.
(** chase_mpidla.hpp:533-628 collecRedundantVecs *)
Definition collect_cyclic (N block : nat) (lens offs : list (list nat)) (ms : list nat) (S : nat -> list T) (buf target : list T) : res (list T) :=
  let displs := displs_all 0 lens in
  let! buf := gather_parts N block displs ms S buf in gather_sort N block displs lens offs buf target.
Definition collect_block (N block : nat) (lens : list (list nat)) (ms : list nat) (S : nat -> list T) (target : list T) : res (list T) :=
  gather_parts N block (displs_all 0 lens) ms S target.

(** chase_mpidla.hpp:424-449 preApplication: V (leading dimension N) into the local C (leading dimension m) *)
Definition pre_application (N : nat) (R : dim) (locked block : nat) (V C : list T) : res (list T) :=
  for_ block 0 (fun j C => for_ (d_blocks R) 0 (fun i C =>
    let! ol := rd (d_offs_l R) i in let! o := rd (d_offs R) i in let! l := rd (d_lens R) i in
    let! xs := get_range V (j * N + locked * N + o) l in put_range C (j * d_m R + ol + locked * d_m R) xs) C) C.
End Gather.
