(** Element-level model of the kernels that walk over the stored matrix H: column-major arrays (lists) with a leading
    dimension, checked accesses.  The entry type T is arbitrary; arithmetic on entries is passed in. *)
From Coq Require Import List Arith Bool.
Require Import Verif.Base Verif.DistModel.
Import ListNotations.

Section Flat.
Context {T : Type}.

(** chase_mpidla_blaslapack_seq.hpp:107-113, chase_mpidla_blaslapack_seq_inplace.hpp:88-94; [addc x] is x + c *)
Definition seq_shift (addc : T -> T) (N ldh : nat) (H : list T) : res (list T) :=
  for_ N 0 (fun i H => let! x := rd H (i + i * ldh) in wr H (i + i * ldh) (addc x)) H.

(** chase_mpidla_blaslapack_seq.hpp:188-209, chase_mpidla_blaslapack_seq_inplace.hpp:160-181; [upper]: uplo == 'U' *)
Definition seq_symherm (cj : T -> T) (upper : bool) (N ldh : nat) (H : list T) : res (list T) :=
  if upper then
    for_ N 0 (fun j H => for_ j 0 (fun i H => let! x := rd H (i + j * ldh) in wr H (j + i * ldh) (cj x)) H) H
  else
    for_ N 0 (fun i H => for_ i 0 (fun j H => let! x := rd H (i + j * ldh) in wr H (j + i * ldh) (cj x)) H) H.

(** The fourfold loop over the tiles of the local matrix shared by chase_mpidla_blaslapack.hpp:144-164 and
    chase_mpidla.hpp:836-872.  [R], [C]: row and column tables of the process.  [act g h] says what happens to the
    entry whose global position is (g, h): nothing, or an update.  (The tables are read once per tile.) *)
Definition tiles (R C : dim) (ldh : nat) (act : nat -> nat -> option (T -> T)) (H : list T) : res (list T) :=
  for_ (d_blocks C) 0 (fun j H =>
    for_ (d_blocks R) 0 (fun i H =>
      let! clen := rd (d_lens C) j in let! coff := rd (d_offs C) j in let! cloc := rd (d_offs_l C) j in
      let! rlen := rd (d_lens R) i in let! roff := rd (d_offs R) i in let! rloc := rd (d_offs_l R) i in
      for_ clen 0 (fun q H => for_ rlen 0 (fun p H =>
        match act (p + roff) (q + coff) with
        | None => Ok H
        | Some f => let! x := rd H ((q + cloc) * ldh + p + rloc) in wr H ((q + cloc) * ldh + p + rloc) (f x)
        end) H) H) H) H.

(** chase_mpidla_blaslapack.hpp:144-164 *)
Definition dist_shift (addc : T -> T) (R C : dim) (ldh : nat) (H : list T) : res (list T) :=
  tiles R C ldh (fun g h => if h =? g then Some addc else None) H.

(** chase_mpidla.hpp:836-872: first phase of symOrHermMatrix; [half x] is x * 0.5 *)
Definition dist_triangle (half : T -> T) (zero : T) (upper : bool) (R C : dim) (ldh : nat) (H : list T) : res (list T) :=
  tiles R C ldh (fun g h => if h =? g then Some half
                            else if (if upper then h <? g else g <? h) then Some (fun _ => zero) else None) H.

(** chase_mpidla.hpp:877-883: H[i + j*ldh] += tmp[i + j*m] *)
Definition dist_addtmp (add : T -> T -> T) (m n ldh : nat) (tmp H : list T) : res (list T) :=
  for_ m 0 (fun i H => for_ n 0 (fun j H =>
    let! x := rd H (i + j * ldh) in let! t := rd tmp (i + j * m) in wr H (i + j * ldh) (add x t)) H) H.

(** ** Reading a matrix file (chase_mpi_properties.hpp:1471-1490 and 1566-1589, stream version).  The file is a list of
    N*N entries, column-major.  Reading past its end leaves the destination as it was (the stream fails): not modelled,
    the outcome is UB.  Both functions store with leading dimension m. *)
Definition read_block (file : list T) (N m n off0 off1 : nat) (H : list T) : res (list T) :=
  for_ n 0 (fun y H => let! xs := get_range file (off0 + N * (off1 + y)) m in put_range H (m * y) xs) H.
Definition read_cyclic (file : list T) (N : nat) (R C : dim) (H : list T) : res (list T) :=
  for_ (d_blocks C) 0 (fun j H =>
    for_ (d_blocks R) 0 (fun i H =>
      let! clen := rd (d_lens C) j in let! coff := rd (d_offs C) j in let! cloc := rd (d_offs_l C) j in
      let! rlen := rd (d_lens R) i in let! roff := rd (d_offs R) i in let! rloc := rd (d_offs_l R) i in
      for_ clen 0 (fun q H =>
        let! xs := get_range file ((q + coff) * N + roff) rlen in put_range H ((q + cloc) * d_m R + rloc) xs) H) H) H.
End Flat.

(** ** Distributed symOrHermMatrix (chase_mpidla.hpp:822-888, with ScaLAPACK).  A distributed matrix is the family of the
    processes' arrays.  p?tranc is modelled by its specification: it sees the matrix through the descriptor built at lines
    834-835, whose source process is (0,0), and stores into tmp with the descriptor's leading dimension ldh. *)
Section DistSym.
Context {T : Type} (half cj : T -> T) (add : T -> T -> T) (zero : T).

(** position of global index g in the local array of its owner (ScaLAPACK, source 0) *)
Definition lpos (nb p g : nat) : nat := g mod nb + (g / nb / p) * nb.
(** entry (g, h) of the matrix as PBLAS sees it *)
Definition pblas_entry (mb nb p q : nat) (ldh : nat -> nat -> nat) (H : nat -> nat -> list T) (g h : nat) : res T :=
  let i := (g / mb) mod p in let j := (h / nb) mod q in rd (H i j) (lpos mb p g + lpos nb q h * ldh i j).
(** p?tranc into a buffer of m*(n + 2*nb) zeros, on the process holding the rows [rows] and columns [cols] *)
Definition ptranc (mb nb p q : nat) (ldh : nat -> nat -> nat) (H : nat -> nat -> list T) (rows cols : list nat) (i j m n : nat) : res (list T) :=
  for_ (length cols) 0 (fun b tmp => for_ (length rows) 0 (fun a tmp =>
    let! g := rd rows a in let! h := rd cols b in
    let! x := pblas_entry mb nb p q ldh H h g in wr tmp (a + b * ldh i j) (cj x)) tmp) (repeat zero (m * (n + 2 * nb))).
(** the whole operation on process (i, j): [H1] is the family after the first phase *)
Definition dist_symherm_finish (mb nb p q : nat) (ldh : nat -> nat -> nat) (H1 : nat -> nat -> list T) (rows0 cols0 : list nat) (i j m n : nat)
  : res (list T) :=
  let! tmp := ptranc mb nb p q ldh H1 rows0 cols0 i j m n in
  dist_addtmp add m n (ldh i j) tmp (H1 i j).
End DistSym.
