(** What a transfer between the two copies of a matrix has to do, in terms of entries (row i, column j). *)
From Coq Require Import List Arith ZArith.
Require Import Verif.Base Verif.MatModel.
Import ListNotations.

Section Spec.
  Context {A : Type}.

  (** entry (i, j) of a column-major array *)
  Definition entry (b : list A) (ld i j : nat) : option A := nth_error b (j * ld + i).

  (** a matrix whose copies have the sizes its users assume, with sizes an int can hold *)
  Definition well_formed (x : matrix A) (h d : list A) : Prop :=
    mhost x = Some h /\ mdev x = Some d /\ 0 < mm x <= mld x /\ mld x * mn x <= length h /\ mm x * mn x <= length d /\
    (Z.of_nat (mld x) < 2 ^ 31)%Z /\ (Z.of_nat (mn x) < 2 ^ 31)%Z.
  Definition inside (x : matrix A) (nrows ncols off : nat) : Prop := nrows <= mm x /\ off + ncols <= mn x.

  (** [dst'] is [dst] with the tile of columns off .. off+ncols-1, rows 0 .. nrows-1 taken from [src], and nothing else changed *)
  Definition tile_copied (nrows ncols off : nat) (src : list A) (lds : nat) (dst : list A) (ldd : nat) (dst' : list A) : Prop :=
    length dst' = length dst /\
    (forall i j, i < nrows -> off <= j < off + ncols -> entry dst' ldd i j = entry src lds i j /\ entry src lds i j <> None) /\
    (forall k, (forall i j, i < nrows -> off <= j < off + ncols -> k <> j * ldd + i) -> nth_error dst' k = nth_error dst k).
End Spec.

(** elements in a copy, 0 if there is none *)
Definition copy_size {A} (c : option (list A)) : nat := match c with Some l => length l | None => 0 end.
