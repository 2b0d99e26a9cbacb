(** Specification of stored matrices: which local position of an array holds which global entry. *)
From Coq Require Import List Arith.
Require Import Verif.DistModel Verif.DistSpec.
Import ListNotations.

(** The tables of one dimension describe the list [own] of global indices held by a process. *)
Definition describes (own : list nat) (D : dim) : Prop :=
  expand (d_offs D) (d_lens D) = own /\ d_m D = length own /\
  length (d_offs D) = d_blocks D /\ length (d_lens D) = d_blocks D /\ length (d_offs_l D) = d_blocks D /\
  (forall b ol, nth_error (d_offs_l D) b = Some ol -> ol = list_sum (firstn b (d_lens D))).

(** [buf] (leading dimension ld) holds entry (rows[a], cols[b]) of the global matrix G at position a + b*ld. *)
Definition stores {T} (rows cols : list nat) (ld : nat) (G : nat -> nat -> T) (buf : list T) : Prop :=
  forall a b g h, nth_error rows a = Some g -> nth_error cols b = Some h -> nth_error buf (a + b * ld) = Some (G g h).

(** Positions of the array outside the matrix. *)
Definition padding (m n ld k : nat) : Prop := m <= k mod ld \/ n <= k / ld.

(** A process grid with p process rows and q process columns: process (i, j) holds the rows [rows i] and columns [cols j]. *)
Definition stores_grid {T} (p q : nat) (rows cols : nat -> list nat) (ld : nat -> nat -> nat) (G : nat -> nat -> T)
  (H : nat -> nat -> list T) : Prop :=
  forall i j, i < p -> j < q -> stores (rows i) (cols j) (ld i j) G (H i j).

(** the file holds the N x N matrix G column by column *)
Definition in_file {T} (file : list T) (N : nat) (G : nat -> nat -> T) : Prop :=
  length file = N * N /\ forall g h, g < N -> h < N -> nth_error file (g + h * N) = Some (G g h).
