(** Specification of the distributed solver: BLAS/LAPACK on whole vectors, and how a global state is spread over a grid. *)
From Coq Require Import List Arith ZArith Bool.
Require Import Verif.Base Verif.AlgModel Verif.DlaModel Verif.ColModel Verif.DistSpec Verif.RedistSpec Verif.FlatSpec Verif.FlatModel Verif.SpmdSpec
  Verif.KerModel Verif.KerSpec Verif.ClientModel Verif.DsModel.
Import ListNotations.

Section Spec.
Context {F D : Type} (o : sops D) (fo : fops F) (inj : F -> D) (re : D -> F) (oc : oracles D).
Variables (N mb p rsrc : nat).

Notation V := (nat -> D).
(** column c of a list of vectors; entry (g, c) of the block *)
Definition blk (vs : list V) (g c : nat) : D := nth c vs (fun _ => s0 o) g.
(** x^* y *)
Definition dot (x y : V) : D := bsum (s0 o) (sadd o) N (fun g => smul o (scj o (x g)) (y g)).
Definition matvec (A : nat -> nat -> D) (x : V) (g : nat) : D := bsum (s0 o) (sadd o) N (fun h => smul o (A g h) (x h)).
(** the vector whose local part on process row i is given by the numbers [f i 0], [f i 1], ... *)
Definition assembled (f : nat -> nat -> D) (g : nat) : D := f (owner mb p rsrc g) (lpos mb p g).
(** column-major array of a block of vectors *)
Definition flat (rows : list nat) (vs : list V) : list D := flat_map (fun v => map v rows) vs.

(** Exact linear algebra on vectors indexed by global row numbers.  G is a small square matrix with its size.  The random
    vectors are put together from the numbers drawn on the process rows (every process row uses its own seed). *)
Definition gblas : blas F V (nat -> nat -> D) (nat * (nat -> nat -> D)) D := {|
  b_gemmN := fun H a b x y g => sadd o (smul o (inj a) (matvec H x g)) (smul o (inj b) (y g));
  b_gemmH := fun H a b x y g => sadd o (smul o (inj a) (matvec (ctrans o H) x g)) (smul o (inj b) (y g));
  b_mulN := matvec;
  b_mulH := fun H => matvec (ctrans o H);
  b_shift := fun H c g h => if g =? h then sadd o (H g h) (inj c) else H g h;
  b_rnd := fun j => assembled (fun i r => or_rnd oc i (r + j * length (owned N mb p rsrc i)));
  b_test := assembled (or_test oc);
  b_veq := fun u uT => forallb (fun g => negb (or_far oc (uT g) (u g))) (seq 0 N);
  b_zero := fun _ => s0 o;
  b_hh := fun vs c g => or_hh oc N (length vs) (flat (seq 0 N) vs) g c;
  b_syherk := fun vs => (length vs, fun r c => dot (nth r vs (fun _ => s0 o)) (nth c vs (fun _ => s0 o)));
  b_dshift := fun A => (fst A, shift_diag o (fst A) (or_shift oc) (snd A));
  b_potrf := fun A => let f := or_po oc (fst A) (entries upper (fst A) (snd A)) in (fst f, (fst A, snd f));
  b_trsm := fun A vs c g => or_tri oc (fst A) (entries upper (fst A) (snd A)) (map (fun v => v g) vs) c;
  b_gram := fun ws vs => (length vs, fun r c => dot (nth r ws (fun _ => s0 o)) (nth c vs (fun _ => s0 o)));
  b_eval := fun A i => re (snd (or_ev oc (fst A) (entries lower (fst A) (snd A))) i);
  b_comb := fun vs A j g => bsum (s0 o) (sadd o) (length vs) (fun k => smul o (blk vs g k) (fst (or_ev oc (fst A) (entries lower (fst A) (snd A))) k j));
  b_combl := fun vs rv j g => bsum (s0 o) (sadd o) (length vs) (fun k => smul o (blk vs g k) (inj (nth (k + j * length vs) rv (f_zero fo))));
  b_inj := inj; b_re := re; b_tneg := sopp o;
  b_dot := dot; b_axpy := fun a x y g => sadd o (y g) (smul o a (x g)); b_scal := fun a x g => smul o a (x g);
  b_nrm2 := fun x => f_sqrt fo (re (dot x x)) |}.

(** The array [buf] starts with the rows [rows] of the vectors [vs]. *)
Definition carries (rows : list nat) (vs : list V) (buf : list D) : Prop := exists rest, buf = flat rows vs ++ rest.
End Spec.

(** Process (i, j) holds its part of the global state [g]: rows of C and C2 over the process rows, of B and B2 over the
    process columns, its block of the matrix; all blocks have [n] columns.  Both switches agree with the global one. *)
Record holds_part {D} (o : sops D) (n : nat) (rows cols : list nat) (ldh : nat)
  (g : cst (V := nat -> D) (M := nat -> nat -> D)) (s : loc (D := D)) : Prop := {
  hp_H : stores rows cols ldh (cs_H g) (l_H s);
  hp_C : length (cs_C g) = n /\ carries rows (cs_C g) (l_C s);
  hp_C2 : length (cs_C2 g) = n /\ carries rows (cs_C2 g) (l_C2 s);
  hp_B : length (cs_B g) = n /\ carries cols (cs_B g) (l_B s);
  hp_B2 : length (cs_B2 g) = n /\ carries cols (cs_B2 g) (l_B2 s);
  hp_A : n * n <= length (l_A s);
  hp_next : l_bAc s = cs_bAc g /\ l_bAc_dla s = cs_bAc g }.

(** Message sizes fit into an int. *)
Definition counts_fit (N p q mb nb rsrc csrc n : nat) : Prop :=
  (forall i, i < p -> (Z.of_nat (length (owned N mb p rsrc i) * n) < 2 ^ 31)%Z) /\
  (forall j, j < q -> (Z.of_nat (length (owned N nb q csrc j) * n) < 2 ^ 31)%Z) /\ (Z.of_nat (n * n) < 2 ^ 31)%Z.
(** The real numbers inside the numbers of type T. *)
Definition embeds {F D} (o : sops D) (fo : fops F) (inj : F -> D) (re : D -> F) : Prop :=
  (forall x, re (inj x) = x) /\ forall x, inj (f_neg fo x) = sopp o (inj x).
(** Every process of the p x q grid holds its part of the global state. *)
Definition on_grid {D} (o : sops D) (N p q mb nb rsrc csrc n : nat) (ldh : nat -> nat -> nat)
  (g : cst (V := nat -> D) (M := nat -> nat -> D)) (s : nat -> nat -> loc (D := D)) : Prop :=
  forall i j, i < p -> j < q -> holds_part o n (owned N mb p rsrc i) (owned N nb q csrc j) (ldh i j) g (s i j).

(** The same for block distributions with pieces of [ml] rows and [nl] columns. *)
Definition block_counts_fit (N p q ml nl n : nat) : Prop :=
  (forall i, i < p -> (Z.of_nat (length (piece N ml p i) * n) < 2 ^ 31)%Z) /\
  (forall j, j < q -> (Z.of_nat (length (piece N nl q j) * n) < 2 ^ 31)%Z) /\ (Z.of_nat (n * n) < 2 ^ 31)%Z.
Definition on_blocks {D} (o : sops D) (N p q ml nl n : nat) (ldh : nat -> nat -> nat)
  (g : cst (V := nat -> D) (M := nat -> nat -> D)) (s : nat -> nat -> loc (D := D)) : Prop :=
  forall i j, i < p -> j < q -> holds_part o n (piece N ml p i) (piece N nl q j) (ldh i j) g (s i j).
(** Rows and columns are dealt out alike, or every process row has as many rows. *)
Definition blocks_packable (N p q ml nl : nat) : Prop := (p = q /\ (p = 1 \/ ml = nl)) \/ p = 1 \/ N = p * ml.

(** What a caller of solve sees: the arrays of Ritz values and residuals, and the solver object. *)
Definition seen {F St} (x : @outcome F St) : list F * list F * St := (o_ritz x, o_res x, o_k x).
(** The program [t] is the solver: on every backend it makes the calls solve makes and returns the Ritz values, residuals and
    number of locked vectors solve returns. *)
Definition is_solver {F} (fo : fops F) (qe : qr_env F) (td : tridiag F) (nev nex : nat) (fsort : list F -> list F) (si : list F -> list nat)
  (cf : conf F) (l : nat) (ritzv resid : list F) (t : client F (list F * list F * nat)) : Prop :=
  forall D (L : dla F D) d,
    (let! x := solve fo (cmK fo qe td L nev nex) fsort si cf (mk_cm l d) ritzv resid in Ok (seen x)) =
    (let! (x, d') := run_client L t d in let '(r, s, m) := x in Ok (r, s, mk_cm m d')).
