(** Specification of the distributed kernels: global matrices and vectors. *)
From Coq Require Import List Arith ZArith Ring_theory Permutation.
Require Import Verif.DistSpec Verif.SpmdSpec Verif.KerModel Verif.RedistSpec Verif.FlatSpec.
Import ListNotations.

(** The scalars form a commutative ring (no assumption on the conjugation). *)
Definition is_ring {D} (o : sops D) : Prop :=
  ring_theory (s0 o) (s1 o) (sadd o) (smul o) (fun x y => sadd o x (sopp o y)) (sopp o) eq.

(** Every global index is held by exactly one of the d processes of a communicator. *)
Definition splits (N d : nat) (rows : nat -> list nat) : Prop := Permutation (flat_map rows (seq 0 d)) (seq 0 N).

(** alpha * A * V + beta * W for global N x N matrices A and blocks of vectors V, W *)
Definition axpby {D} (o : sops D) (N : nat) (alpha beta : D) (A V W : nat -> nat -> D) (g c : nat) : D :=
  sadd o (smul o alpha (bsum (s0 o) (sadd o) N (fun h => smul o (A g h) (V h c)))) (smul o beta (W g c)).
Definition ctrans {D} (o : sops D) (A : nat -> nat -> D) (g h : nat) : D := scj o (A h g).

(** Columns off <= c < off + block of [buf'] hold V; the rest of the array is as in [buf]. *)
Definition only_columns {D} (rows : list nat) (off block : nat) (V : nat -> nat -> D) (buf buf' : list D) : Prop :=
  length buf' = length buf /\ holds rows off block (length rows) V buf' /\
  forall k, (k / length rows < off \/ off + block <= k / length rows) -> nth_error buf' k = nth_error buf k.

(** A block-cyclic layout of an N x N matrix on a p x q grid that the kernels support: every process holds rows and
    columns, and either the row and column layouts coincide or both start on process 0. *)
Definition layout (N p q mb nb rsrc csrc : nat) : Prop :=
  0 < mb /\ 0 < nb /\ rsrc < p /\ csrc < q /\
  (forall i, i < p -> owned N mb p rsrc i <> []) /\ (forall j, j < q -> owned N nb q csrc j <> []) /\
  ((q = p /\ rsrc = csrc /\ mb = nb) \/ (rsrc = 0 /\ csrc = 0)).
(** Additional condition of the kernels that pack (C07): coinciding layouts, or as many rows on every process. *)
Definition packable (N p q mb nb rsrc csrc : nat) : Prop :=
  (q = p /\ rsrc = csrc /\ mb = nb) \/
  forall i i', i < p -> i' < p -> length (owned N mb p rsrc i) = length (owned N mb p rsrc i').

(** N rows dealt out in consecutive pieces of [len], the last process taking what is left, at most [len] rows and at least one
    (a single process takes everything). *)
Definition in_blocks (N len d : nat) : Prop :=
  0 < d /\ 0 < len /\ (d - 1) * len < N /\ (d = 1 \/ N <= d * len) /\ (Z.of_nat N < 2 ^ 64)%Z.
Definition piece (N len d i : nat) : list nat := seq (i * len) (if i =? d - 1 then N - i * len else len).
(** Product of global matrices with n inner indices; C^* C and the like are written with [ctrans]. *)
Definition mprod {D} (o : sops D) (n : nat) (A B : nat -> nat -> D) (g c : nat) : D :=
  bsum (s0 o) (sadd o) n (fun h => smul o (A g h) (B h c)).
(** Columns off, off+1, ... of a block of vectors, numbered from 0. *)
Definition from {D} (off : nat) (V : nat -> nat -> D) (g c : nat) : D := V g (off + c).
(** The entries (r, c) of an n x n matrix for which [keep] holds, in column order. *)
Definition entries {D} (keep : nat -> nat -> bool) (n : nat) (M : nat -> nat -> D) : list D :=
  flat_map (fun c => map (fun r => M r c) (filter (fun r => keep r c) (seq 0 n))) (seq 0 n).

(** One round of Cholesky QR on global vectors: the Gram matrix V^* V, possibly with a shifted diagonal, its factor,
    and the rows of V divided by the factor. *)
Definition gram {D} (o : sops D) (N : nat) (V : nat -> nat -> D) : nat -> nat -> D := mprod o N (ctrans o V) V.
Definition shift_diag {D} (o : sops D) (n : nat) (f : list D -> D) (M : nat -> nat -> D) (r c : nat) : D :=
  if r =? c then sadd o (M r c) (f (map (fun i => M i i) (seq 0 n))) else M r c.
Definition row_solve {D} (n : nat) (tri : nat -> list D -> list D -> nat -> D) (U V : nat -> nat -> D) (g c : nat) : D :=
  tri n (entries upper n U) (map (V g) (seq 0 n)) c.

(** The three Cholesky QR variants on global vectors: info and the new vectors.  [po]: Cholesky factorisation of the upper
    triangle (info, factor); [tri]: division of a row by an upper triangular matrix. *)
Definition qr1 {D} (o : sops D) (N n : nat) (po : nat -> list D -> Z * (nat -> nat -> D)) (tri : nat -> list D -> list D -> nat -> D)
  (V : nat -> nat -> D) : Z * (nat -> nat -> D) :=
  let f := po n (entries upper n (gram o N V)) in
  if (fst f =? 0)%Z then (fst f, row_solve n tri (snd f) V) else (fst f, V).
Definition qr2 {D} (o : sops D) (N n : nat) (po : nat -> list D -> Z * (nat -> nat -> D)) (tri : nat -> list D -> list D -> nat -> D)
  (V : nat -> nat -> D) : Z * (nat -> nat -> D) :=
  let f := po n (entries upper n (gram o N V)) in
  if (fst f =? 0)%Z then
    let V1 := row_solve n tri (snd f) V in
    let f2 := po n (entries upper n (gram o N V1)) in (fst f2, row_solve n tri (snd f2) V1)
  else (fst f, V).
Definition sqr2 {D} (o : sops D) (N n : nat) (po : nat -> list D -> Z * (nat -> nat -> D)) (tri : nat -> list D -> list D -> nat -> D)
  (shift : list D -> D) (V : nat -> nat -> D) : Z * (nat -> nat -> D) :=
  let f := po n (entries upper n (shift_diag o n shift (gram o N V))) in
  if (fst f =? 0)%Z then
    let V1 := row_solve n tri (snd f) V in
    let f2 := po n (entries upper n (gram o N V1)) in
    if (fst f2 =? 0)%Z then
      let V2 := row_solve n tri (snd f2) V1 in
      let f3 := po n (entries upper n (gram o N V2)) in (fst f2, row_solve n tri (snd f3) V2)
    else (fst f2, V1)
  else (fst f, V).

(** ** Linear algebra over a commutative ring with a conjugation *)
Definition is_conj {D} (o : sops D) : Prop :=
  (forall x y, scj o (sadd o x y) = sadd o (scj o x) (scj o y)) /\ (forall x y, scj o (smul o x y) = smul o (scj o x) (scj o y)) /\
  (forall x, scj o (scj o x) = x).
Definition delta {D} (o : sops D) (r c : nat) : D := if r =? c then s1 o else s0 o.
(** columns off .. off+n-1 of V (N rows) are orthonormal *)
Definition orthonormal {D} (o : sops D) (N off n : nat) (V : nat -> nat -> D) : Prop :=
  forall r c, r < n -> c < n -> mprod o N (ctrans o (from off V)) (from off V) r c = delta o r c.
(** every column c < n of W is a linear combination of the columns k < n of V *)
Definition spanned {D} (o : sops D) (N n : nat) (V W : nat -> nat -> D) : Prop :=
  exists T : nat -> nat -> D, forall g c, g < N -> c < n -> W g c = mprod o n V T g c.
Definition hermitian {D} (o : sops D) (n : nat) (M : nat -> nat -> D) : Prop := forall r c, r < n -> c < n -> M r c = scj o (M c r).
(** the upper triangular matrix stored in U *)
Definition up {D} (o : sops D) (U : nat -> nat -> D) (r c : nat) : D := if upper r c then U r c else s0 o.

(** Exact Cholesky factorisation: when info is 0 the factor U satisfies U^* U = M and its diagonal entries are positive.
    [pos] stands for "real and positive": positive numbers are invertible and determined by their square.
    A factorisation of the identity succeeds. *)
Definition positive {D} (o : sops D) (pos : D -> Prop) : Prop :=
  pos (s1 o) /\ (forall x, pos x -> exists y, smul o x y = s1 o) /\
  (forall x y, pos x -> pos y -> smul o (scj o x) x = smul o (scj o y) y -> x = y).
Definition exact_cholesky {D} (o : sops D) (pos : D -> Prop) (po : nat -> list D -> Z * (nat -> nat -> D)) : Prop :=
  (forall n M, hermitian o n M -> fst (po n (entries upper n M)) = 0%Z ->
     let U := snd (po n (entries upper n M)) in
     (forall r, r < n -> pos (U r r)) /\ (forall r c, r < n -> c < n -> mprod o n (ctrans o (up o U)) (up o U) r c = M r c)) /\
  (forall n, fst (po n (entries upper n (delta o))) = 0%Z).
(** Exact triangular solver: y U = x when the diagonal of U is invertible *)
Definition exact_solver {D} (o : sops D) (tri : nat -> list D -> list D -> nat -> D) : Prop :=
  forall n U (x : nat -> D), (forall r, r < n -> exists y, smul o (U r r) y = s1 o) ->
    forall c, c < n -> bsum (s0 o) (sadd o) n (fun k => smul o (tri n (entries upper n U) (map x (seq 0 n)) k) (up o U k c)) = x c.
(** Exact eigendecomposition of an n x n matrix: orthonormal Z with Z^* M Z = diag(w) *)
Definition eigen {D} (o : sops D) (n : nat) (M : nat -> nat -> D) (zw : (nat -> nat -> D) * (nat -> D)) : Prop :=
  orthonormal o n 0 n (fst zw) /\
  forall r c, r < n -> c < n -> mprod o n (ctrans o (fst zw)) (mprod o n M (fst zw)) r c = if r =? c then snd zw c else s0 o.

(** ** Results of the kernels *)
(** Rayleigh quotient V^* H^* W of the columns off, off+1, ... (V and W are equal copies in the solver) *)
Definition ritz_matrix {D} (o : sops D) (N : nat) (G : nat -> nat -> D) (off : nat) (V W : nat -> nat -> D) : nat -> nat -> D :=
  mprod o N (ctrans o (from off V)) (from off (mprod o N (ctrans o G) W)).
(** residual vectors H^* w_c - lam_c v_c *)
Definition resvec {D} (o : sops D) (N : nat) (G : nat -> nat -> D) (lam : nat -> D) (off : nat) (V W : nat -> nat -> D) (g c : nat) : D :=
  sadd o (mprod o N (ctrans o G) W g (off + c)) (smul o (sopp o (lam c)) (V g (off + c))).
(** verdict of the symmetry check for the test vector x: no entry of H^* x is far from the same entry of H x *)
Definition sym_verdict {D} (o : sops D) (N : nat) (G : nat -> nat -> D) (x : nat -> D) (far : D -> D -> bool) : bool :=
  forallb (fun g => negb (far (mprod o N (ctrans o G) (fun h _ => x h) g 0) (mprod o N G (fun h _ => x h) g 0))) (seq 0 N).
(** a factorisation on one process: info, new columns of C, scratch matrix A overwritten, everything else unchanged *)
Definition qr_result {D} (n : nat) (rows : list nat) (r : Z * (nat -> nat -> D)) (s : loc (D := D)) (a : Z * loc) : Prop :=
  fst a = fst r /\ only_columns rows 0 n (snd r) (l_C s) (l_C (snd a)) /\ length (l_A (snd a)) = length (l_A s) /\
  snd a = mk_loc (l_H s) (l_C (snd a)) (l_C2 s) (l_B s) (l_B2 s) (l_A (snd a)) (l_bAc s) (l_bAc_dla s).
