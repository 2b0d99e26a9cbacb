(** Exact LAPACK on arrays of entries, and the start of a distributed run: the vocabulary that connects the solver on a grid of
    processes with matrices over a field.  R are the real scalars (Base<T>), C the entries (T). *)
From mathcomp Require Import all_ssreflect all_algebra.
Require Import Verif.AlgModel Verif.ColModel Verif.KerModel Verif.KerSpec Verif.DsModel Verif.DsSpec Verif.ExactSpec Verif.OrthSpec.
Set Implicit Arguments. Unset Strict Implicit. Unset Printing Implicit Defensive.
Import GRing.Theory Num.Theory.
Local Open Scope ring_scope.

(** entry (g, h), 0 outside the matrix *)
Definition ent (C : fieldType) m n (A : 'M[C]_(m, n)) (g h : nat) : C :=
  if (insub g, insub h) is (Some i, Some j) then A i j else 0.
(** a column vector as a function of the row number *)
Definition vfn (C : fieldType) n (x : 'cV[C]_n) (g : nat) : C := ent x g 0.
(** column-major array *)
Definition colmaj (C : fieldType) m n (A : 'M[C]_(m, n)) : list C :=
  List.flat_map (fun c => List.map (fun g => ent A g c) (List.seq 0 m)) (List.seq 0 n).
Definition uppertri (C : fieldType) n (U : 'M[C]_n) : Prop := forall i j : 'I_n, (j < i)%N -> U i j = 0.

(** the arithmetic of the field *)
Definition fld (C : fieldType) (cj : {rmorphism C -> C}) : sops C := mk_sops C 0 1 +%R *%R -%R cj.

Section Lapack.
Variables (R : rcfType) (C : fieldType) (inj : {rmorphism R -> C}) (cj : {rmorphism C -> C}) (re : C -> R) (oc : oracles C).

(** geqrf + gqr of an N x n array; potrf of the upper triangle of an n x n matrix (info 0: factorised; succeeds on the
    identity); solving y U = x for a row x; heevd of the lower triangle of a k x k matrix, k <= n (unitary eigenvectors,
    real eigenvalues in ascending order) *)
Record exact_lapack (N n : nat) : Prop := {
  xl_hh : forall V : 'M[C]_(N, n), let Q := \matrix_(g < N, c < n) or_hh oc N n (colmaj V) g c in
    adj cj Q *m Q = 1%:M /\ exists U : 'M[C]_n, uppertri U /\ V = Q *m U;
  xl_po : forall A : 'M[C]_n, let f := or_po oc n (entries upper n (ent A)) in fst f = BinNums.Z0 ->
    let U := \matrix_(i < n, j < n) (if (i <= j)%N then snd f i j else 0) in U \in unitmx /\ (hermitian cj A -> adj cj U *m U = A);
  xl_one : fst (or_po oc n (entries upper n (ent (1%:M : 'M[C]_n)))) = BinNums.Z0;
  xl_tri : forall (U : 'M[C]_n) (x : 'rV[C]_n), uppertri U -> U \in unitmx ->
    (\row_c or_tri oc n (entries upper n (ent U)) (List.map (ent x 0) (List.seq 0 n)) c) *m U = x;
  xl_ev : forall k (A : 'M[C]_k), (k <= n)%N -> hermitian cj A -> let f := or_ev oc k (entries lower k (ent A)) in
    let Z := \matrix_(i < k, j < k) fst f i j in
    adj cj Z *m Z = 1%:M /\ A *m Z = Z *m diag_mx (\row_j inj (re (snd f j))) /\
    forall i j : 'I_k, (i <= j)%N -> re (snd f i) <= re (snd f j)
}.

(** square roots without rounding *)
Definition exact_sqrt (fo : fops R) : Prop := forall x, 0 <= x -> 0 <= f_sqrt fo x /\ f_sqrt fo x ^+ 2 = x.
End Lapack.

(** The global state before solve: matrix H, start vectors V1, zeroed buffers of n columns. *)
Definition loaded (C : fieldType) N n (H : 'M[C]_N) (V1 : list 'cV[C]_N) : cst (V := nat -> C) (M := nat -> nat -> C) :=
  let z := List.repeat (fun _ => 0) n in mk_cst (ent H) (map (@vfn C N) V1) z z z true.

(** Each of the first nev values is the Rayleigh quotient of a column of X (a different one for each value), whose residual norm
    is the residual at the same position, and H has an eigenvalue within that distance of the value. *)
Definition spectral_pairs (R : rcfType) (C : fieldType) (inj : {rmorphism R -> C}) (cj : {rmorphism C -> C}) N (H : 'M[C]_N) (nev : nat)
  (vals res : seq R) (X : seq 'cV[C]_N) : Prop :=
  exists p : nat -> nat, (forall i, (i < nev)%N -> (p i < nev)%N) /\ (forall i j, (i < nev)%N -> (j < nev)%N -> p i = p j -> i = j) /\
  forall i, (i < nev)%N -> exists v x r, List.nth_error vals i = Some v /\ List.nth_error X (p i) = Some x /\ List.nth_error res (p i) = Some r /\
    dot cj x x = 1 /\ inj v = dot cj x (H *m x) /\
    0 <= r /\ inj r ^+ 2 = dot cj (H *m x - inj v *: x) (H *m x - inj v *: x) /\
    exists l, eigenvalue H (inj l) /\ `|l - v| <= r.
(** Any sum of k different values among the first nev lies between the sums of the k smallest and the k largest eigenvalues of H. *)
Definition sums_bounded (R : rcfType) (C : fieldType) (inj : {rmorphism R -> C}) N (H : 'M[C]_N) (nev : nat) (vals : seq R) : Prop :=
  exists ls : seq R, sorted <=%R ls /\ char_poly H = \prod_(l <- ls) ('X - (inj l)%:P) /\
  forall I : seq nat, uniq I -> all (fun i => i < nev)%N I ->
    \sum_(i < size I) ls`_i <= \sum_(i <- I) vals`_i <= \sum_(i < size I) ls`_(N - i.+1).
