(** Concrete scalars, states and an executable scheduler for the examples. *)
From Coq Require Import List Arith Bool ZArith Lia Ring_theory Ring.
Require Import Verif.Base Verif.DistModel Verif.DistSpec Verif.RedistSpec Verif.FlatSpec Verif.SpmdModel Verif.SpmdSpec Verif.KerModel Verif.KerSpec.
Import ListNotations.

(** Gaussian integers *)
Open Scope Z_scope.
Definition gauss : sops (Z * Z) := {|
  s0 := (0, 0); s1 := (1, 0);
  sadd := fun x y => (fst x + fst y, snd x + snd y);
  smul := fun x y => (fst x * fst y - snd x * snd y, fst x * snd y + snd x * fst y);
  sopp := fun x => (- fst x, - snd x);
  scj := fun x => (fst x, - snd x) |}.
Lemma gauss_ring : is_ring gauss.
Proof. unfold is_ring. constructor; cbn [gauss s0 s1 sadd smul sopp]; intros; repeat match goal with x : Z * Z |- _ => destruct x end; cbn [fst snd]; f_equal; ring. Qed.
Lemma gauss_conj : is_conj gauss.
Proof. split; [|split]; cbn [gauss sadd smul scj]; intros; repeat match goal with x : Z * Z |- _ => destruct x end; cbn [fst snd]; f_equal; ring. Qed.
Close Scope Z_scope.

(** A buffer holding n columns of V on the given rows, and a matrix block. *)
Definition buffer {D} (rows : list nat) (n : nat) (V : nat -> nat -> D) : list D := flat_map (fun c => map (fun g => V g c) rows) (seq 0 n).
Lemma flat_nth {A B} (f : A -> list B) (m : nat) (l : list A) : (forall a, length (f a) = m) -> forall c a x r, nth_error l c = Some a -> r < m ->
  nth_error (f a) r = Some x -> nth_error (flat_map f l) (r + c * m) = Some x.
Proof.
  intros Hm. induction l; intros c a' x r Hc Hr Hx; [destruct c; discriminate|]. simpl. destruct c as [|c].
  - injection Hc as ->. rewrite Nat.mul_0_l, Nat.add_0_r. rewrite nth_error_app1; [auto|]. rewrite Hm. auto.
  - rewrite nth_error_app2 by (rewrite Hm; lia). rewrite Hm. replace (r + S c * m - m) with (r + c * m) by lia. apply (IHl c a'); auto.
Qed.
Lemma flat_length {A B} (f : A -> list B) (m : nat) (l : list A) : (forall a, length (f a) = m) -> length (flat_map f l) = length l * m.
Proof. intros H. induction l; simpl; auto. rewrite app_length, H, IHl. reflexivity. Qed.
Lemma buffer_holds {D} rows n (V : nat -> nat -> D) : holds rows 0 n (length rows) V (buffer rows n V).
Proof.
  intros a g c Ha Hc. unfold buffer. assert (a < length rows) by (apply nth_error_Some; congruence).
  apply (flat_nth (fun c => map (fun g => V g c) rows) (length rows)) with (a := c); auto.
  - intros; apply map_length.
  - rewrite nth_error_nth' with (d := 0) by (rewrite seq_length; lia). f_equal. now rewrite seq_nth by lia.
  - now rewrite nth_error_map, Ha.
Qed.
Lemma buffer_length {D} rows n (V : nat -> nat -> D) : length (buffer rows n V) = length rows * n.
Proof. unfold buffer. rewrite (flat_length _ (length rows)) by (intros; apply map_length). rewrite seq_length. lia. Qed.
(** the block of a global matrix on given rows and columns, leading dimension = number of rows *)
Definition block_of {D} (rows cols : list nat) (G : nat -> nat -> D) : list D := flat_map (fun h => map (fun g => G g h) rows) cols.
Lemma block_stores {D} rows cols (G : nat -> nat -> D) : stores rows cols (length rows) G (block_of rows cols G).
Proof.
  intros x y g h Hx Hy. unfold block_of. assert (x < length rows) by (apply nth_error_Some; congruence).
  apply (flat_nth (fun h => map (fun g => G g h) rows) (length rows)) with (a := h); auto.
  - intros; apply map_length.
  - now rewrite nth_error_map, Hx.
Qed.

(** The state in which process (i, j) holds its part of the global data; A is an n x n scratch matrix. *)
Definition grid_state {D} (o : sops D) (N p q mb nb rsrc csrc n : nat) (G VC VC2 VB VB2 : nat -> nat -> D) (flag : bool) (i j : nat) : loc (D := D) :=
  let rows := owned N mb p rsrc i in let cols := owned N nb q csrc j in
  mk_loc (block_of rows cols G) (buffer rows n VC) (buffer rows n VC2) (buffer cols n VB) (buffer cols n VB2) (repeat (s0 o) (n * n)) flag flag.

(** An executable scheduler: fires the first ready communicator until nothing is ready. *)
Section Exec.
Context {D A : Type} (add : D -> D -> D) (p q : nat).
Definition at_ (L : list (list (prog D A))) (i j : nat) : prog D A := nth j (nth i L []) Bad.
Definition table (st : nat -> nat -> prog D A) : list (list (prog D A)) := map (fun i => map (fun j => st i j) (seq 0 q)) (seq 0 p).
Fixpoint first_ready (L : list (list (prog D A))) (cs : list (comm * nat)) : option (comm * nat * reply D) :=
  match cs with
  | [] => None
  | (c, x) :: cs' => match offers c (members p q c x (at_ L)) with
                     | Some acts => match respond add acts with Some r => Some (c, x, r) | None => first_ready L cs' end
                     | None => first_ready L cs' end
  end.
Definition all_comms : list (comm * nat) := map (pair ColC) (seq 0 q) ++ map (pair RowC) (seq 0 p).
Fixpoint exec (fuel : nat) (L : list (list (prog D A))) : list (list (prog D A)) :=
  match fuel with
  | O => L
  | S f => match first_ready L all_comms with
           | None => L
           | Some (c, x, r) => exec f (table (fun i j => if in_comm c x i j then resume (at_ L i j) r else at_ L i j))
           end
  end.
Definition result (x : prog D A) : option A := match x with Ret a => Some a | _ => None end.
Definition run_grid (fuel : nat) (st : nat -> nat -> prog D A) : list (list (option A)) := map (map result) (exec fuel (table st)).
End Exec.
