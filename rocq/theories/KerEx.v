(** Small grids for the examples of the kernel properties. *)
From Coq Require Import List Arith Bool ZArith Lia QArith Qcanon.
Require Import Verif.Base Verif.DistSpec Verif.RedistSpec Verif.FlatSpec Verif.SpmdModel Verif.SpmdSpec Verif.KerModel Verif.KerSpec Verif.KerInst Verif.KerInst2.
Import ListNotations.
Close Scope Q_scope.
Close Scope Qc_scope.

(** a Hermitian matrix of order 3 over the Gaussian integers *)
Definition ex_G (g h : nat) : Z * Z :=
  nth h (nth g [[(2, 0); (1, 3); (0, 1)]; [(1, -3); (5, 0); (2, 0)]; [(0, -1); (2, 0); (7, 0)]]%Z []) (0, 0)%Z.
Definition ex_V (g c : nat) : Z * Z := (Z.of_nat (g + 1), Z.of_nat (2 * c))%Z.
Definition ex_W (g c : nat) : Z * Z := (Z.of_nat c, Z.of_nat g)%Z.
(** a matrix that is not Hermitian but passes the check for the test vector (1, 1, 1) *)
Definition ex_N (g h : nat) : Z * Z := nth h (nth g [[(0, 0); (1, 0); (-1, 0)]; [(0, 0); (0, 0); (1, 0)]; [(0, 0); (0, 0); (0, 0)]]%Z []) (0, 0)%Z.
Definition gdiff (a b : Z * Z) : bool := negb ((fst a =? fst b)%Z && (snd a =? snd b)%Z).
Lemma gdiff_iff a b : gdiff a b = false <-> a = b.
Proof.
  unfold gdiff. rewrite negb_false_iff, andb_true_iff, !Z.eqb_eq. destruct a, b; cbn. split; [intros [-> ->]; auto|intros E; now injection E].
Qed.
Lemma ex_layout : layout 3 2 2 1 1 0 0.
Proof.
  repeat split; try lia; try (left; lia).
  - intros i Hi. destruct i as [|[|i]]; [discriminate|discriminate|lia].
  - intros i Hi. destruct i as [|[|i]]; [discriminate|discriminate|lia].
Qed.
(** a layout whose row and column distributions differ: 2 x 1 processes, N = 2 *)
Lemma ex_layout2 : layout 2 2 1 1 1 0 0 /\ packable 2 2 1 1 1 0 0.
Proof.
  repeat split; try lia; try (right; lia).
  - intros i Hi. destruct i as [|[|i]]; [discriminate|discriminate|lia].
  - intros i Hi. destruct i as [|i]; [discriminate|lia].
  - right. intros i i' Hi Hi'. destruct i as [|[|i]]; destruct i' as [|[|i']]; try lia; reflexivity.
Qed.
Definition q_ (a : Z) (b : BinNums.positive) : Qc := Q2Qc (a # b).
(** [[17, -12], [-12, 10]] has the eigenpairs 1, (3/5, 4/5) and 26, (4/5, -3/5) *)
Definition ex_R (g h : nat) : Qc := nth h (nth g [[q_ 17 1; q_ (-12) 1]; [q_ (-12) 1; q_ 10 1]] []) (q_ 0 1).
Definition ex_Z (r c : nat) : Qc := nth c (nth r [[q_ 3 5; q_ 4 5]; [q_ 4 5; q_ (-3) 5]] []) (q_ 0 1).
Definition ex_ev (n : nat) (l : list Qc) : (nat -> nat -> Qc) * (nat -> Qc) := (ex_Z, fun c => nth c [q_ 1 1; q_ 26 1] (q_ 0 1)).
(** columns (1, 0), (1, 2): the first one is already a unit vector *)
Definition ex_C (g c : nat) : Qc := nth c (nth g [[q_ 1 1; q_ 1 1]; [q_ 0 1; q_ 2 1]] []) (q_ 0 1).
Definition ex_grid (VC : nat -> nat -> Qc) : nat -> nat -> loc := grid_state rat 2 2 1 1 1 0 0 2 ex_R VC VC VC VC true.
Definition ex_env (i j : nat) : env := bc_env 2 2 1 1 1 0 0 (length (owned 2 1 2 0 i)) 2 i j.
Definition view (l : list Qc) : list Q := map this l.
Lemma accepted_not_hermitian : exists N (H v : list (Z * Z)) G x,
  (forall g h, g < N -> h < N -> nth_error H (g + h * N) = Some (G g h)) /\ (forall h, h < N -> nth_error v h = Some (x h)) /\ x <> (fun _ => (0, 0)%Z) /\
  ~ hermitian gauss N G /\ check_sym_seq gauss (fun a b => negb (gdiff a b)) N N H v = Ok true.
Proof.
  exists 3, (block_of (seq 0 3) (seq 0 3) ex_N), (repeat (1, 0)%Z 3), ex_N, (fun _ => (1, 0)%Z). repeat split.
  - intros g h Hg Hh. apply (block_stores (seq 0 3) (seq 0 3) ex_N); destruct g as [|[|[|g]]]; destruct h as [|[|[|h]]]; reflexivity || lia.
  - intros h Hh. destruct h as [|[|[|h]]]; reflexivity || lia.
  - intros E. apply (f_equal (fun f => f 0)) in E. discriminate.
  - intros E. specialize (E 0 1 ltac:(lia) ltac:(lia)). discriminate.
Qed.
