(** Element-level kernels on whole process grids, and witnesses. *)
From Coq Require Import List Arith ZArith Bool Lia.
Require Import Verif.Base Verif.DistModel Verif.DistSpec Verif.DistProofs Verif.DistProofs2 Verif.FlatModel Verif.FlatSpec.
Require Import Verif.FlatProofs Verif.FlatProofs2 Verif.FlatProofs3.
Import ListNotations.

Lemma shift_grid {T} (addc : T -> T) p q rows cols ld G (R C : nat -> dim) (H : nat -> nat -> list T) :
  (forall i, i < p -> describes (rows i) (R i)) -> (forall j, j < q -> describes (cols j) (C j)) ->
  (forall i j, i < p -> j < q -> length (rows i) <= ld i j) -> stores_grid p q rows cols ld G H ->
  exists H', (forall i j, i < p -> j < q -> dist_shift addc (R i) (C j) (ld i j) (H i j) = Ok (H' i j)) /\
    stores_grid p q rows cols ld (fun g h => if g =? h then addc (G g h) else G g h) H' /\
    (forall i j k, i < p -> j < q -> padding (length (rows i)) (length (cols j)) (ld i j) k -> nth_error (H' i j) k = nth_error (H i j) k).
Proof.
  intros HR HC HL HS.
  set (H' := fun i j => match dist_shift addc (R i) (C j) (ld i j) (H i j) with Ok x => x | _ => [] end).
  assert (X : forall i j, i < p -> j < q -> dist_shift addc (R i) (C j) (ld i j) (H i j) = Ok (H' i j) /\
    stores (rows i) (cols j) (ld i j) (fun g h => if g =? h then addc (G g h) else G g h) (H' i j) /\
    (forall k, padding (length (rows i)) (length (cols j)) (ld i j) k -> nth_error (H' i j) k = nth_error (H i j) k)).
  { intros i j Hi Hj. destruct (dist_shift_stores addc (R i) (C j) (rows i) (cols j) (ld i j) G (H i j)) as (x & E & _ & S1 & S2); auto.
    unfold H'. rewrite E. auto. }
  exists H'. split; [intros; now apply X|]. split; [intros i j Hi Hj; now apply X|]. intros i j k Hi Hj. now apply X.
Qed.

Lemma bc_shift_grid {T} (addc : T -> T) N mb nb p q rsrc csrc ld G (R C : nat -> dim) (H : nat -> nat -> list T) :
  0 < mb -> 0 < nb -> rsrc < p -> csrc < q ->
  (forall i, i < p -> bc_ctor N mb p rsrc i = Ok (R i)) -> (forall j, j < q -> bc_ctor N nb q csrc j = Ok (C j)) ->
  (forall i j, i < p -> j < q -> length (owned N mb p rsrc i) <= ld i j) ->
  stores_grid p q (owned N mb p rsrc) (owned N nb q csrc) ld G H ->
  exists H', (forall i j, i < p -> j < q -> dist_shift addc (R i) (C j) (ld i j) (H i j) = Ok (H' i j)) /\
    stores_grid p q (owned N mb p rsrc) (owned N nb q csrc) ld (fun g h => if g =? h then addc (G g h) else G g h) H' /\
    (forall i j k, i < p -> j < q -> padding (length (owned N mb p rsrc i)) (length (owned N nb q csrc j)) (ld i j) k ->
       nth_error (H' i j) k = nth_error (H i j) k).
Proof.
  intros Hmb Hnb Hr Hc HR HC HL HS. apply shift_grid with (G := G); auto.
  - intros i Hi. apply (bc_describes N mb p rsrc i); auto.
  - intros j Hj. apply (bc_describes N nb q csrc j); auto.
Qed.

Lemma blk_shift_grid {T} (addc : T -> T) N ml nl p q ld G (H : nat -> nat -> list T) :
  let rows i := seq (i * ml) (blk_size N ml p i) in let cols j := seq (j * nl) (blk_size N nl q j) in
  (forall i j, i < p -> j < q -> length (rows i) <= ld i j) -> stores_grid p q rows cols ld G H ->
  exists H', (forall i j, i < p -> j < q -> dist_shift addc (blk_ctor N ml p i) (blk_ctor N nl q j) (ld i j) (H i j) = Ok (H' i j)) /\
    stores_grid p q rows cols ld (fun g h => if g =? h then addc (G g h) else G g h) H' /\
    (forall i j k, i < p -> j < q -> padding (length (rows i)) (length (cols j)) (ld i j) k -> nth_error (H' i j) k = nth_error (H i j) k).
Proof.
  intros rows cols HL HS. apply (shift_grid addc p q rows cols ld G (blk_ctor N ml p) (blk_ctor N nl q) H); auto.
  - intros i _. apply (blk_describes N ml p i).
  - intros j _. apply (blk_describes N nl q j).
Qed.

Lemma seq_symherm_hermitian {T} (cj : T -> T) upper N ld G (H : list T) : (forall x, cj (cj x) = x) ->
  N <= ld -> stores (seq 0 N) (seq 0 N) ld G H ->
  exists H' G', seq_symherm cj upper N ld H = Ok H' /\ stores (seq 0 N) (seq 0 N) ld G' H' /\
    ((forall g h, g < N -> h < N -> G' g h = cj (G' h g)) <-> (forall g, g < N -> G g g = cj (G g g))).
Proof.
  intros Hcj Hld HS. destruct (seq_symherm_spec cj upper N ld G H Hld HS) as (H' & E & _ & S & _).
  exists H', (fun g h => if (if upper then h <? g else g <? h) then cj (G h g) else G g h). split; [exact E|]. split; [exact S|]. split.
  - intros X g Hg. specialize (X g g Hg Hg). cbv beta in X. destruct upper; now rewrite Nat.ltb_irrefl in X.
  - intros X g h Hg Hh. cbv beta. destruct (Nat.lt_trichotomy g h) as [L|[->|L]].
    + destruct upper; rewrite (proj2 (Nat.ltb_lt g h) L), (proj2 (Nat.ltb_ge h g)) by lia; now rewrite ?Hcj.
    + destruct upper; rewrite Nat.ltb_irrefl; auto.
    + destruct upper; rewrite (proj2 (Nat.ltb_lt h g) L), (proj2 (Nat.ltb_ge g h)) by lia; now rewrite ?Hcj.
Qed.

Lemma dist_symherm_grid {T} (half cj : T -> T) (add : T -> T -> T) (zero : T) N mb nb p q upper (R C : nat -> dim) G (H : nat -> nat -> list T) :
  let rows := owned N mb p 0 in let cols := owned N nb q 0 in let ld i (j : nat) := length (rows i) in
  0 < mb -> 0 < nb -> 0 < p -> 0 < q ->
  (forall x, add x (cj zero) = x) -> (forall x, add zero x = x) ->
  (forall i, i < p -> bc_ctor N mb p 0 i = Ok (R i)) -> (forall j, j < q -> bc_ctor N nb q 0 j = Ok (C j)) ->
  stores_grid p q rows cols ld G H ->
  exists H1 H2, (forall i j, i < p -> j < q -> dist_triangle half zero upper (R i) (C j) (ld i j) (H i j) = Ok (H1 i j)) /\
    (forall i j, i < p -> j < q ->
       dist_symherm_finish cj add zero mb nb p q ld H1 (rows i) (cols j) i j (length (rows i)) (length (cols j)) = Ok (H2 i j)) /\
    stores_grid p q rows cols ld
      (fun g h => if g =? h then add (half (G g g)) (cj (half (G g g))) else if (if upper then h <? g else g <? h) then cj (G h g) else G g h) H2.
Proof. intros rows cols ld H1 H2 H3 H4 H5 H6 H7 H8 H9. now apply dist_symherm_ok with (R := R) (C := C) (H := H). Qed.

Lemma bc_read_spec {T} (file : list T) N mb nb p q rsrc csrc i j G R C (H : list T) : in_file file N G ->
  0 < mb -> 0 < nb -> rsrc < p -> csrc < q -> i < p -> j < q ->
  bc_ctor N mb p rsrc i = Ok R -> bc_ctor N nb q csrc j = Ok C ->
  length H = length (owned N mb p rsrc i) * length (owned N nb q csrc j) ->
  exists H', read_cyclic file N R C H = Ok H' /\ (length H' = length H /\
    stores (owned N mb p rsrc i) (owned N nb q csrc j) (length (owned N mb p rsrc i)) G H').
Proof.
  intros HF Hmb Hnb Hr Hc Hi Hj HR HC HL. apply read_cyclic_spec; auto.
  - eapply bc_describes; [..|exact HR]; auto.
  - eapply bc_describes; [..|exact HC]; auto.
  - eapply bc_lens_pos; [..|exact HR]; auto.
  - intros g Hg. apply in_owned in Hg. tauto.
  - intros g Hg. apply in_owned in Hg. tauto.
Qed.

(** ** witnesses *)
Lemma symherm_ld_witness : exists (N ld : nat) (H H1 H2 : list Z) (R C : dim), N < ld /\
  bc_ctor N 2 1 0 0 = Ok R /\ bc_ctor N 2 1 0 0 = Ok C /\
  dist_triangle (fun x => Z.div x 2) 0%Z true R C ld H = Ok H1 /\
  dist_symherm_finish (fun x => x) Z.add 0%Z 2 2 1 1 (fun _ _ => ld) (fun _ _ => H1) (owned N 2 1 0 0) (owned N 2 1 0 0) 0 0 N N = Ok H2 /\
  nth_error H (1 + 1 * ld) = Some 4%Z /\ nth_error H2 (1 + 1 * ld) = Some 2%Z.
Proof.
  exists 2, 3, [2; 0; 9; 5; 4; 9]%Z, [1; 0; 9; 5; 2; 9]%Z, [2; 5; 9; 5; 2; 9]%Z, (mk_dim 2 1 [0] [2] [0]), (mk_dim 2 1 [0] [2] [0]).
  vm_compute. repeat split. repeat constructor.
Qed.
Lemma symherm_src_witness : exists (R0 R1 C : dim) (A0 A1 B0 B1 D0 D1 : list Z),
  bc_ctor 2 1 2 1 0 = Ok R0 /\ bc_ctor 2 1 2 1 1 = Ok R1 /\ bc_ctor 2 2 1 0 0 = Ok C /\
  stores (owned 2 1 2 1 0) (owned 2 2 1 0 0) 1 (fun g h => nth (g + 2 * h) [2; 0; 5; 4]%Z 0%Z) A0 /\
  stores (owned 2 1 2 1 1) (owned 2 2 1 0 0) 1 (fun g h => nth (g + 2 * h) [2; 0; 5; 4]%Z 0%Z) A1 /\
  dist_triangle (fun x => Z.div x 2) 0%Z true R0 C 1 A0 = Ok B0 /\ dist_triangle (fun x => Z.div x 2) 0%Z true R1 C 1 A1 = Ok B1 /\
  (let fam := fun i (_ : nat) => if i =? 0 then B0 else B1 in
   dist_symherm_finish (fun x => x) Z.add 0%Z 1 2 2 1 (fun _ _ => 1) fam (owned 2 1 2 0 0) (owned 2 2 1 0 0) 0 0 1 2 = Ok D0 /\
   dist_symherm_finish (fun x => x) Z.add 0%Z 1 2 2 1 (fun _ _ => 1) fam (owned 2 1 2 0 1) (owned 2 2 1 0 0) 1 0 1 2 = Ok D1) /\
  D0 = [0; 3]%Z /\ D1 = [3; 10]%Z.
Proof.
  exists (mk_dim 1 1 [1] [1] [0]), (mk_dim 1 1 [0] [1] [0]), (mk_dim 2 1 [0] [2] [0]), [0; 4]%Z, [2; 5]%Z, [0; 2]%Z, [1; 5]%Z, [0; 3]%Z, [3; 10]%Z.
  assert (X : forall rows A, owned 2 1 2 1 rows = [1 - rows] -> A = (if rows =? 0 then [0; 4]%Z else [2; 5]%Z) -> rows < 2 ->
    stores (owned 2 1 2 1 rows) (owned 2 2 1 0 0) 1 (fun g h => nth (g + 2 * h) [2; 0; 5; 4]%Z 0%Z) A).
  { intros r A Er -> Hr a b g h Ha Hb. rewrite Er in Ha. replace (owned 2 2 1 0 0) with [0; 1] in Hb by reflexivity.
    destruct a as [|[|a]]; [|discriminate..]. injection Ha as <-. destruct b as [|[|[|b]]]; [| |discriminate..]; injection Hb as <-;
    destruct r as [|[|r]]; try lia; reflexivity. }
  split; [reflexivity|]. split; [reflexivity|]. split; [reflexivity|]. split; [apply X; auto|]. split; [apply X; auto|].
  vm_compute. repeat split.
Qed.
Lemma read_ld_witness : exists (file H H' : list Z) (G : nat -> nat -> Z), in_file file 2 G /\ length H = 3 * 2 /\
  read_block file 2 2 2 0 0 H = Ok H' /\ ~ stores (seq 0 2) (seq 0 2) 3 G H'.
Proof.
  exists [1; 2; 3; 4]%Z, (repeat 0%Z 6), [1; 2; 3; 4; 0; 0]%Z, (fun g h => nth (g + h * 2) [1; 2; 3; 4]%Z 0%Z).
  split; [|split; [reflexivity|split; [reflexivity|]]].
  - split; [reflexivity|]. intros g h Hg Hh. apply nth_error_nth'. simpl. lia.
  - intros S. specialize (S 0 1 0 1 eq_refl eq_refl). discriminate.
Qed.
