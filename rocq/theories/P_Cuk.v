(** Properties C56-C61: the CUDA kernels. *)
From Coq Require Import List Arith ZArith Bool Permutation.
Require Import Verif.Base Verif.DistModel Verif.DistSpec Verif.FlatSpec Verif.CukModel Verif.CukSpec Verif.CukTabs Verif.CukProofs3 Verif.CukProofs4
  Verif.CukProofs5 Verif.CukMain Verif.CukEx.
Import ListNotations.

(** C56 *)
Theorem C56_shift_is_the_diagonal : forall V (zero : V) add plus n m, (Zn n <= 46340)%Z -> (forall i, i < n -> m (entry 0 n i i) <> None) ->
  exists m', yields add (shift_kernel zero plus n) m m' /\
    (forall i, i < n -> m' (entry 0 n i i) = option_map plus (m (entry 0 n i i))) /\
    (forall x, (forall i, i < n -> x <> entry 0 n i i) -> m' x = m x).
Proof. exact shift_main. Qed.
Print Assumptions C56_shift_is_the_diagonal.
Theorem C56_shift_of_large_matrices_refuted : forall V (zero : V) add plus n m, (46341 <= Zn n)%Z -> may_fault add (shift_kernel zero plus n) m.
Proof. exact @shift_kernel_bad. Qed.
Print Assumptions C56_shift_of_large_matrices_refuted.
(** what [yields] promises: some run ends, and then the memory is the given one *)
Theorem C56_launches_end : forall V add (k : kernel V) m spec, yields add k m spec ->
  exists n c, stepn add [] (kn_blocks k) (kn_threads k) n (launch k m) c /\ final (kn_blocks k) (kn_threads k) c /\ forall x, c_mem c x = spec x.
Proof. exact yields_ends. Qed.
Print Assumptions C56_launches_end.
Example C56_example : exists m', yields Z.add (shift_kernel 0%Z (Z.add 10) 2) (device [[1; 2; 3; 4]])%Z m' /\
  m' (Glob 0 0%Z) = Some 11%Z /\ m' (Glob 0 1%Z) = Some 2%Z /\ m' (Glob 0 2%Z) = Some 3%Z /\ m' (Glob 0 3%Z) = Some 14%Z.
Proof. exact shift_ex. Qed.
Example C56_example_large : may_fault Z.add (shift_kernel 0%Z (Z.add 10) (Z.to_nat 46341)) (fun _ => Some 0%Z).
Proof. exact shift_bad_ex. Qed.

(** C57 *)
Theorem C57_block_cyclic_gpu_shift : forall V (zero : V) add plus N mb nb p q rsrc csrc ld G (R C : nat -> dim) (H : nat -> nat -> list V) (M : nat -> nat -> mem V),
  0 < mb -> 0 < nb -> rsrc < p -> csrc < q ->
  (forall i, i < p -> bc_ctor N mb p rsrc i = Ok (R i)) -> (forall j, j < q -> bc_ctor N nb q csrc j = Ok (C j)) ->
  (forall i j, i < p -> j < q -> length (owned N mb p rsrc i) <= ld i j) ->
  stores_grid p q (owned N mb p rsrc) (owned N nb q csrc) ld G H -> (forall i j, i < p -> j < q -> holds 0 (H i j) (M i j)) ->
  forall i j, i < p -> j < q -> exists o m', diag_tables (R i) (C j) = Ok o /\
    yields add (shift_mgpu_kernel zero plus (fst o) (snd o) (ld i j)) (M i j) m' /\
    (forall a b g h, nth_error (owned N mb p rsrc i) a = Some g -> nth_error (owned N nb q csrc j) b = Some h ->
       m' (entry 0 (ld i j) a b) = Some (if g =? h then plus (G g h) else G g h)) /\
    (forall k, padding (length (owned N mb p rsrc i)) (length (owned N nb q csrc j)) (ld i j) k -> m' (Glob 0 (Zn k)) = M i j (Glob 0 (Zn k))) /\
    (forall x, (forall k, x <> Glob 0 (Zn k)) -> m' x = M i j x).
Proof. exact mgpu_bc. Qed.
Print Assumptions C57_block_cyclic_gpu_shift.
Theorem C57_block_gpu_shift : forall V (zero : V) add plus N ml nl p q ld G (H : nat -> nat -> list V) (M : nat -> nat -> mem V),
  let rows i := seq (i * ml) (blk_size N ml p i) in let cols j := seq (j * nl) (blk_size N nl q j) in
  (forall i j, i < p -> j < q -> length (rows i) <= ld i j) -> stores_grid p q rows cols ld G H -> (forall i j, i < p -> j < q -> holds 0 (H i j) (M i j)) ->
  forall i j, i < p -> j < q -> exists o m', diag_tables (blk_ctor N ml p i) (blk_ctor N nl q j) = Ok o /\
    yields add (shift_mgpu_kernel zero plus (fst o) (snd o) (ld i j)) (M i j) m' /\
    (forall a b g h, nth_error (rows i) a = Some g -> nth_error (cols j) b = Some h -> m' (entry 0 (ld i j) a b) = Some (if g =? h then plus (G g h) else G g h)) /\
    (forall k, padding (length (rows i)) (length (cols j)) (ld i j) k -> m' (Glob 0 (Zn k)) = M i j (Glob 0 (Zn k))) /\
    (forall x, (forall k, x <> Glob 0 (Zn k)) -> m' x = M i j x).
Proof. exact mgpu_blk. Qed.
Print Assumptions C57_block_gpu_shift.
Example C57_example : exists o m', diag_tables (mk_dim 2 2 [0; 2] [1; 1] [0; 1]) (mk_dim 3 2 [0; 2] [2; 1] [0; 2]) = Ok o /\ o = ([0; 1], [0; 2]) /\
  yields Z.add (shift_mgpu_kernel 0%Z (Z.add 100) (fst o) (snd o) 2) (device [[0; 20; 1; 21; 2; 22]])%Z m' /\
  m' (Glob 0 0%Z) = Some 100%Z /\ m' (Glob 0 1%Z) = Some 20%Z /\ m' (Glob 0 5%Z) = Some 122%Z.
Proof. exact mgpu_ex. Qed.

(** C58 *)
Theorem C58_random_vectors_are_filled : forall V add draw n (m : mem V), (Zn n <= 2147475456)%Z -> (forall i, (0 <= i < Zn n)%Z -> m (Glob 0 i) <> None) ->
  exists m', yields add (normal_kernel draw n) m m' /\
    (forall i, (0 <= i < Zn n)%Z -> m' (Glob 0 i) = Some (draw (Z.to_nat (i mod 8192)) (Z.to_nat (i / 8192)))) /\
    (forall x, (forall i, (0 <= i < Zn n)%Z -> x <> Glob 0 i) -> m' x = m x).
Proof. exact @normal_kernel_ok. Qed.
Print Assumptions C58_random_vectors_are_filled.
Theorem C58_long_random_vectors_refuted : forall V add draw n (m : mem V), (2147475456 < Zn n)%Z -> (forall i, (0 <= i < Zn n)%Z -> m (Glob 0 i) <> None) ->
  may_fault add (normal_kernel draw n) m.
Proof. exact @normal_kernel_bad. Qed.
Print Assumptions C58_long_random_vectors_refuted.
Example C58_example : exists m', yields Z.add (normal_kernel (fun s k => Z.of_nat (100 * s + k)) 3) (device [[0; 0; 0; 5]])%Z m' /\
  m' (Glob 0 0%Z) = Some 0%Z /\ m' (Glob 0 2%Z) = Some 200%Z /\ m' (Glob 0 3%Z) = Some 5%Z.
Proof. exact normal_ex. Qed.

(** C59 *)
Theorem C59_lacpy_copies : forall V (zero : V) add m n lda ldb mem0, m <= lda -> m <= ldb -> (Zn n * Zn lda < 2147483648)%Z -> (Zn n * Zn ldb < 2147483648)%Z ->
  (forall i j, i < m -> j < n -> mem0 (entry 0 lda i j) <> None /\ mem0 (entry 1 ldb i j) <> None) ->
  (Zn m mod 4194240 <> 0)%Z -> (Zn n mod 4194240 <> 0)%Z ->
  exists m2, yields_all add (lacpy_launches zero All m n lda ldb) mem0 m2 /\
    (forall i j, i < m -> j < n -> m2 (entry 1 ldb i j) = mem0 (entry 0 lda i j)) /\
    (forall x, (forall i j, i < m -> j < n -> x <> entry 1 ldb i j) -> m2 x = mem0 x).
Proof. exact @lacpy_all_ok. Qed.
Print Assumptions C59_lacpy_copies.
Theorem C59_last_row_lost_refuted : forall V (zero : V) add m n lda ldb mem0 j, m <= lda -> m <= ldb -> (Zn n * Zn lda < 2147483648)%Z -> (Zn n * Zn ldb < 2147483648)%Z ->
  (forall i j, i < m -> j < n -> mem0 (entry 0 lda i j) <> None /\ mem0 (entry 1 ldb i j) <> None) ->
  0 < m -> (Zn m mod 4194240 = 0)%Z -> j < n -> mem0 (entry 0 lda (m - 1) j) <> mem0 (entry 1 ldb (m - 1) j) ->
  exists m2, yields_all add (lacpy_launches zero All m n lda ldb) mem0 m2 /\ m2 (entry 1 ldb (m - 1) j) <> mem0 (entry 0 lda (m - 1) j).
Proof. exact lacpy_lost. Qed.
Print Assumptions C59_last_row_lost_refuted.
Theorem C59_triangle_refuted : forall V (zero : V) add u m n lda ldb mem0 i j, u <> All -> (Zn m < 4194240)%Z -> (Zn n < 4194240)%Z ->
  m <= lda -> m <= ldb -> (Zn n * Zn lda < 2147483648)%Z -> (Zn n * Zn ldb < 2147483648)%Z ->
  (forall i j, i < m -> j < n -> mem0 (entry 0 lda i j) <> None /\ mem0 (entry 1 ldb i j) <> None) ->
  i < m -> j < n -> match u with Upper => i < j | _ => j < i end -> mem0 (entry 0 lda i j) <> Some zero ->
  exists m2, yields_all add (lacpy_launches zero u m n lda ldb) mem0 m2 /\ m2 (entry 1 ldb i j) <> mem0 (entry 0 lda i j).
Proof. exact lacpy_triangle. Qed.
Print Assumptions C59_triangle_refuted.
Example C59_example : exists m', yields_all Z.add (lacpy_launches 0%Z All 2 2 3 2) (device [[1; 2; 9; 3; 4; 9]; [0; 0; 0; 0]])%Z m' /\
  m' (Glob 1 0%Z) = Some 1%Z /\ m' (Glob 1 1%Z) = Some 2%Z /\ m' (Glob 1 2%Z) = Some 3%Z /\ m' (Glob 1 3%Z) = Some 4%Z.
Proof. exact lacpy_ex. Qed.
Example C59_example_lost : let m := Z.to_nat 4194240 in
  exists m', yields_all Z.add (lacpy_launches 0%Z All m 1 m m) (fun x => match x with Glob 0 _ => Some 1%Z | _ => Some 0%Z end) m' /\
  m' (entry 1 m (m - 1) 0) <> Some 1%Z.
Proof. exact lacpy_lost_ex. Qed.

(** C60 *)
Theorem C60_residual_kernel : forall V (zero : V) add m, exists tr, Permutation (leaves tr) (seq 0 m) /\
  forall term fin n lda mem0 (A B : nat -> nat -> V) rv,
  (Zn n * Zn lda <= 4294967296)%Z ->
  (forall i j, i < m -> j < n -> mem0 (entry 0 lda i j) = Some (A i j) /\ mem0 (entry 1 lda i j) = Some (B i j)) ->
  (forall j, j < n -> mem0 (Glob 2 (Zn j)) = Some (rv j) /\ mem0 (Glob 3 (Zn j)) <> None) ->
  (forall b t, b < n -> t < 256 -> mem0 (Shm b (Zn t)) <> None) ->
  exists m', yields add (resid_kernel zero add term fin m n lda) mem0 m' /\
    (forall j, j < n -> m' (Glob 3 (Zn j)) = Some (fin (sval zero add (fun i => term (rv j) (A i j) (B i j)) tr))) /\
    (forall ar z, ~ (ar = 3 /\ exists j, j < n /\ z = Zn j) -> m' (Glob ar z) = mem0 (Glob ar z)).
Proof. exact resid_main. Qed.
Print Assumptions C60_residual_kernel.
Theorem C60_residuals_with_exact_addition : forall V (zero : V) add term fin m n lda mem0 (A B : nat -> nat -> V) rv,
  (forall x y z, add x (add y z) = add (add x y) z) -> (forall x y, add x y = add y x) -> (forall x, add zero x = x) ->
  (Zn n * Zn lda <= 4294967296)%Z ->
  (forall i j, i < m -> j < n -> mem0 (entry 0 lda i j) = Some (A i j) /\ mem0 (entry 1 lda i j) = Some (B i j)) ->
  (forall j, j < n -> mem0 (Glob 2 (Zn j)) = Some (rv j) /\ mem0 (Glob 3 (Zn j)) <> None) ->
  (forall b t, b < n -> t < 256 -> mem0 (Shm b (Zn t)) <> None) ->
  exists m', yields add (resid_kernel zero add term fin m n lda) mem0 m' /\
    (forall j, j < n -> m' (Glob 3 (Zn j)) = Some (fin (total zero add (fun i => term (rv j) (A i j) (B i j)) (seq 0 m)))).
Proof. exact resid_sum. Qed.
Print Assumptions C60_residuals_with_exact_addition.
Example C60_example : exists m', yields Z.add (resid_kernel 0%Z Z.add (fun r a b => (a - r * b) * (a - r * b))%Z (fun x => x) 3 2 4)
    (device [[1; 2; 3; 0; 4; 5; 6; 0]; [1; 1; 1; 0; 2; 2; 2; 0]; [2; 3]; [0; 0]])%Z m' /\ m' (Glob 3 0%Z) = Some 2%Z /\ m' (Glob 3 1%Z) = Some 5%Z.
Proof. exact resid_ex. Qed.

(** C61 *)
Theorem C61_trace_is_added_to_the_result_cell : forall V (zero : V) add abs n ld mem0 D g,
  (forall x y z, add x (add y z) = add (add x y) z) -> (forall x y, add x y = add y x) -> (forall x, add zero x = x) ->
  (Zn n * (Zn ld + 1) <= 2147483648)%Z ->
  (forall i, i < n -> mem0 (entry 0 ld i i) = Some (D i)) -> mem0 (Glob 1 0%Z) = Some g ->
  (forall b t, b < (n + 255) / 256 -> t < 256 -> mem0 (Shm b (Zn t)) <> None) ->
  exists m', yields add (trace_kernel zero add abs n ld) mem0 m' /\
    m' (Glob 1 0%Z) = Some (add g (total zero add (fun i => abs (D i)) (seq 0 n))) /\
    (forall ar z, (ar, z) <> (1, 0%Z) -> m' (Glob ar z) = mem0 (Glob ar z)).
Proof. exact trace_main. Qed.
Print Assumptions C61_trace_is_added_to_the_result_cell.
Theorem C61_trace_of_uninitialised_cell_refuted : forall abs n ld mem0 (D : nat -> Z) g,
  (Zn n * (Zn ld + 1) <= 2147483648)%Z ->
  (forall i, i < n -> mem0 (entry 0 ld i i) = Some (D i)) -> mem0 (Glob 1 0%Z) = Some g -> g <> 0%Z ->
  (forall b t, b < (n + 255) / 256 -> t < 256 -> mem0 (Shm b (Zn t)) <> None) ->
  exists m', yields Z.add (trace_kernel 0%Z Z.add abs n ld) mem0 m' /\
    m' (Glob 1 0%Z) <> Some (total 0%Z Z.add (fun i => abs (D i)) (seq 0 n)).
Proof. exact trace_stale. Qed.
Print Assumptions C61_trace_of_uninitialised_cell_refuted.
(** calls one after the other, the cell keeping its contents in between as the multi-GPU backend does: after K calls it holds the sum of
    all K traces *)
Theorem C61_cell_accumulates_over_calls : forall V (zero : V) add abs n ld (D : nat -> nat -> V) (before after : nat -> mem V) g K,
  (forall x y z, add x (add y z) = add (add x y) z) -> (forall x y, add x y = add y x) -> (forall x, add zero x = x) ->
  (Zn n * (Zn ld + 1) <= 2147483648)%Z ->
  (forall k, k < K -> (forall i, i < n -> before k (entry 0 ld i i) = Some (D k i)) /\
     (forall b t, b < (n + 255) / 256 -> t < 256 -> before k (Shm b (Zn t)) <> None)) ->
  before 0 (Glob 1 0%Z) = Some g -> (forall k, k < K -> before (S k) (Glob 1 0%Z) = after k (Glob 1 0%Z)) ->
  (forall k, k < K -> ran add (trace_kernel zero add abs n ld) (before k) (after k)) ->
  before K (Glob 1 0%Z) = Some (add g (total zero add (fun k => total zero add (fun i => abs (D k i)) (seq 0 n)) (seq 0 K))).
Proof. exact trace_repeated. Qed.
Print Assumptions C61_cell_accumulates_over_calls.
(** so even a cell that starts at zero gives a wrong trace in every later call, unless all earlier traces vanish *)
Theorem C61_later_calls_refuted : forall abs n ld (D : nat -> nat -> Z) (before after : nat -> mem Z) K,
  (Zn n * (Zn ld + 1) <= 2147483648)%Z ->
  (forall k, k < S K -> (forall i, i < n -> before k (entry 0 ld i i) = Some (D k i)) /\
     (forall b t, b < (n + 255) / 256 -> t < 256 -> before k (Shm b (Zn t)) <> None)) ->
  before 0 (Glob 1 0%Z) = Some 0%Z -> (forall k, k < S K -> before (S k) (Glob 1 0%Z) = after k (Glob 1 0%Z)) ->
  (forall k, k < S K -> ran Z.add (trace_kernel 0%Z Z.add abs n ld) (before k) (after k)) ->
  total 0%Z Z.add (fun k => total 0%Z Z.add (fun i => abs (D k i)) (seq 0 n)) (seq 0 K) <> 0%Z ->
  after K (Glob 1 0%Z) <> Some (total 0%Z Z.add (fun i => abs (D K i)) (seq 0 n)).
Proof. exact trace_second_wrong. Qed.
Print Assumptions C61_later_calls_refuted.
Example C61_example : exists m', yields Z.add (trace_kernel 0%Z Z.add Z.abs 2 2) (device [[1; 2; 3; -4]; [7]])%Z m' /\ m' (Glob 1 0%Z) = Some 12%Z.
Proof. exact trace_ex. Qed.
Example C61_example_twice : exists m1 m2, ran Z.add (trace_kernel 0%Z Z.add Z.abs 2 2) (device [[1; 2; 3; -4]; [0]])%Z m1 /\ m1 (Glob 1 0%Z) = Some 5%Z /\
  ran Z.add (trace_kernel 0%Z Z.add Z.abs 2 2) (fun x => match x with Glob _ _ => m1 x | _ => Some 0%Z end) m2 /\ m2 (Glob 1 0%Z) = Some 10%Z.
Proof. exact trace_twice_ex. Qed.
