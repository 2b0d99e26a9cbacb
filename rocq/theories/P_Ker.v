(** Properties C09, C30, C32 (with C30), C44, C45 and C46: the distributed kernels on a p x q grid, with all communication explicit.
    [completes .. Q st]: whatever order the collectives complete in, no process gets stuck or misbehaves and every process
    (i, j) ends with a result satisfying Q i j (C43). *)
From Coq Require Import List Arith ZArith Bool QArith Qcanon.
Require Import Verif.Base Verif.DistModel Verif.DistSpec Verif.RedistSpec Verif.FlatSpec Verif.SpmdModel Verif.SpmdSpec Verif.KerModel Verif.KerSpec.
Require Import Verif.KerProofs9 Verif.KerProofs10 Verif.KerProofs11 Verif.KerInst Verif.KerInst2 Verif.KerEx Verif.FlatModel Verif.KerSpan.
Import ListNotations.
Close Scope Q_scope.
Close Scope Qc_scope.

(** C09.  Product with the vectors in the row distribution (buffer C): the result arrives in buffer B. *)
Theorem C09_hemm_from_rows : forall D (o : sops D), is_ring o -> forall N p q mb nb rsrc csrc nevex ldh G, layout N p q mb nb rsrc csrc ->
  forall s, stores_grid p q (owned N mb p rsrc) (owned N nb q csrc) ldh G (fun i j => l_H (s i j)) ->
  forall alpha beta offset block locked V W, let off := locked + offset in
  hermitian o N G ->
  (forall i j, i < p -> j < q -> l_bAc (s i j) = true /\ l_bAc_dla (s i j) = true) ->
  (forall j, j < q -> (Z.of_nat (length (owned N nb q csrc j) * block) < 2 ^ 31)%Z) ->
  (forall i j, i < p -> j < q -> holds (owned N mb p rsrc i) off block (length (owned N mb p rsrc i)) V (l_C (s i j))) ->
  (forall i j, i < p -> j < q -> length (owned N nb q csrc j) * (off + block) <= length (l_B (s i j))) ->
  (beta = s0 o \/ forall j, j < q -> holds (owned N nb q csrc j) off block (length (owned N nb q csrc j)) W (l_B (s 0 j))) ->
  completes (sadd o) p q (fun i j s' => only_columns (owned N nb q csrc j) off block (axpby o N alpha beta G V W) (l_B (s i j)) (l_B s') /\
      s' = mk_loc (l_H (s i j)) (l_C (s i j)) (l_C2 (s i j)) (l_B s') (l_B2 (s i j)) (l_A (s i j)) false false)
    (fun i j => apply o (bc_env N p q mb nb rsrc csrc (ldh i j) nevex i j) alpha beta offset block locked (s i j)).
Proof. exact @herm_bAc. Qed.
Print Assumptions C09_hemm_from_rows.

(** The same for an arbitrary matrix: this direction multiplies with the conjugate transpose. *)
Theorem C09_hemm_from_rows_any_matrix : forall D (o : sops D), is_ring o -> forall N p q mb nb rsrc csrc nevex ldh G, layout N p q mb nb rsrc csrc ->
  forall s, stores_grid p q (owned N mb p rsrc) (owned N nb q csrc) ldh G (fun i j => l_H (s i j)) ->
  forall alpha beta offset block locked V W, let off := locked + offset in
  (forall i j, i < p -> j < q -> l_bAc (s i j) = true /\ l_bAc_dla (s i j) = true) ->
  (forall j, j < q -> (Z.of_nat (length (owned N nb q csrc j) * block) < 2 ^ 31)%Z) ->
  (forall i j, i < p -> j < q -> holds (owned N mb p rsrc i) off block (length (owned N mb p rsrc i)) V (l_C (s i j))) ->
  (forall i j, i < p -> j < q -> length (owned N nb q csrc j) * (off + block) <= length (l_B (s i j))) ->
  (beta = s0 o \/ forall j, j < q -> holds (owned N nb q csrc j) off block (length (owned N nb q csrc j)) W (l_B (s 0 j))) ->
  completes (sadd o) p q (fun i j s' => only_columns (owned N nb q csrc j) off block (axpby o N alpha beta (ctrans o G) V W) (l_B (s i j)) (l_B s') /\
      s' = mk_loc (l_H (s i j)) (l_C (s i j)) (l_C2 (s i j)) (l_B s') (l_B2 (s i j)) (l_A (s i j)) false false)
    (fun i j => apply o (bc_env N p q mb nb rsrc csrc (ldh i j) nevex i j) alpha beta offset block locked (s i j)).
Proof. exact @lay_hemm_bAc. Qed.
Print Assumptions C09_hemm_from_rows_any_matrix.

(** Product with the vectors in the column distribution (buffer B): the result arrives in buffer C. *)
Theorem C09_hemm_from_columns : forall D (o : sops D), is_ring o -> forall N p q mb nb rsrc csrc nevex ldh G, layout N p q mb nb rsrc csrc ->
  forall s, stores_grid p q (owned N mb p rsrc) (owned N nb q csrc) ldh G (fun i j => l_H (s i j)) ->
  forall alpha beta offset block locked V W, let off := locked + offset in
  (forall i j, i < p -> j < q -> l_bAc (s i j) = false /\ l_bAc_dla (s i j) = false) ->
  (forall i, i < p -> (Z.of_nat (length (owned N mb p rsrc i) * block) < 2 ^ 31)%Z) ->
  (forall i j, i < p -> j < q -> holds (owned N nb q csrc j) off block (length (owned N nb q csrc j)) V (l_B (s i j))) ->
  (forall i j, i < p -> j < q -> length (owned N mb p rsrc i) * (off + block) <= length (l_C (s i j))) ->
  (beta = s0 o \/ forall i, i < p -> holds (owned N mb p rsrc i) off block (length (owned N mb p rsrc i)) W (l_C (s i 0))) ->
  completes (sadd o) p q (fun i j s' => only_columns (owned N mb p rsrc i) off block (axpby o N alpha beta G V W) (l_C (s i j)) (l_C s') /\
      s' = mk_loc (l_H (s i j)) (l_C s') (l_C2 (s i j)) (l_B (s i j)) (l_B2 (s i j)) (l_A (s i j)) true true)
    (fun i j => apply o (bc_env N p q mb nb rsrc csrc (ldh i j) nevex i j) alpha beta offset block locked (s i j)).
Proof. exact @lay_hemm_cAb. Qed.
Print Assumptions C09_hemm_from_columns.

(** A Hermitian matrix of order 3 on 2 x 2 processes, (2 + i) * H * V - i * W on the second of two columns. *)
Example C09_example :
  is_ring gauss /\ layout 3 2 2 1 1 0 0 /\ hermitian gauss 3 ex_G /\
  map (map (option_map (fun s => skipn (length (l_B s) / 2) (l_B s))))
    (run_grid (sadd gauss) 2 2 100 (fun i j => apply gauss (bc_env 3 2 2 1 1 0 0 (length (owned 3 1 2 0 i)) 2 i j) (2, 1)%Z (0, -1)%Z 0 1 1
       (grid_state gauss 3 2 2 1 1 0 0 2 ex_G ex_V ex_W ex_W ex_W true i j))) =
  map (fun i => map (fun j => Some (map (fun g => axpby gauss 3 (2, 1)%Z (0, -1)%Z ex_G ex_V ex_W g 1) (owned 3 1 2 0 j))) (seq 0 2)) (seq 0 2) /\
  axpby gauss 3 (2, 1)%Z (0, -1)%Z ex_G ex_V ex_W 0 1 = (-23, 25)%Z.
Proof.
  split; [exact gauss_ring|]. split; [exact ex_layout|]. split.
  - intros r c Hr Hc. do 3 (destruct r as [|r]; [do 3 (destruct c as [|c]; [reflexivity|]); exfalso; do 3 apply Nat.succ_lt_mono in Hc; inversion Hc|]).
    exfalso. do 3 apply Nat.succ_lt_mono in Hr. inversion Hr.
  - vm_compute. split; reflexivity.
Qed.

(** C30.  [x]: the random test vector; [far a b]: a and b differ by more than the tolerance. *)
Theorem C30_hermitian_matrices_accepted : forall D (o : sops D), is_ring o -> forall N p q mb nb rsrc csrc nevex ldh G, layout N p q mb nb rsrc csrc ->
  forall s, stores_grid p q (owned N mb p rsrc) (owned N nb q csrc) ldh G (fun i j => l_H (s i j)) ->
  forall x far, (forall a, far a a = false) -> hermitian o N G ->
  (forall i, i < p -> (Z.of_nat (length (owned N mb p rsrc i)) < 2 ^ 31)%Z) -> (forall j, j < q -> (Z.of_nat (length (owned N nb q csrc j)) < 2 ^ 31)%Z) ->
  completes (sadd o) p q (fun i j b => b = true)
    (fun i j => check_sym o far (bc_env N p q mb nb rsrc csrc (ldh i j) nevex i j) (map x (owned N mb p rsrc i)) (s i j)).
Proof. exact @sym_accepts. Qed.
Print Assumptions C30_hermitian_matrices_accepted.

(** With an exact comparison the verdict is "(H - H^* ) x = 0", and it is the same on every process. *)
Theorem C30_verdict_iff : forall D (o : sops D), is_ring o -> forall N p q mb nb rsrc csrc nevex ldh G, layout N p q mb nb rsrc csrc ->
  forall s, stores_grid p q (owned N mb p rsrc) (owned N nb q csrc) ldh G (fun i j => l_H (s i j)) ->
  forall x far, (forall a b, far a b = false <-> a = b) ->
  (forall i, i < p -> (Z.of_nat (length (owned N mb p rsrc i)) < 2 ^ 31)%Z) -> (forall j, j < q -> (Z.of_nat (length (owned N nb q csrc j)) < 2 ^ 31)%Z) ->
  completes (sadd o) p q (fun i j b => b = true <-> forall g, g < N ->
      bsum (s0 o) (sadd o) N (fun h => smul o (sadd o (G g h) (sopp o (scj o (G h g)))) (x h)) = s0 o)
    (fun i j => check_sym o far (bc_env N p q mb nb rsrc csrc (ldh i j) nevex i j) (map x (owned N mb p rsrc i)) (s i j)).
Proof. exact @sym_decides. Qed.
Print Assumptions C30_verdict_iff.

(** The sequential check, for any comparison [eqb]. *)
Theorem C30_sequential_verdict : forall D (o : sops D), is_ring o -> forall eqb N ldh (H v : list D) (G : nat -> nat -> D) (x : nat -> D),
  (forall g h, g < N -> h < N -> nth_error H (g + h * ldh) = Some (G g h)) -> (forall h, h < N -> nth_error v h = Some (x h)) ->
  check_sym_seq o eqb N ldh H v = Ok (forallb (fun g => eqb (mprod o N G (fun h _ => x h) g 0) (mprod o N (ctrans o G) (fun h _ => x h) g 0)) (seq 0 N)).
Proof. exact @check_sym_seq_forallb. Qed.
Print Assumptions C30_sequential_verdict.

(** A matrix that is not Hermitian can be accepted. *)
Theorem C30_only_hermitian_accepted_refuted : exists N (H v : list (Z * Z)) G x,
  (forall g h, g < N -> h < N -> nth_error H (g + h * N) = Some (G g h)) /\ (forall h, h < N -> nth_error v h = Some (x h)) /\ x <> (fun _ => (0, 0)%Z) /\
  ~ hermitian gauss N G /\ check_sym_seq gauss (fun a b => negb (gdiff a b)) N N H v = Ok true.
Proof. exact accepted_not_hermitian. Qed.
Print Assumptions C30_only_hermitian_accepted_refuted.

Example C30_example :
  is_ring gauss /\ layout 3 2 2 1 1 0 0 /\ (forall a b, gdiff a b = false <-> a = b) /\
  map (fun G => run_grid (sadd gauss) 2 2 100 (fun i j => check_sym gauss gdiff (bc_env 3 2 2 1 1 0 0 (length (owned 3 1 2 0 i)) 2 i j)
      (map (fun g => (Z.of_nat g + 1, 2)%Z) (owned 3 1 2 0 i)) (grid_state gauss 3 2 2 1 1 0 0 2 G ex_V ex_V ex_V ex_V true i j))) [ex_G; ex_N] =
  [[[Some true; Some true]; [Some true; Some true]]; [[Some false; Some false]; [Some false; Some false]]] /\
  run_grid (sadd gauss) 2 2 100 (fun i j => check_sym gauss gdiff (bc_env 3 2 2 1 1 0 0 (length (owned 3 1 2 0 i)) 2 i j)
      (map (fun g => (1, 0)%Z) (owned 3 1 2 0 i)) (grid_state gauss 3 2 2 1 1 0 0 2 ex_N ex_V ex_V ex_V ex_V true i j)) =
  [[Some true; Some true]; [Some true; Some true]].
Proof. split; [exact gauss_ring|]. split; [exact ex_layout|]. split; [exact gdiff_iff|]. vm_compute. split; reflexivity. Qed.

(** C32.  A matrix completed by symOrHermMatrix passes the symmetry check: sequentially when its diagonal is real ... *)
Theorem C32_sequential_passes_check : forall D (o : sops D), is_ring o -> is_conj o ->
  forall eqb upper N ld G (H v : list D), (forall a, eqb a a = true) -> N <= ld ->
  stores (seq 0 N) (seq 0 N) ld G H -> (forall g, g < N -> G g g = scj o (G g g)) -> N <= length v ->
  exists H', seq_symherm (scj o) upper N ld H = Ok H' /\ check_sym_seq o eqb N ld H' v = Ok true.
Proof. exact @mirrored_passes_seq. Qed.
Print Assumptions C32_sequential_passes_check.

(** ... and on a grid always, the diagonal being replaced by its real part there (leading dimension and source as in C32_grid_mirror). *)
Theorem C32_grid_passes_check : forall D (o : sops D), is_ring o -> forall half : D -> D, is_conj o ->
  forall N mb nb p q upper (R C : nat -> dim) G (s : nat -> nat -> loc) nevex x far,
  let rows := owned N mb p 0 in let cols := owned N nb q 0 in let ld i (j : nat) := length (rows i) in
  layout N p q mb nb 0 0 -> (forall a, far a a = false) ->
  (forall i, i < p -> bc_ctor N mb p 0 i = Ok (R i)) -> (forall j, j < q -> bc_ctor N nb q 0 j = Ok (C j)) ->
  (forall i, i < p -> (Z.of_nat (length (rows i)) < 2 ^ 31)%Z) -> (forall j, j < q -> (Z.of_nat (length (cols j)) < 2 ^ 31)%Z) ->
  forall H, stores_grid p q rows cols ld G H ->
  exists H1 H2, (forall i j, i < p -> j < q -> dist_triangle half (s0 o) upper (R i) (C j) (ld i j) (H i j) = Ok (H1 i j)) /\
    (forall i j, i < p -> j < q ->
       dist_symherm_finish (scj o) (sadd o) (s0 o) mb nb p q ld H1 (rows i) (cols j) i j (length (rows i)) (length (cols j)) = Ok (H2 i j)) /\
    ((forall i j, i < p -> j < q -> l_H (s i j) = H2 i j) ->
     completes (sadd o) p q (fun i j b => b = true)
       (fun i j => check_sym o far (bc_env N p q mb nb 0 0 (ld i j) nevex i j) (map x (rows i)) (s i j))).
Proof. exact @mirrored_passes_grid. Qed.
Print Assumptions C32_grid_passes_check.

(** Gaussian integers: with a real diagonal the mirrored matrix is accepted, with an imaginary diagonal entry it is not. *)
Example C32_example_passes :
  match seq_symherm (scj gauss) true 2 2 [(1, 0); (7, 7); (2, 3); (4, 0)]%Z with
  | Ok H => check_sym_seq gauss (fun a b => negb (gdiff a b)) 2 2 H [(1, 0); (0, 1)]%Z | _ => UB end = Ok true /\
  match seq_symherm (scj gauss) true 2 2 [(1, 0); (7, 7); (2, 3); (4, 1)]%Z with
  | Ok H => check_sym_seq gauss (fun a b => negb (gdiff a b)) 2 2 H [(1, 0); (0, 1)]%Z | _ => UB end = Ok false.
Proof. vm_compute. auto. Qed.

(** C44 *)
Theorem C44_count_exact_iff : forall dim, mpi_count dim = Z.of_nat dim <-> (Z.of_nat dim < 2 ^ 31)%Z.
Proof. exact mpi_count_exact. Qed.
Print Assumptions C44_count_exact_iff.

Theorem C44_whole_block_reduced_iff : forall D c (buf : list D) off dim, off + dim <= length buf ->
  ((exists k, all_reduce c buf off dim = Call c (ASum (firstn dim (skipn off buf))) k) <-> (Z.of_nat dim < 2 ^ 31)%Z).
Proof. exact @all_reduce_whole. Qed.
Print Assumptions C44_whole_block_reduced_iff.

(** NCCL counts real numbers: two per complex element *)
Theorem C44_nccl_count_exact_iff : forall factor dim, 0 < factor ->
  (nccl_count factor dim = Some (Z.of_nat (factor * dim)) <-> (Z.of_nat (factor * dim) < 2 ^ 31)%Z).
Proof. exact nccl_count_exact. Qed.
Print Assumptions C44_nccl_count_exact_iff.

(** 50000 local rows x 50000 columns: the count becomes negative; 2^17 x 2^15: nothing is reduced *)
Example C44_example : cast_int (50000 * 50000) = (-1794967296)%Z /\ cast_int (2 ^ 17 * 2 ^ 15) = 0%Z /\ cast_int (46340 * 46340) = (46340 * 46340)%Z.
Proof. vm_compute. repeat split. Qed.

(** C45.  With an exact Cholesky factorisation and triangular solver, on every process: info is the same; if it is 0 the
    new columns are orthonormal, span the same space, and leading columns that were orthonormal are unchanged;
    otherwise the columns are unchanged. *)
Theorem C45_cholqr1 : forall D (o : sops D), is_ring o -> forall N p q mb nb rsrc csrc nevex ldh, layout N p q mb nb rsrc csrc ->
  forall s, is_conj o -> forall pos, positive o pos -> forall po tri, exact_cholesky o pos po -> exact_solver o tri ->
  forall V, (Z.of_nat (nevex * nevex) < 2 ^ 31)%Z ->
  (forall i j, i < p -> j < q -> holds (owned N mb p rsrc i) 0 nevex (length (owned N mb p rsrc i)) V (l_C (s i j)) /\
     length (owned N mb p rsrc i) * nevex <= length (l_C (s i j)) /\ nevex * nevex <= length (l_A (s i j))) ->
  exists r : Z * (nat -> nat -> D),
    ((fst r = 0%Z -> orthonormal o N 0 nevex (snd r) /\ spanned o N nevex (snd r) V /\ spanned o N nevex V (snd r) /\
       forall k, k <= nevex -> orthonormal o N 0 k V -> forall g c, c < k -> snd r g c = V g c) /\
     (fst r <> 0%Z -> snd r = V)) /\
    completes (sadd o) p q (fun i j => qr_result nevex (owned N mb p rsrc i) r (s i j))
      (fun i j => cholQR1 o po tri (bc_env N p q mb nb rsrc csrc (ldh i j) nevex i j) (s i j)).
Proof. exact @chol1_ok. Qed.
Print Assumptions C45_cholqr1.

Theorem C45_cholqr2 : forall D (o : sops D), is_ring o -> forall N p q mb nb rsrc csrc nevex ldh, layout N p q mb nb rsrc csrc ->
  forall s, is_conj o -> forall pos, positive o pos -> forall po tri, exact_cholesky o pos po -> exact_solver o tri ->
  forall V, (Z.of_nat (nevex * nevex) < 2 ^ 31)%Z ->
  (forall i j, i < p -> j < q -> holds (owned N mb p rsrc i) 0 nevex (length (owned N mb p rsrc i)) V (l_C (s i j)) /\
     length (owned N mb p rsrc i) * nevex <= length (l_C (s i j)) /\ nevex * nevex <= length (l_A (s i j))) ->
  exists r : Z * (nat -> nat -> D),
    ((fst r = 0%Z -> orthonormal o N 0 nevex (snd r) /\ spanned o N nevex (snd r) V /\ spanned o N nevex V (snd r) /\
       forall k, k <= nevex -> orthonormal o N 0 k V -> forall g c, c < k -> snd r g c = V g c) /\
     (fst r <> 0%Z -> snd r = V)) /\
    completes (sadd o) p q (fun i j => qr_result nevex (owned N mb p rsrc i) r (s i j))
      (fun i j => cholQR2 o po tri (bc_env N p q mb nb rsrc csrc (ldh i j) nevex i j) (s i j)).
Proof. exact @chol2_ok. Qed.
Print Assumptions C45_cholqr2.

(** The shifted variant keeps the span even when a factorisation fails. *)
Theorem C45_shifted_cholqr2 : forall D (o : sops D), is_ring o -> forall N p q mb nb rsrc csrc nevex ldh, layout N p q mb nb rsrc csrc ->
  forall s, is_conj o -> forall pos, positive o pos -> forall po tri, exact_cholesky o pos po -> exact_solver o tri ->
  forall V, (Z.of_nat (nevex * nevex) < 2 ^ 31)%Z ->
  (forall i j, i < p -> j < q -> holds (owned N mb p rsrc i) 0 nevex (length (owned N mb p rsrc i)) V (l_C (s i j)) /\
     length (owned N mb p rsrc i) * nevex <= length (l_C (s i j)) /\ nevex * nevex <= length (l_A (s i j))) ->
  forall shift, (forall d, scj o (shift d) = shift d) ->
  exists r : Z * (nat -> nat -> D),
    (fst r = 0%Z -> orthonormal o N 0 nevex (snd r)) /\ spanned o N nevex V (snd r) /\ spanned o N nevex (snd r) V /\
    completes (sadd o) p q (fun i j => qr_result nevex (owned N mb p rsrc i) r (s i j))
      (fun i j => shiftedcholQR2 o po tri shift (bc_env N p q mb nb rsrc csrc (ldh i j) nevex i j) (s i j)).
Proof. exact @schol2_ok. Qed.
Print Assumptions C45_shifted_cholqr2.

(** Rational numbers, 2 x 1 processes, columns (1, 0) and (1, 2): the second becomes (0, 1), the first stays. *)
Example C45_example :
  is_ring rat /\ is_conj rat /\ positive rat qpos /\ exact_cholesky rat qpos rat_chol /\ exact_solver rat rat_solver /\ layout 2 2 1 1 1 0 0 /\
  (let run k := map (map (option_map (fun a : Z * loc => (fst a, view (l_C (snd a)))))) (run_grid (sadd rat) 2 1 100 (fun i j => k (ex_env i j) (ex_grid ex_C i j))) in
   run (cholQR1 rat rat_chol rat_solver) = [[Some (0%Z, [1%Q; 0%Q])]; [Some (0%Z, [0%Q; 1%Q])]] /\
   run (cholQR2 rat rat_chol rat_solver) = [[Some (0%Z, [1%Q; 0%Q])]; [Some (0%Z, [0%Q; 1%Q])]]) /\
  map (map (option_map (fun a : Z * loc => fst a))) (run_grid (sadd rat) 2 1 100 (fun i j => cholQR1 rat rat_chol rat_solver (ex_env i j) (ex_grid (fun _ _ => q_ 1 1) i j))) =
    [[Some 1%Z]; [Some 1%Z]].
Proof.
  split; [exact rat_ring|]. split; [exact rat_conj|]. split; [exact rat_positive|]. split; [exact rat_exact_cholesky|]. split; [exact rat_exact_solver|].
  split; [exact (proj1 ex_layout2)|]. vm_compute. repeat split.
Qed.

(** C46.  [M] is the Rayleigh quotient; heevd has to diagonalise it. *)
Theorem C46_rayleigh_ritz : forall D (o : sops D), is_ring o -> forall N p q mb nb rsrc csrc nevex ldh G, layout N p q mb nb rsrc csrc ->
  forall s, stores_grid p q (owned N mb p rsrc) (owned N nb q csrc) ldh G (fun i j => l_H (s i j)) ->
  is_conj o -> packable N p q mb nb rsrc csrc -> hermitian o N G -> forall block locked V,
  (forall i j, i < p -> j < q -> holds (owned N mb p rsrc i) locked block (length (owned N mb p rsrc i)) V (l_C (s i j))) ->
  (forall i j, i < p -> j < q -> holds (owned N mb p rsrc i) locked block (length (owned N mb p rsrc i)) V (l_C2 (s i j))) ->
  (forall i j, i < p -> j < q -> length (owned N mb p rsrc i) * (locked + block) <= length (l_C (s i j))) ->
  (forall i j, i < p -> j < q -> length (owned N mb p rsrc i) * (locked + block) <= length (l_C2 (s i j))) ->
  (forall i j, i < p -> j < q -> length (owned N nb q csrc j) * (locked + block) <= length (l_B (s i j))) ->
  (forall i j, i < p -> j < q -> length (owned N nb q csrc j) * (locked + block) <= length (l_B2 (s i j))) ->
  (forall j, j < q -> (Z.of_nat (length (owned N nb q csrc j) * block) < 2 ^ 31)%Z) ->
  forall ev, locked + block = nevex -> (Z.of_nat (nevex * block) < 2 ^ 31)%Z ->
  (forall i j, i < p -> j < q -> nevex * block <= length (l_A (s i j))) ->
  orthonormal o N locked block V ->
  let M := mprod o N (ctrans o (from locked V)) (mprod o N G (from locked V)) in
  eigen o block M (ev block (entries lower block M)) ->
  exists X w, orthonormal o N locked block X /\
    (forall r c, r < block -> c < block -> mprod o N (ctrans o (from locked X)) (mprod o N G (from locked X)) r c = if r =? c then w c else s0 o) /\
    spanned o N block (from locked V) (from locked X) /\
    ((forall m f, bsum (s0 o) (sadd o) m (fun g => smul o (scj o (f g)) (f g)) = s0 o -> forall g, g < m -> f g = s0 o) ->
     spanned o N block (from locked X) (from locked V)) /\
    completes (sadd o) p q (fun i j r =>
      only_columns (owned N mb p rsrc i) locked block X (l_C (s i j)) (l_C (fst r)) /\
      only_columns (owned N mb p rsrc i) locked block X (l_C2 (s i j)) (l_C2 (fst r)) /\
      snd r = map w (seq 0 block) /\ l_H (fst r) = l_H (s i j))
    (fun i j => rr o ev (bc_env N p q mb nb rsrc csrc (ldh i j) nevex i j) block locked (s i j)).
Proof. exact rayleigh_ritz_space. Qed.
Print Assumptions C46_rayleigh_ritz.

(** A zero residual certifies an exact eigenpair. *)
Theorem C46_zero_residual : forall D (o : sops D), is_ring o -> forall N p q mb nb rsrc csrc nevex ldh G, layout N p q mb nb rsrc csrc ->
  forall s, stores_grid p q (owned N mb p rsrc) (owned N nb q csrc) ldh G (fun i j => l_H (s i j)) ->
  packable N p q mb nb rsrc csrc -> hermitian o N G -> forall block locked V,
  (forall i j, i < p -> j < q -> holds (owned N mb p rsrc i) locked block (length (owned N mb p rsrc i)) V (l_C (s i j))) ->
  (forall i j, i < p -> j < q -> holds (owned N mb p rsrc i) locked block (length (owned N mb p rsrc i)) V (l_C2 (s i j))) ->
  (forall i j, i < p -> j < q -> length (owned N mb p rsrc i) * (locked + block) <= length (l_C2 (s i j))) ->
  (forall i j, i < p -> j < q -> length (owned N nb q csrc j) * (locked + block) <= length (l_B (s i j))) ->
  (forall i j, i < p -> j < q -> length (owned N nb q csrc j) * (locked + block) <= length (l_B2 (s i j))) ->
  (forall j, j < q -> (Z.of_nat (length (owned N nb q csrc j) * block) < 2 ^ 31)%Z) ->
  forall sqrt (ritzv : list D) (lam : nat -> D), (Z.of_nat block < 2 ^ 31)%Z ->
  (forall c, c < block -> nth_error ritzv c = Some (lam c)) ->
  (forall x, sqrt x = s0 o -> x = s0 o) ->
  (forall f, bsum (s0 o) (sadd o) N (fun g => smul o (scj o (f g)) (f g)) = s0 o -> forall g, g < N -> f g = s0 o) ->
  exists res, (forall c, c < block -> res c = s0 o -> forall g, g < N -> mprod o N G V g (locked + c) = smul o (lam c) (V g (locked + c))) /\
    completes (sadd o) p q (fun i j r => snd r = map res (seq 0 block) /\ l_C (fst r) = l_C (s i j) /\ l_C2 (fst r) = l_C2 (s i j))
      (fun i j => resd o sqrt (bc_env N p q mb nb rsrc csrc (ldh i j) nevex i j) ritzv locked block (s i j)).
Proof. exact @zero_residual. Qed.
Print Assumptions C46_zero_residual.

(** H = [[17, -12], [-12, 10]] on 2 x 1 processes, starting from the unit vectors; then the residuals of the result. *)
Example C46_example :
  layout 2 2 1 1 1 0 0 /\ packable 2 2 1 1 1 0 0 /\
  map (map (option_map (fun a : loc * list Qc => (view (l_C (fst a)), view (snd a)))))
    (run_grid (sadd rat) 2 1 100 (fun i j => rr rat ex_ev (ex_env i j) 2 0 (ex_grid (delta rat) i j))) =
  [[Some ([3 # 5; 4 # 5], [1; 26])]; [Some ([4 # 5; - (3) # 5], [1; 26])]]%Q /\
  map (map (option_map (fun a : loc * list Qc => view (snd a))))
    (run_grid (sadd rat) 2 1 100 (fun i j => resd rat (fun x => x) (ex_env i j) [q_ 1 1; q_ 25 1] 0 2 (ex_grid ex_Z i j))) =
  [[Some [0; 1]]; [Some [0; 1]]]%Q.
Proof. split; [exact (proj1 ex_layout2)|]. split; [exact (proj2 ex_layout2)|]. vm_compute. split; reflexivity. Qed.
