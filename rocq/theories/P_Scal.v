(** Property C82: Householder QR through ScaLAPACK.  [bc_desc], [blk_desc]: error code and array descriptor of the constructors;
    [right_desc]: the descriptor gives every row to the process that holds it and to the place where it is. *)
From Coq Require Import List Arith ZArith Bool QArith Qcanon Permutation Lia.
Require Import Verif.Base Verif.AlgModel Verif.AlgSpec Verif.DlaModel Verif.ColModel Verif.DistSpec Verif.SpmdModel Verif.SpmdSpec Verif.KerModel Verif.KerSpec.
Require Import Verif.RedistSpec Verif.ClientModel Verif.DsModel Verif.DsSpec Verif.DsProofs7 Verif.DsProofs8 Verif.KerInst Verif.KerInst2 Verif.KerEx Verif.DsEx.
Require Import Verif.DistModel Verif.RedistModel Verif.BlkSolve Verif.BlkEx Verif.ScalModel Verif.ScalSpec Verif.ScalProofs1 Verif.ScalProofs3 Verif.ScalEx.
Import ListNotations.
Close Scope Q_scope.
Close Scope Qc_scope.

(** C82.  Block-cyclic distribution: on every process that holds rows the descriptor is accepted and right. *)
Theorem C82_cyclic_descriptor_right : forall N p mb rsrc n i, 0 < mb -> rsrc < p -> i < p -> 0 < n -> owned N mb p rsrc i <> [] ->
  fst (bc_desc N p mb rsrc n i) = 0%Z /\ right_desc N n p (owned N mb p rsrc) i (snd (bc_desc N p mb rsrc n i)).
Proof. exact cyclic_right. Qed.
Print Assumptions C82_cyclic_descriptor_right.

(** A process that holds no rows reports an invalid leading dimension; the constructor does not look at the code. *)
Theorem C82_process_without_rows_refuted : forall N p mb rsrc n i, 0 < mb -> rsrc < p -> i < p -> 0 < n -> owned N mb p rsrc i = [] ->
  fst (bc_desc N p mb rsrc n i) = (-9)%Z.
Proof. exact cyclic_empty. Qed.
Print Assumptions C82_process_without_rows_refuted.

(** Block distributions: the descriptors are right exactly if no piece is longer than the others. *)
Theorem C82_block_descriptors_right_iff : forall N p ml n, 0 < p -> 0 < ml -> (p - 1) * ml < N -> (Z.of_nat N < 2 ^ 64)%Z -> 0 < n ->
  ((forall i, i < p -> fst (blk_desc N p ml n i) = 0%Z /\ right_desc N n p (piece N ml p) i (snd (blk_desc N p ml n i))) <-> p = 1 \/ N <= p * ml).
Proof. exact blocks_right. Qed.
Print Assumptions C82_block_descriptors_right_iff.

(** With a longer last piece the factorisation reads outside of the array of process 0, whatever the processes hold. *)
Theorem C82_long_last_piece_refuted : forall D (oc : oracles D) N p ml n e (s : loc (D := D)), 1 < p -> 0 < ml -> p * ml < N -> 0 < n -> (Z.of_nat N < 2 ^ 64)%Z ->
  e_i e = 0 -> length (l_C s) = length (piece N ml p 0) * n ->
  fst (blk_desc N p ml n 0) = (-9)%Z /\ p_hhqr_sl oc p e (snd (blk_desc N p ml n 0)) s = Bad.
Proof. exact @long_piece_bad. Qed.
Print Assumptions C82_long_last_piece_refuted.

(** The factorisation on a grid: the processes end with their rows of the orthonormal factor of the whole block of vectors; everything
    else is as before. *)
Theorem C82_factorises_the_vectors : forall F D (o : sops D) (fo : fops F) inj re oc N p q mb nb rsrc csrc n ldh tab l g s,
  is_ring o -> embeds o fo inj re -> layout N p q mb nb rsrc csrc -> packable N p q mb nb rsrc csrc -> counts_fit N p q mb nb rsrc csrc n -> 0 < n ->
  (forall i j, i < p -> j < q -> length (owned N mb p rsrc i) <= ldh i j /\ grid_tab N p q mb nb rsrc csrc i j = Ok (tab i j)) ->
  on_grid o N p q mb nb rsrc csrc n ldh g s ->
  completes (sadd o) p q (fun i j r =>
      let Q c x := or_hh oc N n (flat (seq 0 N) (cs_C g)) x c in
      holds_part o n (owned N mb p rsrc i) (owned N nb q csrc j) (ldh i j) (mk_cst (cs_H g) (map Q (seq 0 n)) (cs_B g) (cs_C2 g) (cs_B2 g) (cs_bAc g)) (snd r))
    (fun i j => ker_sl o fo inj re oc p (bc_env N p q mb nb rsrc csrc (ldh i j) n i j) (tab i j) (snd (bc_desc N p mb rsrc n i)) (QHhqr l) (s i j)).
Proof. exact @hhqr_sl_on_grid. Qed.
Print Assumptions C82_factorises_the_vectors.

(** Any sequence of backend calls of the library built with ScaLAPACK. *)
Theorem C82_programs_complete : forall F D A (o : sops D) (fo : fops F) inj re oc N p q mb nb rsrc csrc n ldh tab (t : client F A) g s a g',
  is_ring o -> embeds o fo inj re -> layout N p q mb nb rsrc csrc -> packable N p q mb nb rsrc csrc -> counts_fit N p q mb nb rsrc csrc n -> 0 < n ->
  (forall i j, i < p -> j < q -> length (owned N mb p rsrc i) <= ldh i j /\ grid_tab N p q mb nb rsrc csrc i j = Ok (tab i j)) ->
  on_grid o N p q mb nb rsrc csrc n ldh g s ->
  run_client (slD fo (gblas o fo inj re oc N mb p rsrc) n) t g = Ok (a, g') ->
  completes (sadd o) p q (fun i j r => fst r = a /\ holds_part o n (owned N mb p rsrc i) (owned N nb q csrc j) (ldh i j) g' (snd r))
    (fun i j => run_proc (ker_sl o fo inj re oc p (bc_env N p q mb nb rsrc csrc (ldh i j) n i j) (tab i j) (snd (bc_desc N p mb rsrc n i))) t (s i j)).
Proof. exact @client_on_grid_sl. Qed.
Print Assumptions C82_programs_complete.

(** The whole solver returns on the grid what it returns on whole vectors, as without ScaLAPACK (C48), although hhQR leaves the switches
    alone. *)
Theorem C82_solve_on_grid : forall F D (o : sops D) (fo : fops F) inj re oc qe td N p q mb nb rsrc csrc ldh tab fsort si cf l ritzv resid t g s out,
  is_solver fo qe td (c_nev cf) (c_nex cf) fsort si cf l ritzv resid t -> conf_ok cf -> (forall keys, Permutation (si keys) (seq 0 (length keys))) ->
  is_ring o -> embeds o fo inj re -> layout N p q mb nb rsrc csrc -> packable N p q mb nb rsrc csrc ->
  counts_fit N p q mb nb rsrc csrc (c_nev cf + c_nex cf) ->
  (forall i j, i < p -> j < q -> length (owned N mb p rsrc i) <= ldh i j /\ grid_tab N p q mb nb rsrc csrc i j = Ok (tab i j)) ->
  on_grid o N p q mb nb rsrc csrc (c_nev cf + c_nex cf) ldh g s -> cs_bAc g = true ->
  solve fo (cmK fo qe td (colD fo (gblas o fo inj re oc N mb p rsrc) true (c_nev cf + c_nex cf)) (c_nev cf) (c_nex cf)) fsort si cf (mk_cm l g) ritzv resid = Ok out ->
  completes (sadd o) p q
    (fun i j r => fst r = (o_ritz out, o_res out, cm_locked (o_k out)) /\
       holds_part o (c_nev cf + c_nex cf) (owned N mb p rsrc i) (owned N nb q csrc j) (ldh i j) (cm_dla (o_k out)) (snd r))
    (fun i j => run_proc (ker_sl o fo inj re oc p (bc_env N p q mb nb rsrc csrc (ldh i j) (c_nev cf + c_nex cf) i j) (tab i j) (snd (bc_desc N p mb rsrc (c_nev cf + c_nex cf) i))) t (s i j)).
Proof. exact @solve_on_grid_sl. Qed.
Print Assumptions C82_solve_on_grid.

(** The same on block distributions. *)
Theorem C82_programs_on_blocks : forall F D A (o : sops D) (fo : fops F) inj re oc N p q ml nl n ldh (t : client F A) g s a g',
  is_ring o -> embeds o fo inj re -> in_blocks N ml p -> in_blocks N nl q -> blocks_packable N p q ml nl -> block_counts_fit N p q ml nl n -> 0 < n ->
  (forall i j, i < p -> j < q -> length (piece N ml p i) <= ldh i j) ->
  on_blocks o N p q ml nl n ldh g s ->
  run_client (slD fo (gblas o fo inj re oc N (blk_mb N ml p 0) p 0) n) t g = Ok (a, g') ->
  completes (sadd o) p q (fun i j r => fst r = a /\ holds_part o n (piece N ml p i) (piece N nl q j) (ldh i j) g' (snd r))
    (fun i j => run_proc (ker_sl o fo inj re oc p (blk_env N p q ml nl (ldh i j) n i j) (blk_tab N p q ml nl i j) (snd (blk_desc N p ml n i))) t (s i j)).
Proof. exact @client_on_blocks_sl. Qed.
Print Assumptions C82_programs_on_blocks.

Theorem C82_solve_on_blocks : forall F D (o : sops D) (fo : fops F) inj re oc qe td N p q ml nl ldh fsort si cf l ritzv resid t g s out,
  is_solver fo qe td (c_nev cf) (c_nex cf) fsort si cf l ritzv resid t -> conf_ok cf -> (forall keys, Permutation (si keys) (seq 0 (length keys))) ->
  is_ring o -> embeds o fo inj re -> in_blocks N ml p -> in_blocks N nl q -> blocks_packable N p q ml nl ->
  block_counts_fit N p q ml nl (c_nev cf + c_nex cf) ->
  (forall i j, i < p -> j < q -> length (piece N ml p i) <= ldh i j) ->
  on_blocks o N p q ml nl (c_nev cf + c_nex cf) ldh g s -> cs_bAc g = true ->
  solve fo (cmK fo qe td (colD fo (gblas o fo inj re oc N (blk_mb N ml p 0) p 0) true (c_nev cf + c_nex cf)) (c_nev cf) (c_nex cf)) fsort si cf (mk_cm l g) ritzv resid = Ok out ->
  completes (sadd o) p q
    (fun i j r => fst r = (o_ritz out, o_res out, cm_locked (o_k out)) /\
       holds_part o (c_nev cf + c_nex cf) (piece N ml p i) (piece N nl q j) (ldh i j) (cm_dla (o_k out)) (snd r))
    (fun i j => run_proc (ker_sl o fo inj re oc p (blk_env N p q ml nl (ldh i j) (c_nev cf + c_nex cf) i j) (blk_tab N p q ml nl i j) (snd (blk_desc N p ml (c_nev cf + c_nex cf) i))) t (s i j)).
Proof. exact @solve_on_blocks_sl. Qed.
Print Assumptions C82_solve_on_blocks.

(** A complete solve on 2 x 1 processes through ScaLAPACK; the hypotheses of the theorems are met. *)
Example C82_example :
  is_ring rat /\ embeds rat qcf (fun x => x) (fun x => x) /\ layout 2 2 1 1 1 0 0 /\ packable 2 2 1 1 1 0 0 /\ counts_fit 2 2 1 1 1 0 0 2 /\ conf_ok ds_conf /\
  (forall keys, Permutation (ds_sort keys) (seq 0 (length keys))) /\ cs_bAc ds_global = true /\
  on_grid rat 2 2 1 1 1 0 0 2 (fun i _ => length (owned 2 1 2 0 i)) ds_global (ex_grid ex_C) /\
  show ds_solve = Some ([1; 26], [0; 0])%Q /\
  map (map (option_map (fun r => (view (fst (fst (fst r))), view (snd (fst (fst r))), view (l_C (snd r)))))) (run_grid Qcplus 2 1 2000 sl_proc) =
  [[Some ([1; 26], [0; 0], [3 # 5; 4 # 5])]; [Some ([1; 26], [0; 0], [4 # 5; -3 # 5])]]%Q.
Proof.
  split; [exact rat_ring|]. split; [exact ds_embeds|]. split; [exact (proj1 ex_layout2)|]. split; [exact (proj2 ex_layout2)|].
  split; [exact ds_fit|]. split; [exact ds_conf_ok|]. split; [exact ds_sort_perm|]. split; [reflexivity|]. split; [exact ds_on_grid|]. vm_compute. split; reflexivity.
Qed.
Example C82_block_example :
  in_blocks 2 1 2 /\ in_blocks 2 2 1 /\ blocks_packable 2 2 1 1 2 /\ block_counts_fit 2 2 1 1 2 2 /\
  on_blocks rat 2 2 1 1 2 2 (fun _ _ => 1) ds_global (ex_grid ex_C) /\
  map (map (option_map (fun r => (view (fst (fst (fst r))), view (snd (fst (fst r))), view (l_C (snd r)))))) (run_grid Qcplus 2 1 2000 sl_block_proc) =
  [[Some ([1; 26], [0; 0], [3 # 5; 4 # 5])]; [Some ([1; 26], [0; 0], [4 # 5; -3 # 5])]]%Q.
Proof.
  destruct bk_blocks as (H1 & H2 & H3). split; [exact H1|]. split; [exact H2|]. split; [exact H3|]. split; [exact bk_fit|]. split; [exact bk_on_blocks|].
  vm_compute. reflexivity.
Qed.
(** Descriptors: 10 rows in blocks of 2 from process 1 of 3; 7 rows in pieces of 2 over 3 processes (the last holds 3), error on process 0
    and rows 6 claimed by process 0 though process 2 holds it; 4 rows in blocks of 2 over 3 processes, the last without rows. *)
Example C82_example_descriptors :
  bc_desc 10 3 2 1 40 0 = (0%Z, mk_desc 10 40 2 32 1 0 2) /\ map (sl_process 3 (snd (bc_desc 10 3 2 1 40 0))) (seq 0 10) = [1; 1; 2; 2; 0; 0; 1; 1; 2; 2] /\
  map fst (map (blk_desc 7 3 2 4) [0; 1; 2]) = [(-9)%Z; 0%Z; 0%Z] /\ sl_process 3 (snd (blk_desc 7 3 2 4 0)) 6 = 0 /\ piece 7 2 3 2 = [4; 5; 6] /\
  map fst (map (bc_desc 4 3 2 0 4) [0; 1; 2]) = [0%Z; 0%Z; (-9)%Z].
Proof. vm_compute. auto 10. Qed.
