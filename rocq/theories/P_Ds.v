(** Properties C43 and C48: programs of backend calls, in particular the whole solver, on a p x q grid of processes.
    [completes .. Q st]: whatever order the collectives complete in, no process gets stuck or misbehaves and every process
    (i, j) ends with a result satisfying Q i j. *)
From Coq Require Import List Arith ZArith Bool QArith Qcanon.
Require Import Verif.Base Verif.AlgModel Verif.DlaModel Verif.ColModel Verif.DistSpec Verif.SpmdModel Verif.SpmdSpec Verif.KerModel Verif.KerSpec.
Require Import Verif.RedistSpec Verif.ClientModel Verif.DsModel Verif.DsSpec Verif.DsProofs7 Verif.DsProofs8 Verif.KerInst Verif.KerInst2 Verif.KerEx Verif.DsEx.
Require Import Verif.DistModel Verif.RedistModel Verif.BlkSolve Verif.BlkEx.
Import ListNotations.
Close Scope Q_scope.
Close Scope Qc_scope.

(** C43.  Any sequence of backend calls, chosen depending on the answers so far: all processes finish, with the same answers, and
    hold their parts of one global state.  [tab i j]: the tables the constructor builds on process (i, j). *)
Theorem C43_programs_complete : forall F D A (o : sops D) (fo : fops F) inj re oc N p q mb nb rsrc csrc n ldh tab (t : client F A) g s a g',
  is_ring o -> embeds o fo inj re -> layout N p q mb nb rsrc csrc -> packable N p q mb nb rsrc csrc -> counts_fit N p q mb nb rsrc csrc n -> 0 < n ->
  (forall i j, i < p -> j < q -> length (owned N mb p rsrc i) <= ldh i j /\ grid_tab N p q mb nb rsrc csrc i j = Ok (tab i j)) ->
  on_grid o N p q mb nb rsrc csrc n ldh g s ->
  run_client (colD fo (gblas o fo inj re oc N mb p rsrc) true n) t g = Ok (a, g') ->
  completes (sadd o) p q (fun i j r => fst r = a /\ holds_part o n (owned N mb p rsrc i) (owned N nb q csrc j) (ldh i j) g' (snd r))
    (fun i j => run_proc (ker o fo inj re oc (bc_env N p q mb nb rsrc csrc (ldh i j) n i j) (tab i j)) t (s i j)).
Proof. exact @client_on_grid. Qed.
Print Assumptions C43_programs_complete.

(** The tables exist on every grid on which every process owns a part of the matrix. *)
Theorem C43_tables_exist : forall N p q mb nb rsrc csrc i j, layout N p q mb nb rsrc csrc -> i < p -> j < q ->
  exists t, grid_tab N p q mb nb rsrc csrc i j = Ok t.
Proof. exact grid_tab_ok. Qed.
Print Assumptions C43_tables_exist.

(** The same when the matrix is dealt out in one piece per process (block constructors; [ml], [nl]: rows and columns of all pieces but the
    last).  The constructor and the gathering differ from the block-cyclic ones, the result does not. *)
Theorem C43_block_programs_complete : forall F D A (o : sops D) (fo : fops F) inj re oc N p q ml nl n ldh (t : client F A) g s a g',
  is_ring o -> embeds o fo inj re -> in_blocks N ml p -> in_blocks N nl q -> blocks_packable N p q ml nl -> block_counts_fit N p q ml nl n -> 0 < n ->
  (forall i j, i < p -> j < q -> length (piece N ml p i) <= ldh i j) ->
  on_blocks o N p q ml nl n ldh g s ->
  run_client (colD fo (gblas o fo inj re oc N (blk_mb N ml p 0) p 0) true n) t g = Ok (a, g') ->
  completes (sadd o) p q (fun i j r => fst r = a /\ holds_part o n (piece N ml p i) (piece N nl q j) (ldh i j) g' (snd r))
    (fun i j => run_proc (ker o fo inj re oc (blk_env N p q ml nl (ldh i j) n i j) (blk_tab N p q ml nl i j)) t (s i j)).
Proof. exact @client_on_blocks. Qed.
Print Assumptions C43_block_programs_complete.

(** What a process of a block distribution works with is what it would work with in the block-cyclic distribution with one block per
    process; hence C09, C30, C45 and C46 hold for block distributions. *)
Theorem C43_block_is_cyclic_with_one_block : forall N p q ml nl ldh n i j, in_blocks N ml p -> in_blocks N nl q -> i < p -> j < q ->
  let mb := blk_mb N ml p 0 in let nb := blk_mb N nl q 0 in
  blk_env N p q ml nl ldh n i j = bc_env N p q mb nb 0 0 ldh n i j /\ layout N p q mb nb 0 0 /\
  owned N mb p 0 i = piece N ml p i /\ owned N nb q 0 j = piece N nl q j.
Proof. exact block_environment. Qed.
Print Assumptions C43_block_is_cyclic_with_one_block.

(** The automatic constructor: when its pieces are as required. *)
Theorem C43_automatic_blocks_iff : forall N d, 0 < d -> 0 < N -> (Z.of_nat N < 2 ^ 64)%Z ->
  (in_blocks N (auto_len N d) d <-> (d - 1) * ((N + d - 1) / d) < N).
Proof. exact auto_in_blocks. Qed.
Print Assumptions C43_automatic_blocks_iff.

(** C48.  The solver run by all processes of a grid. *)
Theorem C48_solve_on_grid : forall F D (o : sops D) (fo : fops F) inj re oc qe td N p q mb nb rsrc csrc nev nex ldh tab fsort si cf l ritzv resid t g s out,
  is_solver fo qe td nev nex fsort si cf l ritzv resid t ->
  is_ring o -> embeds o fo inj re -> layout N p q mb nb rsrc csrc -> packable N p q mb nb rsrc csrc ->
  counts_fit N p q mb nb rsrc csrc (nev + nex) -> 0 < nev + nex ->
  (forall i j, i < p -> j < q -> length (owned N mb p rsrc i) <= ldh i j /\ grid_tab N p q mb nb rsrc csrc i j = Ok (tab i j)) ->
  on_grid o N p q mb nb rsrc csrc (nev + nex) ldh g s ->
  solve fo (cmK fo qe td (colD fo (gblas o fo inj re oc N mb p rsrc) true (nev + nex)) nev nex) fsort si cf (mk_cm l g) ritzv resid = Ok out ->
  completes (sadd o) p q
    (fun i j r => fst r = (o_ritz out, o_res out, cm_locked (o_k out)) /\
       holds_part o (nev + nex) (owned N mb p rsrc i) (owned N nb q csrc j) (ldh i j) (cm_dla (o_k out)) (snd r))
    (fun i j => run_proc (ker o fo inj re oc (bc_env N p q mb nb rsrc csrc (ldh i j) (nev + nex) i j) (tab i j)) t (s i j)).
Proof. exact @solve_on_grid. Qed.
Print Assumptions C48_solve_on_grid.

(** The solver on a grid with a block distribution. *)
Theorem C48_solve_on_blocks : forall F D (o : sops D) (fo : fops F) inj re oc qe td N p q ml nl nev nex ldh fsort si cf l ritzv resid t g s out,
  is_solver fo qe td nev nex fsort si cf l ritzv resid t ->
  is_ring o -> embeds o fo inj re -> in_blocks N ml p -> in_blocks N nl q -> blocks_packable N p q ml nl ->
  block_counts_fit N p q ml nl (nev + nex) -> 0 < nev + nex ->
  (forall i j, i < p -> j < q -> length (piece N ml p i) <= ldh i j) ->
  on_blocks o N p q ml nl (nev + nex) ldh g s ->
  solve fo (cmK fo qe td (colD fo (gblas o fo inj re oc N (blk_mb N ml p 0) p 0) true (nev + nex)) nev nex) fsort si cf (mk_cm l g) ritzv resid = Ok out ->
  completes (sadd o) p q
    (fun i j r => fst r = (o_ritz out, o_res out, cm_locked (o_k out)) /\
       holds_part o (nev + nex) (piece N ml p i) (piece N nl q j) (ldh i j) (cm_dla (o_k out)) (snd r))
    (fun i j => run_proc (ker o fo inj re oc (blk_env N p q ml nl (ldh i j) (nev + nex) i j) (blk_tab N p q ml nl i j)) t (s i j)).
Proof. exact @solve_on_blocks. Qed.
Print Assumptions C48_solve_on_blocks.

Theorem C48_solver_is_a_program : forall F (fo : fops F) qe td nev nex fsort si cf l ritzv resid, exists t, is_solver fo qe td nev nex fsort si cf l ritzv resid t.
Proof. exact @solver_exists. Qed.
Print Assumptions C48_solver_is_a_program.

(** The matrix [[17, -12], [-12, 10]] on 2 x 1 processes: the hypotheses hold, the run on the whole matrix finds the eigenvalues 1 and
    26, and so do both processes; each holds its row of the eigenvector (3/5, 4/5) (and of the second one). *)
Example C48_example :
  is_ring rat /\ embeds rat qcf (fun x => x) (fun x => x) /\ layout 2 2 1 1 1 0 0 /\ packable 2 2 1 1 1 0 0 /\ counts_fit 2 2 1 1 1 0 0 2 /\
  on_grid rat 2 2 1 1 1 0 0 2 (fun i _ => length (owned 2 1 2 0 i)) ds_global (ex_grid ex_C) /\
  show ds_solve = Some ([1; 26], [0; 0])%Q /\
  map (map (option_map (fun r => (view (fst (fst (fst r))), view (snd (fst (fst r))), view (l_C (snd r)))))) (run_grid Qcplus 2 1 2000 ds_proc) =
  [[Some ([1; 26], [0; 0], [3 # 5; 4 # 5])]; [Some ([1; 26], [0; 0], [4 # 5; -3 # 5])]]%Q.
Proof.
  split; [exact rat_ring|]. split; [exact ds_embeds|]. split; [exact (proj1 ex_layout2)|]. split; [exact (proj2 ex_layout2)|].
  split; [exact ds_fit|]. split; [exact ds_on_grid|]. vm_compute. split; reflexivity.
Qed.

(** The same matrix dealt out in blocks: rows in pieces of 1, all columns together. *)
Example C48_block_example :
  in_blocks 2 1 2 /\ in_blocks 2 2 1 /\ blocks_packable 2 2 1 1 2 /\ block_counts_fit 2 2 1 1 2 2 /\
  on_blocks rat 2 2 1 1 2 2 (fun _ _ => 1) ds_global (ex_grid ex_C) /\
  map (map (option_map (fun r => (view (fst (fst (fst r))), view (snd (fst (fst r))), view (l_C (snd r)))))) (run_grid Qcplus 2 1 2000 bk_proc) =
  [[Some ([1; 26], [0; 0], [3 # 5; 4 # 5])]; [Some ([1; 26], [0; 0], [4 # 5; -3 # 5])]]%Q.
Proof.
  destruct bk_blocks as (H1 & H2 & H3). split; [exact H1|]. split; [exact H2|]. split; [exact H3|]. split; [exact bk_fit|]. split; [exact bk_on_blocks|].
  vm_compute. reflexivity.
Qed.
