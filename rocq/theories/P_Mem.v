(** Properties C66 and C67: ownership of memory.  The heap, the sizes, the backend and the list of calls are arbitrary. *)
From Coq Require Import List Arith ZArith Bool Lia Permutation.
Require Import Verif.Base Verif.AlgModel Verif.AlgSpec Verif.AlgTrace Verif.AlgEx Verif.MemModel Verif.MemSpec Verif.MemLife Verif.MemLog Verif.MemEx.
Import ListNotations.

(** construction, any calls, destruction: nothing is freed twice, with the wrong function, or used after it was freed, and what
    the caller had before is still there (with MPI, except the properties object, which is deleted) *)
Theorem C66_memory_is_used_correctly : forall k g h pP pH pV pR calls, valid h pH -> valid h pV -> valid h pR ->
  (is_mpi k = true -> exists len, nth_error (hp_blk h) pP = Some (mk_blk Host len true)) -> dos_fit k calls ->
  exists h', life k g pP pH pV pR calls h = Ok h' /\
    firstn (length (hp_blk h)) (hp_blk h') = if is_mpi k then freed pP (hp_blk h) else hp_blk h.
Proof. exact life_safe. Qed.
Print Assumptions C66_memory_is_used_correctly.

(** the hypothesis on the density-of-states sizes is needed: the device copy of the coefficients keeps the size of its first use *)
Theorem C66_undefined_iff : forall k g h pP pH pV pR calls, valid h pH -> valid h pV -> valid h pR ->
  (is_mpi k = true -> exists len, nth_error (hp_blk h) pP = Some (mk_blk Host len true)) ->
  (life k g pP pH pV pR calls h = UB <-> ~ dos_fit k calls).
Proof. exact life_ub_iff. Qed.
Print Assumptions C66_undefined_iff.

(** one Solve never meets that case, whatever the backend computes and however QR takes its decisions *)
Theorem C66_one_solve_is_safe : forall (F St : Type) (fo : fops F) (K : kernel F St) sort_idx,
  (forall keys, Permutation (sort_idx keys) (seq 0 (length keys))) ->
  forall fsort cf k0 ritzv resid o s calls, conf_ok cf ->
  solve fo (logK K) fsort sort_idx cf ([], k0) ritzv resid = Ok o -> o_exit o = Some s -> expands (fst (o_k o)) calls ->
  forall k g h pP pH pV pR, valid h pH -> valid h pV -> valid h pR ->
  (is_mpi k = true -> exists len, nth_error (hp_blk h) pP = Some (mk_blk Host len true)) ->
  exists h', life k g pP pH pV pR calls h = Ok h'.
Proof. exact @solve_safe. Qed.
Print Assumptions C66_one_solve_is_safe.

Example C66_example : forall k g, (exists h', life k g 3 0 1 2 calls1 (user_heap 6 3) = Ok h') /\
  firstn 5 (hp_blk (user_heap 6 3)) = hp_blk (user_heap 6 3).
Proof.
  intros k g. split; [|reflexivity]. destruct (user_valid 6 3) as (A & B & C).
  destruct (C66_memory_is_used_correctly k g (user_heap 6 3) 3 0 1 2 calls1 A B C) as (h' & E & _).
  - intros _. eexists. reflexivity.
  - destruct k as [| | | |[]]; cbn; auto. intros s [<-|[]]. auto.
  - exists h'. exact E.
Qed.

(** claimed: a solver object can be used for a sequence of problems.  A CUDA-aware multi-GPU solver whose second solve finds more
    Lanczos directions than the first writes beyond its device buffer. *)
Theorem C66_second_solve_refuted : ~ (forall g h pP pH pV pR calls, valid h pH -> valid h pV -> valid h pR ->
  (exists len, nth_error (hp_blk h) pP = Some (mk_blk Host len true)) -> life (KMgpu true) g pP pH pV pR calls h <> UB).
Proof. exact second_solve_bad. Qed.
Print Assumptions C66_second_solve_refuted.

(** claimed: the properties object belongs to the caller, so that two solvers can be built from one grid.  Every second one ends
    in a double delete. *)
Theorem C66_properties_can_be_shared_refuted : forall k g g' h pP pH pV pR calls calls' h', is_mpi k = true ->
  valid h pH -> valid h pV -> valid h pR -> ~ In pP [pH; pV; pR] -> (exists len, nth_error (hp_blk h) pP = Some (mk_blk Host len true)) ->
  life k g pP pH pV pR calls h = Ok h' -> life k g' pP pH pV pR calls' h' = UB.
Proof. exact shared_bad. Qed.
Print Assumptions C66_properties_can_be_shared_refuted.
Example C66_shared_example : exists h', life KMpi (dims6 false false) 3 0 1 2 calls1 (user_heap 6 3) = Ok h' /\
  life KMpi (dims6 false false) 3 0 1 2 [] h' = UB.
Proof. eexists. split; vm_compute; reflexivity. Qed.

(** C67: what a solver leaves behind when it is destroyed, exactly *)
Theorem C67_left_over : forall k g h pP pH pV pR calls, valid h pH -> valid h pV -> valid h pR ->
  (is_mpi k = true -> exists len, nth_error (hp_blk h) pP = Some (mk_blk Host len true)) -> dos_fit k calls ->
  exists h', life k g pP pH pV pR calls h = Ok h' /\
    left_over (length (hp_blk h)) h' = leak0 k g + list_sum (map (leak k g) calls).
Proof. exact life_leak. Qed.
Print Assumptions C67_left_over.

(** for the calls of one Solve: the Lanczos work vectors in every backend; one column per exchange in the in-place backend; one
    element per shifted CholeskyQR2 in the single-GPU backend *)
Theorem C67_left_over_by_a_solve : forall (F St : Type) (fo : fops F) (K : kernel F St) sort_idx,
  (forall keys, Permutation (sort_idx keys) (seq 0 (length keys))) ->
  forall fsort cf k0 ritzv resid o s calls, conf_ok cf ->
  solve fo (logK K) fsort sort_idx cf ([], k0) ritzv resid = Ok o -> o_exit o = Some s -> expands (fst (o_k o)) calls ->
  forall k g h pP pH pV pR, valid h pH -> valid h pV -> valid h pR ->
  (is_mpi k = true -> exists len, nth_error (hp_blk h) pP = Some (mk_blk Host len true)) ->
  let nv := if c_approx cf then 1 else c_numlanczos cf in
  exists h', life k g pP pH pV pR calls h = Ok h' /\ left_over (length (hp_blk h)) h' =
    match k with
    | KSeq => 3 * (g_N g * nv)
    | KInpl => 3 * (g_N g * nv) + g_N g * swaps (fst (o_k o))
    | KCuda => 3 * (g_N g * nv) + diag_sums calls
    | KMpi => 3 * (g_m g * nv) + g_n g * nv
    | KMgpu _ => g_m g + g_n g + 2 * (3 * (g_m g * nv) + g_n g * nv)
    end.
Proof. exact @solve_leak. Qed.
Print Assumptions C67_left_over_by_a_solve.

(** a three-iteration run, with its exchanges *)
Example C67_solve_example : exists o s,
  solve zf (logK sk) fsort_ex sort_ex mem_conf
    ([], mk_script [10; 11; 12] 7 true (Some 1000%Z) ([], []) [map (@Some Z) [1; 2; 500]%Z; map (@Some Z) [1; 2; 500]%Z] [map (@Some Z) [100000; 16; 10]%Z; map (@Some Z) [50000; 8; 10]%Z]) (map (@Some Z) [0; 0; 500]%Z) (map (@Some Z) [0; 0; 0]%Z)
  = Ok o /\ o_exit o = Some s /\ 0 < swaps (fst (o_k o)) /\ expands (fst (o_k o)) (flat_map as_mem (fst (o_k o))) /\ conf_ok mem_conf.
Proof. eexists _, _. split; [vm_compute; reflexivity|]. split; [reflexivity|]. split; [vm_compute; lia|]. split; [apply as_mem_expands|]. vm_compute. repeat split; lia. Qed.

(** claimed: a destroyed solver leaves nothing behind.  False for every backend as soon as a Lanczos run has taken place. *)
Theorem C67_no_leaks_refuted : forall k g h pP pH pV pR calls h' nv M, valid h pH -> valid h pV -> valid h pR ->
  (is_mpi k = true -> exists len, nth_error (hp_blk h) pP = Some (mk_blk Host len true)) ->
  life k g pP pH pV pR calls h = Ok h' -> In (MLanczos nv M) calls -> 0 < nv -> 0 < g_N g -> 0 < g_m g ->
  0 < left_over (length (hp_blk h)) h'.
Proof. exact always_leaks. Qed.
Print Assumptions C67_no_leaks_refuted.

(** what is meant to hold does hold for the calls without a raw [new]: e.g. constructing and destroying any backend but the
    multi-GPU one, and any sequence of QR and exchange calls with the LAPACK or MPI backend *)
Theorem C67_clean_calls : forall k g h pP pH pV pR calls, valid h pH -> valid h pV -> valid h pR ->
  (is_mpi k = true -> exists len, nth_error (hp_blk h) pP = Some (mk_blk Host len true)) -> dos_fit k calls ->
  leak0 k g = 0 -> (forall c, In c calls -> leak k g c = 0) ->
  exists h', life k g pP pH pV pR calls h = Ok h' /\ left_over (length (hp_blk h)) h' = 0.
Proof. exact life_clean. Qed.
Print Assumptions C67_clean_calls.

Example C67_example : exists h1 h2 h3 h4,
  life KSeq (dims6 true false) 3 0 1 2 calls1 (user_heap 6 3) = Ok h1 /\ left_over 5 h1 = 72 /\
  life KInpl (dims6 true false) 3 0 1 2 calls1 (user_heap 6 3) = Ok h2 /\ left_over 5 h2 = 90 /\
  life KMpi (dims6 false false) 3 0 1 2 calls1 (user_heap 6 3) = Ok h3 /\ left_over 5 h3 = 60 /\
  life KSeq (dims6 true false) 3 0 1 2 [MHhqr; MSwap; MDos 2 3; MHhqr] (user_heap 6 3) = Ok h4 /\ left_over 5 h4 = 0.
Proof. do 4 eexists. do 7 (split; [vm_compute; reflexivity|]). vm_compute. reflexivity. Qed.
