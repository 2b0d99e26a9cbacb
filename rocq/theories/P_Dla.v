(** Properties C22-C29: whole runs on the Seq, Mpi and in-place backends; QR selection; buffers. *)
From Coq Require Import List Arith ZArith QArith Bool Lia Permutation.
Require Import Verif.Base Verif.AlgModel Verif.AlgSpec Verif.AlgProofs1 Verif.AlgProofs3 Verif.AlgTrace Verif.DlaModel Verif.ColModel Verif.ColSpec
  Verif.ColProofs1 Verif.ColProofs2 Verif.InplProofs Verif.ColProofs3 Verif.ColResid Verif.ColEx Verif.QrEx.
Import ListNotations.
Local Open Scope nat_scope.

(** ChaseMpi on top of the backends *)
Notation seqK fo bl qe td cf := (cmK fo qe td (colD fo bl false (c_nev cf + c_nex cf)) (c_nev cf) (c_nex cf)).
Notation mpiK fo bl qe td cf := (cmK fo qe td (colD fo bl true (c_nev cf + c_nex cf)) (c_nev cf) (c_nex cf)).
Notation inplK fo bl qe td cf := (cmK fo qe td (inplD fo bl (c_nev cf + c_nex cf)) (c_nev cf) (c_nex cf)).
(** freshly constructed solver on the user's matrix and vectors *)
Notation seqS bl cf l0 H V1 := (mk_cm l0 (seq_state bl (c_nev cf) (c_nex cf) H V1)).
Notation mpiS bl cf l0 H V1 := (mk_cm l0 (mpi_state bl (c_nev cf) (c_nex cf) H V1)).
Notation inplS bl cf l0 H V1 := (mk_cm l0 (inpl_state bl (c_nev cf) (c_nex cf) H V1)).

(** C22: s and t are the states at the head of two outer iterations of the same run, s not after t *)
Theorem C22_locked_pairs_immutable_seq : forall (F V M G T : Type) (fo : fops F) (bl : blas F V M G T) qe td (cf : conf F) sort_idx,
  (forall keys, Permutation (sort_idx keys) (seq 0 (length keys))) ->
  forall fsort l0 (H : M) (V1 : list V), length V1 = c_nev cf + c_nex cf -> conf_ok cf -> c_nex cf <= c_nev cf ->
  forall k0 ritzv resid ub s0 s t, let K := seqK fo bl qe td cf in let k := seqS bl cf l0 H V1 in
  (if c_symcheck cf then k_sym K k else Ok (true, k)) = Ok (true, k0) ->
  solve_init fo K fsort cf k0 ritzv resid = Ok (ub, s0) ->
  reach fo K sort_idx cf ub s0 s -> reach fo K sort_idx cf ub s t ->
  length (fst (ss_ritz s)) = ss_locked s /\ length (fst (ss_res s)) = ss_locked s /\ ss_locked s <= ss_locked t /\
  firstn (ss_locked s) (fst (ss_ritz t)) = fst (ss_ritz s) /\
  firstn (ss_locked s) (fst (ss_res t)) = fst (ss_res s) /\
  firstn (ss_locked s) (cs_C (cm_dla (ss_k t))) = firstn (ss_locked s) (cs_C (cm_dla (ss_k s))).
Proof. exact (fun F V M G T fo bl qe td cf => seq_locked fo bl qe td cf). Qed.
Print Assumptions C22_locked_pairs_immutable_seq.

Theorem C22_locked_pairs_immutable_mpi : forall (F V M G T : Type) (fo : fops F) (bl : blas F V M G T) qe td (cf : conf F) sort_idx,
  (forall keys, Permutation (sort_idx keys) (seq 0 (length keys))) ->
  forall fsort l0 (H : M) (V1 : list V), length V1 = c_nev cf + c_nex cf -> conf_ok cf ->
  forall k0 ritzv resid ub s0 s t, let K := mpiK fo bl qe td cf in let k := mpiS bl cf l0 H V1 in
  (if c_symcheck cf then k_sym K k else Ok (true, k)) = Ok (true, k0) ->
  solve_init fo K fsort cf k0 ritzv resid = Ok (ub, s0) ->
  reach fo K sort_idx cf ub s0 s -> reach fo K sort_idx cf ub s t ->
  length (fst (ss_ritz s)) = ss_locked s /\ length (fst (ss_res s)) = ss_locked s /\ ss_locked s <= ss_locked t /\
  firstn (ss_locked s) (fst (ss_ritz t)) = fst (ss_ritz s) /\
  firstn (ss_locked s) (fst (ss_res t)) = fst (ss_res s) /\
  firstn (ss_locked s) (cs_C (cm_dla (ss_k t))) = firstn (ss_locked s) (cs_C (cm_dla (ss_k s))).
Proof. exact (fun F V M G T fo bl qe td cf => mpi_locked fo bl qe td cf). Qed.
Print Assumptions C22_locked_pairs_immutable_mpi.

(** in-place: under the assumption that a second Cholesky factorisation does not fail (see C29) *)
Theorem C22_locked_pairs_immutable_inplace : forall (F V M G T : Type) (fo : fops F) (bl : blas F V M G T) qe td (cf : conf F) sort_idx,
  (forall keys, Permutation (sort_idx keys) (seq 0 (length keys))) ->
  forall fsort l0 (H : M) (V1 : list V), length V1 = c_nev cf + c_nex cf -> conf_ok cf -> no_late_failure bl (c_nev cf + c_nex cf) ->
  forall k0 ritzv resid ub s0 s t, let K := inplK fo bl qe td cf in let k := inplS bl cf l0 H V1 in
  (if c_symcheck cf then k_sym K k else Ok (true, k)) = Ok (true, k0) ->
  solve_init fo K fsort cf k0 ritzv resid = Ok (ub, s0) ->
  reach fo K sort_idx cf ub s0 s -> reach fo K sort_idx cf ub s t ->
  length (fst (ss_ritz s)) = ss_locked s /\ length (fst (ss_res s)) = ss_locked s /\ ss_locked s <= ss_locked t /\
  firstn (ss_locked s) (fst (ss_ritz t)) = fst (ss_ritz s) /\
  firstn (ss_locked s) (fst (ss_res t)) = fst (ss_res s) /\
  firstn (ss_locked s) (is_V1 (cm_dla (ss_k t))) = firstn (ss_locked s) (is_V1 (cm_dla (ss_k s))).
Proof. exact (fun F V M G T fo bl qe td cf => inpl_locked fo bl qe td cf). Qed.
Print Assumptions C22_locked_pairs_immutable_inplace.

(** a run that locks one pair in each of two iterations *)
Example C22_example : exists k0 ub s0 s1 s2 o,
  k_sym (seqQ 2 0) seq0 = Ok (true, k0) /\ solve_init qf (seqQ 2 0) qfs (qconf 2 0) k0 rv0 rs0 = Ok (ub, s0) /\
  iterate qf (seqQ 2 0) qsort (qconf 2 0) ub s0 = Ok s1 /\ iterate qf (seqQ 2 0) qsort (qconf 2 0) ub s1 = Ok s2 /\
  ss_locked s1 = 1 /\ ss_locked s2 = 2 /\
  solve qf (seqQ 2 0) qfs qsort (qconf 2 0) seq0 rv0 rs0 = Ok o /\ o_exit o = Some s2.
Proof. exact seq_run. Qed.
Example C22_example_hypotheses : (forall keys, Permutation (qsort keys) (seq 0 (length keys))) /\ conf_ok (qconf 2 0) /\ no_late_failure inpB 2.
Proof. exact (conj qsort_perm (conj (q_conf_ok 2 0 (le_S 1 1 (le_n 1))) (inpB_no_late 2))). Qed.

(** C23 *)
Theorem C23_results_ascending_and_paired_seq : forall (F V M G T : Type) (fo : fops F) (bl : blas F V M G T) qe td (cf : conf F) sort_idx,
  (forall keys, Permutation (sort_idx keys) (seq 0 (length keys))) ->
  forall fsort l0 (H : M) (V1 : list V), length V1 = c_nev cf + c_nex cf -> conf_ok cf -> 1 <= c_maxiter cf ->
  forall P, order_on fo P -> c_nex cf <= c_nev cf -> forall ritzv resid o s,
  solve fo (seqK fo bl qe td cf) fsort sort_idx cf (seqS bl cf l0 H V1) ritzv resid = Ok o -> o_exit o = Some s -> Forall P (o_ritz o) ->
  fsorted_upto fo (c_nev cf) (c_nev cf) (o_ritz o) /\ c_nev cf <= length (o_ritz o) /\
  length (cs_C (cm_dla (o_k o))) = c_nev cf + c_nex cf /\
  forall i v x, i < c_nev cf -> nth_error (o_ritz o) i = Some v -> nth_error (cs_C (cm_dla (o_k o))) i = Some x -> ritz_pair fo bl H v x.
Proof. exact (fun F V M G T fo bl qe td cf => seq_sorted fo bl qe td cf). Qed.
Print Assumptions C23_results_ascending_and_paired_seq.

(** in-place: the same for the buffer the solver currently works on; see C26 for the buffer of the caller *)
Theorem C23_results_ascending_and_paired_inplace : forall (F V M G T : Type) (fo : fops F) (bl : blas F V M G T) qe td (cf : conf F) sort_idx,
  (forall keys, Permutation (sort_idx keys) (seq 0 (length keys))) ->
  forall fsort l0 (H : M) (V1 : list V), length V1 = c_nev cf + c_nex cf -> conf_ok cf -> 1 <= c_maxiter cf ->
  forall P, order_on fo P -> no_late_failure bl (c_nev cf + c_nex cf) -> forall ritzv resid o s,
  solve fo (inplK fo bl qe td cf) fsort sort_idx cf (inplS bl cf l0 H V1) ritzv resid = Ok o -> o_exit o = Some s -> Forall P (o_ritz o) ->
  fsorted_upto fo (c_nev cf) (c_nev cf) (o_ritz o) /\ c_nev cf <= length (o_ritz o) /\
  length (is_V1 (cm_dla (o_k o))) = c_nev cf + c_nex cf /\
  forall i v x, i < c_nev cf -> nth_error (o_ritz o) i = Some v -> nth_error (is_V1 (cm_dla (o_k o))) i = Some x -> ritz_pair_inpl fo bl H v x.
Proof. exact (fun F V M G T fo bl qe td cf => inpl_sorted fo bl qe td cf). Qed.
Print Assumptions C23_results_ascending_and_paired_inplace.

(** here the final sort exchanges the two pairs *)
Example C23_example : exists o s v x,
  solve qf (seqQ 2 0) qfs qsort (qconf 2 0) seq0 rv0 rs0 = Ok o /\ o_exit o = Some s /\ ss_locked s = 2 /\
  nth_error (o_ritz o) 0 = Some v /\ nth_error (cs_C (cm_dla (o_k o))) 0 = Some x /\ qlt (defect v x) (1 # 100) = true.
Proof. exact seq_run_paired. Qed.
Example C23_example_order : order_on qf (fun _ => True).
Proof. exact q_order. Qed.

(** C24 *)
Theorem C24_residuals_paired_when_locked_in_order : forall (F V M G T : Type) (fo : fops F) (bl : blas F V M G T) qe td (cf : conf F) sort_idx,
  (forall keys, Permutation (sort_idx keys) (seq 0 (length keys))) ->
  forall fsort l0 (H : M) (V1 : list V), length V1 = c_nev cf + c_nex cf -> conf_ok cf -> 1 <= c_maxiter cf -> c_nex cf <= c_nev cf ->
  forall ritzv resid o s,
  solve fo (seqK fo bl qe td cf) fsort sort_idx cf (seqS bl cf l0 H V1) ritzv resid = Ok o -> o_exit o = Some s ->
  fsorted_upto fo (c_nev cf) (c_nev cf) (whole (ss_ritz s)) ->
  forall i v x r, i < c_nev cf -> nth_error (o_ritz o) i = Some v -> nth_error (cs_C (cm_dla (o_k o))) i = Some x ->
  nth_error (o_res o) i = Some r -> ritz_pair fo bl H v x /\ ritz_resid fo bl H v x r.
Proof. exact (fun F V M G T fo bl qe td cf => seq_residuals fo bl qe td cf). Qed.
Print Assumptions C24_residuals_paired_when_locked_in_order.

(** in general: f says where the pairs were before the final sort; the residual of the pair now at i is at f i.  (With this, residual i belongs
    to pair i for all i iff the sort moved nothing, unless residuals of different pairs coincide.) *)
Theorem C24_residual_stays_in_place_seq : forall (F V M G T : Type) (fo : fops F) (bl : blas F V M G T) qe td (cf : conf F) sort_idx,
  (forall keys, Permutation (sort_idx keys) (seq 0 (length keys))) ->
  forall fsort l0 (H : M) (V1 : list V), length V1 = c_nev cf + c_nex cf -> conf_ok cf -> 1 <= c_maxiter cf -> c_nex cf <= c_nev cf ->
  forall ritzv resid o s,
  solve fo (seqK fo bl qe td cf) fsort sort_idx cf (seqS bl cf l0 H V1) ritzv resid = Ok o -> o_exit o = Some s ->
  exists f, (forall i, i < c_nev cf -> f i < c_nev cf) /\ (forall i j, i < c_nev cf -> j < c_nev cf -> f i = f j -> i = j) /\
    forall i, i < c_nev cf -> nth_error (o_ritz o) i = nth_error (whole (ss_ritz s)) (f i) /\
      exists v x r, nth_error (o_ritz o) i = Some v /\ nth_error (cs_C (cm_dla (o_k o))) i = Some x /\ nth_error (o_res o) (f i) = Some r /\
        ritz_pair fo bl H v x /\ ritz_resid fo bl H v x r.
Proof. exact (fun F V M G T fo bl qe td cf => seq_resid_place fo bl qe td cf). Qed.
Print Assumptions C24_residual_stays_in_place_seq.

Theorem C24_residual_stays_in_place_inplace : forall (F V M G T : Type) (fo : fops F) (bl : blas F V M G T) qe td (cf : conf F) sort_idx,
  (forall keys, Permutation (sort_idx keys) (seq 0 (length keys))) ->
  forall fsort l0 (H : M) (V1 : list V), length V1 = c_nev cf + c_nex cf -> conf_ok cf -> 1 <= c_maxiter cf -> no_late_failure bl (c_nev cf + c_nex cf) ->
  forall ritzv resid o s,
  solve fo (inplK fo bl qe td cf) fsort sort_idx cf (inplS bl cf l0 H V1) ritzv resid = Ok o -> o_exit o = Some s ->
  exists f, (forall i, i < c_nev cf -> f i < c_nev cf) /\ (forall i j, i < c_nev cf -> j < c_nev cf -> f i = f j -> i = j) /\
    forall i, i < c_nev cf -> nth_error (o_ritz o) i = nth_error (whole (ss_ritz s)) (f i) /\
      exists v x r, nth_error (o_ritz o) i = Some v /\ nth_error (is_V1 (cm_dla (o_k o))) i = Some x /\ nth_error (o_res o) (f i) = Some r /\
        ritz_pair_inpl fo bl H v x /\ ritz_resid fo bl H v x r.
Proof. exact (fun F V M G T fo bl qe td cf => inpl_resid_place fo bl qe td cf). Qed.
Print Assumptions C24_residual_stays_in_place_inplace.

(** reported residual 0, actual residual positive: it is the residual of the other pair *)
Theorem C24_residuals_unpaired_refuted : exists o s v x r,
  solve qf (seqQ 2 0) qfs qsort (qconf 2 0) seq0 rv0 rs0 = Ok o /\ o_exit o = Some s /\ ss_locked s = 2 /\
  nth_error (o_ritz o) 0 = Some v /\ nth_error (cs_C (cm_dla (o_k o))) 0 = Some x /\ nth_error (o_res o) 0 = Some r /\
  r = 0%Q /\ qlt 0 (defect v x) = true.
Proof. exact res_unpaired. Qed.
Print Assumptions C24_residuals_unpaired_refuted.

(** C25 *)
Theorem C25_swap_seq_exchanges_columns : forall (V M : Type) i j (s : cst (V := V) (M := M)),
  i < length (cs_C s) -> j < length (cs_C s) -> i < length (cs_C2 s) -> j < length (cs_C2 s) ->
  exists s', c_swap false i j s = Ok s' /\ cs_H s' = cs_H s /\ cs_B s' = cs_B s /\ cs_B2 s' = cs_B2 s /\
    (forall k, nth_error (cs_C s') k = nth_error (cs_C s) (if k =? i then j else if k =? j then i else k)) /\
    (forall k, nth_error (cs_C2 s') k = nth_error (cs_C2 s) (if k =? i then j else if k =? j then i else k)).
Proof. exact (fun V M => seq_swap_spec (V := V) (M := M)). Qed.
Print Assumptions C25_swap_seq_exchanges_columns.

Theorem C25_swap_inplace_exchanges_columns : forall (V M : Type) i j (s : ist (V := V) (M := M)),
  i < length (is_V1 s) -> j < length (is_V1 s) ->
  exists s', i_swap i j s = Ok s' /\ is_H s' = is_H s /\ is_V2 s' = is_V2 s /\ is_sw s' = is_sw s /\
    (forall k, nth_error (is_V1 s') k = nth_error (is_V1 s) (if k =? i then j else if k =? j then i else k)).
Proof. exact (fun V M => inpl_swap_spec (V := V) (M := M)). Qed.
Print Assumptions C25_swap_inplace_exchanges_columns.

(** the distributed Swap is the identity for every pair of indices *)
Theorem C25_swap_mpi_is_identity_refuted : forall (V M : Type) i j (s : cst (V := V) (M := M)),
  i < length (cs_C s) -> j < length (cs_C s) -> c_swap true i j s = Ok s.
Proof. exact (fun V M => mpi_swap_spec (V := V) (M := M)). Qed.
Print Assumptions C25_swap_mpi_is_identity_refuted.

(** consequence for a solve: reported residual below 1/100, actual defect of the returned pair above 9/10 *)
Theorem C25_mpi_pairs_broken_refuted : exists o s v x r,
  solve qf (mpiQ 2 0) qfs qsort (qconf 2 0) mpi0 rv0 rs0 = Ok o /\ o_exit o = Some s /\ ss_locked s = 2 /\
  nth_error (o_ritz o) 0 = Some v /\ nth_error (cs_C (cm_dla (o_k o))) 0 = Some x /\ nth_error (o_res o) 0 = Some r /\
  qlt r (1 # 100) = true /\ qlt (9 # 10) (defect v x) = true.
Proof. exact mpi_unpaired. Qed.
Print Assumptions C25_mpi_pairs_broken_refuted.

(** C26 *)
Theorem C26_user_buffer_by_parity : forall (F V M G T : Type) (fo : fops F) (bl : blas F V M G T) qe td (cf : conf F) sort_idx,
  (forall keys, Permutation (sort_idx keys) (seq 0 (length keys))) ->
  forall fsort l0 (H : M) (V1 : list V) ritzv resid o s, conf_ok cf ->
  solve fo (inplK fo bl qe td cf) fsort sort_idx cf (inplS bl cf l0 H V1) ritzv resid = Ok o -> o_exit o = Some s ->
  user_V1 (cm_dla (o_k o)) = if Nat.odd (ss_iter s) then is_V2 (cm_dla (o_k o)) else is_V1 (cm_dla (o_k o)).
Proof. exact (fun F V M G T fo bl qe td cf => inpl_user_buffer fo bl qe td cf). Qed.
Print Assumptions C26_user_buffer_by_parity.

Example C26_example_even : exists o s,
  solve qf (inpQ 2 0) qfs qsort (qconf 2 0) inp0 rv0 rs0 = Ok o /\ o_exit o = Some s /\ ss_iter s = 2 /\ ss_locked s = 2.
Proof. exact inpl_even. Qed.

(** converged after one iteration: the solver's columns are the eigenvectors, the caller's buffer holds zero columns *)
Theorem C26_odd_iterations_lose_vectors_refuted : exists o s,
  solve qf (inpQ 2 0) qfs qsort (qconf 2 0) inp1 rv0 rs0 = Ok o /\ o_exit o = Some s /\ ss_iter s = 1 /\ ss_locked s = 2 /\
  o_ritz o = [1; 2]%Q /\ is_V1 (cm_dla (o_k o)) = [[1; 0; 0]; [0; 1; 0]]%Q /\ user_V1 (cm_dla (o_k o)) = [[0; 0; 0]; [0; 0; 0]]%Q.
Proof. exact inpl_odd. Qed.
Print Assumptions C26_odd_iterations_lose_vectors_refuted.

(** C27 *)
Theorem C27_seq_buffers_large_enough : forall (F V M G T : Type) (fo : fops F) (bl : blas F V M G T) qe td (cf : conf F) sort_idx,
  (forall keys, Permutation (sort_idx keys) (seq 0 (length keys))) ->
  forall fsort l0 (H : M) (V1 : list V) ritzv resid, let K := seqK fo bl qe td cf in let n := c_nev cf + c_nex cf in
  let m := Nat.min n (Nat.min (c_N cf / 2) (c_lanczositer cf)) in
  c_nex cf <= c_nev cf -> length V1 = n -> conf_ok cf -> (forall l, length (fsort l) = length l) ->
  n <= length ritzv -> n <= length resid -> 2 <= c_N cf -> 1 <= c_lanczositer cf ->
  (c_approx cf = false -> 1 <= c_numlanczos cf <= n /\ forall k u Th Ta rv k',
     k_lanczos2 K m (c_numlanczos cf) k = Ok (u, Th, Ta, rv, k') -> start_ok fo (fsort Th) Th Ta (c_N cf) (c_numlanczos cf) m n) ->
  (exists o, solve fo K fsort sort_idx cf (seqS bl cf l0 H V1) ritzv resid = Ok o) \/
  (solve fo K fsort sort_idx cf (seqS bl cf l0 H V1) ritzv resid = UB /\ degree_overflow fo K sort_idx fsort cf (seqS bl cf l0 H V1) ritzv resid).
Proof. exact (fun F V M G T fo bl qe td cf => seq_solve_safe fo bl qe td cf). Qed.
Print Assumptions C27_seq_buffers_large_enough.

Theorem C27_seq_overflow_when_nex_exceeds_nev : forall (F V M G T : Type) (fo : fops F) (bl : blas F V M G T) qe td (cf : conf F)
  l0 (H : M) (V1 : list V) fsort sort_idx k0 ritzv resid, let K := seqK fo bl qe td cf in let k := seqS bl cf l0 H V1 in
  length V1 = c_nev cf + c_nex cf -> c_nev cf < c_nex cf ->
  (if c_symcheck cf then k_sym K k else Ok (true, k)) = Ok (true, k0) ->
  solve fo K fsort sort_idx cf k ritzv resid = UB.
Proof. exact (fun F V M G T fo bl qe td cf => seq_init_small fo bl qe td cf). Qed.
Print Assumptions C27_seq_overflow_when_nex_exceeds_nev.

(** in-place and distributed buffers have no such restriction *)
Theorem C27_mpi_inplace_buffers_large_enough : forall (F V M G T : Type) (fo : fops F) (bl : blas F V M G T) qe td (cf : conf F) sort_idx,
  (forall keys, Permutation (sort_idx keys) (seq 0 (length keys))) ->
  forall fsort l0 (H : M) (V1 : list V) ritzv resid, let n := c_nev cf + c_nex cf in
  length V1 = n -> conf_ok cf -> (forall l, length (fsort l) = length l) ->
  n <= length ritzv -> n <= length resid -> 2 <= c_N cf -> 1 <= c_lanczositer cf -> c_approx cf = true ->
  ((exists o, solve fo (mpiK fo bl qe td cf) fsort sort_idx cf (mpiS bl cf l0 H V1) ritzv resid = Ok o) \/
   (solve fo (mpiK fo bl qe td cf) fsort sort_idx cf (mpiS bl cf l0 H V1) ritzv resid = UB /\
      degree_overflow fo (mpiK fo bl qe td cf) sort_idx fsort cf (mpiS bl cf l0 H V1) ritzv resid)) /\
  ((exists o, solve fo (inplK fo bl qe td cf) fsort sort_idx cf (inplS bl cf l0 H V1) ritzv resid = Ok o) \/
   (solve fo (inplK fo bl qe td cf) fsort sort_idx cf (inplS bl cf l0 H V1) ritzv resid = UB /\
      degree_overflow fo (inplK fo bl qe td cf) sort_idx fsort cf (inplS bl cf l0 H V1) ritzv resid)).
Proof. exact (fun F V M G T fo bl qe td cf => other_solve_safe fo bl qe td cf). Qed.
Print Assumptions C27_mpi_inplace_buffers_large_enough.

Example C27_example_fits : exists o, solve qf (seqQ 2 0) qfs qsort (qconf 2 0) seq0 rv0 rs0 = Ok o.
Proof. exact (match seq_run with ex_intro _ _ (ex_intro _ _ (ex_intro _ _ (ex_intro _ _ (ex_intro _ _ (ex_intro _ o
  (conj _ (conj _ (conj _ (conj _ (conj _ (conj _ (conj H _)))))))))))) => ex_intro _ o H end). Qed.
Example C27_example_overflow :
  solve qf (seqQ 1 2) qfs qsort (qconf 1 2) (mk_cm 0 (seq_state seqB 1 2 H3 [[1; 0; 0]; [0; 1; 0]; [0; 0; 1]]%Q)) [1; 2; 3]%Q [0; 0; 0]%Q = UB.
Proof. vm_compute. reflexivity. Qed.

(** C28: [qlogD L] is L with a log of the QR variants called and their info *)
Theorem C28_qr_selection_table : forall (F D : Type) (fo : fops F) (qe : qr_env F) (L : dla F D) fixednev cond l d l' d',
  cm_qr fo qe L fixednev cond (mk_cm l d) = Ok (mk_cm l' d') ->
  exists log, qr_table fo qe cond log /\ l' = l /\
    forall log0, cm_qr fo qe (qlogD L) fixednev cond (mk_cm l (log0, d)) = Ok (mk_cm l (log0 ++ log, d')).
Proof. exact (fun F D fo qe L => qr_log fo qe L). Qed.
Print Assumptions C28_qr_selection_table.

(** the table determines the variant *)
Theorem C28_qr_selection_unique : forall (F : Type) (fo : fops F) qe cond log log',
  qr_table fo qe cond log -> qr_table fo qe cond log' ->
  match log, log' with (v, i) :: _, (v', i') :: _ => v = v' | _, _ => False end.
Proof. exact (fun F fo => qr_table_det fo). Qed.
Print Assumptions C28_qr_selection_unique.

(** a NaN estimate (incomparable with the thresholds) selects CholQR2 *)
Theorem C28_nan_estimate_selects_cholqr2 : forall (F D : Type) (fo : fops F) (qe : qr_env F) (L : dla F D) fixednev cond l d s',
  ~ chol_disabled qe -> f_lt fo (q_upper qe) cond = false -> f_lt fo cond (lower_threshold qe) = false ->
  cm_qr fo qe L fixednev cond (mk_cm l d) = Ok s' ->
  exists i, forall log0, cm_qr fo qe (qlogD L) fixednev cond (mk_cm l (log0, d)) =
    Ok (mk_cm l (log0 ++ (QChol2, i) :: fallback i, cm_dla s')).
Proof. exact (fun F D fo qe L => qr_nan fo qe L). Qed.
Print Assumptions C28_nan_estimate_selects_cholqr2.

Example C28_example : exists s', cm_qr qf qchol (qlogD (inplD qf lateB 2)) 1 20%Q (mk_cm 1 ([], cm_dla late0)) = Ok s' /\
  fst (cm_dla s') = [(QChol2, 2%Z); (QHouse, 0%Z)].
Proof. eexists. split; [vm_compute; reflexivity|vm_compute; reflexivity]. Qed.

(** C29: the second buffer agrees with the first on the locked columns whenever the solver calls QR *)
Theorem C29_qr_preserves_locked_columns : forall (F V M G T : Type) (fo : fops F) (bl : blas F V M G T) (qe : qr_env F) nev nex mpi w,
  nev + nex <= w -> forall fixednev cond (s s' : cm (D := cst (V := V) (M := M))), let l := cm_locked s in
  clen (nev + nex) w (cm_dla s) -> firstn l (cs_C2 (cm_dla s)) = firstn l (cs_C (cm_dla s)) ->
  cm_qr fo qe (colD fo bl mpi (nev + nex)) fixednev cond s = Ok s' ->
  cm_locked s' = l /\ firstn l (cs_C (cm_dla s')) = firstn l (cs_C (cm_dla s)) /\ cs_H (cm_dla s') = cs_H (cm_dla s) /\
  firstn (nev + nex) (cs_C2 (cm_dla s')) = cs_C (cm_dla s').
Proof. exact (fun F V M G T fo bl qe => qr_keeps_locked fo bl qe). Qed.
Print Assumptions C29_qr_preserves_locked_columns.

Theorem C29_qr_preserves_locked_columns_inplace : forall (F V M G T : Type) (fo : fops F) (bl : blas F V M G T) (qe : qr_env F) nev nex
  fixednev cond (s s' : cm (D := ist (V := V) (M := M))), let l := cm_locked s in
  no_late_failure bl (nev + nex) -> ilen (nev + nex) (cm_dla s) ->
  cm_qr fo qe (inplD fo bl (nev + nex)) fixednev cond s = Ok s' ->
  cm_locked s' = l /\ firstn l (is_V1 (cm_dla s')) = firstn l (is_V1 (cm_dla s)) /\ is_H (cm_dla s') = is_H (cm_dla s).
Proof. exact (fun F V M G T fo bl qe => inpl_qr_keeps_locked fo bl qe). Qed.
Print Assumptions C29_qr_preserves_locked_columns_inplace.

(** in-place, CholQR2 selected, first factorisation succeeds and second fails: the locked columns are the doubly
    transformed ones *)
Theorem C29_inplace_late_failure_overwrites : forall (F V M G T : Type) (fo : fops F) (bl : blas F V M G T) (qe : qr_env F) nev nex fixednev cond
  (s s' : cm (D := ist (V := V) (M := M))) R info R2, let n := nev + nex in
  ilen n (cm_dla s) -> ~ chol_disabled qe -> f_lt fo (q_upper qe) cond = false -> f_lt fo cond (lower_threshold qe) = false ->
  let cs := is_V1 (cm_dla s) in
  b_potrf bl (b_syherk bl cs) = (0%Z, R) ->
  let cs1 := map (b_trsm bl R cs) (seq 0 n) in
  b_potrf bl (b_syherk bl cs1) = (info, R2) -> info <> 0%Z ->
  cm_qr fo qe (inplD fo bl n) fixednev cond s = Ok s' ->
  firstn (cm_locked s) (is_V1 (cm_dla s')) = firstn (cm_locked s) (map (b_trsm bl R2 cs1) (seq 0 n)).
Proof. exact (fun F V M G T fo bl qe => inpl_late fo bl qe). Qed.
Print Assumptions C29_inplace_late_failure_overwrites.

Theorem C29_inplace_refuted : exists s', cm_qr qf qchol (inplD qf lateB 2) 1 20%Q late0 = Ok s' /\
  firstn 1 (is_V1 (cm_dla late0)) = [[1; 0; 0]]%Q /\ firstn 1 (is_V1 (cm_dla s')) = [[4; 0; 0]]%Q.
Proof. exact late_witness. Qed.
Print Assumptions C29_inplace_refuted.

Example C29_example : exists s', cm_qr qf qchol (colD qf lateB false 2) 1 20%Q
    (mk_cm 1 (mk_cst H3 [[1; 0; 0]; [0; 1; 0]] [[0; 0; 0]; [0; 0; 0]] [[1; 0; 0]; [0; 5; 0]] [[0; 0; 0]; [0; 0; 0]] true)%Q) = Ok s' /\
  firstn 1 (cs_C (cm_dla s')) = [[1; 0; 0]]%Q.
Proof. eexists. split; [vm_compute; reflexivity|vm_compute; reflexivity]. Qed.

(** C49 does not hold of the Seq backend without its condition: parallel columns, shiftedcholQR2 selected.  The second
    factorisation fails, its result is used all the same, and the fallback gets a column of NaN.  The Mpi backend returns
    before using the failed factor; with CHASE_DISABLE_CHOLQR=1 the Seq backend is right too. *)
Theorem C49_seq_dependent_columns_refuted :
  (exists s, cm_qr qf qsh (colD qf nanB false 2) 0 1000%Q dep0 = Ok s /\ cs_C (cm_dla s) = [(Some 1%Q, Some 0%Q); (None, None)]) /\
  (exists s, cm_qr qf qsh (colD qf nanB true 2) 0 1000%Q dep0 = Ok s /\ cs_C (cm_dla s) = [(Some 1%Q, Some 0%Q); (Some 0%Q, Some 1%Q)]) /\
  (exists s, cm_qr qf (mk_qe _ true (Some 1%Z) None 100%Q 10%Q) (colD qf nanB false 2) 0 1000%Q dep0 = Ok s /\
     cs_C (cm_dla s) = [(Some 1%Q, Some 0%Q); (Some 0%Q, Some 1%Q)]).
Proof. exact dep_witness. Qed.
Print Assumptions C49_seq_dependent_columns_refuted.

(** C65 "the lowest nev eigenvalues are returned" does not hold: H3 = diag(1, 2, 3) with the eigenvectors of 2 and 3 as approximate
    start vectors.  After one iteration the pair of 2 is accepted with residual 0; the eigenvalue 1 is never seen. *)
Theorem C65_lowest_eigenvalue_returned_refuted : exists o s, conf_ok lconf /\
  solve qf (seqK qf seqB qhh qtd lconf) qfs qsort lconf (seqS seqB lconf 0 H3 [[0; 1; 0]; [0; 0; 1]]%Q) [2; 5 # 2]%Q [0; 0]%Q = Ok o /\ o_exit o = Some s /\
  ss_iter s = 1 /\ ss_locked s = 1 /\ nth_error (o_ritz o) 0 = Some 2%Q /\ nth_error (o_res o) 0 = Some 0%Q /\
  nth_error (cs_C (cm_dla (o_k o))) 0 = Some [0; 1; 0]%Q /\ vmap2 Qmult H3 [0; 1; 0]%Q = vscal 2 [0; 1; 0]%Q /\
  vmap2 Qmult H3 [1; 0; 0]%Q = vscal 1 [1; 0; 0]%Q /\ qlt 1 2 = true.
Proof. exact not_lowest. Qed.
Print Assumptions C65_lowest_eigenvalue_returned_refuted.
