(** Properties C84 and C85: using one solver object for several problems, and agreement of the backends. *)
From Coq Require Import List Arith ZArith QArith Bool Permutation.
Require Import Verif.Base Verif.AlgModel Verif.AlgSpec Verif.DlaModel Verif.ColModel Verif.ColSpec Verif.ColEx Verif.GpuModel Verif.GpuSpec Verif.MgpuModel Verif.MgpuSpec Verif.MgpuEx
  Verif.ReuseSpec Verif.ReuseSeq Verif.ReuseInpl Verif.ReuseKeep Verif.ReuseSolve Verif.ReuseEx.
Import ListNotations.
Local Open Scope nat_scope.

(** [mpi] = false: Seq, true: Mpi *)
Notation colK fo bl mpi qe td nev nex := (cmK fo qe td (colD fo bl mpi (nev + nex)) nev nex).
Notation inplK fo bl qe td nev nex := (cmK fo qe td (inplD fo bl (nev + nex)) nev nex).
Notation gpuK fo bl qe td nev nex := (cmK fo qe td (gpuD fo bl (nev + nex)) nev nex).
Notation mgpuK fo bl loc qe td nev nex := (cmK fo qe td (mgpuD fo bl loc false (nev + nex)) nev nex).

(** ** C84: the outcome depends on the matrix and, in approximate mode, on the vectors only *)
Theorem C84_column_backends_no_history : forall (F V M G T : Type) (fo : fops F) (bl : blas F V M G T) qe td mpi (cf : conf F) sort_idx fsort ritzv resid,
  (forall keys, Permutation (sort_idx keys) (seq 0 (length keys))) -> conf_ok cf -> beta_zero fo bl ->
  let n := c_nev cf + c_nex cf in let K := colK fo bl mpi qe td (c_nev cf) (c_nex cf) in
  forall s t, same_problem n (c_approx cf) s t ->
  same_run cs_H cs_C cs_H cs_C (solve fo K fsort sort_idx cf s ritzv resid) (solve fo K fsort sort_idx cf t ritzv resid).
Proof. exact @seq_same_run. Qed.
Print Assumptions C84_column_backends_no_history.

Theorem C84_inplace_no_history : forall (F V M G T : Type) (fo : fops F) (bl : blas F V M G T) qe td (cf : conf F) sort_idx fsort ritzv resid,
  (forall keys, Permutation (sort_idx keys) (seq 0 (length keys))) -> conf_ok cf -> beta_zero fo bl ->
  let n := c_nev cf + c_nex cf in let K := inplK fo bl qe td (c_nev cf) (c_nex cf) in
  forall s t, same_problem2 n (c_approx cf) s t ->
  same_run is_H is_V1 is_H is_V1 (solve fo K fsort sort_idx cf s ritzv resid) (solve fo K fsort sort_idx cf t ritzv resid).
Proof. exact (fun F V M G T fo bl qe td cf => ist_same_run fo bl qe td false cf). Qed.
Print Assumptions C84_inplace_no_history.

Theorem C84_gpu_no_history : forall (F V M G T : Type) (fo : fops F) (bl : blas F V M G T) qe td (cf : conf F) sort_idx,
  (forall keys, Permutation (sort_idx keys) (seq 0 (length keys))) -> conf_ok cf -> beta_zero fo bl -> forall fsort ritzv resid,
  let n := c_nev cf + c_nex cf in let K := gpuK fo bl qe td (c_nev cf) (c_nex cf) in
  forall g g', gpu_sizes n (cm_dla g) -> gpu_sizes n (cm_dla g') -> g_H (cm_dla g) = g_H (cm_dla g') ->
  (c_approx cf = true -> is_V1 (g_dev (cm_dla g)) = is_V1 (g_dev (cm_dla g'))) ->
  same_results g_V1 g_V1 (solve fo K fsort sort_idx cf g ritzv resid) (solve fo K fsort sort_idx cf g' ritzv resid).
Proof. exact (fun F V M G T fo bl qe td cf => gpu_same_run fo bl qe td cf). Qed.
Print Assumptions C84_gpu_no_history.

Theorem C84_mgpu_no_history : forall (F V M G T : Type) (fo : fops F) (bl : blas F V M G T) qe td (cf : conf F) sort_idx,
  (forall keys, Permutation (sort_idx keys) (seq 0 (length keys))) -> conf_ok cf -> beta_zero fo bl -> forall fsort ritzv resid loc,
  let n := c_nev cf + c_nex cf in let K := mgpuK fo bl loc qe td (c_nev cf) (c_nex cf) in
  forall g g', no_late_failure bl n -> mgpu_sizes n (cm_dla g) -> mgpu_sizes n (cm_dla g') -> m_H (cm_dla g) = m_H (cm_dla g') ->
  (c_approx cf = true -> m_C (cm_dla g) = m_C (cm_dla g')) ->
  same_results m_C m_C (solve fo K fsort sort_idx cf g ritzv resid) (solve fo K fsort sort_idx cf g' ritzv resid).
Proof. exact (fun F V M G T fo bl qe td cf si hp cfo bz fs rv rs loc g g' => mgpu_same_run fo bl qe td cf si hp cfo bz fs rv rs loc g g'). Qed.
Print Assumptions C84_mgpu_no_history.

(** a session of Seq or Mpi on any used object = every problem with a new object; [fr j] is the new object *)
Theorem C84_column_session : forall (F V M G T : Type) (fo : fops F) (bl : blas F V M G T) qe td nev nex sort_idx,
  (forall keys, Permutation (sort_idx keys) (seq 0 (length keys))) -> forall fsort, beta_zero fo bl ->
  forall mpi c2 b2 jobs s (fr : job (F := F) (V := V) (M := M) -> cst), let n := nev + nex in let K := colK fo bl mpi qe td nev nex in
  let run := fun j k => solve fo K fsort sort_idx (j_conf j) k (j_ritz j) (j_resid j) in
  col_sizes n n c2 b2 (cm_dla s) -> Forall (job_ok true nev nex) jobs ->
  (forall j, job_ok true nev nex j -> cs_H (fr j) = j_H j /\ (c_approx (j_conf j) = true -> cs_C (fr j) = j_V j) /\ col_sizes n n c2 b2 (fr j)) ->
  session cs_C (fun j k => run j (load_cst j k)) jobs s = apart cs_C (fun j => run j (mk_cm 0 (fr j))) jobs.
Proof. exact (fun F V M G T fo bl qe td nev nex si hp fs bz mpi c2 b2 jobs s fr => col_session fo bl qe td nev nex si hp fs bz mpi c2 b2 jobs s fr). Qed.
Print Assumptions C84_column_session.

(** in place: for problems without approximate vectors *)
Theorem C84_inplace_session : forall (F V M G T : Type) (fo : fops F) (bl : blas F V M G T) qe td nev nex sort_idx,
  (forall keys, Permutation (sort_idx keys) (seq 0 (length keys))) -> forall fsort, beta_zero fo bl ->
  forall jobs s (fr : job (F := F) (V := V) (M := M) -> ist), let n := nev + nex in let K := inplK fo bl qe td nev nex in
  let run := fun j k => solve fo K fsort sort_idx (j_conf j) k (j_ritz j) (j_resid j) in
  ist_sizes n (cm_dla s) -> Forall (job_ok false nev nex) jobs ->
  (forall j, job_ok false nev nex j -> is_H (fr j) = j_H j /\ ist_sizes n (fr j)) ->
  session is_V1 (fun j k => run j (load_ist j k)) jobs s = apart is_V1 (fun j => run j (mk_cm 0 (fr j))) jobs.
Proof. exact (fun F V M G T fo bl qe td nev nex si hp fs bz => ist_session fo bl qe td nev nex si hp fs bz false). Qed.
Print Assumptions C84_inplace_session.

(** with approximate vectors it fails: diag(1, 2, 3), then diag(3, 1, 2), each with its exact vectors in the caller's
    buffer.  New objects return 1, 2 for the second problem; the reused object ignores the new vectors and returns 1, 3. *)
Theorem C84_inplace_session_start_vectors_refuted : exists v1 v2 v3 r1 r2,
  session is_V1 (fun j k => jrun qtd 0 (inplD qf symB 2) j (load_ist j k)) [jobA; jobB] (mk_cm 0 (inp_new jobA)) =
    [Ok ([1; 2]%Q, r1, Some v1); Ok ([1; 3]%Q, r2, Some v2)] /\
  apart is_V1 (fun j => jrun qtd 0 (inplD qf symB 2) j (mk_cm 0 (inp_new j))) [jobA; jobB] =
    [Ok ([1; 2]%Q, r1, Some v1); Ok ([1; 2]%Q, r2, Some v3)] /\
  c_approx (j_conf jobB) = true /\ v3 = [[0; 1; 0]; [0; 0; 1]]%Q.
Proof. exact inpl_session_lost. Qed.
Print Assumptions C84_inplace_session_start_vectors_refuted.

(** the hypotheses hold; three problems on an object full of leftovers *)
Example C84_example : beta_zero qf symB /\ (forall n, no_late_failure symB n) /\ Forall (job_ok true 2 0) [jobA; jobC; jobB] /\ col_sizes 2 2 4 4 (cm_dla seq_used) /\
  (forall j : job (F := Q) (V := qv) (M := qv), job_ok true 2 0 j -> let fr := seq_state symB 2 0 (j_H j) (j_V j) in cs_H fr = j_H j /\ cs_C fr = j_V j /\ col_sizes 2 2 4 4 fr) /\
  exists r1 r2 r3 e v2, session cs_C (fun j k => jrun qtd 0 (colD qf symB false 2) j (load_cst j k)) [jobA; jobC; jobB] seq_used =
    [Ok ([1; 2]%Q, r1, Some [[1; 0; 0]; [0; 1; 0]]%Q); Ok ([e; 2]%Q, r2, Some v2); Ok ([1; 2]%Q, r3, Some [[0; 1; 0]; [0; 0; 1]]%Q)] /\
  qlt e 1 = true /\ qlt (99 # 100) e = true.
Proof.
  split; [exact symB_beta|]. split; [exact symB_no_late|]. split.
  { pose proof (q_conf_ok 2 0 (le_S _ _ (le_n 1))) as X. repeat constructor; auto; try discriminate; apply X. }
  split; [repeat split|]. split; [intros j (_ & _ & _ & L & _); repeat split; exact L|]. exact seq_session_ex.
Qed.
Example C84_example_inplace : Forall (job_ok false 2 1) [jobR H3; jobR [3; 1; 2]%Q] /\ ist_sizes 3 (cm_dla inp_used) /\
  exists a b, session is_V1 (fun j k => jrun rtd 1 (inplD qf symB 3) j (load_ist j k)) [jobR H3; jobR [3; 1; 2]%Q] inp_used = [Ok a; Ok b] /\
  fst (fst a) <> fst (fst b) /\ snd a <> None /\ snd b <> None.
Proof.
  split; [repeat constructor; cbn; auto with arith|]. split; [split; reflexivity|]. exact inpl_session_ex.
Qed.

(** ** C85: with the same approximate vectors the two-block backends and Seq return the same *)
Theorem C85_inplace_as_seq : forall (F V M G T : Type) (fo : fops F) (bl : blas F V M G T) qe td (cf : conf F) sort_idx,
  (forall keys, Permutation (sort_idx keys) (seq 0 (length keys))) -> conf_ok cf -> beta_zero fo bl -> forall fsort ritzv resid (Hm : M -> Prop),
  let n := c_nev cf + c_nex cf in self_adjoint bl Hm -> no_late_failure bl n -> c_approx cf = true ->
  forall s t, same_start n s t -> Hm (cs_H (cm_dla t)) ->
  same_run is_H is_V1 cs_H cs_C (solve fo (inplK fo bl qe td (c_nev cf) (c_nex cf)) fsort sort_idx cf s ritzv resid)
    (solve fo (colK fo bl false qe td (c_nev cf) (c_nex cf)) fsort sort_idx cf t ritzv resid).
Proof. exact (fun F V M G T fo bl qe td cf si hp cfo bz fs rv rs => ist_as_seq fo bl qe td cf si hp cfo bz fs rv rs false). Qed.
Print Assumptions C85_inplace_as_seq.

(** one GPU: the vectors on the device count *)
Theorem C85_gpu_as_seq : forall (F V M G T : Type) (fo : fops F) (bl : blas F V M G T) qe td (cf : conf F) sort_idx,
  (forall keys, Permutation (sort_idx keys) (seq 0 (length keys))) -> conf_ok cf -> beta_zero fo bl -> forall fsort ritzv resid (Hm : M -> Prop),
  let n := c_nev cf + c_nex cf in self_adjoint bl Hm -> no_late_failure bl n -> c_approx cf = true ->
  forall g t, gpu_sizes n (cm_dla g) -> same_start n (bare_of g) t -> Hm (g_H (cm_dla g)) ->
  same_results g_V1 cs_C (solve fo (gpuK fo bl qe td (c_nev cf) (c_nex cf)) fsort sort_idx cf g ritzv resid)
    (solve fo (colK fo bl false qe td (c_nev cf) (c_nex cf)) fsort sort_idx cf t ritzv resid).
Proof. exact (fun F V M G T fo bl qe td cf => gpu_as_seq fo bl qe td cf). Qed.
Print Assumptions C85_gpu_as_seq.

(** with a random start they need not: the same random numbers, but the third start column, which the DoS takes from the
    second block, is an orthonormalised one in Seq (norm 1) and a raw one in place (norm 3) *)
Theorem C85_random_start_blocks_refuted : exists x y a b, start_block cs_C (colD qf symB false 3) (seq_state symB 2 1 H3 junk3) = Ok x /\
  start_block is_V1 (inplD qf symB 3) (inpl_state symB 2 1 H3 junk3) = Ok y /\ nth_error x 2 = Some a /\ nth_error y 2 = Some b /\ vnrm a = 1%Q /\ vnrm b = 3%Q.
Proof. exact start_differs. Qed.
Print Assumptions C85_random_start_blocks_refuted.

Example C85_example : conf_ok (j_conf jobC) /\ beta_zero qf symB /\ self_adjoint symB (fun _ => True) /\ no_late_failure symB 2 /\ c_approx (j_conf jobC) = true /\
  same_start 2 inp_c seq_c /\ gpu_sizes 2 (cm_dla gpu_c) /\ same_start 2 (bare_of gpu_c) seq_c /\
  exists oi og os si sg ss, jrun qtd 0 (inplD qf symB 2) jobC inp_c = Ok oi /\ jrun qtd 0 (gpuD qf symB 2) jobC gpu_c = Ok og /\
  jrun qtd 0 (colD qf symB false 2) jobC seq_c = Ok os /\ o_exit oi = Some si /\ o_exit og = Some sg /\ o_exit os = Some ss /\ ss_iter ss = 2 /\ ss_locked ss = 2 /\
  nth_error (o_ritz os) 1 = Some 2%Q.
Proof.
  split; [exact (q_conf_ok 2 0 (le_S _ _ (le_n 1)))|]. split; [exact symB_beta|]. split; [exact symB_self_adjoint|]. split; [exact (symB_no_late 2)|]. split; [reflexivity|].
  split; [repeat split; cbn; auto with arith|]. split; [repeat split|]. split; [repeat split; cbn; auto with arith|]. exact three_runs.
Qed.
