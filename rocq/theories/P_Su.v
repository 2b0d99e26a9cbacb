(** C92: one solver object, used before or for several problems, on the arrays of the caller (sequential, in-place and single-GPU
    backend). *)
From Coq Require Import List Arith ZArith QArith Bool Lia Permutation.
Require Import Verif.Base Verif.AlgModel Verif.AlgSpec Verif.AlgProofs6 Verif.AlgSim Verif.DlaModel Verif.DlaSim Verif.ColModel Verif.ColSpec Verif.ColEx Verif.GpuModel Verif.SfModel Verif.SfSpec
  Verif.SfEx Verif.SiModel Verif.SiSpec Verif.SgModel Verif.SgSpec Verif.ReuseSpec Verif.SuSpec Verif.SuProofs1 Verif.SuProofs2 Verif.SuEx.
Import ListNotations.
Local Open Scope nat_scope.

Local Notation perm_sort si := (forall keys, Permutation (si keys) (seq 0 (length keys))).
Local Notation seqR fo lib qe td cf N ldh fsort si rv rs f := (solve fo (cmK fo qe td (flatD fo lib N ldh (c_nev cf + c_nex cf)) (c_nev cf) (c_nex cf)) fsort si cf f rv rs).
Local Notation inplR fo lib qe td cf N ldh fsort si rv rs f := (solve fo (cmK fo qe td (iflatD fo lib N ldh (c_nev cf + c_nex cf)) (c_nev cf) (c_nex cf)) fsort si cf f rv rs).
Local Notation gpuR fo lib qe td cf N ldh fsort si rv rs f := (solve fo (cmK fo qe td (gflatD fo lib N ldh (c_nev cf + c_nex cf)) (c_nev cf) (c_nex cf)) fsort si cf f rv rs).

(** on any object with arrays of the right sizes, whatever they contain, the run is the run on their columns *)
Theorem C92_used_object_sequential : forall (F T : Type) (fo : fops F) (lib : flib F T) qe td (cf : conf F) N ldh w, 1 <= N -> N <= ldh ->
  forall f, flat_sizes N ldh (c_nev cf + c_nex cf) w f -> forall l0 fsort si rv rs, let n := c_nev cf + c_nex cf in
  SfSpec.same_run lib N ldh (f_H f) (seqR fo lib qe td cf N ldh fsort si rv rs (mk_cm l0 f))
    (solve fo (cmK fo qe td (colD fo (col_blas fo lib N) false n) (c_nev cf) (c_nex cf)) fsort si cf (mk_cm l0 (flat_columns lib N ldh n w f)) rv rs).
Proof. exact (fun F T fo lib qe td cf N ldh w N1 NL f HS => u_solve fo lib qe td cf N ldh w N1 NL f HS). Qed.
Print Assumptions C92_used_object_sequential.
Theorem C92_used_object_in_place : forall (F T : Type) (fo : fops F) (lib : flib F T) qe td (cf : conf F) N ldh, 1 <= N -> N <= ldh ->
  forall f, iflat_sizes N ldh (c_nev cf + c_nex cf) f -> forall l0 fsort si rv rs, let n := c_nev cf + c_nex cf in
  same_run_i lib N ldh (SiModel.g_H f) (inplR fo lib qe td cf N ldh fsort si rv rs (mk_cm l0 f))
    (solve fo (cmK fo qe td (inplD fo (col_blas fo lib N) n) (c_nev cf) (c_nex cf)) fsort si cf (mk_cm l0 (iflat_columns lib N ldh n f)) rv rs).
Proof. exact (fun F T fo lib qe td cf N ldh N1 NL f HS => ui_solve fo lib qe td cf N ldh N1 NL f HS). Qed.
Print Assumptions C92_used_object_in_place.

(** new objects are such objects, and a solve leaves one: sizes and everything outside the matrix as before *)
Theorem C92_new_objects : forall (F T : Type) (lib : flib F T) nev nex N ldh (H V : list T), (N - 1) * ldh + N <= length H -> length V = N * (nev + nex) ->
  flat_sizes N ldh (nev + nex) (nev + nev) (flat_state lib N nev nex H V) /\ iflat_sizes N ldh (nev + nex) (iflat_state lib N nev nex H V).
Proof. exact (fun F T lib nev nex N ldh H V a b => conj (new_flat_sizes lib nev nex N ldh H V a b) (new_iflat_sizes lib nev nex N ldh H V a b)). Qed.
Print Assumptions C92_new_objects.
Theorem C92_after_a_solve_sequential : forall (F T : Type) (fo : fops F) (lib : flib F T) qe td (cf : conf F) N ldh w, 1 <= N -> N <= ldh ->
  forall f, flat_sizes N ldh (c_nev cf + c_nex cf) w f -> forall l0 fsort si rv rs o, seqR fo lib qe td cf N ldh fsort si rv rs (mk_cm l0 f) = Ok o ->
  let f' := cm_dla (o_k o) in flat_sizes N ldh (c_nev cf + c_nex cf) w f' /\ length (f_H f') = length (f_H f) /\ forall p, padding N ldh p -> nth_error (f_H f') p = nth_error (f_H f) p.
Proof. exact (fun F T fo lib qe td cf N ldh w N1 NL f HS => u_after fo lib qe td cf N ldh w N1 NL f HS). Qed.
Print Assumptions C92_after_a_solve_sequential.
Theorem C92_after_a_solve_in_place : forall (F T : Type) (fo : fops F) (lib : flib F T) qe td (cf : conf F) N ldh, 1 <= N -> N <= ldh ->
  forall f, iflat_sizes N ldh (c_nev cf + c_nex cf) f -> forall l0 fsort si rv rs o, inplR fo lib qe td cf N ldh fsort si rv rs (mk_cm l0 f) = Ok o ->
  let f' := cm_dla (o_k o) in iflat_sizes N ldh (c_nev cf + c_nex cf) f' /\ length (SiModel.g_H f') = length (SiModel.g_H f) /\
  forall p, padding N ldh p -> nth_error (SiModel.g_H f') p = nth_error (SiModel.g_H f) p.
Proof. exact (fun F T fo lib qe td cf N ldh N1 NL f HS => ui_after fo lib qe td cf N ldh N1 NL f HS). Qed.
Print Assumptions C92_after_a_solve_in_place.

(** no access outside the arrays, whatever ran before *)
Theorem C92_no_access_outside_sequential : forall (F T : Type) (fo : fops F) (lib : flib F T) qe td (cf : conf F) N ldh w, 1 <= N -> N <= ldh ->
  forall f, flat_sizes N ldh (c_nev cf + c_nex cf) w f -> forall l0 si, perm_sort si -> forall fsort rv rs,
  let n := c_nev cf + c_nex cf in let m := Nat.min n (Nat.min (c_N cf / 2) (c_lanczositer cf)) in
  let fK := cmK fo qe td (flatD fo lib N ldh n) (c_nev cf) (c_nex cf) in
  n <= w -> conf_ok cf -> (forall l, length (fsort l) = length l) -> n <= length rv -> n <= length rs -> 2 <= c_N cf -> 1 <= c_lanczositer cf ->
  (c_approx cf = false -> 1 <= c_numlanczos cf <= n /\ forall k u Th Ta rv k',
     k_lanczos2 fK m (c_numlanczos cf) k = Ok (u, Th, Ta, rv, k') -> start_ok fo (fsort Th) Th Ta (c_N cf) (c_numlanczos cf) m n) ->
  (exists o, solve fo fK fsort si cf (mk_cm l0 f) rv rs = Ok o) \/
  (solve fo fK fsort si cf (mk_cm l0 f) rv rs = UB /\ degree_overflow fo fK si fsort cf (mk_cm l0 f) rv rs).
Proof. exact (fun F T fo lib qe td cf N ldh w N1 NL f HS l0 si hp fs rv rs => u_safe fo lib qe td cf N ldh w N1 NL f HS l0 si hp fs rv rs). Qed.
Print Assumptions C92_no_access_outside_sequential.
Theorem C92_no_access_outside_in_place : forall (F T : Type) (fo : fops F) (lib : flib F T) qe td (cf : conf F) N ldh, 1 <= N -> N <= ldh ->
  forall f, iflat_sizes N ldh (c_nev cf + c_nex cf) f -> forall l0 si, perm_sort si -> forall fsort rv rs,
  let n := c_nev cf + c_nex cf in let m := Nat.min n (Nat.min (c_N cf / 2) (c_lanczositer cf)) in
  let fK := cmK fo qe td (iflatD fo lib N ldh n) (c_nev cf) (c_nex cf) in
  conf_ok cf -> (forall l, length (fsort l) = length l) -> n <= length rv -> n <= length rs -> 2 <= c_N cf -> 1 <= c_lanczositer cf ->
  (c_approx cf = false -> 1 <= c_numlanczos cf <= n /\ forall k u Th Ta rv k',
     k_lanczos2 fK m (c_numlanczos cf) k = Ok (u, Th, Ta, rv, k') -> start_ok fo (fsort Th) Th Ta (c_N cf) (c_numlanczos cf) m n) ->
  (exists o, solve fo fK fsort si cf (mk_cm l0 f) rv rs = Ok o) \/
  (solve fo fK fsort si cf (mk_cm l0 f) rv rs = UB /\ degree_overflow fo fK si fsort cf (mk_cm l0 f) rv rs).
Proof. exact (fun F T fo lib qe td cf N ldh N1 NL f HS l0 si hp fs rv rs => ui_safe fo lib qe td cf N ldh N1 NL f HS l0 si hp fs rv rs). Qed.
Print Assumptions C92_no_access_outside_in_place.

(** in place: every iteration exchanges the two arrays; solves of one object add up *)
Theorem C92_in_place_exchange : forall (F T : Type) (fo : fops F) (lib : flib F T) qe td (cf : conf F) N ldh, 1 <= N -> N <= ldh ->
  forall f, iflat_sizes N ldh (c_nev cf + c_nex cf) f -> forall l0 si, perm_sort si -> forall fsort rv rs o s, conf_ok cf ->
  inplR fo lib qe td cf N ldh fsort si rv rs (mk_cm l0 f) = Ok o -> o_exit o = Some s -> g_sw (cm_dla (o_k o)) = xorb (g_sw f) (Nat.odd (ss_iter s)).
Proof. exact (fun F T fo lib qe td cf N ldh N1 NL f HS l0 si hp fs rv rs => ui_parity fo lib qe td cf N ldh N1 NL f HS l0 si hp fs rv rs). Qed.
Print Assumptions C92_in_place_exchange.

(** No history: the answer depends on the N x N matrix and, if start vectors are asked for, on the array of vectors; on nothing else
    in the object (leading dimension, padding, workspaces, flags, the matrix on the device).  Needed of the library: a product
    with factor zero for the old contents does not depend on them. *)
Theorem C92_no_history_sequential : forall (F T : Type) (fo : fops F) (lib : flib F T) qe td (cf : conf F) si fsort N ldh ldh' w l0 l0' (f f' : fst_ (T := T)) rv rs,
  let n := c_nev cf + c_nex cf in perm_sort si -> conf_ok cf -> gemm_overwrites fo lib ->
  1 <= N -> N <= ldh -> N <= ldh' -> flat_sizes N ldh n w f -> flat_sizes N ldh' n w f' -> same_matrix N ldh ldh' (f_H f) (f_H f') ->
  (c_approx cf = true -> f_C f = f_C f') ->
  same_arrays N ldh ldh' f_H f_C f_H f_C (seqR fo lib qe td cf N ldh fsort si rv rs (mk_cm l0 f)) (seqR fo lib qe td cf N ldh' fsort si rv rs (mk_cm l0' f')).
Proof. exact (fun F T fo lib qe td cf si fs N ldh ldh' w l0 l0' f f' rv rs => u_no_history fo lib qe td cf si fs N ldh ldh' w l0 l0' f f' rv rs). Qed.
Print Assumptions C92_no_history_sequential.
Theorem C92_no_history_in_place : forall (F T : Type) (fo : fops F) (lib : flib F T) qe td (cf : conf F) si fsort N ldh ldh' l0 l0' (f f' : ifst (T := T)) rv rs,
  let n := c_nev cf + c_nex cf in perm_sort si -> conf_ok cf -> gemm_overwrites fo lib ->
  1 <= N -> N <= ldh -> N <= ldh' -> iflat_sizes N ldh n f -> iflat_sizes N ldh' n f' -> same_matrix N ldh ldh' (SiModel.g_H f) (SiModel.g_H f') ->
  (c_approx cf = true -> SiModel.g_V1 f = SiModel.g_V1 f') ->
  same_arrays N ldh ldh' SiModel.g_H SiModel.g_V1 SiModel.g_H SiModel.g_V1
    (inplR fo lib qe td cf N ldh fsort si rv rs (mk_cm l0 f)) (inplR fo lib qe td cf N ldh' fsort si rv rs (mk_cm l0' f')).
Proof. exact (fun F T fo lib qe td cf si fs N ldh ldh' l0 l0' f f' rv rs => ui_no_history fo lib qe td cf si fs N ldh ldh' l0 l0' f f' rv rs). Qed.
Print Assumptions C92_no_history_in_place.
Theorem C92_no_history_gpu : forall (F T : Type) (fo : fops F) (lib : flib F T) qe td (cf : conf F) si fsort N ldh ldh' l0 l0' (f f' : gfs (F := F) (T := T)) rv rs,
  let n := c_nev cf + c_nex cf in perm_sort si -> conf_ok cf -> gemm_overwrites fo lib ->
  1 <= N -> N <= ldh -> N <= ldh' -> gflat_sizes N ldh n f -> gflat_sizes N ldh' n f' -> same_matrix N ldh ldh' (u_H f) (u_H f') ->
  (c_approx cf = true -> SiModel.g_V1 (u_d f) = SiModel.g_V1 (u_d f')) ->
  same_arrays N ldh ldh' u_H u_V u_H u_V (gpuR fo lib qe td cf N ldh fsort si rv rs (mk_cm l0 f)) (gpuR fo lib qe td cf N ldh' fsort si rv rs (mk_cm l0' f')).
Proof. exact (fun F T fo lib qe td cf si fs N ldh ldh' l0 l0' f f' rv rs => ug_no_history fo lib qe td cf si fs N ldh ldh' l0 l0' f f' rv rs). Qed.
Print Assumptions C92_no_history_gpu.

(** Sessions: any list of problems, written one after the other into the arrays of one object, gets the answers that new objects
    give.  In place and on the GPU for problems without start vectors. *)
Local Notation jrun fo qe td nev nex fsort si D := (fun j k => solve fo (cmK fo qe td D nev nex) fsort si (j_conf j) k (j_ritz j) (j_resid j)).
Theorem C92_session_sequential : forall (F T : Type) (fo : fops F) (lib : flib F T) qe td nev nex si, perm_sort si -> forall fsort, gemm_overwrites fo lib ->
  forall N ldh, 1 <= N -> N <= ldh -> forall jobs s, let D := flatD fo lib N ldh (nev + nex) in
  flat_sizes N ldh (nev + nex) (nev + nev) (cm_dla s) -> Forall (ajob_ok true N ldh nev nex) jobs ->
  session f_C (fun j k => jrun fo qe td nev nex fsort si D j (load_flat j k)) jobs s =
  apart f_C (fun j => jrun fo qe td nev nex fsort si D j (mk_cm 0 (flat_state lib N nev nex (j_H j) (j_V j)))) jobs.
Proof. exact (fun F T fo lib qe td nev nex si hp fs go N ldh N1 NL => seq_session fo lib qe td nev nex si hp fs go N ldh N1 NL). Qed.
Print Assumptions C92_session_sequential.
Theorem C92_session_in_place : forall (F T : Type) (fo : fops F) (lib : flib F T) qe td nev nex si, perm_sort si -> forall fsort, gemm_overwrites fo lib ->
  forall N ldh, 1 <= N -> N <= ldh -> forall jobs s, let D := iflatD fo lib N ldh (nev + nex) in
  iflat_sizes N ldh (nev + nex) (cm_dla s) -> Forall (ajob_ok false N ldh nev nex) jobs ->
  session SiModel.g_V1 (fun j k => jrun fo qe td nev nex fsort si D j (load_iflat j k)) jobs s =
  apart SiModel.g_V1 (fun j => jrun fo qe td nev nex fsort si D j (mk_cm 0 (iflat_state lib N nev nex (j_H j) (j_V j)))) jobs.
Proof. exact (fun F T fo lib qe td nev nex si hp fs go N ldh N1 NL => inpl_session fo lib qe td nev nex si hp fs go N ldh N1 NL). Qed.
Print Assumptions C92_session_in_place.
Theorem C92_session_gpu : forall (F T : Type) (fo : fops F) (lib : flib F T) qe td nev nex si, perm_sort si -> forall fsort, gemm_overwrites fo lib ->
  forall N ldh, 1 <= N -> N <= ldh -> forall jobs s, let D := gflatD fo lib N ldh (nev + nex) in
  gflat_sizes N ldh (nev + nex) (cm_dla s) -> Forall (ajob_ok false N ldh nev nex) jobs ->
  session u_V (fun j k => jrun fo qe td nev nex fsort si D j (load_gflat j k)) jobs s =
  apart u_V (fun j => jrun fo qe td nev nex fsort si D j (mk_cm 0 (gflat_state fo lib N nev nex (j_H j) (j_V j)))) jobs.
Proof. exact (fun F T fo lib qe td nev nex si hp fs go N ldh N1 NL => gpu_session fo lib qe td nev nex si hp fs go N ldh N1 NL). Qed.
Print Assumptions C92_session_gpu.

(** With start vectors the in-place backend may answer from vectors the caller did not supply: here with the eigenvalue 3 of
    diag(3, 1, 2) where a new object started from the same vectors returns 2. *)
Theorem C92_in_place_start_vectors_refuted : exists (F T : Type) (fo : fops F) (lib : flib F T) qe td si fsort N ldh jobs s,
  perm_sort si /\ gemm_overwrites fo lib /\ 1 <= N <= ldh /\ iflat_sizes N ldh 2 (cm_dla s) /\ Forall (ajob_ok true N ldh 2 0) jobs /\
  let D := iflatD fo lib N ldh 2 in let run := jrun fo qe td 2 0 fsort si D in
  session SiModel.g_V1 (fun j k => run j (load_iflat j k)) jobs s <> apart SiModel.g_V1 (fun j => run j (mk_cm 0 (iflat_state lib N 2 0 (j_H j) (j_V j)))) jobs.
Proof.
  exists Q, Q, qf, (qlib 0), qhh, qtd, qsort, qfs, 3, 5, (firstn 2 ajobs), (mk_cm 0 (iflat_state (qlib 0) 3 2 0 H5 V21)).
  split; [exact qsort_perm|]. split; [apply qlib_overwrites|]. split; [lia|]. split; [repeat split; cbn; lia|].
  split; [repeat constructor; cbn; try lia; discriminate|]. cbv zeta.
  change (fun j k => solve qf (cmK qf qhh qtd (iflatD qf (qlib 0) 3 5 2) 2 0) qfs qsort (j_conf j) k (j_ritz j) (j_resid j)) with (arun (iflatD qf (qlib 0) 3 5 2)).
  rewrite (proj1 inpl_arrays_lost), (proj2 inpl_arrays_lost). discriminate.
Qed.
Print Assumptions C92_in_place_start_vectors_refuted.

(** ** examples *)
Example C92_example_session : session f_C (fun j k => arun (flatD qf (qlib 0) 3 5 2) j (load_flat j k)) ajobs fused =
  [Ok ([1; 2], [0; 0], Some [1; 0; 0;  0; 1; 0]); Ok ([1; 2], [0; 0], Some [0; 1; 0;  0; 0; 1]); Ok ([2; 3], [0; 0], Some [0; 1; 0;  0; 0; 1])]%Q.
Proof. exact seq_arrays_session. Qed.
Example C92_example_hypotheses : gemm_overwrites qf (qlib 0) /\ Forall (ajob_ok true 3 5 2 0) ajobs /\ Forall (ajob_ok false 3 5 2 1) rjobs /\
  flat_sizes 3 5 2 4 (cm_dla fused) /\ iflat_sizes 3 5 3 (cm_dla iused) /\ gflat_sizes 3 5 3 (cm_dla gused) /\ same_matrix 3 5 4 H5 H4.
Proof.
  split; [apply qlib_overwrites|]. split; [repeat constructor; cbn; try lia; discriminate|]. split; [repeat constructor; cbn; lia|].
  split; [repeat split; cbn; lia|]. split; [repeat split; cbn; lia|]. split; [repeat split; cbn; lia|].
  intros [|[|[|i]]] [|[|[|j]]] Hi Hj; try lia; reflexivity.
Qed.
(** random start vectors; the answers to the two problems differ *)
Example C92_example_in_place : exists a b, session SiModel.g_V1 (fun j k => rrun (iflatD qf (qlib 0) 3 5 3) j (load_iflat j k)) rjobs iused = [Ok a; Ok b] /\
  fst (fst a) <> fst (fst b) /\ snd a <> None /\ snd b <> None.
Proof. exact inpl_arrays_session. Qed.
Example C92_example_gpu : exists a b, session u_V (fun j k => rrun (gflatD qf (qlib 0) 3 5 3) j (load_gflat j k)) rjobs gused = [Ok a; Ok b] /\
  fst (fst a) <> fst (fst b) /\ snd a <> None /\ snd b <> None.
Proof. exact gpu_arrays_session. Qed.
