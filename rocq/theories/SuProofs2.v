(** Runs of the in-place and GPU backends on the arrays of used objects; sessions. *)
From Coq Require Import List Arith ZArith Bool Lia Permutation.
Require Import Verif.Base Verif.AlgModel Verif.AlgSpec Verif.AlgProofs1 Verif.AlgProofs2 Verif.AlgProofs6 Verif.AlgSim Verif.DlaModel Verif.DlaSim Verif.ColModel Verif.ColSpec Verif.ColProofs1
  Verif.ColProofs3 Verif.InplProofs Verif.MgpuSpec Verif.GpuModel Verif.GpuSpec Verif.SfModel Verif.SfSpec Verif.SfProofs1 Verif.SfProofs2 Verif.SfProofs3 Verif.SfProofs4 Verif.SfProofs5 Verif.SiModel
  Verif.SiSpec Verif.SiProofs1 Verif.SiProofs2 Verif.SiProofs3 Verif.ReuseBase Verif.ReuseSpec Verif.ReuseSeq Verif.ReuseInpl Verif.ReuseKeep Verif.ReuseSolve Verif.SgModel Verif.SgSpec Verif.SgProofs3
  Verif.SuSpec Verif.SuProofs1.
Import ListNotations.

(** ** the in-place backend *)
Section Inpl.
Context {F T : Type} (fo : fops F) (lib : flib F T) (qe : qr_env F) (td : tridiag F) (cf : conf F) (N ldh : nat).
Local Notation nev := (c_nev cf). Local Notation nex := (c_nex cf). Local Notation n := (c_nev cf + c_nex cf).
Local Notation z := (l_zero lib).
Local Notation bl := (col_blas fo lib N).
Local Notation fK := (cmK fo qe td (iflatD fo lib N ldh n) nev nex).
Local Notation cK := (cmK fo qe td (inplD fo bl n) nev nex).
Context (N1 : 1 <= N) (NL : N <= ldh) (f : ifst (T := T)) (HS : iflat_sizes N ldh n f) (l0 : nat).
Local Notation f0 := (mk_cm l0 f).
Local Notation c0 := (mk_cm l0 (iflat_columns lib N ldh n f)).

Lemma ui_start_rel : cmR (iflat_rel lib N ldh n (g_H f)) f0 c0.
Proof using HS N1 NL.
  destruct HS as (S1 & S2 & S3 & S4). split; [reflexivity|]. cbn [cm_dla]. unfold iflat_columns, iflat_rel. cbn [is_H is_V1 is_V2 is_sw].
  split; [reflexivity|]. split; [reflexivity|]. split; [reflexivity|]. split; [now apply (packs_columns cf N ldh N1 NL (g_H f) (g_V1 f) S1 S2)|].
  split; [unfold columns; apply tab_length|]. split; [now apply (packs_columns cf N ldh N1 NL (g_H f) (g_V1 f) S1 S2)|].
  split; [unfold columns; apply tab_length|]. auto.
Qed.
Lemma ui_sizes_columns : ist_sizes n (iflat_columns lib N ldh n f).
Proof using. unfold ist_sizes, iflat_columns, columns. cbn. now rewrite !tab_length. Qed.

Lemma ui_solve_rel fsort si ritzv resid : rel_res (fun a b => cmR (iflat_rel lib N ldh n (g_H f)) (o_k a) (o_k b) /\ o_ritz a = o_ritz b /\ o_res a = o_res b /\
    match o_exit a, o_exit b with Some s, Some t => ss_iter s = ss_iter t /\ ss_locked s = ss_locked t | None, None => True | _, _ => False end)
  (solve fo fK fsort si cf f0 ritzv resid) (solve fo cK fsort si cf c0 ritzv resid).
Proof using HS N1 NL.
  pose proof (solve_rel fo _ _ _ (iflat_every_call fo lib qe td cf N ldh N1 NL (g_H f) (proj1 HS)) fsort si cf _ _ ritzv resid ui_start_rel) as G.
  unfold rel_res in *. destruct (solve fo fK fsort si cf f0 ritzv resid) as [a| |]; destruct (solve fo cK fsort si cf c0 ritzv resid) as [b| |]; try easy.
  destruct G as (R & E1 & E2 & EX). split; [exact R|]. split; [exact E1|]. split; [exact E2|].
  destruct (o_exit a), (o_exit b); try easy. destruct EX as (_ & _ & _ & _ & _ & X & _ & Y & _). auto.
Qed.

Theorem ui_solve fsort si ritzv resid :
  same_run_i lib N ldh (g_H f) (solve fo fK fsort si cf f0 ritzv resid) (solve fo cK fsort si cf c0 ritzv resid).
Proof using HS N1 NL.
  pose proof (ui_solve_rel fsort si ritzv resid) as G. unfold rel_res in G. unfold same_run_i.
  destruct (solve fo fK fsort si cf f0 ritzv resid) as [a| |]; destruct (solve fo cK fsort si cf c0 ritzv resid) as [b| |]; try easy.
  destruct G as ([E R] & E1 & E2 & EX). destruct R as (A & B & C & [D1 D2] & _ & [G1 G2] & _ & _ & S).
  split; [exact E1|]. split; [exact E2|]. split; [exact E|]. unfold user_array, user_V1. rewrite S.
  split; [destruct (is_sw _); assumption|]. split; [destruct (is_sw _); assumption|]. split; [assumption|]. split; [assumption|]. split; [now symmetry|].
  split; [exact A|]. split; [|exact EX].
  intros p Hp. destruct (Nat.lt_ge_cases p (length (g_H f))) as [L|L].
  - rewrite (nth_error_nth' _ z) by lia. rewrite (nth_error_nth' (g_H f) z) by lia. f_equal. auto.
  - transitivity (None (A := T)); [|symmetry]; apply nth_error_None; lia.
Qed.

Theorem ui_after fsort si ritzv resid o : solve fo fK fsort si cf f0 ritzv resid = Ok o ->
  let f' := cm_dla (o_k o) in iflat_sizes N ldh n f' /\ length (g_H f') = length (g_H f) /\ forall p, padding N ldh p -> nth_error (g_H f') p = nth_error (g_H f) p.
Proof using HS N1 NL.
  intros Hs. pose proof (ui_solve_rel fsort si ritzv resid) as G. pose proof (ui_solve fsort si ritzv resid) as G'. unfold same_run_i in G'. rewrite Hs in G, G'.
  destruct (solve fo cK fsort si cf c0 ritzv resid) as [b| |] eqn:Eb; try easy.
  destruct G' as (_ & _ & _ & _ & _ & _ & _ & _ & P1 & P2 & _). cbv zeta. split; [|split; assumption].
  destruct G as ([_ R] & _). destruct R as (B1 & B2 & B3 & B4 & B5 & B6 & B7 & B8 & _). unfold iflat_sizes.
  rewrite P1, (packs_length _ _ _ _ B4 B5), (packs_length _ _ _ _ B6 B7). destruct HS as (S1 & _). auto 10.
Qed.

Context (sort_idx : list F -> list nat) (Hperm : forall keys, Permutation (sort_idx keys) (seq 0 (length keys))) (fsort : list F -> list F).
Theorem ui_safe ritzv resid :
  let m := Nat.min n (Nat.min (c_N cf / 2) (c_lanczositer cf)) in
  conf_ok cf -> (forall l, length (fsort l) = length l) ->
  n <= length ritzv -> n <= length resid -> 2 <= c_N cf -> 1 <= c_lanczositer cf ->
  (c_approx cf = false -> 1 <= c_numlanczos cf <= n /\ forall k u Th Ta rv k',
     k_lanczos2 fK m (c_numlanczos cf) k = Ok (u, Th, Ta, rv, k') -> start_ok fo (fsort Th) Th Ta (c_N cf) (c_numlanczos cf) m n) ->
  (exists o, solve fo fK fsort sort_idx cf f0 ritzv resid = Ok o) \/
  (solve fo fK fsort sort_idx cf f0 ritzv resid = UB /\ degree_overflow fo fK sort_idx fsort cf f0 ritzv resid).
Proof using HS N1 NL Hperm.
  intros m HC Hf L1 L2 HN HLz HA.
  pose proof (cm_safe fo qe td (inplD fo bl n) nev nex _ (inpl_dla_safe fo bl n)) as KS.
  pose proof (safe_rel _ _ _ _ _ _ (iflat_every_call fo lib qe td cf N ldh N1 NL (g_H f) (proj1 HS)) KS) as FS.
  eapply (solve_safe fo fK sort_idx Hperm n _ _ FS fsort cf f0 ritzv resid); auto.
  exists c0. split; [apply ui_start_rel|]. exact ui_sizes_columns.
Qed.

(** whether the two arrays are exchanged at the end *)
Theorem ui_parity ritzv resid o s : conf_ok cf -> solve fo fK fsort sort_idx cf f0 ritzv resid = Ok o -> o_exit o = Some s ->
  g_sw (cm_dla (o_k o)) = xorb (g_sw f) (Nat.odd (ss_iter s)).
Proof using HS N1 NL Hperm.
  intros HC Hs He. pose proof (ui_solve_rel fsort sort_idx ritzv resid) as G. rewrite Hs in G.
  destruct (solve fo cK fsort sort_idx cf c0 ritzv resid) as [b| |] eqn:Eb; try easy.
  destruct G as ([_ R] & _ & _ & EX). rewrite He in EX. destruct (o_exit b) as [t|] eqn:Et; try easy. destruct EX as [IT _].
  pose proof (inpl_parity fo bl qe td cf sort_idx Hperm fsort _ ritzv resid b t HC Eb Et) as P. cbn [cm_dla iflat_columns is_sw] in P.
  destruct R as (_ & _ & _ & _ & _ & _ & _ & _ & S). now rewrite S, P, IT.
Qed.
End Inpl.

Theorem ui_no_history {F T} (fo : fops F) (lib : flib F T) qe td (cf : conf F) sort_idx fsort N ldh ldh' l0 l0' (f f' : ifst (T := T)) ritzv resid :
  let n := c_nev cf + c_nex cf in let run ld l g := solve fo (cmK fo qe td (iflatD fo lib N ld n) (c_nev cf) (c_nex cf)) fsort sort_idx cf (mk_cm l g) ritzv resid in
  (forall keys, Permutation (sort_idx keys) (seq 0 (length keys))) -> conf_ok cf -> gemm_overwrites fo lib ->
  1 <= N -> N <= ldh -> N <= ldh' -> iflat_sizes N ldh n f -> iflat_sizes N ldh' n f' -> same_matrix N ldh ldh' (g_H f) (g_H f') ->
  (c_approx cf = true -> g_V1 f = g_V1 f') -> same_arrays N ldh ldh' g_H g_V1 g_H g_V1 (run ldh l0 f) (run ldh' l0' f').
Proof.
  intros n run Hp CF GO N1 NL NL' HS HS' EM EV. subst run. cbv beta.
  pose proof (ui_solve fo lib qe td cf N ldh N1 NL f HS l0 fsort sort_idx ritzv resid) as G.
  pose proof (ui_solve fo lib qe td cf N ldh' N1 NL' f' HS' l0' fsort sort_idx ritzv resid) as G'.
  assert (W : window lib N ldh (g_H f) = window lib N ldh' (g_H f')) by (apply same_window; auto; [apply HS|apply HS']).
  assert (X := ist_same_run fo (col_blas fo lib N) qe td false cf sort_idx fsort ritzv resid Hp CF (overwrites_beta fo lib N GO)
    (mk_cm l0 (iflat_columns lib N ldh n f)) (mk_cm l0' (iflat_columns lib N ldh' n f'))).
  assert (SP : same_problem2 n (c_approx cf) (mk_cm l0 (iflat_columns lib N ldh n f)) (mk_cm l0' (iflat_columns lib N ldh' n f'))).
  { unfold same_problem2, iflat_columns, columns. cbn. rewrite !tab_length. repeat split; auto. intros E. now rewrite EV. }
  specialize (X SP). cbv zeta in X. cbn [istD] in X. fold n in G, G'. unfold same_run_i in G, G'. unfold ReuseSpec.same_run in X. unfold same_arrays.
  destruct (solve fo _ fsort sort_idx cf (mk_cm l0 f) ritzv resid) as [a| |]; destruct (solve fo _ fsort sort_idx cf (mk_cm l0 (iflat_columns lib N ldh n f)) ritzv resid) as [b| |]; try easy;
  destruct (solve fo _ fsort sort_idx cf (mk_cm l0' f') ritzv resid) as [a'| |]; destruct (solve fo _ fsort sort_idx cf (mk_cm l0' (iflat_columns lib N ldh' n f')) ritzv resid) as [b'| |]; try easy.
  destruct G as (A1 & A2 & _ & _ & _ & A4 & A5 & A6 & A7 & A8 & A9). destruct G' as (B1 & B2 & _ & _ & _ & B4 & B5 & B6 & B7 & B8 & B9). destruct X as (X1 & X2 & X3 & X4 & X5).
  assert (Ea : o_exit a = None <-> o_exit b = None) by (destruct (o_exit a), (o_exit b); easy).
  assert (Eb : o_exit a' = None <-> o_exit b' = None) by (destruct (o_exit a'), (o_exit b'); easy).
  split; [congruence|]. split; [congruence|]. split; [tauto|]. split.
  - apply (same_window lib); auto; [rewrite A7; apply HS|rewrite B7; apply HS'|congruence].
  - intros Q. rewrite A4, B4. f_equal. apply X5. tauto.
Qed.

(** ** the GPU backend *)
Theorem ug_no_history {F T} (fo : fops F) (lib : flib F T) qe td (cf : conf F) sort_idx fsort N ldh ldh' l0 l0' (f f' : gfs (F := F) (T := T)) ritzv resid :
  let n := c_nev cf + c_nex cf in let run ld l g := solve fo (cmK fo qe td (gflatD fo lib N ld n) (c_nev cf) (c_nex cf)) fsort sort_idx cf (mk_cm l g) ritzv resid in
  (forall keys, Permutation (sort_idx keys) (seq 0 (length keys))) -> conf_ok cf -> gemm_overwrites fo lib ->
  1 <= N -> N <= ldh -> N <= ldh' -> gflat_sizes N ldh n f -> gflat_sizes N ldh' n f' -> same_matrix N ldh ldh' (u_H f) (u_H f') ->
  (c_approx cf = true -> SiModel.g_V1 (u_d f) = SiModel.g_V1 (u_d f')) -> same_arrays N ldh ldh' u_H u_V u_H u_V (run ldh l0 f) (run ldh' l0' f').
Proof.
  intros n run Hp CF GO N1 NL NL' HS HS' EM EV. subst run. cbv beta.
  pose proof (gflat_solve fo lib qe td cf N ldh N1 NL f HS l0 fsort sort_idx ritzv resid) as G.
  pose proof (gflat_solve fo lib qe td cf N ldh' N1 NL' f' HS' l0' fsort sort_idx ritzv resid) as G'.
  assert (W : window lib N ldh (u_H f) = window lib N ldh' (u_H f')) by (apply same_window; auto; [apply HS|apply HS']).
  assert (X := gpu_same_run fo (col_blas fo lib N) qe td cf sort_idx Hp CF (overwrites_beta fo lib N GO) fsort ritzv resid
    (mk_cm l0 (gpu_columns lib N ldh n f)) (mk_cm l0' (gpu_columns lib N ldh' n f')) (g_sizes_columns lib cf N ldh f HS) (g_sizes_columns lib cf N ldh' f' HS') W).
  assert (Q0 : c_approx cf = true -> is_V1 (g_dev (gpu_columns lib N ldh n f)) = is_V1 (g_dev (gpu_columns lib N ldh' n f'))) by (intros E; cbn; now rewrite EV).
  specialize (X Q0). fold n in G, G', X. unfold same_run_g in G, G'. unfold same_results in X. unfold same_arrays.
  destruct (solve fo _ fsort sort_idx cf (mk_cm l0 f) ritzv resid) as [a| |]; destruct (solve fo _ fsort sort_idx cf (mk_cm l0 (gpu_columns lib N ldh n f)) ritzv resid) as [b| |]; try easy;
  destruct (solve fo _ fsort sort_idx cf (mk_cm l0' f') ritzv resid) as [a'| |]; destruct (solve fo _ fsort sort_idx cf (mk_cm l0' (gpu_columns lib N ldh' n f')) ritzv resid) as [b'| |]; try easy.
  destruct G as (A1 & A2 & _ & A4 & A5 & A6 & A9). destruct G' as (B1 & B2 & _ & B4 & B5 & B6 & B9). destruct X as (X1 & X2 & X3 & X5).
  assert (Ea : o_exit a = None <-> o_exit b = None) by (destruct (o_exit a), (o_exit b); easy).
  assert (Eb : o_exit a' = None <-> o_exit b' = None) by (destruct (o_exit a'), (o_exit b'); easy).
  split; [congruence|]. split; [congruence|]. split; [tauto|]. split; [now rewrite A6, B6|].
  intros Q. rewrite A4, B4. f_equal. apply X5. tauto.
Qed.

(** ** sessions *)
Lemma same_arrays_results {F T D1 D2} N ldh ldh' (H1 c1 : D1 -> list T) (H2 c2 : D2 -> list T) (x : res (outcome (F := F) (St := cm (D := D1)))) y :
  same_arrays N ldh ldh' H1 c1 H2 c2 x y -> same_results c1 c2 x y.
Proof. unfold same_arrays, same_results. destruct x, y; auto. intros (A & B & C & _ & E). auto. Qed.

Section Sessions.
Context {F T : Type} (fo : fops F) (lib : flib F T) (qe : qr_env F) (td : tridiag F) (nev nex : nat).
Context (sort_idx : list F -> list nat) (Hperm : forall keys, Permutation (sort_idx keys) (seq 0 (length keys))) (fsort : list F -> list F) (GO : gemm_overwrites fo lib).
Context (N ldh : nat) (N1 : 1 <= N) (NL : N <= ldh).
Local Notation n := (nev + nex).
Local Notation jobT := (job (F := F) (V := T) (M := list T)).
Local Notation run D := (fun (j : jobT) k => solve fo (cmK fo qe td D nev nex) fsort sort_idx (j_conf j) k (j_ritz j) (j_resid j)).

Lemma same_matrix_refl (H : list T) : same_matrix N ldh ldh H H. Proof. intros i j _ _. reflexivity. Qed.
Lemma new_flat_sizes (H V : list T) : (N - 1) * ldh + N <= length H -> length V = N * n -> flat_sizes N ldh n (nev + nev) (flat_state lib N nev nex H V).
Proof. intros. unfold flat_sizes, flat_state. cbn. rewrite !repeat_length. auto 10. Qed.
Lemma new_iflat_sizes (H V : list T) : (N - 1) * ldh + N <= length H -> length V = N * n -> iflat_sizes N ldh n (iflat_state lib N nev nex H V).
Proof. intros. unfold iflat_sizes, iflat_state. cbn. rewrite !repeat_length. auto 10. Qed.

Theorem seq_session jobs s : let D := flatD fo lib N ldh n in flat_sizes N ldh n (nev + nev) (cm_dla s) -> Forall (ajob_ok true N ldh nev nex) jobs ->
  session f_C (fun j k => run D j (load_flat j k)) jobs s = apart f_C (fun j => run D j (mk_cm 0 (flat_state lib N nev nex (j_H j) (j_V j)))) jobs.
Proof.
  intros D HS HJ. apply (session_apart f_C _ _ (flat_sizes N ldh n (nev + nev)) (ajob_ok true N ldh nev nex)); auto; clear s HS jobs HJ.
  - intros j s o (CF & E1 & E2 & LH & LV & _) (A1 & A2 & A3 & A4 & A5 & A6) H. subst D.
    pose proof (u_after fo lib qe td (j_conf j) N ldh (nev + nev) N1 NL) as X. rewrite E1, E2 in X. refine (proj1 (X _ _ _ _ _ _ _ _ H)).
    unfold load_flat, flat_sizes. cbn. destruct (c_approx (j_conf j)); auto 10.
  - intros j s (CF & E1 & E2 & LH & LV & _) (A1 & A2 & A3 & A4 & A5 & A6). apply (same_arrays_results N ldh ldh f_H f_C f_H f_C).
    pose proof (u_no_history fo lib qe td (j_conf j) sort_idx fsort N ldh ldh (nev + nev)) as X. cbv zeta in X. rewrite E1, E2 in X. subst D. cbv beta. unfold load_flat. cbn. apply X; auto.
    + unfold flat_sizes. cbn. destruct (c_approx (j_conf j)); auto 10.
    + now apply new_flat_sizes.
    + apply same_matrix_refl.
    + intros ->. reflexivity.
Qed.

Theorem inpl_session jobs s : let D := iflatD fo lib N ldh n in iflat_sizes N ldh n (cm_dla s) -> Forall (ajob_ok false N ldh nev nex) jobs ->
  session SiModel.g_V1 (fun j k => run D j (load_iflat j k)) jobs s = apart SiModel.g_V1 (fun j => run D j (mk_cm 0 (iflat_state lib N nev nex (j_H j) (j_V j)))) jobs.
Proof.
  intros D HS HJ. apply (session_apart SiModel.g_V1 _ _ (iflat_sizes N ldh n) (ajob_ok false N ldh nev nex)); auto; clear s HS jobs HJ.
  - intros j s o (CF & E1 & E2 & LH & LV & _) (A1 & A2 & A3 & A4) H. subst D.
    pose proof (ui_after fo lib qe td (j_conf j) N ldh N1 NL) as X. rewrite E1, E2 in X. refine (proj1 (X _ _ _ _ _ _ _ _ H)).
    unfold load_iflat, iflat_sizes. cbn. destruct (c_approx (j_conf j)); [destruct (g_sw (cm_dla s))|]; cbn; auto 10.
  - intros j s (CF & E1 & E2 & LH & LV & EA) (A1 & A2 & A3 & A4). apply (same_arrays_results N ldh ldh SiModel.g_H SiModel.g_V1 SiModel.g_H SiModel.g_V1).
    pose proof (ui_no_history fo lib qe td (j_conf j) sort_idx fsort N ldh ldh) as X. cbv zeta in X. rewrite E1, E2 in X. subst D. cbv beta. unfold load_iflat. rewrite EA by auto. cbn. apply X; auto.
    + unfold iflat_sizes. cbn. auto 10.
    + now apply new_iflat_sizes.
    + apply same_matrix_refl.
    + rewrite EA; easy.
Qed.

Theorem gpu_session jobs s : let D := gflatD fo lib N ldh n in gflat_sizes N ldh n (cm_dla s) -> Forall (ajob_ok false N ldh nev nex) jobs ->
  session u_V (fun j k => run D j (load_gflat j k)) jobs s = apart u_V (fun j => run D j (mk_cm 0 (gflat_state fo lib N nev nex (j_H j) (j_V j)))) jobs.
Proof.
  intros D HS HJ. apply (session_apart u_V _ _ (gflat_sizes N ldh n) (ajob_ok false N ldh nev nex)); auto; clear s HS jobs HJ.
  - intros j s o (CF & E1 & E2 & LH & LV & _) (A1 & A2 & A3 & A4 & A5 & A6 & A7 & A8) H. subst D.
    pose proof (gflat_after fo lib qe td (j_conf j) N ldh N1 NL) as X. rewrite E1, E2 in X. refine (proj1 (proj2 (X _ _ _ _ Hperm _ _ _ _ H))).
    unfold load_gflat, gflat_sizes. cbn. destruct (c_approx (j_conf j)); auto 10.
  - intros j s (CF & E1 & E2 & LH & LV & EA) (A1 & A2 & A3 & A4 & A5 & A6 & A7 & A8). apply (same_arrays_results N ldh ldh u_H u_V u_H u_V).
    pose proof (ug_no_history fo lib qe td (j_conf j) sort_idx fsort N ldh ldh) as X. cbv zeta in X. rewrite E1, E2 in X. subst D. cbv beta. unfold load_gflat. cbn [cm_dla]. apply X; auto.
    + unfold gflat_sizes. cbn. destruct (c_approx (j_conf j)); auto 10.
    + now apply new_sizes.
    + apply same_matrix_refl.
    + rewrite EA; easy.
Qed.
End Sessions.
