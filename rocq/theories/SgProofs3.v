(** Whole runs of the single-GPU backend on arrays. *)
From Coq Require Import List Arith ZArith Bool Lia Permutation.
Require Import Verif.Base Verif.AlgModel Verif.AlgSpec Verif.AlgProofs1 Verif.AlgProofs2 Verif.AlgProofs6 Verif.AlgSim Verif.DlaModel Verif.DlaSim Verif.ColModel Verif.ColSpec Verif.ColProofs1
  Verif.ColProofs3 Verif.InplProofs Verif.GpuModel Verif.GpuSpec Verif.GpuProofs1 Verif.GpuProofs2 Verif.GpuProofs3 Verif.SfModel Verif.SfSpec Verif.SfProofs1 Verif.SfProofs2 Verif.SfProofs3
  Verif.SfProofs4 Verif.SfProofs5 Verif.SiModel Verif.SiSpec Verif.SiProofs1 Verif.SiProofs2 Verif.SgModel Verif.SgSpec Verif.SgProofs1 Verif.SgProofs2.
Import ListNotations.

Section Thm.
Context {F T : Type} (fo : fops F) (lib : flib F T) (qe : qr_env F) (td : tridiag F) (cf : conf F) (N ldh : nat).
Local Notation nev := (c_nev cf). Local Notation nex := (c_nex cf). Local Notation n := (c_nev cf + c_nex cf).
Local Notation z := (l_zero lib).
Local Notation bl := (col_blas fo lib N).
Local Notation fK := (cmK fo qe td (gflatD fo lib N ldh n) nev nex).
Local Notation cK := (cmK fo qe td (gpuD fo bl n) nev nex).
Context (N1 : 1 <= N) (NL : N <= ldh).

Theorem gflat_every_call H (HL : (N - 1) * ldh + N <= length H) : kernel_rel fK cK (cmR (gflat_rel lib N ldh n H)).
Proof. now apply gflat_kernel. Qed.

Context (f : gfs (F := F) (T := T)) (HS : gflat_sizes N ldh n f) (l0 : nat).
Local Notation f0 := (mk_cm l0 f).
Local Notation c0 := (mk_cm l0 (gpu_columns lib N ldh n f)).

Lemma g_start_rel : cmR (gflat_rel lib N ldh n (u_H f)) f0 c0.
Proof.
  destruct HS as (S1 & S2 & S3 & S4 & S5 & S6 & S7 & S8).
  split; [reflexivity|]. cbn [cm_dla]. unfold gpu_columns, gflat_rel, iflat_rel. cbn [GpuModel.g_H GpuModel.g_V1 g_dev g_ritz is_H is_V1 is_V2 is_sw].
  split; [reflexivity|]. split; [reflexivity|]. split; [eapply packs_columns; eassumption|]. split; [unfold columns; apply tab_length|].
  split; [|auto]. split; [now rewrite repeat_length|]. split.
  { intros p Hp. assert (Q : N * N <= p).
    { destruct (Nat.le_gt_cases (N * N) p) as [|Q]; auto. exfalso. apply (Hp (p mod N) (p / N)).
      - apply Nat.mod_upper_bound. lia.
      - apply Nat.div_lt_upper_bound; lia.
      - rewrite Nat.add_comm, Nat.mul_comm. apply Nat.div_mod. lia. }
    rewrite !nth_overflow; auto; rewrite ?repeat_length; lia. }
  split; [reflexivity|]. split; [eapply packs_columns; eassumption|]. split; [unfold columns; apply tab_length|].
  split; [eapply packs_columns; eassumption|]. split; [unfold columns; apply tab_length|]. split; auto.
Qed.

Lemma g_sizes_columns : gpu_sizes n (gpu_columns lib N ldh n f).
Proof. destruct HS as (S1 & S2 & S3 & S4 & S5 & S6 & S7 & S8). unfold gpu_sizes, gpu_columns, columns. cbn. rewrite !tab_length. auto. Qed.

Theorem gflat_solve fsort si ritzv resid :
  same_run_g N (u_H f) (solve fo fK fsort si cf f0 ritzv resid) (solve fo cK fsort si cf c0 ritzv resid).
Proof.
  pose proof (solve_rel fo _ _ _ (gflat_every_call _ (proj1 HS)) fsort si cf _ _ ritzv resid g_start_rel) as G.
  unfold same_run_g. destruct (solve fo fK fsort si cf f0 ritzv resid) as [a| |]; destruct (solve fo cK fsort si cf c0 ritzv resid) as [b| |]; try easy.
  destruct G as ([E R] & E1 & E2 & EX). destruct R as (A & B & [D1 D2] & _).
  split; [exact E1|]. split; [exact E2|]. split; [exact E|]. split; [assumption|]. split; [assumption|]. split; [assumption|].
  destruct (o_exit a), (o_exit b); try easy. destruct EX as (_ & _ & _ & _ & _ & X & _ & Y & _). auto.
Qed.

Context (sort_idx : list F -> list nat) (Hperm : forall keys, Permutation (sort_idx keys) (seq 0 (length keys))) (fsort : list F -> list F).

Theorem gflat_safe ritzv resid :
  let m := Nat.min n (Nat.min (c_N cf / 2) (c_lanczositer cf)) in
  conf_ok cf -> (forall l, length (fsort l) = length l) ->
  n <= length ritzv -> n <= length resid -> 2 <= c_N cf -> 1 <= c_lanczositer cf ->
  (c_approx cf = false -> 1 <= c_numlanczos cf <= n /\ forall k u Th Ta rv k',
     k_lanczos2 fK m (c_numlanczos cf) k = Ok (u, Th, Ta, rv, k') -> start_ok fo (fsort Th) Th Ta (c_N cf) (c_numlanczos cf) m n) ->
  (exists o, solve fo fK fsort sort_idx cf f0 ritzv resid = Ok o) \/
  (solve fo fK fsort sort_idx cf f0 ritzv resid = UB /\ degree_overflow fo fK sort_idx fsort cf f0 ritzv resid).
Proof.
  intros m HC Hf L1 L2 HN HLz HA.
  pose proof (cm_safe fo qe td (gpuD fo bl n) nev nex _ (gpu_dla_safe fo bl n)) as KS.
  pose proof (safe_rel _ _ _ _ _ _ (gflat_every_call _ (proj1 HS)) KS) as FS.
  eapply (solve_safe fo fK sort_idx Hperm n _ _ FS fsort cf f0 ritzv resid); auto.
  exists c0. split; [apply g_start_rel|]. cbn [cm_dla]. apply sizes_glen, g_sizes_columns.
Qed.

(** what the caller and the next solve find *)
Theorem gflat_after ritzv resid o : solve fo fK fsort sort_idx cf f0 ritzv resid = Ok o ->
  let f' := cm_dla (o_k o) in
  u_H f' = u_H f /\ gflat_sizes N ldh n f' /\ (o_exit o <> None -> u_V f' = SiModel.g_V1 (u_d f')).
Proof.
  intros Hs. pose proof (solve_rel fo _ _ _ (gflat_every_call _ (proj1 HS)) fsort sort_idx cf _ _ ritzv resid g_start_rel) as G.
  rewrite Hs in G. destruct (solve fo cK fsort sort_idx cf c0 ritzv resid) as [b| |] eqn:Eb; try easy.
  destruct G as ([_ R] & _ & _ & EX). destruct (w_matrix fo bl qe td cf sort_idx Hperm fsort c0 ritzv resid b g_sizes_columns Eb) as (_ & _ & W & _).
  destruct R as (A & B & [D1 D2] & LV & (I1 & I2 & I3 & [P1 P2] & I4 & [Q1 Q2] & I5 & I6 & I7) & J1 & J2 & J3). cbv zeta.
  assert (LC : forall l : list (list T), length l = n -> Forall (fun c => length c = N) l -> length (concat l) = N * n).
  { intros l <-. induction 1 as [|c l Hc _ IH]; cbn; [lia|]. rewrite app_length, IH, Hc. lia. }
  split; [exact A|]. split.
  - unfold gflat_sizes. rewrite A, D1, P1, Q1, I1, repeat_length, J1, !LC by auto. destruct HS as (S1 & _). auto 10.
  - intros X. rewrite D1, P1. f_equal. apply W. destruct (o_exit o); [|easy]. destruct (o_exit b); easy.
Qed.
End Thm.

(** the answer is determined by the N x N matrix and by the two blocks of vectors on the device *)
Theorem gflat_only_matrix {F T} (fo : fops F) (lib : flib F T) qe td (cf : conf F) sort_idx (Hperm : forall keys, Permutation (sort_idx keys) (seq 0 (length keys)))
  fsort N ldh ldh' l0 (f f' : gfs (F := F) (T := T)) : let n := c_nev cf + c_nex cf in
  1 <= N -> N <= ldh -> N <= ldh' -> gflat_sizes N ldh n f -> gflat_sizes N ldh' n f' ->
  (forall i j, i < N -> j < N -> nth_error (u_H f) (i + j * ldh) = nth_error (u_H f') (i + j * ldh')) ->
  SiModel.g_V1 (u_d f) = SiModel.g_V1 (u_d f') -> g_V2 (u_d f) = g_V2 (u_d f') -> g_sw (u_d f) = g_sw (u_d f') ->
  forall ritzv resid o,
  let run ld g := solve fo (cmK fo qe td (gflatD fo lib N ld n) (c_nev cf) (c_nex cf)) fsort sort_idx cf (mk_cm l0 g) ritzv resid in
  run ldh f = Ok o -> exists o', run ldh' f' = Ok o' /\ o_ritz o' = o_ritz o /\ o_res o' = o_res o /\
    (o_exit o <> None -> u_V (cm_dla (o_k o')) = u_V (cm_dla (o_k o))).
Proof.
  intros n N1 NL NL' HS HS' EW E1 E2 E3 ritzv resid o run Hr.
  assert (IN : forall i j, i < N -> j < N -> i + j * ldh < length (u_H f)) by (intros; apply (idx_in N ldh); auto; apply HS).
  assert (IN' : forall i j, i < N -> j < N -> i + j * ldh' < length (u_H f')) by (intros; apply (idx_in N ldh'); auto; apply HS').
  assert (W : window lib N ldh (u_H f) = window lib N ldh' (u_H f')).
  { unfold window, tab2. apply tab_ext. intros j Hj. apply tab_ext. intros i Hi. specialize (EW i j Hi Hj).
    rewrite (nth_error_nth' (u_H f) (l_zero lib)), (nth_error_nth' (u_H f') (l_zero lib)) in EW by auto. congruence. }
  pose proof (gflat_solve fo lib qe td cf N ldh N1 NL f HS l0 fsort sort_idx ritzv resid) as G.
  pose proof (gflat_solve fo lib qe td cf N ldh' N1 NL' f' HS' l0 fsort sort_idx ritzv resid) as G'.
  subst run. cbv beta zeta in Hr |- *. subst n. rewrite Hr in G. unfold same_run_g in G, G'.
  match type of G with match ?y with _ => _ end => destruct y as [b| |] eqn:Eb; try easy end.
  pose proof (g_sizes_columns lib cf N ldh f HS) as Z. pose proof (g_sizes_columns lib cf N ldh' f' HS') as Z'.
  unfold gpu_columns in *. rewrite <- E1, <- E2, <- E3, <- W in *.
  destruct (w_ignores fo (col_blas fo lib N) qe td cf sort_idx Hperm fsort _ _ _ _ _ _ _ _ _ _ _ ritzv resid b Z Z' Eb) as (b' & Eb' & A1 & A2 & A3).
  rewrite Eb' in G'. match type of G' with match ?y with _ => _ end => destruct y as [o'| |]; try easy end. exists o'. split; [reflexivity|].
  destruct G as (B1 & B2 & B3 & B4 & B5 & B6 & B7). destruct G' as (C1 & C2 & C3 & C4 & C5 & C6 & C7).
  split; [congruence|]. split; [congruence|]. intros X. rewrite B4, C4. f_equal. apply A3. destruct (o_exit o); [|easy]. destruct (o_exit b); easy.
Qed.

Lemma new_sizes {F T} (fo : fops F) (lib : flib F T) N ldh nev nex (H V1 : list T) : (N - 1) * ldh + N <= length H -> length V1 = N * (nev + nex) ->
  gflat_sizes N ldh (nev + nex) (gflat_state fo lib N nev nex H V1).
Proof. intros HL HV. unfold gflat_sizes, gflat_state. cbn [u_H u_V u_d u_ritz u_res SiModel.g_H SiModel.g_V1 g_V2 g_A]. rewrite !repeat_length. auto 10. Qed.
