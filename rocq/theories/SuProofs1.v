(** Runs of the sequential and in-place backends on the arrays of used objects. *)
From Coq Require Import List Arith ZArith Bool Lia Permutation.
Require Import Verif.Base Verif.AlgModel Verif.AlgSpec Verif.AlgProofs1 Verif.AlgProofs2 Verif.AlgProofs6 Verif.AlgSim Verif.DlaModel Verif.DlaSim Verif.ColModel Verif.ColSpec Verif.ColProofs1
  Verif.ColProofs3 Verif.InplProofs Verif.MgpuSpec Verif.SfModel Verif.SfSpec Verif.SfProofs1 Verif.SfProofs2 Verif.SfProofs3 Verif.SfProofs4 Verif.SfProofs5 Verif.SiModel Verif.SiSpec Verif.SiProofs1
  Verif.SiProofs2 Verif.SiProofs3 Verif.ReuseBase Verif.ReuseSpec Verif.ReuseSeq Verif.ReuseInpl Verif.ReuseKeep Verif.ReuseSolve Verif.SgModel Verif.SgSpec Verif.SuSpec.
Import ListNotations.

Lemma packs_length {T} N (a : list T) (cs : list (list T)) k : packs N a cs -> length cs = k -> length a = N * k.
Proof. intros [-> Fc] <-. induction Fc as [|c l Hc _ IH]; cbn; [lia|]. rewrite app_length, IH, Hc. lia. Qed.

Lemma same_window {F T} (lib : flib F T) N ldh ldh' (H H' : list T) : N <= ldh -> N <= ldh' -> (N - 1) * ldh + N <= length H -> (N - 1) * ldh' + N <= length H' ->
  same_matrix N ldh ldh' H H' <-> window lib N ldh H = window lib N ldh' H'.
Proof.
  intros NL NL' HL HL'.
  assert (IN : forall i j, i < N -> j < N -> i + j * ldh < length H) by (intros i j ? ?; assert (j * ldh <= (N - 1) * ldh) by (apply Nat.mul_le_mono_r; lia); lia).
  assert (IN' : forall i j, i < N -> j < N -> i + j * ldh' < length H') by (intros i j ? ?; assert (j * ldh' <= (N - 1) * ldh') by (apply Nat.mul_le_mono_r; lia); lia).
  unfold window, tab2. split.
  - intros EW. apply tab_ext. intros j Hj. apply tab_ext. intros i Hi. specialize (EW i j Hi Hj).
    rewrite (nth_error_nth' H (l_zero lib)), (nth_error_nth' H' (l_zero lib)) in EW by auto. congruence.
  - intros E i j Hi Hj. rewrite (nth_error_nth' H (l_zero lib)), (nth_error_nth' H' (l_zero lib)) by auto. f_equal.
    assert (E1 : nth j (tab N (fun j0 => tab N (fun i0 => nth (i0 + j0 * ldh) H (l_zero lib)))) [] = nth j (tab N (fun j0 => tab N (fun i0 => nth (i0 + j0 * ldh') H' (l_zero lib)))) [])
      by (unfold window, tab2 in E; now rewrite E).
    rewrite !nth_tab in E1 by auto. assert (E2 := f_equal (fun l => nth i l (l_zero lib)) E1). cbn beta in E2. rewrite !nth_tab in E2 by auto. exact E2.
Qed.

Lemma overwrites_beta {F T} (fo : fops F) (lib : flib F T) N : gemm_overwrites fo lib -> beta_zero fo (col_blas fo lib N).
Proof. intros G h a x y y'. cbn. split; apply tab_ext; intros; apply G. Qed.

(** ** the sequential backend *)
Section Seq.
Context {F T : Type} (fo : fops F) (lib : flib F T) (qe : qr_env F) (td : tridiag F) (cf : conf F) (N ldh w : nat).
Local Notation nev := (c_nev cf). Local Notation nex := (c_nex cf). Local Notation n := (c_nev cf + c_nex cf).
Local Notation z := (l_zero lib).
Local Notation bl := (col_blas fo lib N).
Local Notation fK := (cmK fo qe td (flatD fo lib N ldh n) nev nex).
Local Notation cK := (cmK fo qe td (colD fo bl false n) nev nex).
Context (N1 : 1 <= N) (NL : N <= ldh) (f : fst_ (T := T)) (HS : flat_sizes N ldh n w f) (l0 : nat).
Local Notation f0 := (mk_cm l0 f).
Local Notation c0 := (mk_cm l0 (flat_columns lib N ldh n w f)).

Lemma u_start_rel : cmR (flat_rel lib N ldh n (f_H f)) f0 c0.
Proof using HS N1 NL.
  destruct HS as (S1 & S2 & S3 & S4 & S5 & S6). split; [reflexivity|]. cbn [cm_dla]. unfold flat_columns, flat_rel. cbn [cs_H cs_C cs_B cs_C2 cs_B2 cs_bAc].
  split; [reflexivity|]. split; [reflexivity|]. split; [reflexivity|]. split; [now apply (packs_columns cf N ldh N1 NL (f_H f) (f_C f) S1 S2)|]. split; [unfold columns; apply tab_length|].
  split; [now apply (packs_columns cf N ldh N1 NL (f_H f) (f_C f) S1 S2)|]. split; [now apply (packs_columns cf N ldh N1 NL (f_H f) (f_C f) S1 S2)|]. split; [now apply (packs_columns cf N ldh N1 NL (f_H f) (f_C f) S1 S2)|]. auto.
Qed.
Lemma u_sizes_columns : col_sizes n n w w (flat_columns lib N ldh n w f).
Proof using. unfold col_sizes, flat_columns, columns. cbn. now rewrite !tab_length. Qed.

Lemma u_solve_rel fsort si ritzv resid : rel_res (fun a b => cmR (flat_rel lib N ldh n (f_H f)) (o_k a) (o_k b) /\ o_ritz a = o_ritz b /\ o_res a = o_res b /\
    match o_exit a, o_exit b with Some s, Some t => ss_iter s = ss_iter t /\ ss_locked s = ss_locked t | None, None => True | _, _ => False end)
  (solve fo fK fsort si cf f0 ritzv resid) (solve fo cK fsort si cf c0 ritzv resid).
Proof using HS N1 NL.
  pose proof (solve_rel fo _ _ _ (flat_every_call fo lib qe td cf N ldh N1 NL (f_H f) (proj1 HS)) fsort si cf _ _ ritzv resid u_start_rel) as G.
  unfold rel_res in *. destruct (solve fo fK fsort si cf f0 ritzv resid) as [a| |]; destruct (solve fo cK fsort si cf c0 ritzv resid) as [b| |]; try easy.
  destruct G as (R & E1 & E2 & EX). split; [exact R|]. split; [exact E1|]. split; [exact E2|].
  destruct (o_exit a), (o_exit b); try easy. destruct EX as (_ & _ & _ & _ & _ & X & _ & Y & _). auto.
Qed.

Theorem u_solve fsort si ritzv resid :
  SfSpec.same_run lib N ldh (f_H f) (solve fo fK fsort si cf f0 ritzv resid) (solve fo cK fsort si cf c0 ritzv resid).
Proof using HS N1 NL.
  pose proof (u_solve_rel fsort si ritzv resid) as G. unfold rel_res in G. unfold SfSpec.same_run.
  destruct (solve fo fK fsort si cf f0 ritzv resid) as [a| |]; destruct (solve fo cK fsort si cf c0 ritzv resid) as [b| |]; try easy.
  destruct G as ([E R] & E1 & E2 & EX). destruct R as (A & B & C & [D1 D2] & _).
  split; [exact E1|]. split; [exact E2|]. split; [exact E|]. split; [exact D1|]. split; [exact D2|]. split; [now symmetry|]. split; [exact A|]. split; [|exact EX].
  intros p Hp. destruct (Nat.lt_ge_cases p (length (f_H f))) as [L|L].
  - rewrite (nth_error_nth' _ z) by lia. rewrite (nth_error_nth' (f_H f) z) by lia. f_equal. auto.
  - transitivity (None (A := T)); [|symmetry]; apply nth_error_None; lia.
Qed.

Theorem u_after fsort si ritzv resid o : solve fo fK fsort si cf f0 ritzv resid = Ok o ->
  let f' := cm_dla (o_k o) in flat_sizes N ldh n w f' /\ length (f_H f') = length (f_H f) /\ forall p, padding N ldh p -> nth_error (f_H f') p = nth_error (f_H f) p.
Proof using HS N1 NL.
  intros Hs. pose proof (u_solve_rel fsort si ritzv resid) as G. pose proof (u_solve fsort si ritzv resid) as G'. unfold SfSpec.same_run in G'. rewrite Hs in G, G'.
  destruct (solve fo cK fsort si cf c0 ritzv resid) as [b| |] eqn:Eb; try easy.
  destruct G' as (_ & _ & _ & _ & _ & _ & P1 & P2 & _). cbv zeta. split; [|split; assumption].
  destruct G as ([_ R] & _). destruct (col_keep_solve fo bl qe td false n n n w w nev nex fsort si cf c0 ritzv resid b u_sizes_columns Eb) as (A1 & A2 & A3 & A4).
  destruct R as (B1 & B2 & B3 & B4 & B5 & B6 & B7 & B8 & B9 & _). unfold flat_sizes.
  rewrite P1, (packs_length _ _ _ _ B4 A1), (packs_length _ _ _ _ B6 A2), (packs_length _ _ _ _ B7 A3), (packs_length _ _ _ _ B8 A4). destruct HS as (S1 & _). auto 10.
Qed.

Context (sort_idx : list F -> list nat) (Hperm : forall keys, Permutation (sort_idx keys) (seq 0 (length keys))) (fsort : list F -> list F).
Theorem u_safe ritzv resid :
  let m := Nat.min n (Nat.min (c_N cf / 2) (c_lanczositer cf)) in
  n <= w -> conf_ok cf -> (forall l, length (fsort l) = length l) ->
  n <= length ritzv -> n <= length resid -> 2 <= c_N cf -> 1 <= c_lanczositer cf ->
  (c_approx cf = false -> 1 <= c_numlanczos cf <= n /\ forall k u Th Ta rv k',
     k_lanczos2 fK m (c_numlanczos cf) k = Ok (u, Th, Ta, rv, k') -> start_ok fo (fsort Th) Th Ta (c_N cf) (c_numlanczos cf) m n) ->
  (exists o, solve fo fK fsort sort_idx cf f0 ritzv resid = Ok o) \/
  (solve fo fK fsort sort_idx cf f0 ritzv resid = UB /\ degree_overflow fo fK sort_idx fsort cf f0 ritzv resid).
Proof using HS N1 NL Hperm.
  intros m Hw HC Hf L1 L2 HN HLz HA.
  pose proof (col_dla_safe fo bl false n w Hw) as DS.
  pose proof (cm_safe fo qe td (colD fo bl false n) nev nex _ DS) as KS.
  pose proof (safe_rel _ _ _ _ _ _ (flat_every_call fo lib qe td cf N ldh N1 NL (f_H f) (proj1 HS)) KS) as FS.
  eapply (solve_safe fo fK sort_idx Hperm n _ _ FS fsort cf f0 ritzv resid); auto.
  exists c0. split; [apply u_start_rel|]. cbn [cm_dla]. unfold clen. destruct u_sizes_columns as (A1 & A2 & A3 & A4). auto.
Qed.
End Seq.

(** the answer is determined by the matrix and, if start vectors are used, by them *)
Theorem u_no_history {F T} (fo : fops F) (lib : flib F T) qe td (cf : conf F) sort_idx fsort N ldh ldh' w l0 l0' (f f' : fst_ (T := T)) ritzv resid :
  let n := c_nev cf + c_nex cf in let run ld l g := solve fo (cmK fo qe td (flatD fo lib N ld n) (c_nev cf) (c_nex cf)) fsort sort_idx cf (mk_cm l g) ritzv resid in
  (forall keys, Permutation (sort_idx keys) (seq 0 (length keys))) -> conf_ok cf -> gemm_overwrites fo lib ->
  1 <= N -> N <= ldh -> N <= ldh' -> flat_sizes N ldh n w f -> flat_sizes N ldh' n w f' -> same_matrix N ldh ldh' (f_H f) (f_H f') ->
  (c_approx cf = true -> f_C f = f_C f') -> same_arrays N ldh ldh' f_H f_C f_H f_C (run ldh l0 f) (run ldh' l0' f').
Proof.
  intros n run Hp CF GO N1 NL NL' HS HS' EM EV. subst run. cbv beta.
  pose proof (u_solve fo lib qe td cf N ldh w N1 NL f HS l0 fsort sort_idx ritzv resid) as G.
  pose proof (u_solve fo lib qe td cf N ldh' w N1 NL' f' HS' l0' fsort sort_idx ritzv resid) as G'.
  assert (W : window lib N ldh (f_H f) = window lib N ldh' (f_H f')) by (apply same_window; auto; [apply HS|apply HS']).
  assert (X := seq_same_run fo (col_blas fo lib N) qe td false cf sort_idx fsort ritzv resid Hp CF (overwrites_beta fo lib N GO)
    (mk_cm l0 (flat_columns lib N ldh n w f)) (mk_cm l0' (flat_columns lib N ldh' n w f'))).
  assert (SP : same_problem n (c_approx cf) (mk_cm l0 (flat_columns lib N ldh n w f)) (mk_cm l0' (flat_columns lib N ldh' n w f'))).
  { unfold same_problem, flat_columns, columns. cbn. rewrite !tab_length. repeat split; auto. intros E. now rewrite EV. }
  specialize (X SP). cbv zeta in X. fold n in G, G'. unfold SfSpec.same_run in G, G'. unfold ReuseSpec.same_run in X. unfold same_arrays.
  destruct (solve fo _ fsort sort_idx cf (mk_cm l0 f) ritzv resid) as [a| |]; destruct (solve fo _ fsort sort_idx cf (mk_cm l0 (flat_columns lib N ldh n w f)) ritzv resid) as [b| |]; try easy;
  destruct (solve fo _ fsort sort_idx cf (mk_cm l0' f') ritzv resid) as [a'| |]; destruct (solve fo _ fsort sort_idx cf (mk_cm l0' (flat_columns lib N ldh' n w f')) ritzv resid) as [b'| |]; try easy.
  destruct G as (A1 & A2 & A3 & A4 & A5 & A6 & A7 & A8 & A9). destruct G' as (B1 & B2 & B3 & B4 & B5 & B6 & B7 & B8 & B9). destruct X as (X1 & X2 & X3 & X4 & X5).
  assert (Ea : o_exit a = None <-> o_exit b = None) by (destruct (o_exit a), (o_exit b); easy).
  assert (Eb : o_exit a' = None <-> o_exit b' = None) by (destruct (o_exit a'), (o_exit b'); easy).
  split; [congruence|]. split; [congruence|]. split; [tauto|]. split.
  - apply (same_window lib); auto; [rewrite A7; apply HS|rewrite B7; apply HS'|congruence].
  - intros Q. rewrite A4, B4. f_equal. apply X5. tauto.
Qed.
