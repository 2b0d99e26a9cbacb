(** Whole runs of the in-place backend on arrays. *)
From Coq Require Import List Arith ZArith Bool Lia Permutation.
Require Import Verif.Base Verif.AlgModel Verif.AlgSpec Verif.AlgProofs1 Verif.AlgProofs2 Verif.AlgProofs6 Verif.AlgSim Verif.DlaModel Verif.DlaSim Verif.ColModel Verif.ColSpec Verif.ColProofs1
  Verif.ColProofs3 Verif.InplProofs Verif.SfModel Verif.SfSpec Verif.SfProofs1 Verif.SfProofs2 Verif.SfProofs3 Verif.SfProofs4 Verif.SfProofs5 Verif.SiModel Verif.SiSpec Verif.SiProofs1 Verif.SiProofs2.
Import ListNotations.

Section Thm.
Context {F T : Type} (fo : fops F) (lib : flib F T) (qe : qr_env F) (td : tridiag F) (cf : conf F) (N ldh : nat).
Local Notation nev := (c_nev cf). Local Notation nex := (c_nex cf). Local Notation n := (c_nev cf + c_nex cf).
Local Notation z := (l_zero lib).
Local Notation bl := (col_blas fo lib N).
Local Notation fK := (cmK fo qe td (iflatD fo lib N ldh n) nev nex).
Local Notation cK := (cmK fo qe td (inplD fo bl n) nev nex).

Context (N1 : 1 <= N) (NL : N <= ldh) (H V1 : list T) (HL : (N - 1) * ldh + N <= length H) (HV : length V1 = N * n) (l0 : nat).
Local Notation f0 := (mk_cm l0 (iflat_state lib N nev nex H V1)).
Local Notation c0 := (mk_cm l0 (inpl_state bl nev nex (window lib N ldh H) (columns N n V1))).

Lemma i_start_rel : cmR (iflat_rel lib N ldh n H) f0 c0.
Proof.
  split; [reflexivity|]. cbn [cm_dla]. unfold iflat_state, inpl_state, iflat_rel. cbn [g_H g_V1 g_V2 g_A g_sw is_H is_V1 is_V2 is_sw].
  split; [reflexivity|]. split; [reflexivity|]. split; [reflexivity|]. split; [eapply packs_columns; eassumption|]. split; [unfold columns; apply tab_length|].
  split; [apply packs_zero|]. split; [apply repeat_length|]. split; [apply repeat_length|reflexivity].
Qed.

Theorem iflat_every_call : kernel_rel fK cK (cmR (iflat_rel lib N ldh n H)).
Proof. now apply iflat_kernel. Qed.

Theorem iflat_solve fsort si ritzv resid :
  same_run_i lib N ldh H (solve fo fK fsort si cf f0 ritzv resid) (solve fo cK fsort si cf c0 ritzv resid).
Proof.
  pose proof (solve_rel fo _ _ _ iflat_every_call fsort si cf _ _ ritzv resid i_start_rel) as G.
  unfold same_run_i. destruct (solve fo fK fsort si cf f0 ritzv resid) as [a| |]; destruct (solve fo cK fsort si cf c0 ritzv resid) as [b| |]; try easy.
  destruct G as ([E R] & E1 & E2 & EX). destruct R as (A & B & C & [D1 D2] & _ & [G1 G2] & _ & _ & S).
  split; [exact E1|]. split; [exact E2|]. split; [exact E|]. unfold user_array, user_V1. rewrite S.
  split; [destruct (is_sw _); assumption|]. split; [destruct (is_sw _); assumption|]. split; [assumption|]. split; [assumption|]. split; [now symmetry|].
  split; [exact A|]. split.
  - intros p Hp. destruct (Nat.lt_ge_cases p (length H)) as [L|L].
    + rewrite (nth_error_nth' _ z) by lia. rewrite (nth_error_nth' H z) by lia. f_equal. auto.
    + transitivity (None (A := T)); [|symmetry]; apply nth_error_None; lia.
  - destruct (o_exit a), (o_exit b); try easy. destruct EX as (_ & _ & _ & _ & _ & X & _ & Y & _). auto.
Qed.

Theorem iflat_safe sort_idx (Hperm : forall keys, Permutation (sort_idx keys) (seq 0 (length keys))) fsort ritzv resid :
  let m := Nat.min n (Nat.min (c_N cf / 2) (c_lanczositer cf)) in
  conf_ok cf -> (forall l, length (fsort l) = length l) ->
  n <= length ritzv -> n <= length resid -> 2 <= c_N cf -> 1 <= c_lanczositer cf ->
  (c_approx cf = false -> 1 <= c_numlanczos cf <= n /\ forall k u Th Ta rv k',
     k_lanczos2 fK m (c_numlanczos cf) k = Ok (u, Th, Ta, rv, k') -> start_ok fo (fsort Th) Th Ta (c_N cf) (c_numlanczos cf) m n) ->
  (exists o, solve fo fK fsort sort_idx cf f0 ritzv resid = Ok o) \/
  (solve fo fK fsort sort_idx cf f0 ritzv resid = UB /\ degree_overflow fo fK sort_idx fsort cf f0 ritzv resid).
Proof.
  intros m HC Hf L1 L2 HN HLz HA.
  pose proof (cm_safe fo qe td (inplD fo bl n) nev nex _ (inpl_dla_safe fo bl n)) as KS.
  pose proof (safe_rel _ _ _ _ _ _ iflat_every_call KS) as FS.
  eapply (solve_safe fo fK sort_idx Hperm n _ _ FS fsort cf f0 ritzv resid); auto.
  exists c0. split; [apply i_start_rel|]. cbn [cm_dla]. unfold ilen. cbn. rewrite !repeat_length. unfold columns. rewrite tab_length. auto.
Qed.

(** which array the caller gets: by the parity of the number of iterations *)
Theorem iflat_parity sort_idx (Hperm : forall keys, Permutation (sort_idx keys) (seq 0 (length keys))) fsort ritzv resid o s :
  conf_ok cf -> solve fo fK fsort sort_idx cf f0 ritzv resid = Ok o -> o_exit o = Some s ->
  (Nat.even (ss_iter s) = true -> user_array (cm_dla (o_k o)) = g_V1 (cm_dla (o_k o))) /\
  (Nat.even (ss_iter s) = false -> user_array (cm_dla (o_k o)) = g_V2 (cm_dla (o_k o))).
Proof.
  intros HC Hs He. pose proof (solve_rel fo _ _ _ iflat_every_call fsort sort_idx cf _ _ ritzv resid i_start_rel) as G.
  rewrite Hs in G. destruct (solve fo cK fsort sort_idx cf c0 ritzv resid) as [b| |] eqn:Eb; try easy.
  destruct G as ([E R] & _ & _ & EX). rewrite He in EX. destruct (o_exit b) as [t|] eqn:Et; try easy.
  destruct EX as (_ & _ & _ & _ & _ & _ & _ & IT & _).
  pose proof (inpl_parity fo bl qe td cf sort_idx Hperm fsort _ ritzv resid b t HC Eb Et) as P. cbn [cm_dla inpl_state is_sw] in P. rewrite xorb_false_l in P.
  destruct R as (_ & _ & _ & _ & _ & _ & _ & _ & S). unfold user_array. rewrite S, P, <- IT, <- Nat.negb_even.
  destruct (Nat.even (ss_iter s)); cbn; auto; split; auto; discriminate.
Qed.
End Thm.

(** neither the elements outside the matrix nor the initial contents of the workspaces have an influence *)
Theorem iflat_padding {F T} (fo : fops F) (lib : flib F T) qe td (cf : conf F) N ldh ldh' (H H' V1 : list T) : 1 <= N -> N <= ldh -> N <= ldh' ->
  (N - 1) * ldh + N <= length H -> (N - 1) * ldh' + N <= length H' -> length V1 = N * (c_nev cf + c_nex cf) ->
  (forall i j, i < N -> j < N -> nth_error H (i + j * ldh) = nth_error H' (i + j * ldh')) ->
  forall l0 fsort si ritzv resid,
  let run ld h := solve fo (cmK fo qe td (iflatD fo lib N ld (c_nev cf + c_nex cf)) (c_nev cf) (c_nex cf)) fsort si cf
                    (mk_cm l0 (iflat_state lib N (c_nev cf) (c_nex cf) h V1)) ritzv resid in
  match run ldh H, run ldh' H' with
  | Ok a, Ok b => o_ritz a = o_ritz b /\ o_res a = o_res b /\ user_array (cm_dla (o_k a)) = user_array (cm_dla (o_k b)) /\
      g_V1 (cm_dla (o_k a)) = g_V1 (cm_dla (o_k b)) /\
      forall i j, i < N -> j < N -> nth_error (g_H (cm_dla (o_k a))) (i + j * ldh) = nth_error (g_H (cm_dla (o_k b))) (i + j * ldh')
  | UB, UB => True | Fuel, Fuel => True | _, _ => False end.
Proof.
  intros N1 NL NL' HL HL' HV EW l0 fsort si ritzv resid run.
  assert (IN : forall i j, i < N -> j < N -> i + j * ldh < length H) by (intros; now apply (idx_in N ldh)).
  assert (IN' : forall i j, i < N -> j < N -> i + j * ldh' < length H') by (intros; now apply (idx_in N ldh')).
  assert (W : window lib N ldh H = window lib N ldh' H').
  { unfold window, tab2. apply tab_ext. intros j Hj. apply tab_ext. intros i Hi. specialize (EW i j Hi Hj).
    rewrite (nth_error_nth' H (l_zero lib)), (nth_error_nth' H' (l_zero lib)) in EW by auto. congruence. }
  pose proof (iflat_solve fo lib qe td cf N ldh N1 NL H V1 HL HV l0 fsort si ritzv resid) as G.
  pose proof (iflat_solve fo lib qe td cf N ldh' N1 NL' H' V1 HL' HV l0 fsort si ritzv resid) as G'.
  rewrite W in G. unfold run. unfold same_run_i in G, G'.
  match type of G with match _ with Ok _ => match ?y with _ => _ end | _ => _ end => destruct y as [b| |] end.
  2,3: repeat match goal with |- context [solve ?a ?b ?c ?d ?e ?f ?g ?h] => destruct (solve a b c d e f g h) end; easy.
  match type of G with match ?x with _ => _ end => destruct x as [a| |]; try easy end.
  match type of G' with match ?x with _ => _ end => destruct x as [a'| |]; try easy end.
  destruct G as (A1 & A2 & A3 & A4 & A5 & A6 & A7 & A8 & A9 & _). destruct G' as (B1 & B2 & B3 & B4 & B5 & B6 & B7 & B8 & B9 & _).
  split; [congruence|]. split; [congruence|]. split; [congruence|]. split; [congruence|]. intros i j Hi Hj.
  rewrite (nth_error_nth' _ (l_zero lib)) by (rewrite A9; auto). rewrite (nth_error_nth' _ (l_zero lib)) by (rewrite B9; auto). f_equal.
  rewrite <- B8 in A8. unfold window, tab2 in A8.
  apply (f_equal (fun l => nth i (nth j l []) (l_zero lib))) in A8. rewrite !(nth_tab N _ j) in A8 by auto. now rewrite !nth_tab in A8 by auto.
Qed.
