(** The matrix along the states of a run: one shift and back per iteration, by the centre of the interval that iteration damps. *)
From Coq Require Import List Arith ZArith Bool Lia Permutation.
Require Import Verif.Base Verif.AlgModel Verif.AlgSpec Verif.AlgProofs2 Verif.AlgProofs3 Verif.AlgSim Verif.AlgTrace Verif.AlgTraceProofs Verif.AlgObs
  Verif.DlaModel Verif.ColModel Verif.ShiftProofs.
Import ListNotations.

Lemma solve_loop_run {F St} (fo : fops F) (K : kernel F St) sort_idx cf ub s0 : forall fuel h s s',
  run fo K sort_idx cf ub s0 h s -> solve_loop fo K fuel sort_idx cf ub s = Ok s' -> exists h', run fo K sort_idx cf ub s0 h' s'.
Proof.
  induction fuel; intros h s s' R H; cbn [solve_loop] in H;
    destruct ((c_nex cf <? ss_unconv s) && (ss_iter s <? c_maxiter cf)) eqn:E; try discriminate; try (inversion H; subst; eauto; fail).
  apply bind_ok in H as (t & H1 & H). apply andb_true_iff in E as [E1 E2]. apply Nat.ltb_lt in E1, E2.
  eapply IHfuel; [|exact H]. econstructor; eauto.
Qed.

Section Run.
Context {F D V M G T : Type} (fo : fops F) (bl : blas F V M G T) (qe : qr_env F) (td : tridiag F) (L : dla F D) (h : D -> M).
Context (DK : dla_keeps L h (b_shift bl)) (cf : conf F) (sort_idx : list F -> list nat).
Context (Hperm : forall keys, Permutation (sort_idx keys) (seq 0 (length keys))) (HC : conf_ok cf).
Local Notation K := (cmK fo qe td L (c_nev cf) (c_nex cf)).
Local Notation hk s := (h (cm_dla s)).

Lemma iterate_matrix nr ns ub s s' : book cf nr ns s -> c_nex cf < ss_unconv s -> degs_ok s -> iterate fo K sort_idx cf ub s = Ok s' ->
  hk (ss_k s') = round_trip fo bl (hk (ss_k s)) (center fo ub (ss_lowerb s')).
Proof.
  intros HB Hu HD H.
  set (sL := {| ss_k := ([], ss_k s) : list (call F) * _; ss_ritz := ss_ritz s; ss_res := ss_res s; ss_last := ss_last s; ss_deg := ss_deg s;
     ss_locked := ss_locked s; ss_unconv := ss_unconv s; ss_iter := ss_iter s; ss_lowerb := ss_lowerb s; ss_lambda := ss_lambda s; ss_d := ss_d s |}).
  assert (R1 : ssR (fun t x => snd t = x) sL s) by (repeat split; auto).
  pose proof (iterate_rel fo (logK K) K _ (log_rel K) sort_idx cf ub sL s R1) as X.
  destruct (rel_ok_l _ _ _ _ X H) as (sL' & HL & E).
  assert (HBL : book cf nr ns sL) by (destruct HB; constructor; auto).
  destruct (iterate_log fo K sort_idx Hperm cf nr ns ub sL sL' HC HBL Hu HD HL) as (r & _ & _ & _ & E1 & E2).
  assert (R2 : ssR (obsR (fun x => hk x) (sh_step bl) (hk (ss_k s))) sL sL) by (repeat split; auto).
  pose proof (iterate_rel fo (logK K) (logK K) _ (obs_rel K _ _ _ (keeps_obs fo bl qe td L h DK _ _)) sort_idx cf ub sL sL R2) as Y.
  rewrite HL in Y. cbn in Y. destruct Y as ((_ & Y) & _). cbn [ss_k sL fst app] in E1. rewrite E1, sh_iter, E2 in Y.
  destruct E as (EK & _ & _ & _ & _ & _ & _ & _ & EL & _). rewrite EK in Y. rewrite EL in Y. exact Y.
Qed.

Lemma run_matrix nr ns ub s0 : book cf nr ns s0 -> degs_ok s0 -> ss_iter s0 = 0 -> forall hist t, run fo K sort_idx cf ub s0 hist t ->
  length hist = ss_iter t /\ book cf nr ns t /\ degs_ok t /\
  hk (ss_k t) = fold_left (round_trip fo bl) (map (fun s => center fo ub (ss_lowerb s)) (tl (hist ++ [t]))) (hk (ss_k s0)).
Proof.
  intros HB HD H0 hist t H. induction H as [|hist t u H (A & B & C & E) Hu Hi Hit]; [split; [auto|split; [auto|split; auto]]|].
  destruct (iterate_book fo K sort_idx Hperm cf nr ns ub t u B Hu Hit) as (Bu & Iu & _).
  split; [rewrite app_length; cbn; lia|]. split; auto. split; [exact (iterate_degs fo K sort_idx cf nr ns ub t u HC B Hu C Hit)|].
  rewrite (iterate_matrix nr ns ub t u B Hu C Hit), E.
  replace (tl ((hist ++ [t]) ++ [u])) with (tl (hist ++ [t]) ++ [u]) by (destruct hist; reflexivity).
  rewrite map_app, fold_left_app. reflexivity.
Qed.

Lemma solve_matrix_run fsort k ritzv resid o s : solve fo K fsort sort_idx cf k ritzv resid = Ok o -> o_exit o = Some s ->
  exists k0 ub s0 hist, (if c_symcheck cf then k_sym K k else Ok (true, k)) = Ok (true, k0) /\
    solve_init fo K fsort cf k0 ritzv resid = Ok (ub, s0) /\ run fo K sort_idx cf ub s0 hist s /\ length hist = ss_iter s /\
    hk (o_k o) = fold_left (round_trip fo bl) (map (fun s => center fo ub (ss_lowerb s)) (tl (hist ++ [s]))) (hk k).
Proof.
  intros H Ho.
  unfold solve in H. apply bind_ok in H as ([cont k0] & Hs & H).
  destruct cont; cbn [negb] in H; [|injection H as <-; discriminate Ho].
  apply bind_ok in H as ([ub s0] & Hi & H). apply bind_ok in H as (s1 & Hl & H). apply bind_ok in H as ([r k'] & Hf & H).
  apply bind_ok in H as (k'' & He & H). injection H as <-. cbn in Ho. injection Ho as ->.
  pose proof (solve_init_book fo K fsort cf k0 ritzv resid ub s0 Hi) as (HB & Hit & _ & Hd & Hdg & Hn1 & _).
  destruct (solve_loop_run fo K sort_idx cf ub s0 _ [] s0 s (run_nil _ _ _ _ _ _) Hl) as (hist & R).
  exists k0, ub, s0, hist. split; auto. split; auto. split; auto.
  destruct (run_matrix _ _ ub s0 HB (init_degs cf s0 HC Hd Hdg) Hit hist s R) as (E1 & HBs & _ & E2). split; auto. cbn [o_k].
  pose proof (keeps_obs fo bl qe td L h DK (c_nev cf) (c_nex cf)) as KO.
  apply final_sort_by in Hf as (_ & sw' & _ & _ & Hk').
  2:{ destruct (bk_r _ _ _ _ HBs) as [_ ->]. lia. }
  apply (ko_end _ _ _ KO) in He. cbn [sh_step] in He. cbv beta in He. rewrite He.
  assert (X : hk k' = hk (ss_k s)).
  { cbn [snd] in Hk'. revert Hk'. generalize (ss_k s), k'. clear - KO. induction sw' as [|[a b] sw IH]; intros x y Hk; cbn in Hk; [now injection Hk as <-|].
    apply bind_ok in Hk as (z & Hz & Hk). apply (ko_swap _ _ _ KO) in Hz. cbn [sh_step] in Hz. rewrite (IH _ _ Hk). exact Hz. }
  rewrite X, E2. f_equal.
  assert (Y : hk k0 = hk k) by (destruct (c_symcheck cf); [exact (ko_sym _ _ _ KO _ _ _ Hs)|now injection Hs as ->]).
  rewrite <- Y. clear - Hi KO.
  pose proof (solve_init_rel fo (logK K) (logK K) _ (obs_rel K _ _ (hk k0) KO) fsort cf ([], k0) ([], k0) ritzv resid (conj eq_refl eq_refl)) as R1.
  pose proof (solve_init_rel fo (logK K) K _ (log_rel K) fsort cf ([], k0) k0 ritzv resid eq_refl) as R2.
  destruct (rel_ok_l _ _ _ _ R2 Hi) as ([ub' sL] & HL & Eu & Es & _). rewrite HL in R1. cbn in R1. destruct R1 as (_ & (_ & R1) & _).
  destruct (solve_init_log _ _ _ _ _ _ _ _ _ HL) as (sw & idx & E). cbn [fst app] in E. rewrite E, sh_start in R1. cbn in Es. rewrite Es in R1. exact R1.
Qed.
End Run.
