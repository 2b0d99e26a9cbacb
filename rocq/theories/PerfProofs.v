From Coq Require Import List Arith ZArith Bool Lia Permutation.
Require Import Verif.Base Verif.AlgModel Verif.AlgSpec Verif.AlgProofs2 Verif.AlgSim Verif.AlgTrace Verif.AlgTraceProofs Verif.AlgProofs6 Verif.AlgObs Verif.AlgWit
  Verif.PerfModel Verif.PerfSpec.
Import ListNotations.
Local Open Scope Z_scope.

Lemma timer_eqb_eq a b : timer_eqb a b = true <-> a = b.
Proof. destruct a, b; cbn; split; congruence. Qed.
Lemma timer_eqb_refl a : timer_eqb a a = true.
Proof. now destruct a. Qed.
Lemma zsum_app a b : zsum (a ++ b) = zsum a + zsum b.
Proof. induction a; cbn [app zsum fold_right]; auto. fold (zsum (a0 ++ b)) (zsum a0). lia. Qed.

Lemma zsum_one x : zsum [x] = x.
Proof. cbn. lia. Qed.

(** ** print *)
Lemma sum_points_ok : forall s e acc, length s = length e -> sum_points s e acc = Ok (acc + (zsum e - zsum s)).
Proof.
  induction s as [|x s IH]; destruct e as [|y e]; cbn [length sum_points]; intros acc H; try discriminate.
  - cbn. f_equal. lia.
  - rewrite IH by lia. cbn [zsum fold_right]. fold (zsum s) (zsum e). f_equal. lia.
Qed.
Lemma sum_points_short : forall s e acc, (length e < length s)%nat -> sum_points s e acc = UB.
Proof. induction s as [|x s IH]; destruct e as [|y e]; cbn [length sum_points]; intros acc H; try lia; auto. apply IH. lia. Qed.

Lemma calc_timings_ok p : balanced p -> exists q, calc_timings p = Ok q /\
  (forall t, p_timings q t = p_timings p t + measured p t) /\ p_starts q = p_starts p /\ p_ends q = p_ends p /\
  p_iter q = p_iter p /\ p_vecs q = p_vecs p /\ p_blocks q = p_blocks p /\ p_nprocs q = p_nprocs p.
Proof.
  intros B. unfold calc_timings, timers. cbn [fold_left bind]. rewrite !(sum_points_ok _ _ _ (B _)). cbn [bind timer_eqb].
  rewrite !(sum_points_ok _ _ _ (B _)). cbn [bind timer_eqb]. rewrite !(sum_points_ok _ _ _ (B _)). cbn [bind timer_eqb].
  rewrite !(sum_points_ok _ _ _ (B _)). cbn [bind timer_eqb]. rewrite !(sum_points_ok _ _ _ (B _)). cbn [bind timer_eqb].
  rewrite !(sum_points_ok _ _ _ (B _)). cbn [bind timer_eqb]. rewrite !(sum_points_ok _ _ _ (B _)). cbn [bind timer_eqb].
  eexists. split; [reflexivity|]. cbn. repeat split. intros []; reflexivity.
Qed.
Fixpoint prints (n : nat) (p : perf) : res (list row * perf) :=
  match n with O => Ok ([], p) | S m => let! (r, q) := print p in let! (rs, q') := prints m q in Ok (r :: rs, q') end.
Lemma prints_ok : forall n p, balanced p -> exists rs q, prints n p = Ok (rs, q) /\ length rs = n /\
  (forall t, p_timings q t = p_timings p t + Z.of_nat n * measured p t) /\
  (forall i r, nth_error rs i = Some r -> r_nprocs r = p_nprocs p /\ r_iter r = p_iter p /\ r_vecs r = p_vecs p /\
     r_times r = map (fun t => p_timings p t + Z.of_nat (S i) * measured p t) timers).
Proof.
  induction n; intros p B.
  - exists [], p. split; [reflexivity|]. split; [reflexivity|]. split; [intros; lia|]. intros [|] ? H; discriminate.
  - destruct (calc_timings_ok p B) as (q & E & T & S1 & S2 & I1 & I2 & I3 & I4).
    assert (M : forall t, measured q t = measured p t) by (intros; unfold measured; now rewrite S1, S2).
    destruct (IHn q) as (rs & q' & E' & L & T' & R); [intros t; rewrite S1, S2; apply B|].
    exists (mk_row (p_nprocs q) (p_iter q) (p_vecs q) (map (p_timings q) timers) :: rs), q'. split; [|split; [cbn; lia|split]].
    + cbn [prints]. unfold print. rewrite E. cbn [bind]. rewrite E'. reflexivity.
    + intros t. rewrite T', M, T. lia.
    + intros [|i] r Hr; cbn [nth_error] in Hr.
      * injection Hr as <-. cbn [r_nprocs r_iter r_vecs r_times]. repeat split; auto.
        transitivity (map (p_timings q) timers); [reflexivity|]. apply map_ext. intros t. rewrite T. lia.
      * destruct (R i r Hr) as (A1 & A2 & A3 & A4). rewrite A1, A2, A3, A4. repeat split; auto. apply map_ext. intros t. rewrite M, T. lia.
Qed.

Lemma sum_points_ok_or_ub : forall s e acc, (exists v, sum_points s e acc = Ok v) \/ sum_points s e acc = UB.
Proof. induction s as [|x s IH]; destruct e as [|y e]; intros acc; cbn; eauto. Qed.
Lemma print_unbalanced p t : (length (p_ends p t) < length (p_starts p t))%nat -> print p = UB.
Proof.
  intros H. unfold print, calc_timings.
  assert (U : forall ts, fold_left (fun acc t => let! f := acc in let! v := sum_points (p_starts p t) (p_ends p t) (f t) in
                          Ok (fun u => if timer_eqb u t then v else f u)) ts UB = UB).
  { induction ts; cbn; auto. }
  assert (A : forall ts f, In t ts -> fold_left (fun acc t => let! f := acc in let! v := sum_points (p_starts p t) (p_ends p t) (f t) in
                          Ok (fun u => if timer_eqb u t then v else f u)) ts (Ok f) = UB).
  { induction ts as [|a ts IH]; intros f Hi; [destruct Hi|]; destruct Hi as [Hi|Hi]; cbn [fold_left bind].
    - subst a. rewrite sum_points_short by auto. cbn [bind]. apply U.
    - destruct (sum_points_ok_or_ub (p_starts p a) (p_ends p a) (f a)) as [[v ->]| ->]; cbn [bind]; [apply IH; auto|apply U]. }
  rewrite A; auto. destruct t; cbn; auto 10.
Qed.
Lemma print_twice p : balanced p -> exists r1 r2 q, prints 2 p = Ok ([r1; r2], q) /\ (r1 = r2 <-> forall t, measured p t = 0).
Proof.
  intros B. destruct (prints_ok 2 p B) as (rs & q & E & L & T & R). destruct rs as [|r1 [|r2 [|]]]; try discriminate L.
  exists r1, r2, q. split; auto. destruct (R 0%nat r1 eq_refl) as (A1 & A2 & A3 & A4), (R 1%nat r2 eq_refl) as (B1 & B2 & B3 & B4). split.
  - intros ->. rewrite A4 in B4. intros t. assert (Ht : In t timers) by (destruct t; cbn; auto 10).
    pose proof (ext_in_map B4 t Ht) as C. cbv beta in C. lia.
  - intros H. destruct r1 as [a1 a2 a3 a4], r2 as [b1 b2 b3 b4]. cbn in A1, A2, A3, B1, B2, B3. unfold r_times in A4, B4. subst. f_equal. apply map_ext. intros t. rewrite (H t). lia.
Qed.

(** ** the decorator as a fold over the call log *)
Section Perf.
Context {F St : Type} (fo : fops F) (clk : nat -> Z) (np : nat) (K : kernel F St).
Notation PK := (perfK clk np K).

Definition p_step (p : perf) (c : call F) : perf :=
  match c with
  | CSym | CSwap _ _ => p
  | CStart => set_nprocs np (start_clock clk TAll (p_reset p))
  | CEnd => end_clock clk TAll p
  | CInit _ => end_clock clk TInit (start_clock clk TInit p)
  | CShift _ u => if u then end_clock clk TFilter p else start_clock clk TFilter p
  | CHemm n _ _ _ => add_vecs n p
  | CQr _ _ => end_clock clk TQr (start_clock clk TQr p)
  | CRr n => end_clock clk TRr (add_block n (start_clock clk TRr p))
  | CResd _ => start_clock clk TResid p
  | CLock _ => add_iter 1 (end_clock clk TResid p)
  | CLanczos1 _ | CLanczos2 _ _ | CDos _ _ => end_clock clk TLanczos (start_clock clk TLanczos p)
  end.

Ltac inv_bind H := let y := fresh "y" in let E := fresh "E" in
  apply bind_ok in H as (y & E & H); try (destruct y as [? ?]); injection H; intros; subst; auto.
Lemma perf_obs : kernel_obs PK fst p_step.
Proof.
  split; intros; match goal with H : _ = Ok _ |- _ => cbn [perfK k_sym k_start k_end k_init k_shift k_hemm k_qr k_rr k_resd k_swap k_lock k_lanczos1 k_lanczos2 k_dos] in H;
    unfold timed, timed_ in H; cbv zeta in H; inv_bind H end.
Qed.
Lemma perf_rel : kernel_rel PK K (fun a b => snd a = b).
Proof.
  split; intros; match goal with H : snd _ = _ |- _ => subst end;
    cbn [perfK k_sym k_start k_end k_init k_shift k_hemm k_qr k_rr k_resd k_swap k_lock k_lanczos1 k_lanczos2 k_dos]; unfold timed, timed_; cbv zeta;
    match goal with |- rel_res _ (bind ?x _) _ => destruct x as [yy| |] end; cbn; auto; destruct yy; cbn; repeat split; auto.
Qed.
Definition sndR (a : perf * St) (b : St) : Prop := snd a = b.
Definition logR (a : list (call F) * (perf * St)) (b : list (call F) * St) : Prop := fst a = fst b /\ snd (snd a) = snd b.
(** logging commutes with decorating *)
Lemma log_perf_rel : kernel_rel (logK PK) (logK K) logR.
Proof.
  pose proof perf_rel as PR.
  assert (A : forall c (s : list (call F) * (perf * St)) (t : list (call F) * St) x y, fst s = fst t -> rel_res sndR x y ->
     rel_res logR (logged c (fst s) x) (logged c (fst t) y)).
  { intros c s t [a| |] [b| |] E HR; cbn in *; auto. split; cbn; auto. now rewrite E. }
  assert (B : forall Y c (s : list (call F) * (perf * St)) (t : list (call F) * St) (x : res (Y * (perf * St))) y, fst s = fst t ->
     rel_res (vrel sndR) x y ->
     rel_res (vrel logR) (logged_v c (fst s) x) (logged_v c (fst t) y)).
  { intros Y c s t [[v a]| |] [[w b]| |] E HR; cbn in *; auto. destruct HR as [HR1 HR2]; cbn in *. split; cbn; auto. split; cbn; auto. now rewrite E. }
  split; intros; match goal with H : logR _ _ |- _ => destruct H as [E1 E2] end; (apply A || apply B); auto; rewrite <- E2; destruct PR; auto.
Qed.

Lemma perf_solve fsort sort_idx cf p k ritzv resid o : solve fo PK fsort sort_idx cf (p, k) ritzv resid = Ok o ->
  exists o0, solve fo (logK K) fsort sort_idx cf ([], k) ritzv resid = Ok o0 /\ snd (o_k o0) = snd (o_k o) /\
    o_ritz o = o_ritz o0 /\ o_res o = o_res o0 /\ fst (o_k o) = fold_left p_step (fst (o_k o0)) p /\
    match o_exit o, o_exit o0 with Some s, Some s0 => ss_iter s = ss_iter s0 /\ ss_locked s = ss_locked s0 | None, None => True | _, _ => False end.
Proof.
  intros H.
  pose proof (solve_rel fo (logK PK) PK _ (log_rel PK) fsort sort_idx cf ([], (p, k)) (p, k) ritzv resid eq_refl) as HR.
  destruct (rel_ok_l _ _ _ _ HR H) as (o1 & Ho1 & E1 & E2 & E3 & E4).
  pose proof (solve_obs fo PK fst p_step p perf_obs fsort sort_idx cf (p, k) ritzv resid o1 eq_refl Ho1) as HO.
  pose proof (solve_rel fo (logK PK) (logK K) _ log_perf_rel fsort sort_idx cf ([], (p, k)) ([], k) ritzv resid (conj eq_refl eq_refl)) as HQ.
  destruct (rel_ok_r _ _ _ _ HQ Ho1) as (o0 & Ho0 & (F1 & F1') & F2 & F3 & F4).
  exists o0. split; auto. rewrite <- E1, <- F1', <- F1, HO. repeat split; try congruence.
  destruct (o_exit o1) as [s1|], (o_exit o) as [s|], (o_exit o0) as [s0|]; try easy.
  destruct E4 as (_ & _ & _ & _ & _ & L1 & _ & L3 & _), F4 as (_ & _ & _ & _ & _ & M1 & _ & M3 & _). split; congruence.
Qed.

(** ** counters *)
Lemma fold_iter : forall t p, Forall (fun c => c <> CStart) t -> p_iter (fold_left p_step t p) = (p_iter p + count_calls is_lock t)%nat.
Proof.
  unfold count_calls. induction t as [|c t IH]; intros p H; cbn [fold_left filter]; [cbn; lia|]. inversion H; subst. rewrite IH by auto.
  destruct c; cbn; try lia; try congruence. destruct unshift; cbn; lia.
Qed.
Lemma fold_vecs : forall t p, Forall (fun c => c <> CStart) t -> p_vecs (fold_left p_step t p) = (p_vecs p + products t)%nat.
Proof.
  unfold products. induction t as [|c t IH]; intros p H; cbn [fold_left map list_sum fold_right]; [cbn; lia|]. inversion H; subst. rewrite IH by auto.
  fold (list_sum (map hemm_cols t)). destruct c; cbn; try lia; try congruence. destruct unshift; cbn; lia.
Qed.
Lemma fold_blocks : forall t p, Forall (fun c => c <> CStart) t -> p_blocks (fold_left p_step t p) = p_blocks p ++ rr_blocks t.
Proof.
  unfold rr_blocks. induction t as [|c t IH]; intros p H; cbn [fold_left flat_map]; [now rewrite app_nil_r|]. inversion H; subst. rewrite IH by auto.
  destruct c; cbn; try reflexivity; try congruence; try (destruct unshift; reflexivity). now rewrite <- app_assoc.
Qed.
Lemma fold_timings : forall t p, Forall (fun c => c <> CStart) t -> p_timings (fold_left p_step t p) = p_timings p.
Proof.
  induction t as [|c t IH]; intros p H; cbn [fold_left]; auto. inversion H; subst. rewrite IH by auto.
  destruct c; cbn; try reflexivity; try congruence; try (destruct unshift; reflexivity).
Qed.
Lemma fold_nprocs : forall t p, Forall (fun c => c <> CStart) t -> p_nprocs (fold_left p_step t p) = p_nprocs p.
Proof.
  induction t as [|c t IH]; intros p H; cbn [fold_left]; auto. inversion H; subst. rewrite IH by auto.
  destruct c; cbn; try reflexivity; try congruence; try (destruct unshift; reflexivity).
Qed.

(** ** intervals: a two-state automaton over the calls of a run *)
Inductive mode := MClosed | MFilter | MResid.
Definition next (m : mode) (c : call F) : option mode :=
  match m, c with
  | MClosed, (CInit _ | CQr _ _ | CRr _ | CLanczos1 _ | CLanczos2 _ _ | CDos _ _ | CSwap _ _ | CSym) => Some MClosed
  | MClosed, CShift _ false => Some MFilter
  | MFilter, CHemm _ _ _ _ => Some MFilter
  | MFilter, CShift _ true => Some MClosed
  | MClosed, CResd _ => Some MResid
  | MResid, CSwap _ _ => Some MResid
  | MResid, CLock _ => Some MClosed
  | _, _ => None
  end.
Fixpoint nexts (m : mode) (t : list (call F)) : option mode :=
  match t with [] => Some m | c :: t => match next m c with Some m' => nexts m' t | None => None end end.
Lemma nexts_app : forall t u m m', nexts m t = Some m' -> nexts m (t ++ u) = nexts m' u.
Proof. induction t as [|c t IH]; intros u m m' H; cbn in *; [congruence|]. destruct (next m c); [|discriminate]. auto. Qed.
Lemma nexts_swaps off sw m : m <> MFilter -> nexts m (swap_calls off sw) = Some m.
Proof. intros Hm. induction sw as [|x sw IH]; cbn; auto. destruct m; try congruence; auto. Qed.
Lemma nexts_filter deg degs la lo up : nexts MClosed (filter_calls fo deg degs la lo up) = Some MClosed.
Proof.
  unfold filter_calls. cbv zeta. cbn [nexts next].
  assert (A : forall (f : nat -> call F) l, (forall i, next MFilter (f i) = Some MFilter) -> nexts MFilter (map f l) = Some MFilter).
  { intros f l Hf. induction l as [|x l IH]; cbn [map nexts]; auto. rewrite Hf. auto. }
  erewrite nexts_app by (apply A; reflexivity). reflexivity.
Qed.
Lemma nexts_iter ub r : nexts MClosed (iter_calls fo ub r) = Some MClosed.
Proof.
  unfold iter_calls. erewrite nexts_app by (apply nexts_swaps; discriminate). erewrite nexts_app by apply nexts_filter.
  cbn [app nexts next]. erewrite nexts_app by (apply nexts_swaps; discriminate). reflexivity.
Qed.
Lemma nexts_iters ub rs : nexts MClosed (flat_map (iter_calls fo ub) rs) = Some MClosed.
Proof. induction rs as [|r rs IH]; cbn [flat_map]; auto. erewrite nexts_app by apply nexts_iter. auto. Qed.
(** the calls after Start *)
Definition body (cf : conf F) sw idx ub rs sw' : list (call F) :=
  tl (start_calls fo cf sw idx) ++ flat_map (iter_calls fo ub) rs ++ swap_calls 0 sw'.
Lemma start_head cf sw idx : start_calls fo cf sw idx = CStart :: tl (start_calls fo cf sw idx).
Proof. unfold start_calls. cbv zeta. now destruct (c_approx cf). Qed.
Lemma nexts_body cf sw idx ub rs sw' : nexts MClosed (body cf sw idx ub rs sw') = Some MClosed.
Proof.
  unfold body. assert (A : nexts MClosed (tl (start_calls fo cf sw idx)) = Some MClosed).
  { unfold start_calls. cbv zeta. destruct (c_approx cf); [reflexivity|]. cbn [app tl nexts next].
    destruct (0 <? idx)%nat; cbn [app nexts next]; apply nexts_swaps; discriminate. }
  erewrite nexts_app by exact A. erewrite nexts_app by apply nexts_iters. apply nexts_swaps. discriminate.
Qed.
Lemma nexts_nostart : forall t m m', nexts m t = Some m' -> Forall (fun c => c <> CStart) t.
Proof.
  induction t as [|c t IH]; intros m m' H; [constructor|]. cbn in H. destruct (next m c) eqn:E; [|discriminate].
  constructor; [|eauto]. intros ->. destruct m; discriminate.
Qed.

Definition opened (m : mode) (t : timer) : nat := match m, t with MFilter, TFilter | MResid, TResid => 1%nat | _, _ => 0%nat end.
Definition subs : list timer := [TInit; TLanczos; TFilter; TQr; TRr; TResid].
Definition total (p : perf) : Z := zsum (map (measured p) subs).
(** [t] is the log since Start, [a0] the first reading *)
Record tinv (a0 : Z) (m : mode) (t : list (call F)) (p : perf) : Prop := {
  ti_all : p_starts p TAll = [a0] /\ p_ends p TAll = [];
  ti_starts : forall u, u <> TAll -> (length (p_starts p u) = sections u t + opened m u)%nat;
  ti_ends : forall u, u <> TAll -> length (p_ends p u) = sections u t;
  ti_pos0 : forall u, u <> TAll -> opened m u = 0%nat -> 0 <= measured p u;
  ti_pos1 : forall u, u <> TAll -> opened m u = 1%nat -> 0 <= measured p u + clk (p_tick p);
  ti_sum : total p + match m with MClosed => 0 | _ => clk (p_tick p) end <= clk (p_tick p) - a0 }.

Lemma measured_start t p u : measured (start_clock clk t p) u = measured p u - (if timer_eqb u t then clk (p_tick p) else 0).
Proof. unfold measured, start_clock. cbn [p_starts p_ends]. destruct (timer_eqb u t); [rewrite zsum_app, zsum_one|]; lia. Qed.
Lemma measured_end t p u : measured (end_clock clk t p) u = measured p u + (if timer_eqb u t then clk (p_tick p) else 0).
Proof. unfold measured, end_clock. cbn [p_starts p_ends]. destruct (timer_eqb u t); [rewrite zsum_app, zsum_one|]; lia. Qed.
Lemma measured_vecs n p u : measured (add_vecs n p) u = measured p u. Proof. reflexivity. Qed.
Lemma measured_iter n p u : measured (add_iter n p) u = measured p u. Proof. reflexivity. Qed.
Lemma measured_block n p u : measured (add_block n p) u = measured p u. Proof. reflexivity. Qed.
Lemma sections_snoc u t (c : call F) : u <> TAll -> sections u (t ++ [c]) = (sections u t + sections u [c])%nat.
Proof. intros H. destruct u; try congruence; cbn [sections]; unfold count_calls; rewrite filter_app, app_length; reflexivity. Qed.

Ltac opn := try match goal with H : opened _ _ = _ |- _ => cbn in H; try discriminate H end.
Lemma tinv_step a0 m c m' t p : monotone clk -> next m c = Some m' -> tinv a0 m t p -> tinv a0 m' (t ++ [c]) (p_step p c).
Proof.
  intros Hm Hn [[A1 A2] B C D E G].
  assert (M1 : clk (p_tick p) <= clk (S (p_tick p))) by (apply Hm; lia).
  assert (M2 : clk (S (p_tick p)) <= clk (S (S (p_tick p)))) by (apply Hm; lia).
  assert (B' : forall u, u <> TAll -> (length (p_starts (p_step p c) u) = sections u (t ++ [c]) + opened m' u)%nat /\
            length (p_ends (p_step p c) u) = sections u (t ++ [c])).
  { intros u Hu. rewrite sections_snoc by auto. specialize (B u Hu). specialize (C u Hu).
    destruct m, c; try discriminate Hn; try (destruct unshift; try discriminate Hn); injection Hn as <-; destruct u; try congruence;
      cbn in B, C |- *; rewrite ?app_length; cbn [length]; lia. }
  assert (P : forall u, u <> TAll -> (opened m' u = 0%nat -> 0 <= measured (p_step p c) u) /\
            (opened m' u = 1%nat -> 0 <= measured (p_step p c) u + clk (p_tick (p_step p c)))).
  { intros u Hu. pose proof (D u Hu) as D'. pose proof (E u Hu) as E'. clear -D' E' M1 M2 Hn Hu.
    destruct m, c; try discriminate Hn; try (destruct unshift; try discriminate Hn); injection Hn as <-; destruct u; try congruence;
      cbn [opened] in *; split; intros X; try discriminate X; cbn [p_step];
      rewrite ?measured_start, ?measured_end, ?measured_vecs, ?measured_iter, ?measured_block, ?measured_end, ?measured_start, ?measured_block, ?measured_start;
      cbn [timer_eqb p_tick start_clock end_clock add_vecs add_iter add_block];
      try specialize (D' eq_refl); try specialize (E' eq_refl); lia. }
  split; [|apply B'|apply B'|apply P|apply P|].
  - destruct m, c; try discriminate Hn; try (destruct unshift; try discriminate Hn); cbn; auto.
  - clear -G M1 M2 Hn. unfold total, subs in *. cbn [map zsum fold_right] in *.
    destruct m, c; try discriminate Hn; try (destruct unshift; try discriminate Hn); injection Hn as <-; cbn [p_step];
      rewrite ?measured_start, ?measured_end, ?measured_vecs, ?measured_iter, ?measured_block, ?measured_end, ?measured_start, ?measured_block, ?measured_start;
      cbn [timer_eqb p_tick start_clock end_clock add_vecs add_iter add_block]; lia.
Qed.
Lemma tinv_steps a0 : monotone clk -> forall t m m' t0 p, nexts m t = Some m' -> tinv a0 m t0 p -> tinv a0 m' (t0 ++ t) (fold_left p_step t p).
Proof.
  intros Hm. induction t as [|c t IH]; intros m m' t0 p Hn I; cbn in *.
  - injection Hn as <-. now rewrite app_nil_r.
  - destruct (next m c) as [m1|] eqn:En; [|discriminate]. change (c :: t) with ([c] ++ t). rewrite app_assoc.
    eapply IH; eauto using tinv_step.
Qed.
(** without any hypothesis on the clock: interval counts *)
Lemma counts_steps : forall t m m' p (n : timer -> nat), nexts m t = Some m' ->
  (forall u, u <> TAll -> (length (p_starts p u) = n u + opened m u)%nat /\ length (p_ends p u) = n u) ->
  forall u, u <> TAll -> (length (p_starts (fold_left p_step t p) u) = n u + sections u t + opened m' u)%nat /\
    length (p_ends (fold_left p_step t p) u) = (n u + sections u t)%nat.
Proof.
  induction t as [|c t IH]; intros m m' p n Hn I u Hu; cbn [nexts fold_left] in *.
  - injection Hn as <-. specialize (I u Hu). destruct u; try congruence; cbn [sections count_calls filter length] in *; unfold count_calls; cbn; lia.
  - destruct (next m c) as [m1|] eqn:En; [|discriminate].
    specialize (IH m1 m' (p_step p c) (fun u => (n u + sections u [c])%nat) Hn). cbv beta in IH.
    assert (S1 : sections u (c :: t) = (sections u [c] + sections u t)%nat).
    { destruct u; try congruence; cbn [sections]; unfold count_calls; change (c :: t) with ([c] ++ t); rewrite filter_app, app_length; reflexivity. }
    rewrite S1. cut ((length (p_starts (fold_left p_step t (p_step p c)) u) = n u + sections u [c] + sections u t + opened m' u)%nat /\
       length (p_ends (fold_left p_step t (p_step p c)) u) = (n u + sections u [c] + sections u t)%nat); [lia|].
    apply IH; auto. clear -I En. intros u Hu. specialize (I u Hu).
    destruct m, c; try discriminate En; try (destruct unshift; try discriminate En); injection En as <-; destruct u; try congruence;
      cbn in I |- *; rewrite ?app_length; cbn [length]; lia.
Qed.
Lemma all_steps : forall t m m' p, nexts m t = Some m' -> p_starts (fold_left p_step t p) TAll = p_starts p TAll /\
  p_ends (fold_left p_step t p) TAll = p_ends p TAll.
Proof.
  induction t as [|c t IH]; intros m m' p Hn; cbn [nexts fold_left] in *; auto.
  destruct (next m c) as [m1|] eqn:En; [|discriminate]. destruct (IH _ _ (p_step p c) Hn) as [-> ->].
  destruct m, c; try discriminate En; try (destruct unshift; try discriminate En); cbn; auto.
Qed.

(** ** counts in the call grammar *)
Lemma count_app f (a b : list (call F)) : count_calls f (a ++ b) = (count_calls f a + count_calls f b)%nat.
Proof. unfold count_calls. now rewrite filter_app, app_length. Qed.
Lemma count_swaps f off sw : (forall i j, f (CSwap i j) = false) -> count_calls f (@swap_calls F off sw) = 0%nat.
Proof. intros H. unfold count_calls. induction sw as [|x sw IH]; cbn; auto. now rewrite H. Qed.
Lemma count_filter f deg degs la lo up : (forall n a b o, f (CHemm n a b o) = false) -> (forall c, f (CShift c false) = false) ->
  count_calls f (filter_calls fo deg degs la lo up) = (if f (CShift (f_div fo (f_add fo up lo) (f_two fo)) true) then 1 else 0)%nat.
Proof.
  intros H1 H2. unfold filter_calls. cbv zeta. unfold count_calls. cbn [filter].
  assert (A : forall (g : nat -> call F) l, (forall i, f (g i) = false) -> filter f (map g l) = []).
  { intros g l Hg. induction l as [|x l IH]; cbn; auto. now rewrite Hg. }
  rewrite filter_app, A by auto. rewrite H2. cbn. now destruct (f _).
Qed.
Lemma count_iter f ub r : (forall i j, f (CSwap i j) = false) -> (forall n a b o, f (CHemm n a b o) = false) -> (forall c, f (CShift c false) = false) ->
  count_calls f (iter_calls fo ub r) = ((if f (CShift (f_div fo (f_add fo ub (it_lower r)) (f_two fo)) true) then 1 else 0) +
     count_calls f [CQr (it_locked r) (it_cond r); CRr (it_unconv r); CResd (it_locked r); CLock (it_new r)])%nat.
Proof.
  intros H1 H2 H3. unfold iter_calls. rewrite !count_app, !count_swaps, count_filter by auto. unfold count_calls. cbn [filter].
  destruct (f (CShift _ true)), (f (CQr _ _)), (f (CRr _)), (f (CResd _)), (f (CLock _)); reflexivity.
Qed.
Definition per_iter (t : timer) : nat := match t with TFilter | TQr | TRr | TResid => 1 | _ => 0 end.
Lemma sections_app u a b : u <> TAll -> sections u (a ++ b) = (@sections F u a + sections u b)%nat.
Proof. intros H. destruct u; try congruence; cbn [sections]; apply count_app. Qed.
Lemma sections_swaps u off sw : u <> TAll -> sections u (@swap_calls F off sw) = 0%nat.
Proof. intros H. destruct u; try congruence; cbn [sections]; apply count_swaps; auto. Qed.
Lemma sections_iters u ub rs : u <> TAll -> sections u (flat_map (iter_calls fo ub) rs) = (per_iter u * length rs)%nat.
Proof.
  intros H. induction rs as [|r rs IH]; cbn [flat_map length].
  - destruct u; try congruence; reflexivity.
  - rewrite sections_app, IH by auto. assert (sections u (iter_calls fo ub r) = per_iter u); [|lia].
    destruct u; try congruence; cbn [sections per_iter]; rewrite count_iter by auto; reflexivity.
Qed.
Definition startup (approx dos : bool) (t : timer) : nat :=
  match t with
  | TInit => 1 | TLanczos => 1 + (if approx then 0 else if dos then 1 else 0) | TQr => if approx then 0 else 1 | _ => 0 end.
Lemma sections_start u cf sw idx : u <> TAll -> sections u (tl (start_calls fo cf sw idx)) = startup (c_approx cf) (0 <? idx)%nat u.
Proof.
  intros H. unfold start_calls. cbv zeta. destruct (c_approx cf); [destruct u; try congruence; reflexivity|]. cbn [app tl].
  match goal with |- sections _ (?x :: ?y :: ?z :: ?l ++ _) = _ => change (x :: y :: z :: l ++ swap_calls 0 sw) with ((x :: y :: z :: l) ++ swap_calls 0 sw) end.
  rewrite sections_app, sections_swaps by auto. destruct (0 <? idx)%nat, u; try congruence; reflexivity.
Qed.
Lemma sections_body u cf sw idx ub rs sw' : u <> TAll ->
  sections u (body cf sw idx ub rs sw') = (startup (c_approx cf) (0 <? idx)%nat u + per_iter u * length rs)%nat.
Proof. intros H. unfold body. rewrite !sections_app, sections_start, sections_iters, sections_swaps by auto. lia. Qed.

Lemma rr_app (a b : list (call F)) : rr_blocks (a ++ b) = rr_blocks a ++ rr_blocks b.
Proof. apply flat_map_app. Qed.
Lemma rr_none (l : list (call F)) : Forall (fun c => is_rr c = false) l -> rr_blocks l = [].
Proof. induction 1 as [|c l H _ IH]; auto. cbn. unfold rr_blocks in IH. rewrite IH. destruct c; auto. discriminate. Qed.
Lemma swaps_no_rr off sw : Forall (fun c => is_rr c = false) (@swap_calls F off sw).
Proof. apply Forall_forall. unfold swap_calls. intros x Hx. apply in_map_iff in Hx as (y & <- & _). reflexivity. Qed.
Lemma filter_no_rr deg degs la lo up : Forall (fun c => is_rr c = false) (filter_calls fo deg degs la lo up).
Proof.
  apply Forall_forall. unfold filter_calls. intros x Hx. cbv zeta in Hx. destruct Hx as [<-|Hx]; auto. apply in_app_or in Hx as [Hx|[<-|[]]]; auto.
  apply in_map_iff in Hx as (y & <- & _). reflexivity.
Qed.
Lemma rr_iters ub rs : rr_blocks (flat_map (iter_calls fo ub) rs) = map it_unconv rs.
Proof.
  induction rs as [|r rs IH]; cbn [flat_map map]; auto. rewrite rr_app, IH. unfold iter_calls.
  rewrite !rr_app, (rr_none _ (swaps_no_rr _ _)), (rr_none _ (swaps_no_rr _ _)), (rr_none _ (filter_no_rr _ _ _ _ _)). reflexivity.
Qed.
Lemma rr_body cf sw idx ub rs sw' : rr_blocks (body cf sw idx ub rs sw') = map it_unconv rs.
Proof.
  unfold body. rewrite !rr_app, rr_iters, (rr_none _ (swaps_no_rr _ _)), app_nil_r. rewrite rr_none; auto.
  unfold start_calls. cbv zeta. destruct (c_approx cf); cbn [tl app]; repeat constructor. destruct (0 <? idx)%nat; cbn [app]; repeat constructor; apply swaps_no_rr.
Qed.

(** ** the whole run *)
Lemma perf_after cf sw idx ub rs sw' p0 :
  let B := body cf sw idx ub rs sw' in
  let p := fold_left p_step ((if c_symcheck cf then [CSym] else []) ++ start_calls fo cf sw idx ++ flat_map (iter_calls fo ub) rs ++ swap_calls 0 sw' ++ [CEnd]) p0 in
  p = end_clock clk TAll (fold_left p_step B (set_nprocs np (start_clock clk TAll (p_reset p0)))).
Proof.
  cbv zeta. rewrite fold_left_app. replace (fold_left p_step (if c_symcheck cf then [CSym] else []) p0) with p0 by now destruct (c_symcheck cf).
  rewrite start_head. cbn [app fold_left p_step]. unfold body. rewrite !fold_left_app. reflexivity.
Qed.

Lemma tinv_start p0 : monotone clk -> tinv (clk (p_tick p0)) MClosed [] (set_nprocs np (start_clock clk TAll (p_reset p0))).
Proof.
  intros Hm. assert (M1 : clk (p_tick p0) <= clk (S (p_tick p0))) by (apply Hm; lia).
  split; try (intros [] Hu; try congruence; reflexivity).
  - cbn. auto.
  - intros [] Hu Ho; cbn in Ho; discriminate.
  - cbn. lia.
Qed.

Section Run.
Context (sort_idx : list F -> list nat) (Hperm : forall keys, Permutation (sort_idx keys) (seq 0 (length keys))).
Context (fsort : list F -> list F) (cf : conf F) (p0 : perf) (k : St) (ritzv resid : list F) (o : @outcome F (perf * St)) (s : @sstate F (perf * St)).
Context (HC : conf_ok cf) (HS : solve fo PK fsort sort_idx cf (p0, k) ritzv resid = Ok o) (HE : o_exit o = Some s).

Lemma perf_run : exists o0 ub rs sw idx sw',
  solve fo (logK K) fsort sort_idx cf ([], k) ritzv resid = Ok o0 /\ snd (o_k o0) = snd (o_k o) /\ o_ritz o = o_ritz o0 /\ o_res o = o_res o0 /\
  iters (c_nev cf) (c_nex cf) 0 rs (ss_locked s) /\ length rs = ss_iter s /\
  fst (o_k o0) = (if c_symcheck cf then [CSym] else []) ++ start_calls fo cf sw idx ++ flat_map (iter_calls fo ub) rs ++ swap_calls 0 sw' ++ [CEnd] /\
  fst (o_k o) = end_clock clk TAll (fold_left p_step (body cf sw idx ub rs sw') (set_nprocs np (start_clock clk TAll (p_reset p0)))).
Proof.
  destruct (perf_solve fsort sort_idx cf p0 k ritzv resid o HS) as (o0 & A & B & C & D & E & G). rewrite HE in G.
  destruct (o_exit o0) as [s0|] eqn:E0; [|easy]. destruct G as [G1 G2].
  destruct (solve_log fo K sort_idx Hperm fsort cf ([], k) ritzv resid o0 s0 HC A E0) as (ub & rs & sw & idx & sw' & X1 & X2 & X3 & X4).
  cbn [fst app] in X4. exists o0, ub, rs, sw, idx, sw'. rewrite G1, G2. repeat split; auto. rewrite E, X4. apply perf_after.
Qed.

Lemma nostart_body cf' sw idx ub rs sw' : Forall (fun c => c <> CStart) (body cf' sw idx ub rs sw').
Proof. eapply nexts_nostart, nexts_body. Qed.

Lemma perf_counters : let p := fst (o_k o) in
  p_iter p = ss_iter s /\ p_nprocs p = np /\ (forall t, p_timings p t = 0) /\
  exists o0, solve fo (logK K) fsort sort_idx cf ([], k) ritzv resid = Ok o0 /\ snd (o_k o0) = snd (o_k o) /\ o_ritz o = o_ritz o0 /\ o_res o = o_res o0 /\
    p_vecs p = products (fst (o_k o0)) /\ p_blocks p = rr_blocks (fst (o_k o0)).
Proof.
  cbv zeta. destruct perf_run as (o0 & ub & rs & sw & idx & sw' & A & B & C & D & I & L & G & E). rewrite E.
  pose proof (nostart_body cf sw idx ub rs sw') as NS.
  split; [|split; [|split]].
  - cbn [p_iter end_clock]. rewrite fold_iter by auto. cbn [set_nprocs start_clock p_reset p_iter Nat.add].
    change (count_calls is_lock (body cf sw idx ub rs sw')) with (sections TResid (body cf sw idx ub rs sw')).
    rewrite sections_body by discriminate. cbn. lia.
  - cbn [p_nprocs end_clock]. now rewrite fold_nprocs.
  - intros t. cbn [p_timings end_clock]. now rewrite fold_timings.
  - exists o0. repeat split; auto; rewrite G.
    + cbn [p_vecs end_clock]. rewrite fold_vecs by auto. cbn [set_nprocs start_clock p_reset p_vecs Nat.add]. unfold body.
      rewrite start_head. unfold products. rewrite !map_app, !list_sum_app. cbn [tl app map].
      change (list_sum (hemm_cols CStart :: ?l)) with (list_sum l).
      replace (list_sum (map hemm_cols (if c_symcheck cf then [@CSym F] else []))) with 0%nat by now destruct (c_symcheck cf).
      cbn [hemm_cols]. change (list_sum [0%nat]) with 0%nat. lia.
    + cbn [p_blocks end_clock]. rewrite fold_blocks by auto. cbn [set_nprocs start_clock p_reset p_blocks app]. unfold body.
      rewrite start_head. rewrite !rr_app. cbn [tl app]. replace (rr_blocks (if c_symcheck cf then [@CSym F] else [])) with (@nil nat) by now destruct (c_symcheck cf).
      change (rr_blocks (CStart :: ?l)) with (rr_blocks l). change (rr_blocks [CEnd]) with (@nil nat). rewrite ?app_nil_r. reflexivity.
Qed.

Lemma iters_blocks nev nex : forall l rs l', @iters F nev nex l rs l' ->
  (l <= l')%nat /\ Forall (fun r => l <= it_locked r <= l')%nat rs /\ Forall (fun r => it_locked r + it_unconv r = nev + nex /\ nex < it_unconv r)%nat rs /\
  (forall i j ri rj, (i <= j)%nat -> nth_error rs i = Some ri -> nth_error rs j = Some rj -> it_unconv rj <= it_unconv ri)%nat /\
  (forall r, nth_error rs 0 = Some r -> it_locked r = l).
Proof.
  induction 1 as [l|l rs l' r H (A & B & C & D & G) E (I1 & I2 & I3 & _)].
  - repeat split; auto; try (intros [|] ; intros; discriminate). intros. discriminate.
  - assert (B' : Forall (fun r0 => l <= it_locked r0 <= l' + it_new r)%nat rs).
    { eapply Forall_impl; [|exact B]. cbn. intros; lia. }
    split; [lia|]. split; [apply Forall_app; split; auto; constructor; auto; lia|]. split; [apply Forall_app; split; auto|]. split.
    + intros i j ri rj Hij Hi Hj. destruct (Nat.lt_ge_cases j (length rs)) as [Lj|Lj].
      * rewrite nth_error_app1 in Hi, Hj by lia. eauto.
      * rewrite nth_error_app2 in Hj by lia. destruct (j - length rs)%nat as [|[|]] eqn:Ej; cbn in Hj; try discriminate. injection Hj as <-.
        destruct (Nat.lt_ge_cases i (length rs)) as [Li|Li].
        -- rewrite nth_error_app1 in Hi by lia. apply nth_error_In in Hi. rewrite Forall_forall in B, C. specialize (B _ Hi). specialize (C _ Hi). lia.
        -- rewrite nth_error_app2 in Hi by lia. destruct (i - length rs)%nat as [|[|]] eqn:Ei; cbn in Hi; try discriminate. injection Hi as <-. lia.
    + intros r0 H0. destruct rs as [|r1 rs]; cbn in *; [|auto]. injection H0 as <-. rewrite E. inversion H; subst; auto. exfalso. match goal with X : ?a ++ _ = [] |- _ => destruct a; discriminate X end.
Qed.
Lemma perf_blocks : let p := fst (o_k o) in
  length (p_blocks p) = ss_iter s /\ (forall b, nth_error (p_blocks p) 0 = Some b -> b = (c_nev cf + c_nex cf)%nat) /\
  (forall b, In b (p_blocks p) -> (c_nex cf < b <= c_nev cf + c_nex cf)%nat) /\
  (forall i j bi bj, (i <= j)%nat -> nth_error (p_blocks p) i = Some bi -> nth_error (p_blocks p) j = Some bj -> (bj <= bi)%nat).
Proof.
  cbv zeta. destruct perf_run as (o0 & ub & rs & sw & idx & sw' & A & B & C & D & I & L & G & E).
  assert (P : p_blocks (fst (o_k o)) = map it_unconv rs).
  { rewrite E. cbn [p_blocks end_clock]. rewrite fold_blocks by apply nostart_body. cbn [set_nprocs start_clock p_reset p_blocks app]. apply rr_body. }
  rewrite P. destruct (iters_blocks _ _ _ _ _ I) as (X1 & X2 & X3 & X4 & X5). rewrite map_length. split; auto. split; [|split].
  - destruct rs as [|r rs]; cbn; [discriminate|]. intros b Hb. injection Hb as <-. specialize (X5 r eq_refl).
    rewrite Forall_forall in X3. specialize (X3 r (or_introl eq_refl)). lia.
  - intros b Hb. apply in_map_iff in Hb as (r & <- & Hr). rewrite Forall_forall in X2, X3. specialize (X2 r Hr). specialize (X3 r Hr). lia.
  - intros i j bi bj Hij Hi Hj. rewrite nth_error_map in Hi, Hj. destruct (nth_error rs i) as [ri|] eqn:Ei; [|discriminate].
    destruct (nth_error rs j) as [rj|] eqn:Ej; [|discriminate]. injection Hi as <-. injection Hj as <-. eauto.
Qed.

(** every timer is balanced; how often each one ran *)
Lemma perf_intervals : let p := fst (o_k o) in
  balanced p /\ length (p_starts p TAll) = 1%nat /\ length (p_starts p TInit) = 1%nat /\
  length (p_starts p TFilter) = ss_iter s /\ length (p_starts p TRr) = ss_iter s /\ length (p_starts p TResid) = ss_iter s /\
  length (p_starts p TQr) = (ss_iter s + if c_approx cf then 0 else 1)%nat /\
  (1 <= length (p_starts p TLanczos) <= if c_approx cf then 1 else 2)%nat.
Proof.
  cbv zeta. destruct perf_run as (o0 & ub & rs & sw & idx & sw' & A & B & C & D & I & L & G & E).
  set (p1 := set_nprocs np (start_clock clk TAll (p_reset p0))) in *.
  pose proof (counts_steps (body cf sw idx ub rs sw') MClosed MClosed p1 (fun _ => 0%nat) (nexts_body _ _ _ _ _ _)) as CS.
  assert (Z0 : forall u, u <> TAll -> (length (p_starts p1 u) = 0 + opened MClosed u)%nat /\ length (p_ends p1 u) = 0%nat)
    by (intros [] Hu; try congruence; auto).
  specialize (CS Z0). destruct (all_steps (body cf sw idx ub rs sw') MClosed MClosed p1 (nexts_body _ _ _ _ _ _)) as [S1 S2].
  assert (X : forall u, u <> TAll -> length (p_starts (fst (o_k o)) u) = (startup (c_approx cf) (0 <? idx)%nat u + per_iter u * ss_iter s)%nat /\
      length (p_ends (fst (o_k o)) u) = (startup (c_approx cf) (0 <? idx)%nat u + per_iter u * ss_iter s)%nat).
  { intros u Hu. destruct (CS u Hu) as [C1 C2]. rewrite <- L, <- (sections_body u cf sw idx ub rs sw' Hu). rewrite E. cbn [p_starts p_ends end_clock].
    replace (timer_eqb u TAll) with false by (destruct u; auto; congruence). cbn [opened] in C1. lia. }
  split.
  - intros u. destruct u eqn:Eu; try (rewrite (proj1 (X u ltac:(congruence))), <- Eu; fail);
    try (match goal with |- length (p_starts _ ?u) = _ => destruct (X u ltac:(discriminate)) as [-> ->]; reflexivity end).
    rewrite E. cbn [p_starts p_ends end_clock timer_eqb]. rewrite S1, S2. reflexivity.
  - split; [rewrite E; cbn [p_starts end_clock]; rewrite S1; reflexivity|].
    pose proof (proj1 (X TInit ltac:(discriminate))) as X1. pose proof (proj1 (X TFilter ltac:(discriminate))) as X2.
    pose proof (proj1 (X TRr ltac:(discriminate))) as X3. pose proof (proj1 (X TResid ltac:(discriminate))) as X4.
    pose proof (proj1 (X TQr ltac:(discriminate))) as X5. pose proof (proj1 (X TLanczos ltac:(discriminate))) as X6.
    cbn in X1, X2, X3, X4, X5, X6. rewrite X1, X2, X3, X4, X5, X6. destruct (c_approx cf), idx; cbn; lia.
Qed.

(** with a clock that never goes backwards: no negative time, and the parts do not exceed the whole *)
Lemma perf_times : monotone clk -> let p := fst (o_k o) in
  (forall t, 0 <= measured p t) /\
  measured p TInit + measured p TLanczos + measured p TFilter + measured p TQr + measured p TRr + measured p TResid <= measured p TAll.
Proof.
  intros Hm. cbv zeta. destruct perf_run as (o0 & ub & rs & sw & idx & sw' & A & B & C & D & I & L & G & E).
  pose proof (tinv_steps _ Hm _ _ _ _ _ (nexts_body cf sw idx ub rs sw') (tinv_start p0 Hm)) as T. cbn [app] in T.
  rewrite E. set (q := fold_left _ _ _) in *. destruct T as [[T1 T1'] T2 T3 T4 T5 T6].
  unfold total, subs in T6. cbn [map zsum fold_right] in T6.
  assert (MA : measured (end_clock clk TAll q) TAll = clk (p_tick q) - clk (p_tick p0)).
  { rewrite measured_end. unfold measured. rewrite T1, T1'. cbn. lia. }
  assert (MO : forall u, u <> TAll -> measured (end_clock clk TAll q) u = measured q u /\ 0 <= measured q u).
  { intros u Hu. rewrite measured_end. replace (timer_eqb u TAll) with false by (destruct u; auto; congruence).
    split; [lia|]. apply T4; auto. }
  pose proof (MO TInit ltac:(discriminate)). pose proof (MO TLanczos ltac:(discriminate)). pose proof (MO TFilter ltac:(discriminate)).
  pose proof (MO TQr ltac:(discriminate)). pose proof (MO TRr ltac:(discriminate)). pose proof (MO TResid ltac:(discriminate)).
  split; [intros []; lia|lia].
Qed.

Lemma products_app (a b : list (call F)) : products (a ++ b) = (products a + products b)%nat.
Proof. unfold products. now rewrite map_app, list_sum_app. Qed.
Lemma products_swaps off sw : products (@swap_calls F off sw) = 0%nat.
Proof. unfold products. induction sw; auto. Qed.
Lemma products_iter nev nex ub r : iter_ok nev nex r -> products (iter_calls fo ub r) = list_sum (it_degs r).
Proof.
  intros (_ & _ & _ & _ & _ & H & _). unfold iter_calls. rewrite !products_app, !products_swaps, products_filter.
  replace (map (Nat.min (it_deg r)) (it_degs r)) with (it_degs r); [cbn; lia|].
  induction H as [|d l (_ & _ & Hd) _ IH]; cbn; auto. f_equal; auto. lia.
Qed.
Lemma products_iters nev nex ub : forall l rs l', iters nev nex l rs l' ->
  products (flat_map (iter_calls fo ub) rs) = list_sum (map list_sum (map it_degs rs)).
Proof.
  induction 1; auto. rewrite flat_map_app, products_app, !map_app, list_sum_app, IHiters. cbn [flat_map map list_sum fold_right].
  rewrite app_nil_r, (products_iter nev nex) by auto. lia.
Qed.
Lemma perf_vecs_degrees : exists degss, let p := fst (o_k o) in
  length degss = ss_iter s /\ map (@length nat) degss = p_blocks p /\
  Forall (Forall (fun d => (2 <= d)%nat /\ Nat.even d = true)) degss /\ p_vecs p = list_sum (map list_sum degss).
Proof.
  destruct perf_run as (o0 & ub & rs & sw & idx & sw' & A & B & C & D & I & L & G & E). exists (map it_degs rs). cbv zeta.
  pose proof (nostart_body cf sw idx ub rs sw') as NS.
  assert (IO : Forall (iter_ok (c_nev cf) (c_nex cf)) rs).
  { clear -I. induction I; auto. apply Forall_app. split; auto. }
  rewrite map_length. split; auto. split; [|split].
  - rewrite E. cbn [p_blocks end_clock]. rewrite fold_blocks by auto. cbn [set_nprocs start_clock p_reset p_blocks app]. rewrite rr_body, map_map.
    apply map_ext_in. intros r Hr. rewrite Forall_forall in IO. apply IO in Hr. apply Hr.
  - apply Forall_forall. intros ds Hds. apply in_map_iff in Hds as (r & <- & Hr). rewrite Forall_forall in IO. apply IO in Hr.
    destruct Hr as (_ & _ & _ & _ & _ & Hr & _). eapply Forall_impl; [|exact Hr]. cbn. tauto.
  - rewrite E. cbn [p_vecs end_clock]. rewrite fold_vecs by auto. cbn [set_nprocs start_clock p_reset p_vecs Nat.add]. unfold body.
    rewrite !products_app, products_swaps, (products_iters _ _ _ _ _ _ I).
    replace (products (tl (start_calls fo cf sw idx))) with 0%nat; [lia|].
    unfold start_calls. cbv zeta. destruct (c_approx cf); [reflexivity|]. cbn [app tl].
    match goal with |- _ = products (?x :: ?y :: ?z :: ?l ++ _) => change (x :: y :: z :: l ++ swap_calls 0 sw) with ((x :: y :: z :: l) ++ swap_calls 0 sw) end.
    rewrite products_app, products_swaps. now destruct (0 <? idx)%nat.
Qed.
End Run.

(** a rejected matrix leaves the data of the previous run in place *)
Lemma perf_rejected sort_idx fsort cf p0 k ritzv resid o :
  solve fo PK fsort sort_idx cf (p0, k) ritzv resid = Ok o -> o_exit o = None -> fst (o_k o) = p0.
Proof.
  intros H E. destruct (perf_solve fsort sort_idx cf p0 k ritzv resid o H) as (o0 & A & B & C & D & G & X). rewrite E in X.
  destruct (o_exit o0) eqn:E0; [easy|]. destruct (solve_rejected_log fo K sort_idx fsort cf ([], k) ritzv resid o0 A E0) as (Y & _).
  rewrite G, Y. reflexivity.
Qed.

(** the decorator never changes the outcome *)
Lemma perf_transparent sort_idx fsort cf p0 k ritzv resid :
  match solve fo PK fsort sort_idx cf (p0, k) ritzv resid, solve fo K fsort sort_idx cf k ritzv resid with
  | Ok a, Ok b => snd (o_k a) = o_k b /\ o_ritz a = o_ritz b /\ o_res a = o_res b /\ (o_exit a = None <-> o_exit b = None)
  | UB, UB => True | Fuel, Fuel => True | _, _ => False end.
Proof.
  pose proof (solve_rel fo PK K _ perf_rel fsort sort_idx cf (p0, k) k ritzv resid eq_refl) as HR.
  destruct (solve fo PK fsort sort_idx cf (p0, k) ritzv resid) as [x| |], (solve fo K fsort sort_idx cf k ritzv resid) as [y| |]; cbn in HR; auto.
  destruct HR as (A & B & C & D). repeat split; auto; destruct (o_exit x), (o_exit y); try easy.
Qed.
End Perf.
