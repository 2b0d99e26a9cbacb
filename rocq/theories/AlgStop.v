(** When every residual of the wanted pairs is below the tolerance, the iteration locks them all and the loop ends. *)
From Coq Require Import List Arith ZArith Bool Lia Permutation.
Require Import Verif.Base Verif.AlgModel Verif.AlgSpec Verif.AlgProofs1 Verif.AlgProofs2 Verif.AlgProofs3 Verif.AlgProofs4 Verif.AlgProofs6 Verif.AlgKeep Verif.ConvSpec Verif.AlgSpan Verif.StopSpec.
Import ListNotations.

Section Stop.
Context {F St V : Type} (fo : fops F) (K : kernel F St) (sort_idx : list F -> list nat).
Hypothesis Hperm : forall keys, Permutation (sort_idx keys) (seq 0 (length keys)).
Context (nevex : nat) (cols : St -> list V) (J0 : St -> Prop) (J Jf Jr : nat -> St -> Prop) (JL : St -> Prop).
Hypothesis KK : kernel_keep fo K nevex cols J0 J Jf Jr.
Context (sub : list V -> list V -> Prop) (Fl : F -> F -> F -> nat -> list V -> list V -> Prop).
Hypothesis sub_refl : forall a, sub a a.
Hypothesis sub_trans : forall a b c, sub a b -> sub b c -> sub a c.
Hypothesis HF : forall la lo up d s av s', J 0 s -> 2 <= d -> Nat.even d = true -> filter_ fo K nevex d (repeat d nevex) la lo up s = Ok (av, s') -> Fl la lo up d (cols s) (cols s').
Hypothesis HQ : forall c s s', Jf 0 s -> k_qr K 0 c s = Ok s' -> sub (cols s) (cols s').
Hypothesis HR : forall s v s', Jr 0 s -> k_rr K nevex s = Ok (v, s') -> length v = nevex /\ sub (cols s) (cols s').
Hypothesis HD : forall v r s s', Jr 0 s -> k_resd K v 0 s = Ok (r, s') -> sub (cols s) (cols s').
Hypothesis HJL : forall l s, J l s -> JL s.
Hypothesis HS : forall i j s s', JL s -> i < nevex -> j < nevex -> k_swap K i j s = Ok s' -> JL s' /\ sub (cols s) (cols s').

Lemma iterate_stop cf nr ns ub s s' d : nevex = c_nev cf + c_nex cf -> conf_ok cf -> book cf nr ns s -> nevex <= nr -> c_nex cf < ss_unconv s ->
  degs_ok s -> J (ss_locked s) (ss_k s) -> ss_locked s = 0 -> (c_opt cf = true -> ss_iter s = 0) -> ss_d s = d -> snd (ss_deg s) = repeat d nevex ->
  iterate fo K sort_idx cf ub s = Ok s' ->
  exists k2 k3 vals ritz rs k4 c, Jr 0 k2 /\ k_rr K nevex k2 = Ok (vals, k3) /\ Fl (ss_lambda s) (clamp fo ub (ss_lowerb s)) ub d (cols (ss_k s)) c /\ sub c (cols k2) /\ sub c (cols k3) /\
    Jr 0 k3 /\ k_resd K ritz 0 k3 = Ok (rs, k4) /\ firstn nevex ritz = vals /\ (c_nev cf <= length rs -> below fo (c_tol cf) (c_nev cf) rs -> converged fo cf s').
Proof.
  intros Hnv HC HB Hnr Hunc HG HJ Hl Ho Hd Hdeg Hit.
  pose proof HB as [B1 B2 [B3 B3'] [B4 B4'] [B5 B5'] [B6 B6']].
  apply iterate_inv in Hit as (lb0 & lam & deg & a & av & k1 & cond & k2 & vals & k3 & ritz & last & rs & k4 & resid & new & lk' & k5 &
    H1 & H2 & H3 & H4 & H5 & H6 & H7 & H8 & H9 & H10 & H11 & _ & _ & _ & _ & ->); auto.
  rewrite Hl in *. assert (Hu : ss_unconv s = nevex) by lia. rewrite Hu in *.
  unfold update_bounds in H1. rewrite Hu, <- Hnv, Nat.ltb_irrefl in H1. injection H1 as <- <-.
  assert (Eo : c_opt cf && negb (ss_iter s =? 0) = false).
  { destruct (c_opt cf); auto. rewrite Ho by auto. reflexivity. }
  rewrite Eo in H2. injection H2 as <- <-. cbn [cd_deg cd_k cd_ritz cd_res cd_last] in *. rewrite Hd, Hdeg in *.
  assert (Ne : repeat d nevex <> []) by (destruct nevex; [lia|discriminate]).
  destruct HG as (G1 & G2 & G3 & G4). rewrite Hdeg, Hd in *.
  assert (D2 : 2 <= d /\ Nat.even d = true) by (rewrite Forall_forall in G2; apply G2; auto).
  assert (FA : filter_args 0 nevex nevex d (repeat d nevex)).
  { split; [now rewrite repeat_length|]. split; [lia|]. split; auto. split; auto. rewrite Forall_forall in *. intros x Hx. specialize (G2 x Hx). specialize (G3 x Hx). tauto. }
  fold (clamp fo ub (ss_lowerb s)) in *.
  pose proof H3 as X1. apply HF in X1; try tauto.
  apply (kk_filter _ _ _ _ _ _ _ _ KK 0) in H3 as (J1 & _); auto.
  pose proof H4 as X2. apply HQ in X2; auto.
  apply (kk_qr _ _ _ _ _ _ _ _ KK 0) in H4 as (J2 & _); auto.
  pose proof H5 as X3. apply HR in X3 as (LV & X3); auto.
  pose proof H5 as H5'. replace nevex with (nevex - 0) in H5 at 1 by lia.
  apply (kk_rr _ _ _ _ _ _ _ _ KK 0) in H5 as (J3 & _); auto; [|lia].
  exists k2, k3, vals, ritz, rs, k4, (cols k1). split; auto. split; auto. split; auto. split; auto. split; [eapply sub_trans; eauto|]. split; auto. split; auto.
  pose proof (put_range_0_firstn _ _ _ H6) as P6. rewrite LV in P6. split; auto.
  intros Lr Hb. replace (nevex - c_nex cf) with (c_nev cf) in H10 by lia.
  assert (Hb' : below fo (c_tol cf) (c_nev cf) resid).
  { apply put_range_0_firstn in H9. intros i x Hi Hx. apply (Hb i); auto. rewrite <- H9. rewrite nth_firstn by lia. auto. }
  pose proof H10 as Hn. apply (locking_all fo K sort_idx Hperm) in Hn; auto.
  apply locking_general in H10 as (_ & sw & Hr & (_ & Q2 & _)); auto. cbn [lk_res] in Q2.
  split; cbn [ss_locked ss_res]; [lia|]. unfold whole. cbn [fst snd]. rewrite <- app_assoc, firstn_skipn.
  destruct (fst (ss_res s)) eqn:Ef; [|discriminate B4]. cbn [app]. rewrite Q2.
  assert (Lw : c_nev cf <= length resid).
  { apply put_range_inv in H9 as (L9 & ->). rewrite firstn_O, !app_length. cbn. lia. }
  rewrite swps_cut by auto. eapply Permutation_Forall; [apply swps_perm|].
  apply Forall_forall. intros x Hx. apply In_nth_error in Hx as (i & Hi).
  assert (i < c_nev cf) by (pose proof (nth_error_lt _ _ _ Hi); rewrite firstn_length in *; lia).
  rewrite nth_firstn in Hi by auto. eapply Hb'; eauto.
Qed.

Lemma run_stop cf nr ns ub s0 h s : nevex = c_nev cf + c_nex cf -> conf_ok cf -> book cf nr ns s0 -> nevex <= nr -> degs_ok s0 -> J 0 (ss_k s0) ->
  ss_locked s0 = 0 -> ss_iter s0 = 0 -> snd (ss_deg s0) = repeat (ss_d s0) nevex ->
  run fo K sort_idx cf ub s0 h s -> Forall (fun t => ss_locked t = 0) h -> (c_opt cf = true -> length h <= 1) -> h <> [] ->
  let ft := filtered sub Fl (ss_lambda s0) (clamp fo ub (ss_lowerb s0)) ub (ss_d s0) (length h) (cols (ss_k s0)) in
  exists k2 k3 vals ritz rs k4, Jr 0 k2 /\ k_rr K nevex k2 = Ok (vals, k3) /\ ft (cols k2) /\ ft (cols k3) /\
    Jr 0 k3 /\ k_resd K ritz 0 k3 = Ok (rs, k4) /\ firstn nevex ritz = vals /\ (c_nev cf <= length rs -> below fo (c_tol cf) (c_nev cf) rs -> converged fo cf s).
Proof.
  intros Hnv HC HB Hnr HG HJ Hl Hi Hdeg HRun HU Ho Hh ft. subst ft.
  destruct HRun as [|h' t s R Hx Hm Hit]; [now destruct Hh|].
  apply Forall_app in HU as (HU & Ht). pose proof (Forall_inv Ht) as H1. rewrite app_length in *. cbn [length] in *.
  destruct (run_span fo K sort_idx Hperm nevex cols J0 J Jf Jr JL KK sub Fl sub_refl sub_trans HF HQ HR HD HJL HS cf nr ns ub s0 h' t Hnv HC HB Hnr HG HJ Hl Hi Hdeg R HU)
    as (I1 & I2 & I3 & I4 & I5 & I6 & _); [intros E; specialize (Ho E); lia|].
  assert (HI : ss_iter s0 <= c_maxiter cf) by lia.
  pose proof (run_reach fo K sort_idx _ _ _ _ _ R) as RR.
  pose proof (reach_book fo K sort_idx Hperm cf nr ns ub s0 t HB HI RR) as (Bt & _).
  rewrite <- Hl in HJ.
  destruct (reach_keep fo K sort_idx Hperm _ cols J0 J Jf Jr KK cf _ _ ub s0 t Hnv HC HI HB HG HJ RR) as (Gt & Jt & _).
  assert (Eo : c_opt cf = true -> ss_iter t = 0) by (intros E; specialize (Ho E); lia).
  destruct (iterate_stop cf nr ns ub t s (ss_d s0) Hnv HC Bt Hnr Hx Gt Jt H1 Eo I2 (I5 H1) Hit) as (k2 & k3 & vals & ritz & rs & k4 & c & X1 & X2 & X3 & X4 & X5 & X6 & X7 & X8 & X9).
  rewrite I3, I4 in *. assert (E1 : length h' + 1 = S (length h')) by lia. rewrite E1.
  exists k2, k3, vals, ritz, rs, k4. split; auto. split; auto. split; [eapply filtered_S; eauto|]. split; [eapply filtered_S; eauto|]. auto.
Qed.

Lemma init_stop fsort cf k ritzv resid ub s0 h s : nevex = c_nev cf + c_nex cf -> conf_ok cf -> J0 k -> 1 <= c_maxiter cf ->
  entered fo K fsort cf k ritzv resid ub s0 -> run fo K sort_idx cf ub s0 h s -> Forall (fun t => ss_locked t = 0) h -> (c_opt cf = true -> length h <= 1) -> h <> [] ->
  let ft := filtered sub Fl (ss_lambda s0) (clamp fo ub (ss_lowerb s0)) ub (ss_d s0) (length h) (cols (ss_k s0)) in
  J 0 (ss_k s0) /\ ss_d s0 = Nat.min (c_deg cf + c_deg cf mod 2) (c_maxdeg cf) /\
  exists k2 k3 vals ritz rs k4, Jr 0 k2 /\ k_rr K nevex k2 = Ok (vals, k3) /\ ft (cols k2) /\ ft (cols k3) /\
    Jr 0 k3 /\ k_resd K ritz 0 k3 = Ok (rs, k4) /\ firstn nevex ritz = vals /\ (c_nev cf <= length rs -> below fo (c_tol cf) (c_nev cf) rs -> converged fo cf s).
Proof.
  intros Hnv HC HJ Hmi (k0 & Hsym & Hinit) HRun HU Ho Hh ft. subst ft.
  assert (HJk : J0 k0).
  { destruct (c_symcheck cf); [eapply (kk_sym _ _ _ _ _ _ _ _ KK); eauto|inversion Hsym; subst; auto]. }
  pose proof (solve_init_book fo K fsort cf k0 ritzv resid ub s0 Hinit) as (HB & Hi & Hl & Hd & Hdeg & G1 & G2 & Hpos).
  destruct (solve_init_keep fo K nevex cols J0 J Jf Jr KK _ _ _ _ _ _ _ Hnv HC HJk Hinit) as (D0 & J00).
  rewrite <- Hnv in Hdeg. split; auto. split; auto.
  eapply run_stop; eauto. lia.
Qed.
End Stop.

(** runs from the loop entry *)
Section Runs.
Context {F St : Type} (fo : fops F) (K : kernel F St) (sort_idx : list F -> list nat).
Hypothesis Hperm : forall keys, Permutation (sort_idx keys) (seq 0 (length keys)).

Lemma run_iter cf ub s0 h s : run fo K sort_idx cf ub s0 h s -> ss_iter s = ss_iter s0 + length h.
Proof. induction 1; [cbn; lia|]. rewrite app_length, (iterate_count _ _ _ _ _ _ _ H2). cbn. lia. Qed.

Lemma loop_run cf ub fuel : forall s0 h0 s1 s, run fo K sort_idx cf ub s0 h0 s1 -> solve_loop fo K fuel sort_idx cf ub s1 = Ok s -> exists h, run fo K sort_idx cf ub s0 (h0 ++ h) s.
Proof.
  induction fuel as [|fuel IH]; intros s0 h0 s1 s HR H; cbn [solve_loop] in H.
  - destruct (_ && _); [discriminate|]. injection H as <-. exists []. now rewrite app_nil_r.
  - destruct (_ && _) eqn:E; [|injection H as <-; exists []; now rewrite app_nil_r].
    apply andb_true_iff in E as [E1 E2]. apply Nat.ltb_lt in E1, E2.
    apply bind_ok in H as (t & Ht & H). apply (IH s0 (h0 ++ [s1])) in H as (h & H).
    + exists (s1 :: h). now rewrite <- app_assoc in H.
    + econstructor; eauto.
Qed.

(** a complete solve: its exit state is reached by a run that ends because all is locked or no iteration is left *)
Lemma solve_run fsort cf k ritzv resid o s : solve fo K fsort sort_idx cf k ritzv resid = Ok o -> o_exit o = Some s ->
  exists ub s0 h, entered fo K fsort cf k ritzv resid ub s0 /\ run fo K sort_idx cf ub s0 h s /\ ss_iter s = length h /\ ss_iter s <= c_maxiter cf /\
    (ss_locked s = c_nev cf \/ ss_locked s < c_nev cf /\ ss_iter s = c_maxiter cf) /\ Forall (fun t => ss_locked t < c_nev cf) h /\ ss_locked s0 = 0 /\ o_res o = whole (ss_res s).
Proof.
  intros H Hex. unfold solve in H. apply bind_ok in H as ([cont k0] & Hs & H).
  destruct (negb cont) eqn:Ec; [injection H as <-; discriminate|].
  apply bind_ok in H as ([ub s0] & Hi & H). apply bind_ok in H as (s1 & Hl & H). apply bind_ok in H as ([r k'] & Hf & H).
  apply bind_ok in H as (k'' & He & H). injection H as <-. cbn in Hex. injection Hex as ->.
  destruct cont; [|discriminate].
  pose proof (solve_init_book fo K fsort cf k0 ritzv resid ub s0 Hi) as (HB & Hit & Hlk & _).
  pose proof (solve_loop_reach fo K sort_idx cf ub _ _ _ Hl) as [HRc HX].
  destruct (loop_run cf ub _ s0 [] s0 s (run_nil _ _ _ _ _ _) Hl) as (h & HR). cbn [app] in HR.
  exists ub, s0, h. split; [exists k0; auto|]. split; auto.
  pose proof (run_iter _ _ _ _ _ HR) as Il. rewrite Hit in Il. split; [lia|].
  pose proof (reach_book fo K sort_idx Hperm cf _ _ ub s0 s HB ltac:(lia) HRc) as (Bs & _ & Hm & _).
  pose proof (bk_nex _ _ _ _ Bs).
  pose proof (bk_sum _ _ _ _ Bs). pose proof (bk_sum _ _ _ _ HB).
  split; [lia|]. split.
  { destruct (Nat.eq_dec (ss_locked s) (c_nev cf)); auto. right. destruct HX as [HX|HX]; lia. }
  split; [|auto]. clear -HR HB Hit Hperm. assert (HI : ss_iter s0 <= c_maxiter cf) by lia. clear Hit.
  induction HR as [|h t u R IH Hx Hm Hit]; auto. apply Forall_app. split; auto. constructor; auto.
  pose proof (reach_book fo K sort_idx Hperm cf _ _ ub s0 t HB HI (run_reach fo K sort_idx _ _ _ _ _ R)) as (Bt & _).
  pose proof (bk_sum _ _ _ _ Bt). lia.
Qed.

Lemma run_prefix cf ub s0 h s : run fo K sort_idx cf ub s0 h s -> forall i t, nth_error h i = Some t -> run fo K sort_idx cf ub s0 (firstn i h) t.
Proof.
  induction 1 as [|h t u R IH Hx Hm Hit]; intros i t' Hi; [destruct i; discriminate|].
  destruct (Nat.lt_ge_cases i (length h)).
  - rewrite nth_error_app1 in Hi by auto. rewrite firstn_app. replace (i - length h) with 0 by lia. cbn [firstn]. rewrite app_nil_r. auto.
  - assert (i = length h) by (pose proof (nth_error_lt _ _ _ Hi); rewrite app_length in *; cbn in *; lia). subst i.
    rewrite nth_error_app2, Nat.sub_diag in Hi by lia. injection Hi as <-. rewrite firstn_app, Nat.sub_diag, firstn_all. cbn [firstn]. rewrite app_nil_r. auto.
Qed.
Lemma entered_fun fsort cf k ritzv resid ub s0 ub' s0' : entered fo K fsort cf k ritzv resid ub s0 -> entered fo K fsort cf k ritzv resid ub' s0' -> ub = ub' /\ s0 = s0'.
Proof. intros (k0 & A & B) (k1 & C & D). assert (k0 = k1) by congruence. subst. split; congruence. Qed.

(** if every run of T iterations that locks nothing before its last converges, and nothing less than everything is ever locked before, the solve ends within T iterations *)
Lemma solve_stops fsort cf k ritzv resid ub s0 o s T : 1 <= T <= c_maxiter cf -> 1 <= c_nev cf ->
  solve fo K fsort sort_idx cf k ritzv resid = Ok o -> o_exit o = Some s -> entered fo K fsort cf k ritzv resid ub s0 ->
  (forall h t, run fo K sort_idx cf ub s0 h t -> length h < T -> ss_locked t = 0 \/ ss_locked t = c_nev cf) ->
  (forall h t, run fo K sort_idx cf ub s0 h t -> length h = T -> Forall (fun t => ss_locked t = 0) h -> converged fo cf t) ->
  ss_locked s = c_nev cf /\ ss_iter s <= T /\ (ss_iter s = T -> Forall (fun r => f_lt fo (c_tol cf) r = false) (firstn (c_nev cf) (o_res o))).
Proof.
  intros HT Hn E Hx He HP HS. destruct (solve_run _ _ _ _ _ _ _ E Hx) as (ub' & s0' & h & He' & HR & Hi & Hm & Hc & Hlt & H0 & Hr).
  destruct (entered_fun _ _ _ _ _ _ _ _ _ He He') as [<- <-].
  assert (Z : forall i t, i < T -> nth_error h i = Some t -> ss_locked t = 0).
  { intros i t Hit Ht. pose proof (run_prefix _ _ _ _ _ HR i t Ht) as R. apply HP in R as [R|R]; auto.
    - rewrite Forall_forall in Hlt. apply nth_error_In in Ht. apply Hlt in Ht. lia.
    - rewrite firstn_length. lia. }
  assert (Z' : forall i, i <= T -> Forall (fun t => ss_locked t = 0) (firstn i h)).
  { intros i Hi'. apply Forall_forall. intros x Hin. apply In_nth_error in Hin as (j & Hj).
    assert (j < i) by (pose proof (nth_error_lt _ _ _ Hj); rewrite firstn_length in *; lia).
    rewrite nth_firstn in Hj by auto. apply (Z j); auto. lia. }
  assert (LE : length h <= T).
  { destruct (Nat.le_gt_cases (length h) T) as [|G]; auto. exfalso.
    destruct (nth_error h T) as [t|] eqn:Et; [|apply nth_error_None in Et; lia].
    pose proof (run_prefix _ _ _ _ _ HR T t Et) as R. destruct (HS _ _ R) as [C _]; [rewrite firstn_length; lia|apply Z'; lia|].
    rewrite Forall_forall in Hlt. apply nth_error_In in Et. apply Hlt in Et. lia. }
  assert (C : length h = T -> converged fo cf s).
  { intros EL. apply (HS h); auto. rewrite <- (firstn_all h). apply Z'. lia. }
  split; [|split; [lia|]].
  - destruct Hc as [Hc|[Hc Hc']]; auto. apply C. lia.
  - intros Ei. rewrite Hr. apply C. lia.
Qed.

Lemma entered_book fsort cf k ritzv resid ub s0 : entered fo K fsort cf k ritzv resid ub s0 -> exists nr ns, book cf nr ns s0 /\ ss_iter s0 = 0 /\ ss_locked s0 = 0.
Proof. intros (k0 & _ & Hi). pose proof (solve_init_book fo K fsort cf k0 ritzv resid ub s0 Hi) as (HB & Hit & Hlk & _). eauto. Qed.
Lemma run_locked fsort cf k ritzv resid ub s0 h t : entered fo K fsort cf k ritzv resid ub s0 -> run fo K sort_idx cf ub s0 h t -> ss_locked t <= c_nev cf.
Proof.
  intros He HR. destruct (entered_book _ _ _ _ _ _ _ He) as (nr & ns & HB & Hi & _).
  pose proof (reach_book fo K sort_idx Hperm cf _ _ ub s0 t HB ltac:(lia) (run_reach fo K sort_idx _ _ _ _ _ HR)) as (Bt & _).
  pose proof (bk_sum _ _ _ _ Bt). pose proof (bk_nex _ _ _ _ Bt). lia.
Qed.
Lemma solve_some fsort cf k ritzv resid ub s0 o : solve fo K fsort sort_idx cf k ritzv resid = Ok o -> entered fo K fsort cf k ritzv resid ub s0 -> exists s, o_exit o = Some s.
Proof.
  intros H (k0 & Hs & Hi). unfold solve in H. rewrite Hs in H. cbn [bind negb] in H. rewrite Hi in H. cbn [bind] in H.
  apply bind_ok in H as (s1 & Hl & H). apply bind_ok in H as ([r k'] & Hf & H). apply bind_ok in H as (k'' & He & H). injection H as <-. eexists. reflexivity.
Qed.
(** the loop is entered *)
Lemma first_iteration fsort cf k ritzv resid ub s0 o s : solve fo K fsort sort_idx cf k ritzv resid = Ok o -> o_exit o = Some s -> entered fo K fsort cf k ritzv resid ub s0 ->
  1 <= c_nev cf -> 1 <= c_maxiter cf -> 1 <= ss_iter s.
Proof.
  intros E Hx He Hn Hm. destruct (solve_run _ _ _ _ _ _ _ E Hx) as (ub' & s0' & h & He' & HR & Hi & _ & Hc & _ & H0 & _).
  destruct h; [|cbn in Hi; lia]. inversion HR; [|destruct h; discriminate]. subst s0'. destruct Hc as [|]; cbn in Hi; lia.
Qed.
End Runs.
