(** Runs that lock nothing before their last iteration: the block is filtered with one polynomial per iteration, always the same. *)
From Coq Require Import List Arith ZArith Bool Lia Permutation.
Require Import Verif.Base Verif.AlgModel Verif.AlgSpec Verif.AlgProofs1 Verif.AlgProofs2 Verif.AlgProofs3 Verif.AlgProofs4 Verif.AlgProofs6 Verif.AlgKeep Verif.ConvSpec.
Import ListNotations.

Lemma swps_cut {A} n sw (l : list A) : in_range n sw -> n <= length l -> firstn n (swps sw l) = swps sw (firstn n l).
Proof.
  revert l. induction sw as [|[i j] sw IH]; intros l Hr Hn; auto. inversion Hr as [|? ? [Hi Hj] Hr']; subst. cbn [fst snd] in *.
  change (swps ((i, j) :: sw) l) with (swps sw (swp l i j)). change (swps ((i, j) :: sw) (firstn n l)) with (swps sw (swp (firstn n l) i j)).
  rewrite IH by (auto; rewrite swp_length; lia). f_equal. apply nth_error_ext. intros k. destruct (Nat.lt_ge_cases k n).
  - rewrite nth_firstn by lia. assert (length (firstn n l) = n) by (rewrite firstn_length; lia).
    rewrite !swp_nth by lia. rewrite nth_firstn; auto. apply tr_lt; auto.
  - rewrite !(proj2 (nth_error_None _ _)); auto; rewrite ?swp_length, firstn_length, ?swp_length; lia.
Qed.

Section Span.
Context {F St V : Type} (fo : fops F) (K : kernel F St) (sort_idx : list F -> list nat).
Hypothesis Hperm : forall keys, Permutation (sort_idx keys) (seq 0 (length keys)).
Context (nevex : nat) (cols : St -> list V) (J0 : St -> Prop) (J Jf Jr : nat -> St -> Prop) (JL : St -> Prop).
Hypothesis KK : kernel_keep fo K nevex cols J0 J Jf Jr.
Context (sub : list V -> list V -> Prop) (Fl : F -> F -> F -> nat -> list V -> list V -> Prop).
Hypothesis sub_refl : forall a, sub a a.
Hypothesis sub_trans : forall a b c, sub a b -> sub b c -> sub a c.
Hypothesis HF : forall la lo up d s av s', J 0 s -> 2 <= d -> Nat.even d = true -> filter_ fo K nevex d (repeat d nevex) la lo up s = Ok (av, s') -> Fl la lo up d (cols s) (cols s').
Hypothesis HQ : forall c s s', Jf 0 s -> k_qr K 0 c s = Ok s' -> sub (cols s) (cols s').
Hypothesis HR : forall s v s', Jr 0 s -> k_rr K nevex s = Ok (v, s') -> length v = nevex /\ sub (cols s) (cols s').
Hypothesis HD : forall v r s s', Jr 0 s -> k_resd K v 0 s = Ok (r, s') -> sub (cols s) (cols s').
Hypothesis HJL : forall l s, J l s -> JL s.
Hypothesis HS : forall i j s s', JL s -> i < nevex -> j < nevex -> k_swap K i j s = Ok s' -> JL s' /\ sub (cols s) (cols s').
Hypothesis HE : forall s s', k_end K s = Ok s' -> cols s' = cols s.

Lemma kswaps_sub l n : forall sw s s', in_range n sw -> l + n <= nevex -> JL s -> kswaps K l sw s = Ok s' -> JL s' /\ sub (cols s) (cols s').
Proof.
  induction sw as [|[i j] sw IH]; intros s s' Hr Hn HQ' H; simpl in H.
  - inversion H; subst. auto.
  - inversion Hr as [|? ? [Hi Hj] Hr']; subst. simpl in Hi, Hj. apply bind_ok in H as (t & Ht & H).
    apply HS in Ht as (A & B); auto; try lia. apply IH in H as (C & D); auto. split; auto. eapply sub_trans; eauto.
Qed.

(** the lower bound the filter uses (algorithm/algorithm.inc:456-462) *)
Definition clamp (ub lb : F) : F := if f_lt fo ub lb then ub else lb.
Lemma clamp_clamp ub lb : clamp ub (clamp ub lb) = clamp ub lb.
Proof. unfold clamp. destruct (f_lt fo ub lb) eqn:E; [destruct (f_lt fo ub ub); auto|now rewrite E]. Qed.

Lemma iterate_count cf ub s s' : iterate fo K sort_idx cf ub s = Ok s' -> ss_iter s' = ss_iter s + 1.
Proof.
  intros H. apply iterate_inv in H as (? & ? & ? & ? & ? & ? & ? & ? & ? & ? & ? & ? & ? & ? & ? & ? & ? & ? & Z).
  cbv zeta in Z. destruct Z as (_ & _ & _ & _ & _ & _ & _ & _ & _ & _ & _ & _ & _ & _ & _ & ->). reflexivity.
Qed.

Lemma iterate_span cf nr ns ub s s' d : nevex = c_nev cf + c_nex cf -> conf_ok cf -> book cf nr ns s -> nevex <= nr -> c_nex cf < ss_unconv s ->
  degs_ok s -> J (ss_locked s) (ss_k s) -> ss_locked s = 0 -> (c_opt cf = true -> ss_iter s = 0) -> ss_d s = d -> snd (ss_deg s) = repeat d nevex ->
  iterate fo K sort_idx cf ub s = Ok s' ->
  (exists k2 k3 vals c, Jr 0 k2 /\ k_rr K nevex k2 = Ok (vals, k3) /\ Fl (ss_lambda s) (clamp ub (ss_lowerb s)) ub d (cols (ss_k s)) c /\ sub c (cols k2) /\ sub c (cols k3) /\
    sub (cols k3) (cols (ss_k s')) /\ length vals = nevex /\ Permutation (firstn (c_nev cf) (whole (ss_ritz s'))) (firstn (c_nev cf) vals)) /\
  ss_lambda s' = ss_lambda s /\ ss_lowerb s' = clamp ub (ss_lowerb s) /\ ss_d s' = d /\ (ss_locked s' = 0 -> snd (ss_deg s') = repeat d nevex).
Proof.
  intros Hnv HC HB Hnr Hunc HG HJ Hl Ho Hd Hdeg Hit.
  pose proof HB as [B1 B2 [B3 B3'] [B4 B4'] [B5 B5'] [B6 B6']].
  apply iterate_inv in Hit as (lb0 & lam & deg & a & av & k1 & cond & k2 & vals & k3 & ritz & last & rs & k4 & resid & new & lk' & k5 &
    H1 & H2 & H3 & H4 & H5 & H6 & H7 & H8 & H9 & H10 & H11 & _ & _ & _ & _ & ->); auto.
  rewrite Hl in *. assert (Hu : ss_unconv s = nevex) by lia. rewrite Hu in *.
  unfold update_bounds in H1. rewrite Hu, <- Hnv, Nat.ltb_irrefl in H1. injection H1 as <- <-.
  assert (Eo : c_opt cf && negb (ss_iter s =? 0) = false).
  { destruct (c_opt cf); auto. rewrite Ho by auto. reflexivity. }
  rewrite Eo in H2. injection H2 as <- <-. cbn [cd_deg cd_k cd_ritz cd_res cd_last] in *. rewrite Hd, Hdeg in *.
  assert (Ne : repeat d nevex <> []) by (destruct nevex; [lia|discriminate]).
  destruct HG as (G1 & G2 & G3 & G4). rewrite Hdeg, Hd in *.
  assert (D2 : 2 <= d /\ Nat.even d = true) by (rewrite Forall_forall in G2; apply G2; auto).
  assert (FA : filter_args 0 nevex nevex d (repeat d nevex)).
  { split; [now rewrite repeat_length|]. split; [lia|]. split; auto. split; auto. rewrite Forall_forall in *. intros x Hx. specialize (G2 x Hx). specialize (G3 x Hx). tauto. }
  fold (clamp ub (ss_lowerb s)) in *.
  pose proof H3 as X1. apply HF in X1; try tauto.
  apply (kk_filter _ _ _ _ _ _ _ _ KK 0) in H3 as (J1 & _); auto.
  pose proof H4 as X2. apply HQ in X2; auto.
  apply (kk_qr _ _ _ _ _ _ _ _ KK 0) in H4 as (J2 & _); auto.
  pose proof H5 as X3. apply HR in X3 as (LV & X3); auto.
  pose proof H5 as H5'. replace nevex with (nevex - 0) in H5 at 1 by lia.
  apply (kk_rr _ _ _ _ _ _ _ _ KK 0) in H5 as (J3 & _); auto; [|lia].
  pose proof H8 as X4. apply HD in X4; auto.
  apply (kk_resd _ _ _ _ _ _ _ _ KK 0) in H8 as (J4 & _); auto; [|lia].
  apply locking_general in H10 as (Hnew & sw' & Hr' & (Q1 & Q2 & Q3 & Q4)); auto. cbn [lk_k lk_ritz] in *.
  pose proof Q4 as Q4'.
  apply (kswaps_keep K nevex cols Jr 0 (nevex - c_nex cf)) in Q4' as (J6 & _); auto; [|intros ? ? ? ? P1 P2 P3 P4; exact (kk_swap_r _ _ _ _ _ _ _ _ KK _ _ _ _ _ P1 P2 P3 P4)|lia].
  apply (kswaps_sub 0 (nevex - c_nex cf)) in Q4 as (J5 & X5); auto; [|lia|].
  2: { eapply HJL. apply (kk_sub _ _ _ _ _ _ _ _ KK). exact J4. }
  apply (kk_lock _ _ _ _ _ _ _ _ KK 0) in H11 as (_ & X6); auto.
  cbn [ss_k ss_ritz ss_lambda ss_lowerb ss_d ss_locked ss_deg fst snd]. split.
  - exists k2, k3, vals, (cols k1). split; auto. split; auto. split; auto. split; auto. split; [eapply sub_trans; eauto|].
    split; [rewrite X6; eapply sub_trans; eauto|]. split; auto.
    unfold whole. cbn [fst snd]. rewrite <- app_assoc, firstn_skipn.
    destruct (fst (ss_ritz s)) eqn:Ef; [|discriminate B3]. cbn [app]. rewrite Q1.
    apply put_range_inv in H6 as (L6 & ->). cbn [firstn app].
    replace (nevex - c_nex cf) with (c_nev cf) in Hr' by lia.
    assert (Lw : c_nev cf <= length (vals ++ skipn (0 + length vals) (snd (ss_ritz s)))) by (rewrite app_length; lia).
    rewrite swps_cut by auto. apply Permutation_sym. rewrite firstn_app. replace (c_nev cf - length vals) with 0 by lia. cbn [firstn]. rewrite app_nil_r.
    apply swps_perm.
  - split; auto. split; auto. split; auto. cbn. intros ->. reflexivity.
Qed.

(** [t] rounds of filtering and changing the basis *)
Inductive filtered (la lo up : F) (d : nat) : nat -> list V -> list V -> Prop :=
| filtered_0 a b : sub a b -> filtered la lo up d 0 a b
| filtered_S t a b c e : filtered la lo up d t a b -> Fl la lo up d b c -> sub c e -> filtered la lo up d (S t) a e.
Lemma filtered_sub la lo up d t a b c : filtered la lo up d t a b -> sub b c -> filtered la lo up d t a c.
Proof. intros H Hs. inversion H; subst; econstructor; eauto. Qed.

Lemma run_span cf nr ns ub s0 h s : nevex = c_nev cf + c_nex cf -> conf_ok cf -> book cf nr ns s0 -> nevex <= nr -> degs_ok s0 -> J 0 (ss_k s0) ->
  ss_locked s0 = 0 -> ss_iter s0 = 0 -> snd (ss_deg s0) = repeat (ss_d s0) nevex ->
  run fo K sort_idx cf ub s0 h s -> Forall (fun t => ss_locked t = 0) h -> (c_opt cf = true -> length h <= 1) ->
  let lo := clamp ub (ss_lowerb s0) in
  ss_iter s = length h /\ ss_d s = ss_d s0 /\ ss_lambda s = ss_lambda s0 /\ clamp ub (ss_lowerb s) = lo /\ (ss_locked s = 0 -> snd (ss_deg s) = repeat (ss_d s0) nevex) /\
  filtered (ss_lambda s0) lo ub (ss_d s0) (length h) (cols (ss_k s0)) (cols (ss_k s)) /\
  (h <> [] -> exists k2 k3 vals, Jr 0 k2 /\ k_rr K nevex k2 = Ok (vals, k3) /\
     filtered (ss_lambda s0) lo ub (ss_d s0) (length h) (cols (ss_k s0)) (cols k2) /\
     filtered (ss_lambda s0) lo ub (ss_d s0) (length h) (cols (ss_k s0)) (cols k3) /\
     length vals = nevex /\ Permutation (firstn (c_nev cf) (whole (ss_ritz s))) (firstn (c_nev cf) vals)).
Proof.
  intros Hnv HC HB Hnr HG HJ Hl Hi Hdeg HRun HU Ho lo.
  induction HRun as [|h t u R IH Hx Hm Hit].
  - split; auto. split; auto. split; auto. split; [reflexivity|]. split; auto. split; [constructor; apply sub_refl|]. intros C. now destruct C.
  - apply Forall_app in HU as (HU & Ht). pose proof (Forall_inv Ht) as H1. rewrite app_length in *. cbn [length] in *.
    destruct IH as (I1 & I2 & I3 & I4 & I5 & I6 & _); auto; [intros E; specialize (Ho E); lia|].
    assert (HI : ss_iter s0 <= c_maxiter cf) by lia.
    pose proof (run_reach fo K sort_idx _ _ _ _ _ R) as RR.
    pose proof (reach_book fo K sort_idx Hperm cf nr ns ub s0 t HB HI RR) as (Bt & _).
    rewrite <- Hl in HJ.
    destruct (reach_keep fo K sort_idx Hperm _ cols J0 J Jf Jr KK cf _ _ ub s0 t Hnv HC HI HB HG HJ RR) as (Gt & Jt & _).
    assert (Eo : c_opt cf = true -> ss_iter t = 0) by (intros E; specialize (Ho E); lia).
    destruct (iterate_span cf nr ns ub t u (ss_d s0) Hnv HC Bt Hnr Hx Gt Jt H1 Eo I2 (I5 H1) Hit) as ((k2 & k3 & vals & c & X1 & X2 & X3 & X4 & X5 & X6 & X7 & X8) & Y1 & Y2 & Y3 & Y4).
    rewrite I3, I4 in *. pose proof (iterate_count _ _ _ _ Hit) as Iu.
    assert (E1 : length h + 1 = S (length h)) by lia. rewrite E1.
    split; [lia|]. split; auto. split; auto. split; [rewrite Y2; apply clamp_clamp|]. split; auto. split.
    + eapply filtered_S; eauto.
    + intros _. exists k2, k3, vals. split; auto. split; auto. split; [eapply filtered_S; eauto|]. split; [eapply filtered_S; eauto|]. auto.
Qed.

Lemma solve_span fsort cf k ritzv resid o s ub s0 : nevex = c_nev cf + c_nex cf -> conf_ok cf -> J0 k -> 1 <= c_maxiter cf ->
  solve fo K fsort sort_idx cf k ritzv resid = Ok o -> o_exit o = Some s ->
  unlocked_run fo K sort_idx fsort cf k ritzv resid ub s0 s -> (c_opt cf = true -> ss_iter s <= 1) ->
  let lo := clamp ub (ss_lowerb s0) in
  J 0 (ss_k s0) /\ ss_d s0 = Nat.min (c_deg cf + c_deg cf mod 2) (c_maxdeg cf) /\
  filtered (ss_lambda s0) lo ub (ss_d s0) (ss_iter s) (cols (ss_k s0)) (cols (o_k o)) /\
  exists k2 k3 vals, Jr 0 k2 /\ k_rr K nevex k2 = Ok (vals, k3) /\
     filtered (ss_lambda s0) lo ub (ss_d s0) (ss_iter s) (cols (ss_k s0)) (cols k2) /\
     filtered (ss_lambda s0) lo ub (ss_d s0) (ss_iter s) (cols (ss_k s0)) (cols k3) /\
     length vals = nevex /\ Permutation (firstn (c_nev cf) (o_ritz o)) (firstn (c_nev cf) vals).
Proof.
  intros Hnv HC HJ Hmi H Hex (k0 & h & Hsym & Hinit & HRun & HU) Ho lo.
  unfold solve in H. rewrite Hsym in H. cbn [bind negb] in H. rewrite Hinit in H. cbn [bind] in H.
  apply bind_ok in H as (t & Hloop & H).
  apply bind_ok in H as ([r k'] & Hsort & H). apply bind_ok in H as (k'' & Hend & H). injection H as E. subst o.
  cbn [o_exit] in Hex. injection Hex as E. subst t. cbn [o_k o_ritz].
  assert (HJk : J0 k0).
  { destruct (c_symcheck cf); [eapply (kk_sym _ _ _ _ _ _ _ _ KK); eauto|inversion Hsym; subst; auto]. }
  pose proof (solve_init_book fo K fsort cf k0 ritzv resid ub s0 Hinit) as (HB & Hi & Hl & Hd & Hdeg & G1 & G2 & Hpos).
  destruct (solve_init_keep fo K nevex cols J0 J Jf Jr KK _ _ _ _ _ _ _ Hnv HC HJk Hinit) as (D0 & J00).
  rewrite <- Hnv in Hdeg. pose proof (solve_loop_reach fo K sort_idx cf ub _ _ _ Hloop) as [HRc HX].
  pose proof (reach_book fo K sort_idx Hperm cf _ _ ub s0 s HB ltac:(lia) HRc) as (Bs & _).
  rewrite <- Hl in J00.
  destruct (reach_keep fo K sort_idx Hperm _ cols J0 J Jf Jr KK cf _ _ ub s0 s Hnv HC ltac:(lia) HB D0 J00 HRc) as (_ & Js & _).
  rewrite Hl in J00.
  assert (Il : ss_iter s = length h).
  { clear -HRun Hi. induction HRun; auto. rewrite app_length. cbn.
    rewrite (iterate_count _ _ _ _ H1). lia. }
  destruct (run_span cf _ _ ub s0 h s Hnv HC HB ltac:(lia) D0 J00 Hl Hi Hdeg HRun HU ltac:(intros; rewrite <- Il; auto)) as (_ & I2 & I3 & I4 & I5 & I6 & I7).
  assert (Hnev : 1 <= c_nev cf) by (destruct HC; lia).
  assert (Hh : h <> []).
  { intros ->. cbn in Il. assert (s = s0) by (inversion HRun; auto; destruct h; discriminate). subst s.
    destruct HX as [HX|HX]; [|lia]. pose proof (bk_sum _ _ _ _ HB). lia. }
  destruct (I7 Hh) as (k2 & k3 & vals & X1 & X2 & X3 & X4 & X5 & X6).
  pose proof (bk_r _ _ _ _ Bs) as (_ & Lw).
  apply final_sort_by in Hsort as (_ & sw & Hr & (E1 & E2)); [|lia]. cbn [fst snd] in *.
  apply (kswaps_sub 0 (c_nev cf)) in E2 as (_ & E2); auto; [|lia|eapply HJL; eauto].
  rewrite (HE _ _ Hend), Il. split; auto. split; auto. split; [exact (filtered_sub _ _ _ _ _ _ _ _ I6 E2)|].
  exists k2, k3, vals. split; auto. split; auto. split; auto. split; auto. split; auto.
  rewrite E1. rewrite swps_cut by (auto; lia). eapply Permutation_trans; [apply Permutation_sym, swps_perm|]. auto.
Qed.
End Span.
