(** The lengths of workspaces pass through floating-point numbers. *)
From Coq Require Import List ZArith String Ascii Bool Lia.
Require Import Verif.Base Verif.ConfigModel Verif.BlasDoc Verif.WrapModel Verif.WrapTable Verif.WrapSpec Verif.WorkSpec
  Verif.WrapProofs Verif.WrapPerf Verif.WrapBad.
Import ListNotations.
Local Open Scope string_scope.
Local Open Scope Z_scope.

Lemma unit_one p z : 0 < p -> 0 <= z < 2 ^ p -> 2 ^ Z.max 0 (Z.log2 z + 1 - p) = 1.
Proof.
  intros P H. replace (Z.max _ _) with 0; auto.
  destruct (Z.eq_dec z 0) as [->|N]; [change (Z.log2 0) with 0; lia|].
  assert (Z.log2 z < p) by (apply Z.log2_lt_pow2; lia). lia.
Qed.
Lemma nearest_exact p z : 0 < p -> 0 <= z < 2 ^ p -> nearest p z = z.
Proof.
  intros P H. unfold nearest. rewrite unit_one by assumption. cbv zeta. rewrite Z.mod_1_r, Z.div_1_r. cbn. lia.
Qed.
Lemma upward_exact p z : 0 < p -> 0 <= z < 2 ^ p -> upward p z = z.
Proof. intros P H. unfold upward. rewrite unit_one by assumption. cbv zeta. rewrite Z.div_1_r. lia. Qed.
Lemma upward_ge p z : z <= upward p z.
Proof.
  unfold upward. cbv zeta. set (u := 2 ^ _). assert (0 < u) by (apply Z.pow_pos_nonneg; lia).
  pose proof (Z.mul_div_le (- z) u). nia.
Qed.
Lemma upward_lt z : 0 <= z <= 2 ^ 31 - 2 ^ 7 -> upward 24 z < 2 ^ 31.
Proof.
  intros H. destruct (Z.ltb_spec z (2 ^ 24)) as [L|L]; [rewrite upward_exact by lia; lia|].
  unfold upward. cbv zeta. set (e := Z.max 0 (Z.log2 z + 1 - 24)).
  assert (L1 : Z.log2 z <= 30) by (assert (Z.log2 z < 31) by (apply Z.log2_lt_pow2; lia); lia).
  assert (0 <= e <= 7) by lia.
  assert (exists k, 2 ^ e * k = 2 ^ 7) as [k K].
  { exists (2 ^ (7 - e)). rewrite <- Z.pow_add_r by lia. f_equal. lia. }
  assert (0 < 2 ^ e) by (apply Z.pow_pos_nonneg; lia).
  pose proof (Z.mul_div_le (- z) (2 ^ e)). pose proof (Z.mod_pos_bound (- z) (2 ^ e)). pose proof (Z.div_mod (- z) (2 ^ e)).
  assert (2 ^ e <= 2 ^ 7) by (apply Z.pow_le_mono_r; lia). lia.
Qed.

Section Enough.
  Context (lb : lib) (r : string).
  Hypothesis AE : asks_enough lb r.
  Lemma enough_double t :
    is_double t = true -> (forall z, 0 <= z -> enc lb true z = nearest 53 z) -> reports_enough lb r t.
  Proof.
    intros D E i w. specialize (AE i w). unfold reported. rewrite D.
    destruct w; auto; rewrite E, nearest_exact by lia; lia.
  Qed.
  Lemma enough_single t :
    is_double t = false -> (forall z, 0 <= z -> enc lb false z = nearest 24 z) ->
    (forall i w, opt lb r i w < 2 ^ 24) -> reports_enough lb r t.
  Proof.
    intros D E B i w. specialize (AE i w). specialize (B i w). unfold reported. rewrite D.
    destruct w; auto; rewrite E, nearest_exact by lia; lia.
  Qed.
  Lemma enough_upward t :
    is_double t = false -> (forall z, 0 <= z -> enc lb false z = upward 24 z) ->
    (forall i w, opt lb r i w <= 2 ^ 31 - 2 ^ 7) -> reports_enough lb r t.
  Proof.
    intros D E B i w. specialize (AE i w). specialize (B i w). unfold reported. rewrite D.
    destruct w; auto; rewrite E by lia; pose proof (upward_ge 24 (opt lb r i WMain)); pose proof (upward_ge 24 (opt lb r i WReal));
      (split; [lia|apply upward_lt; lia]).
  Qed.
End Enough.

(** n (n + 3) is even, so 1 + 6 n + 2 n^2 is one more than a multiple of 4 and is rounded down *)
Lemma need_rounds n : 2895 <= n <= 5791 -> nearest 24 (1 + 6 * n + 2 * n * n) = 6 * n + 2 * n * n.
Proof.
  intros H. set (z := 1 + 6 * n + 2 * n * n).
  assert (B : 2 ^ 24 < z < 2 ^ 26) by (unfold z; nia).
  assert (E : exists h, n * (n + 3) = 2 * h).
  { destruct (Z.Even_or_Odd n) as [[k ->]|[k ->]]; [exists (k * (2 * k + 3))|exists ((2 * k + 1) * (k + 2))]; ring. }
  destruct E as [h E]. assert (Zh : z = 4 * h + 1) by (unfold z; nia).
  unfold nearest. cbv zeta.
  destruct (Z.ltb_spec z (2 ^ 25)).
  - replace (Z.log2 z) with 24 by (symmetry; apply Z.log2_unique; lia). change (2 ^ Z.max 0 (24 + 1 - 24)) with 2.
    replace (z / 2) with (2 * h) by (rewrite Zh; apply (Z.div_unique_pos _ _ _ 1); lia).
    replace (z mod 2) with 1 by (rewrite Zh; apply (Z.mod_unique_pos _ _ (2 * h)); lia).
    change (2 * 1 <? 2) with false. change (2 <? 2 * 1) with false. cbv iota.
    rewrite Z.even_mul. cbn [Z.even orb]. cbv iota. unfold z in Zh. lia.
  - replace (Z.log2 z) with 25 by (symmetry; apply Z.log2_unique; lia). change (2 ^ Z.max 0 (25 + 1 - 24)) with 4.
    replace (z / 4) with h by (rewrite Zh; apply (Z.div_unique_pos _ _ _ 1); lia).
    replace (z mod 4) with 1 by (rewrite Zh; apply (Z.mod_unique_pos _ _ h); lia).
    change (2 * 1 <? 4) with true. cbv iota. unfold z in Zh. lia.
Qed.

Lemma exec_abort cf lb rt a c r s s' (P : outcome -> Prop) :
  exec cf lb rt a c s = Abort s' -> P (Abort s') -> P (exec_all cf lb rt a (c :: r) s).
Proof. intros E. cbn [exec_all]. now rewrite E. Qed.
Lemma call_refuse lb r l s d b i ls e s1 :
  doc_of r = Some d -> bind_formals (d_sig d) l = Some b -> inputs s b = Some i -> lengths s 1 b = Some ls ->
  existsb (fun e => snd (fst e) =? -1) ls = false ->
  find (fun e => snd (fst e) <? least lb r i (fst (fst e))) ls = Some e ->
  set_info (- snd e) b s = Some s1 ->
  call lb r l s = Some (s1, i).
Proof. intros E1 E2 E3 E4 E5 E6 E7. unfold call. now rewrite E1, E2, E3, E4, E5, E6, E7. Qed.

Lemma heevd_single cf lb a :
  args_ok t_heevd_s a -> 2895 <= num a "n" <= 5791 -> syevd_needs lb ->
  (forall z, 0 <= z -> enc lb false z = nearest 24 z) ->
  refused cf (run cf lb t_heevd_s a).
Proof.
  intros H N Q E. start. do 12 step1 H H.
  eapply exec_call; [by_routine|by_ev|eapply call_query; [vm_compute; reflexivity|by_ev|by_ev|by_ev|reflexivity|by_ev|by_ev]|].
  match goal with |- context [reported lb "ssyevd" SFloat ?i WMain] =>
    assert (RM : reported lb "ssyevd" SFloat i WMain = 6 * num a "n" + 2 * num a "n" * num a "n") by
      (unfold reported; cbn [is_double];
       rewrite E; rewrite (proj2 (Q i WMain)); change (int_of i "n") with (num a "n"); [now apply need_rounds|nia]);
    assert (RI : reported lb "ssyevd" SFloat i WInt = 3 + 5 * num a "n") by (unfold reported; rewrite (proj2 (Q i WInt)); reflexivity)
  end.
  step1 H H.
  eapply exec_setnum; [by_ev|rewrite RM; nia|by_ev|].
  eapply exec_own; [by_ev|rewrite RM; nia|].
  step1 H H.
  eapply exec_setnum_int; [by_ev|rewrite RI; nia|by_ev|].
  eapply exec_own; [by_ev|rewrite RI; nia|].
  step1 H H.
  eapply exec_call; [by_routine|by_ev| |].
  { eapply call_refuse; [vm_compute; reflexivity|by_ev|by_ev|by_ev| | |].
    - cbn [existsb fst snd].  rewrite RM, RI.
      rewrite (proj2 (Z.eqb_neq _ _)) by nia. rewrite (proj2 (Z.eqb_neq _ _)) by nia. reflexivity.
    - cbn [find fst snd].  rewrite RM, (proj1 (Q _ WMain)).
      rewrite (proj2 (Z.ltb_lt _ _)) by (change (int_of _ "n") with (num a "n"); lia). reflexivity.
    - by_ev. }
  destruct (ndebug cf) eqn:ND.
  - apply exec_assert_nd; [assumption|]. step1 H H. cbn [refused done]. repeat split. assumption.
  - eapply exec_abort; [cbn [exec]; rewrite ND; by_ev|]. cbn [refused done]. auto.
Qed.

(** the exceptions in the terms of the specification *)
Lemma not_performs_undef cf lb w a : undef (run cf lb w a) -> ~ performs cf lb w a.
Proof. intros U (d & i & _ & _ & _ & K). unfold undef in U. now rewrite U in K. Qed.
Lemma saw_not_performs cf lb w a f z k :
  saw (routine_for (w_name w) (w_type w)) f z (run cf lb w a) ->
  (forall d, doc_of (routine_for (w_name w) (w_type w)) = Some d -> In (A f) (d_sig d)) ->
  expected w a f = Some (OInt k) -> k <> z -> ~ performs cf lb w a.
Proof.
  intros S I E N (d & i & D & _ & K & O).
  destruct (K f (I d D)) as (o & E1 & E2). rewrite E in E1. injection E1 as <-.
  destruct (run cf lb w a); cbn in S, O; try contradiction;
    destruct S as (i' & D1 & D2); destruct O as (O & _); rewrite O in D1; injection D1 as <-; congruence.
Qed.
Lemma pgqr_single_wrong cf lb a :
  args_ok t_pgqr_s a -> reports_enough lb "psorgqr" SFloat -> num a "k" <> num a "n" -> ~ performs cf lb t_pgqr_s a.
Proof.
  intros H RE N. apply (saw_not_performs cf lb t_pgqr_s a "k" (num a "n") (num a "k")); auto.
  - exact (pgqr_single cf lb a H RE).
  - intros d D. vm_compute in D. injection D as <-. cbn. tauto.
Qed.
Lemma narrow_neq z : 2 ^ 31 <= z -> z <> narrow z.
Proof.
  intros H. unfold narrow. pose proof (Z.mod_pos_bound z (2 ^ 32)).
  destruct (Z.ltb_spec (z mod 2 ^ 32) (2 ^ 31)); lia.
Qed.
Lemma scal_large_wrong cf lb a :
  2 ^ 31 <= num a "n" < 2 ^ 64 -> 0 <= num a "incx" < 2 ^ 31 -> ~ performs cf lb t_scal_d a.
Proof.
  intros N I. apply (saw_not_performs cf lb t_scal_d a "n" (narrow (num a "n")) (num a "n")); auto.
  - apply (scal_large cf lb a); lia.
  - intros d D. vm_compute in D. injection D as <-. cbn. tauto.
  - apply narrow_neq. lia.
Qed.
Lemma lange_double_wrong cf lb a : args_ok t_lange_d a -> ~ performs cf lb t_lange_d a.
Proof.
  intros H.
  destruct (Z.eq_dec (num a "norm") 73); [apply not_performs_undef, lange_inf; cbn; tauto|].
  destruct (Z.eq_dec (num a "norm") 105); [apply not_performs_undef, lange_inf; cbn; tauto|].
  intros (d & i & _ & _ & _ & O). pose proof (lange_double cf lb a H ltac:(assumption) ltac:(assumption)) as G.
  destruct (run cf lb t_lange_d a); cbn in G, O; try contradiction. destruct O as [_ O]. subst r. discriminate.
Qed.
Lemma workspaces_double cf lb w a :
  let r := routine_for (w_name w) (w_type w) in
  In w wrappers -> is_double (w_type w) = true -> args_ok w a -> asks_enough lb r ->
  (forall z, 0 <= z -> enc lb true z = nearest 53 z) -> ~ exception cf w a -> performs cf lb w a.
Proof. intros r I D H AE E NE. apply performs_all; auto. now apply enough_double. Qed.
Lemma workspaces_single cf lb w a :
  let r := routine_for (w_name w) (w_type w) in
  In w wrappers -> is_double (w_type w) = false -> args_ok w a -> asks_enough lb r ->
  (forall z, 0 <= z -> enc lb false z = nearest 24 z) /\ (forall i k, opt lb r i k < 2 ^ 24)
  \/ (forall z, 0 <= z -> enc lb false z = upward 24 z) /\ (forall i k, opt lb r i k <= 2 ^ 31 - 2 ^ 7) ->
  ~ exception cf w a -> performs cf lb w a.
Proof.
  intros r I D H AE C NE. apply performs_all; auto.
  destruct C as [[E B]|[E B]]; [now apply enough_single|now apply enough_upward].
Qed.
