(** Proofs for C39. *)
From Coq Require Import List Arith ZArith QArith Lia.
Require Import Verif.Base Verif.AlgModel Verif.DlaModel Verif.FlatProofs Verif.LanczosSpec Verif.ColModel Verif.ColEx.
Import ListNotations.
Local Open Scope nat_scope.

Section Lanczos.
Context {F D : Type} (fo : fops F) (td : tridiag F) (L : dla F D) (OR : ordered fo).
Notation le := (le fo).

Lemma le_refl a : le a a.
Proof. now destruct (or_total fo OR a a). Qed.
Lemma lt_le a b : f_lt fo a b = true -> le a b.
Proof. intros H. destruct (or_total fo OR a b) as [E|E]; auto. unfold LanczosSpec.le in E. congruence. Qed.
Lemma fmax_l a b : le a (fmax fo a b).
Proof. unfold fmax. destruct (f_lt fo a b) eqn:E; [now apply lt_le|apply le_refl]. Qed.
Lemma fmax_r a b : le b (fmax fo a b).
Proof. unfold fmax. destruct (f_lt fo a b) eqn:E; [apply le_refl|exact E]. Qed.
Lemma fmax_or a b : fmax fo a b = a \/ fmax fo a b = b.
Proof. unfold fmax. destruct (f_lt fo a b); auto. Qed.
Lemma run_bound_ok a b c : is_run_bound fo a b c (run_bound fo a b c).
Proof.
  unfold run_bound, fmax, is_run_bound. destruct (f_lt fo (f_abs fo a) (f_abs fo b)) eqn:E; [right|left]; split; auto. now apply lt_le.
Qed.
Lemma run_bound_dominates a x b c u : is_run_bound fo a b c u -> le a x -> le x b -> le (f_abs fo x) u.
Proof.
  intros H Ha Hb. destruct (or_abs fo OR a x b Ha Hb) as [E|E]; destruct H as [[-> H]|[-> H]];
  (eapply (or_trans fo OR); [|apply (or_add fo OR), (or_abs0 fo OR)]); auto; eapply (or_trans fo OR); eauto.
Qed.

(** one run (used by the upper bound estimate of every iteration) *)
Theorem lanczos1_bound M s d e b x : 0 < M -> d_mlanczos L M None (cm_dla s) = Ok (d, e, b, x) -> 0 < length b ->
  exists u beta, cm_lanczos1 fo td L M s = Ok (u, mk_cm (cm_locked s) x) /\ nth_error b 0 = Some beta /\
    is_run_bound fo (td_val td d e 0) (td_val td d e (M - 1)) beta u /\
    ((forall k, k < M -> le (td_val td d e 0) (td_val td d e k) /\ le (td_val td d e k) (td_val td d e (M - 1))) ->
     forall k, k < M -> le (f_abs fo (td_val td d e k)) u).
Proof.
  intros HM E Hb. unfold cm_lanczos1. rewrite E. cbn [bind].
  assert (R : forall k, k < M -> rd (map (td_val td d e) (seq 0 M)) k = Ok (td_val td d e k)).
  { intros k Hk. apply rd_ok. rewrite nth_error_map, nth_error_nth' with (d := 0) by (rewrite seq_length; lia). now rewrite seq_nth by lia. }
  rewrite !R by lia. cbn [bind]. destruct b as [|beta b]; [simpl in Hb; lia|]. cbn [rd nth_error bind].
  exists (run_bound fo (td_val td d e 0) (td_val td d e (M - 1)) beta), beta. split; [reflexivity|]. split; [reflexivity|]. split; [apply run_bound_ok|].
  intros Ha k Hk. destruct (Ha k Hk). eapply run_bound_dominates; eauto. apply run_bound_ok.
Qed.

Lemma concat_nth M (f : nat -> nat -> F) n i k : i < n -> k < M -> nth_error (flat_map (fun i => map (f i) (seq 0 M)) (seq 0 n)) (i * M + k) = Some (f i k).
Proof.
  intros Hi Hk. induction n; [lia|]. rewrite seq_S, flat_map_app. simpl flat_map. rewrite app_nil_r.
  assert (LL : length (flat_map (fun i => map (f i) (seq 0 M)) (seq 0 n)) = n * M).
  { clear. assert (G : forall l, length (flat_map (fun i => map (f i) (seq 0 M)) l) = length l * M).
    { induction l; simpl; auto. rewrite app_length, map_length, seq_length, IHl. reflexivity. }
    now rewrite G, seq_length. }
  destruct (Nat.eq_dec i n) as [->|Hne].
  - rewrite nth_error_app2 by (rewrite LL; lia). rewrite LL. replace (n * M + k - n * M) with k by lia.
    rewrite nth_error_map, nth_error_nth' with (d := 0) by (rewrite seq_length; lia). now rewrite seq_nth by lia.
  - rewrite nth_error_app1 by (rewrite LL; nia). apply IHn. lia.
Qed.

Theorem lanczos2_bound M nv s d e b x : 0 < M -> 0 < nv -> d_mlanczos L M (Some nv) (cm_dla s) = Ok (d, e, b, x) ->
  nv * M <= length d -> nv * M <= length e -> nv <= length b ->
  exists u theta tau rv, cm_lanczos2 fo td L M nv s = Ok (u, theta, tau, rv, mk_cm (cm_locked s) x) /\
    (forall i k, i < nv -> k < M -> nth_error theta (i * M + k) = Some (ritz td d e M i k)) /\ length theta = nv * M /\
    (forall i, i < nv -> exists v beta, nth_error b i = Some beta /\ is_run_bound fo (ritz td d e M i 0) (ritz td d e M i (M - 1)) beta v /\ le v u) /\
    (exists i beta, i < nv /\ nth_error b i = Some beta /\ is_run_bound fo (ritz td d e M i 0) (ritz td d e M i (M - 1)) beta u) /\
    ((forall i k, i < nv -> k < M -> le (ritz td d e M i 0) (ritz td d e M i k) /\ le (ritz td d e M i k) (ritz td d e M i (M - 1))) ->
     Forall (fun t => le (f_abs fo t) u) theta).
Proof.
  intros HM Hn E Hd He Hb. unfold cm_lanczos2. rewrite E. cbn [bind].
  set (th n := flat_map (fun i => map (ritz td d e M i) (seq 0 M)) (seq 0 n)).
  match goal with |- context [for_ nv 0 ?f ?s0] => set (body := f); set (init := s0) end.
  destruct (for_run (fun n acc => fst (fst acc) = th n) (fun acc => fst (fst acc) = th nv) body nv 0 init) as ([[th' ta'] rv'] & E1 & P1); auto.
  { intros n [[t1 t2] t3] Hk Ht. simpl in Ht. subst t1. unfold body.
    rewrite get_range_ok by nia. cbn [bind]. rewrite get_range_ok by nia. cbn [bind].
    assert (G : forall rv, length rv = M * M -> forall l, (forall k, In k l -> k < M) -> exists ti, fold_right (fun k acc => let! l := acc in let! y := rd rv (k * M) in
        Ok (f_mul fo (f_abs fo y) (f_abs fo y) :: l)) (Ok []) l = Ok ti).
    { intros rv Hrv. induction l; intros Hl; [eexists; reflexivity|]. destruct IHl as [ti Hti]; [intros; apply Hl; now right|].
      cbn [fold_right]. rewrite Hti. cbn [bind]. assert (a < M) by (apply Hl; now left).
      destruct (nth_error rv (a * M)) eqn:Er; [|apply nth_error_None in Er; nia]. unfold rd. rewrite Er. cbn [bind]. eauto. }
    destruct (G (map (td_vec td (firstn M (skipn (n * M) d)) (firstn M (skipn (n * M) e))) (seq 0 (M * M))) ltac:(now rewrite map_length, seq_length) (seq 0 M)) as [ti Hti];
      [intros k Hk'; apply in_seq in Hk'; lia|]. rewrite Hti; cbn [bind].
    eexists. split; [reflexivity|]. cbn [fst]. unfold th. rewrite seq_S, flat_map_app. simpl flat_map. rewrite app_nil_r. reflexivity. }
  rewrite E1. cbn [bind]. simpl in P1. subst th'.
  assert (T : forall i k, i < nv -> k < M -> nth_error (th nv) (i * M + k) = Some (ritz td d e M i k)) by (intros; now apply concat_nth).
  assert (R : forall i k, i < nv -> k < M -> rd (th nv) (i * M + k) = Ok (ritz td d e M i k)) by (intros; apply rd_ok; auto).
  assert (B : forall i, i < nv -> exists beta, nth_error b i = Some beta).
  { intros i Hi. destruct (nth_error b i) eqn:Eb; eauto. apply nth_error_None in Eb. lia. }
  pose proof (R 0 0 ltac:(lia) ltac:(lia)) as R0. pose proof (R 0 (M - 1) ltac:(lia) ltac:(lia)) as R1. rewrite !Nat.mul_0_l, !Nat.add_0_l in *.
  rewrite R0, R1. cbn [bind]. destruct (B 0 Hn) as [b0 Hb0]. rewrite (proj2 (rd_ok b 0 b0) Hb0). cbn [bind].
  set (bnd i := run_bound fo (ritz td d e M i 0) (ritz td d e M i (M - 1))).
  destruct (for_run (fun n u => (forall i, i < n -> exists beta, nth_error b i = Some beta /\ le (bnd i beta) u) /\ exists i beta, i < n /\ nth_error b i = Some beta /\ u = bnd i beta)
     (fun u => (forall i, i < nv -> exists beta, nth_error b i = Some beta /\ le (bnd i beta) u) /\ exists i beta, i < nv /\ nth_error b i = Some beta /\ u = bnd i beta)
     (fun i ub => let! x0 := rd (th nv) (i * M) in let! x1 := rd (th nv) ((i + 1) * M - 1) in let! bi := rd b i in Ok (fmax fo (run_bound fo x0 x1 bi) ub))
     (nv - 1) 1 (bnd 0 b0)) as (u & E2 & P2 & P3).
  { split.
    - intros i Hi. assert (i = 0) by lia. subst. exists b0. split; auto. apply le_refl.
    - exists 0, b0. auto. }
  { intros n u Hk (Q1 & i & beta & Hi & Hbi & ->). pose proof (R n 0 ltac:(lia) ltac:(lia)) as S0. rewrite Nat.add_0_r in S0. rewrite S0. cbn [bind].
    pose proof (R n (M - 1) ltac:(lia) ltac:(lia)) as S1. replace (n * M + (M - 1)) with ((n + 1) * M - 1) in S1 by lia. rewrite S1. cbn [bind].
    destruct (B n ltac:(lia)) as [bn Hbn]. rewrite (proj2 (rd_ok b n bn) Hbn). cbn [bind]. eexists. split; [reflexivity|]. split.
    - intros i' Hi'. destruct (Nat.eq_dec i' n) as [->|Hne].
      + exists bn. split; auto. apply fmax_l.
      + destruct (Q1 i' ltac:(lia)) as (bt & Hbt & Hle). exists bt. split; auto. eapply (or_trans fo OR); [exact Hle|apply fmax_r].
    - destruct (fmax_or (run_bound fo (ritz td d e M n 0) (ritz td d e M n (M - 1)) bn) (bnd i beta)) as [->| ->].
      + exists n, bn. split; [lia|]. auto.
      + exists i, beta. split; [lia|]. auto. }
  { intros u Hu. replace (1 + (nv - 1)) with nv in Hu by lia. exact Hu. }
  unfold bnd in E2 at 1. rewrite E2. cbn [bind]. exists u, (th nv), ta', rv'. split; [reflexivity|]. split; [exact T|]. split.
  { unfold th. clear. assert (G : forall l, length (flat_map (fun i => map (ritz td d e M i) (seq 0 M)) l) = length l * M).
    { induction l; simpl; auto. rewrite app_length, map_length, seq_length, IHl. reflexivity. }
    now rewrite G, seq_length. }
  split; [|split].
  - intros i Hi. destruct (P2 i Hi) as (beta & Hbe & Hle). exists (bnd i beta), beta. split; auto. split; auto. apply run_bound_ok.
  - destruct P3 as (i & beta & Hi & Hbe & ->). exists i, beta. split; auto. split; auto. apply run_bound_ok.
  - intros Ha. apply Forall_forall. intros t Ht. unfold th in Ht. apply in_flat_map in Ht as (i & Hi & Ht). apply in_seq in Hi. apply in_map_iff in Ht as (k & <- & Hk).
    apply in_seq in Hk. destruct (P2 i ltac:(lia)) as (beta & Hbe & Hle). destruct (Ha i k ltac:(lia) ltac:(lia)).
    eapply (or_trans fo OR); [|exact Hle]. eapply run_bound_dominates; eauto. apply run_bound_ok.
Qed.
End Lanczos.

(** rational numbers are ordered *)
Lemma qlt_spec a b : qlt a b = true <-> (a < b)%Q.
Proof. unfold qlt. rewrite Qlt_alt. destruct (a ?= b)%Q; split; congruence. Qed.
Lemma qle_spec a b : le qf a b <-> (a <= b)%Q.
Proof. unfold le. cbn [qf f_lt]. destruct (qlt b a) eqn:E; [apply qlt_spec in E|]; split; intros H; try discriminate; auto.
  - apply Qle_not_lt in H. contradiction.
  - apply Qnot_lt_le. intros C. apply qlt_spec in C. congruence.
Qed.
Lemma qabs_spec a : (0 <= a)%Q /\ f_abs qf a = a \/ (a < 0)%Q /\ f_abs qf a = Qopp a.
Proof.
  cbn [qf f_abs]. destruct (qlt a 0) eqn:E; [right|left]; split; auto; [now apply qlt_spec|]. apply Qnot_lt_le. intros C. apply qlt_spec in C. congruence.
Qed.
From Coq Require Import Lqa.
Lemma qf_ordered : ordered qf.
Proof.
  constructor; intros; rewrite ?qle_spec in *.
  - destruct (Qlt_le_dec a b); [left; lra|right; lra].
  - lra.
  - cbn [qf f_add f_zero] in *. rewrite Qred_correct. lra.
  - cbn [qf f_zero]. destruct (qabs_spec a) as [[? ->]|[? ->]]; lra.
  - destruct (qabs_spec lo) as [[? ->]|[? ->]]; destruct (qabs_spec x) as [[? ->]|[? ->]]; destruct (qabs_spec hi) as [[? ->]|[? ->]]; lra.
Qed.
(** diag(1, 2, 3) and a start vector that is the first unit vector: one step gives the bound 1 *)
Definition td1 : tridiag Q := mk_td _ (fun d _ k => nth k d 0%Q) (fun _ _ _ => 1%Q).
Lemma bound_too_small : exists u s', cm_lanczos1 qf td1 (colD qf seqB true 2) 1 (mk_cm 0 (mpi_state seqB 1 1 H3 [[1; 0; 0]; [0; 1; 0]]%Q)) = Ok (u, s') /\
  b_mulN seqB H3 [0; 0; 1]%Q = b_scal seqB 3%Q [0; 0; 1]%Q /\ (u < 3)%Q.
Proof. eexists _, _. vm_compute. repeat split. Qed.
