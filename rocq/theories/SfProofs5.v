(** Whole runs of the memory-level backend. *)
From Coq Require Import List Arith ZArith Bool Lia Permutation.
Require Import Verif.Base Verif.AlgModel Verif.AlgSpec Verif.AlgProofs1 Verif.AlgProofs2 Verif.AlgProofs6 Verif.AlgSim Verif.DlaModel Verif.DlaSim Verif.ColModel Verif.ColSpec Verif.ColProofs1
  Verif.ColProofs3 Verif.SfModel Verif.SfSpec Verif.SfProofs1 Verif.SfProofs2 Verif.SfProofs3 Verif.SfProofs4.
Import ListNotations.

Lemma skipn_two {A} a b (l : list A) : skipn a (skipn b l) = skipn (b + a) l.
Proof. revert l. induction b; intros l; cbn; auto. destruct l; [now destruct a|apply IHb]. Qed.

(** a kernel simulated by a safe kernel is safe *)
Lemma safe_rel {F S1 S2} (K1 : kernel F S1) (K2 : kernel F S2) R n I0 I : kernel_rel K1 K2 R -> kernel_safe K2 n I0 I ->
  kernel_safe K1 n (fun s => exists t, R s t /\ I0 t) (fun l s => exists t, R s t /\ I l t).
Proof.
  intros KR KS.
  assert (X : forall (x : res S1) (y : res S2) (P : S2 -> Prop), rel_res R x y -> (exists t, y = Ok t /\ P t) -> exists s, x = Ok s /\ exists t, R s t /\ P t).
  { intros x y P H (t & -> & Pt). destruct x as [s| |]; try easy. exists s. split; eauto. }
  split.
  - intros s (t & H & Ht). destruct (ks_sym _ _ _ _ KS t Ht) as (b & t' & E & Ht'). pose proof (kr_sym _ _ _ KR _ _ H) as G. rewrite E in G.
    destruct (k_sym K1 s) as [[b' s']| |]; try easy. destruct G as [G1 G2]. cbn in *. exists b', s'. split; [reflexivity|]. exists t'. auto.
  - intros s (t & H & Ht). eapply X; [eapply (kr_start _ _ _ KR); exact H|]. now apply (ks_start _ _ _ _ KS).
  - intros r s (t & H & Ht). eapply X; [eapply (kr_init _ _ _ KR); exact H|]. now apply (ks_init _ _ _ _ KS).
  - intros l c u s (t & H & Ht). eapply X; [eapply (kr_shift _ _ _ KR); exact H|]. now apply (ks_shift _ _ _ _ KS).
  - intros l k a b off s (t & H & Ht) L. eapply X; [eapply (kr_hemm _ _ _ KR); exact H|]. now apply (ks_hemm _ _ _ _ KS).
  - intros l c s (t & H & Ht). eapply X; [eapply (kr_qr _ _ _ KR); exact H|]. now apply (ks_qr _ _ _ _ KS).
  - intros l s (t & H & Ht) L. destruct (ks_rr _ _ _ _ KS l t Ht L) as (v & t' & E & Lv & Ht'). pose proof (kr_rr _ _ _ KR (n - l) _ _ H) as G. rewrite E in G.
    destruct (k_rr K1 (n - l) s) as [[v' s']| |]; try easy. destruct G as [G1 G2]. cbn in *. subst. do 2 eexists. repeat (split; [now eauto|]). eauto.
  - intros l v s (t & H & Ht) L Lv. destruct (ks_resd _ _ _ _ KS l v t Ht L Lv) as (r & t' & E & Lr & Ht'). pose proof (kr_resd _ _ _ KR v l _ _ H) as G. rewrite E in G.
    destruct (k_resd K1 v l s) as [[r' s']| |]; try easy. destruct G as [G1 G2]. cbn in *. subst. do 2 eexists. repeat (split; [now eauto|]). eauto.
  - intros l i j s (t & H & Ht) Hi Hj. eapply X; [eapply (kr_swap _ _ _ KR); exact H|]. now apply (ks_swap _ _ _ _ KS).
  - intros l k s (t & H & Ht) L. eapply X; [eapply (kr_lock _ _ _ KR); exact H|]. now apply (ks_lock _ _ _ _ KS).
  - intros m s (t & H & Ht) L. destruct (ks_lanczos1 _ _ _ _ KS m t Ht L) as (u & t' & E & Ht'). pose proof (kr_lanczos1 _ _ _ KR m _ _ H) as G. rewrite E in G.
    destruct (k_lanczos1 K1 m s) as [[u' s']| |]; try easy. destruct G as [G1 G2]. cbn in *. subst. do 2 eexists. repeat (split; [now eauto|]). eauto.
  - intros m nv s (t & H & Ht) L L'. destruct (ks_lanczos2 _ _ _ _ KS m nv t Ht L L') as (u & th & ta & rv & t' & E & L1 & L2 & L3 & Ht').
    pose proof (kr_lanczos2 _ _ _ KR m nv _ _ H) as G. rewrite E in G.
    destruct (k_lanczos2 K1 m nv s) as [[[[[u' th'] ta'] rv'] s']| |]; try easy. destruct G as [G1 G2]. cbn in *. injection G1 as -> -> -> ->.
    do 5 eexists. split; [reflexivity|]. eauto 10.
  - intros idx m rv s (t & H & Ht) A B C D. eapply X; [eapply (kr_dos _ _ _ KR); exact H|]. now apply (ks_dos _ _ _ _ KS).
  - intros l s (t & H & Ht). eapply X; [eapply (kr_end _ _ _ KR); exact H|]. now apply (ks_end _ _ _ _ KS).
Qed.

Section Thm.
Context {F T : Type} (fo : fops F) (lib : flib F T) (qe : qr_env F) (td : tridiag F) (cf : conf F) (N ldh : nat).
Local Notation nev := (c_nev cf). Local Notation nex := (c_nex cf). Local Notation n := (c_nev cf + c_nex cf).
Local Notation z := (l_zero lib).
Local Notation bl := (col_blas fo lib N).
Local Notation fK := (cmK fo qe td (flatD fo lib N ldh n) nev nex).
Local Notation cK := (cmK fo qe td (colD fo bl false n) nev nex).

Context (N1 : 1 <= N) (NL : N <= ldh) (H V1 : list T) (HL : (N - 1) * ldh + N <= length H) (HV : length V1 = N * n) (l0 : nat).
Local Notation f0 := (mk_cm l0 (flat_state lib N nev nex H V1)).
Local Notation c0 := (mk_cm l0 (seq_state bl nev nex (window lib N ldh H) (columns N n V1))).

Lemma packs_columns k (V : list T) : length V = N * k -> packs N V (columns N k V).
Proof.
  intros L. split.
  - revert V L. unfold columns. induction k; intros V L.
    + destruct V; auto. rewrite Nat.mul_0_r in L. discriminate.
    + rewrite <- (firstn_skipn N V) at 1. unfold tab. cbn [seq map concat]. cbn [Nat.mul skipn]. f_equal.
      rewrite <- seq_shift, map_map. rewrite (IHk (skipn N V)) at 1 by (rewrite skipn_length; lia). unfold tab. f_equal. apply map_ext.
      intros j. now rewrite skipn_two.
  - apply Forall_tab. intros i Hi. rewrite firstn_length, skipn_length. nia.
Qed.

Lemma start_rel : cmR (flat_rel lib N ldh n H) f0 c0.
Proof.
  split; [reflexivity|]. cbn [cm_dla]. unfold flat_state, seq_state. mkR.
  - now apply packs_columns.
  - unfold columns. apply tab_length.
  - apply packs_zero.
  - apply packs_zero.
  - apply packs_zero.
  - apply repeat_length.
Qed.

Theorem flat_every_call : kernel_rel fK cK (cmR (flat_rel lib N ldh n H)).
Proof. now apply flat_kernel. Qed.

Theorem flat_solve fsort si ritzv resid :
  same_run lib N ldh H (solve fo fK fsort si cf f0 ritzv resid) (solve fo cK fsort si cf c0 ritzv resid).
Proof.
  pose proof (solve_rel fo _ _ _ flat_every_call fsort si cf _ _ ritzv resid start_rel) as G.
  unfold same_run. destruct (solve fo fK fsort si cf f0 ritzv resid) as [a| |]; destruct (solve fo cK fsort si cf c0 ritzv resid) as [b| |]; try easy.
  destruct G as ([E R] & E1 & E2 & EX). sp R.
  split; [exact E1|]. split; [exact E2|]. split; [exact E|]. split; [apply HC|]. split; [apply HC|]. split; [now symmetry|]. split; [exact HlH|]. split.
  - intros p Hp. destruct (Nat.lt_ge_cases p (length H)) as [L|L].
    + rewrite (nth_error_nth' _ z) by lia. rewrite (nth_error_nth' H z) by lia. f_equal. auto.
    + transitivity (None (A := T)); [|symmetry]; apply nth_error_None; lia.
  - destruct (o_exit a), (o_exit b); try easy. destruct EX as (_ & _ & _ & _ & _ & A & _ & B & _). auto.
Qed.

Theorem flat_safe sort_idx (Hperm : forall keys, Permutation (sort_idx keys) (seq 0 (length keys))) fsort ritzv resid :
  let m := Nat.min n (Nat.min (c_N cf / 2) (c_lanczositer cf)) in
  nex <= nev -> conf_ok cf -> (forall l, length (fsort l) = length l) ->
  n <= length ritzv -> n <= length resid -> 2 <= c_N cf -> 1 <= c_lanczositer cf ->
  (c_approx cf = false -> 1 <= c_numlanczos cf <= n /\ forall k u Th Ta rv k',
     k_lanczos2 fK m (c_numlanczos cf) k = Ok (u, Th, Ta, rv, k') -> start_ok fo (fsort Th) Th Ta (c_N cf) (c_numlanczos cf) m n) ->
  (exists o, solve fo fK fsort sort_idx cf f0 ritzv resid = Ok o) \/
  (solve fo fK fsort sort_idx cf f0 ritzv resid = UB /\ degree_overflow fo fK sort_idx fsort cf f0 ritzv resid).
Proof.
  intros m Hx HC Hf L1 L2 HN HLz HA.
  pose proof (col_dla_safe fo bl false n (nev + nev) ltac:(lia)) as DS.
  pose proof (cm_safe fo qe td (colD fo bl false n) nev nex _ DS) as KS.
  pose proof (safe_rel _ _ _ _ _ _ flat_every_call KS) as FS.
  eapply (solve_safe fo fK sort_idx Hperm n _ _ FS fsort cf f0 ritzv resid); auto.
  exists c0. split; [apply start_rel|]. cbn [cm_dla]. unfold clen. cbn. rewrite !repeat_length. unfold columns. rewrite tab_length. auto.
Qed.

Theorem flat_small fsort si k0 ritzv resid : nev < nex ->
  (if c_symcheck cf then k_sym fK f0 else Ok (true, f0)) = Ok (true, k0) -> solve fo fK fsort si cf f0 ritzv resid = UB.
Proof.
  intros L E. pose proof (solve_rel fo _ _ _ flat_every_call fsort si cf _ _ ritzv resid start_rel) as G.
  assert (E' : exists c, (if c_symcheck cf then k_sym cK c0 else Ok (true, c0)) = Ok (true, c)).
  { destruct (c_symcheck cf); [|eauto]. pose proof (kr_sym _ _ _ flat_every_call _ _ start_rel) as S. rewrite E in S.
    destruct (k_sym cK c0) as [[b c]| |]; try easy. destruct S as [S _]. cbn in S. subst. eauto. }
  destruct E' as [c E']. pose proof (seq_init_small fo bl qe td cf l0 (window lib N ldh H) (columns N n V1) fsort si c ritzv resid ltac:(apply tab_length) L E') as U.
  cbv zeta in U. rewrite U in G. destruct (solve fo fK fsort si cf f0 ritzv resid); easy.
Qed.
End Thm.

(** neither the elements outside the matrix nor the initial contents of the workspace A have an influence *)
Theorem flat_padding {F T} (fo : fops F) (lib : flib F T) qe td (cf : conf F) N ldh ldh' (H H' V1 : list T) : 1 <= N -> N <= ldh -> N <= ldh' ->
  (N - 1) * ldh + N <= length H -> (N - 1) * ldh' + N <= length H' -> length V1 = N * (c_nev cf + c_nex cf) ->
  (forall i j, i < N -> j < N -> nth_error H (i + j * ldh) = nth_error H' (i + j * ldh')) ->
  forall l0 fsort si ritzv resid,
  let run ld h := solve fo (cmK fo qe td (flatD fo lib N ld (c_nev cf + c_nex cf)) (c_nev cf) (c_nex cf)) fsort si cf
                    (mk_cm l0 (flat_state lib N (c_nev cf) (c_nex cf) h V1)) ritzv resid in
  match run ldh H, run ldh' H' with
  | Ok a, Ok b => o_ritz a = o_ritz b /\ o_res a = o_res b /\ f_C (cm_dla (o_k a)) = f_C (cm_dla (o_k b)) /\
      forall i j, i < N -> j < N -> nth_error (f_H (cm_dla (o_k a))) (i + j * ldh) = nth_error (f_H (cm_dla (o_k b))) (i + j * ldh')
  | UB, UB => True | Fuel, Fuel => True | _, _ => False end.
Proof.
  intros N1 NL NL' HL HL' HV EW l0 fsort si ritzv resid run.
  assert (IN : forall i j, i < N -> j < N -> i + j * ldh < length H) by (intros; now apply (idx_in N ldh)).
  assert (IN' : forall i j, i < N -> j < N -> i + j * ldh' < length H') by (intros; now apply (idx_in N ldh')).
  assert (W : window lib N ldh H = window lib N ldh' H').
  { unfold window, tab2. apply tab_ext. intros j Hj. apply tab_ext. intros i Hi. specialize (EW i j Hi Hj).
    rewrite (nth_error_nth' H (l_zero lib)), (nth_error_nth' H' (l_zero lib)) in EW by auto. congruence. }
  pose proof (flat_solve fo lib qe td cf N ldh N1 NL H V1 HL HV l0 fsort si ritzv resid) as G.
  pose proof (flat_solve fo lib qe td cf N ldh' N1 NL' H' V1 HL' HV l0 fsort si ritzv resid) as G'.
  rewrite W in G. unfold run. unfold same_run in G, G'.
  match type of G with match _ with Ok _ => match ?y with _ => _ end | _ => _ end => destruct y as [b| |] end.
  2,3: repeat match goal with |- context [solve ?a ?b ?c ?d ?e ?f ?g ?h] => destruct (solve a b c d e f g h) end; easy.
  match type of G with match ?x with _ => _ end => destruct x as [a| |]; try easy end.
  match type of G' with match ?x with _ => _ end => destruct x as [a'| |]; try easy end.
  destruct G as (A1 & A2 & A3 & A4 & A5 & A6 & A7 & _). destruct G' as (B1 & B2 & B3 & B4 & B5 & B6 & B7 & _).
  split; [congruence|]. split; [congruence|]. split; [congruence|]. intros i j Hi Hj.
  rewrite (nth_error_nth' _ (l_zero lib)) by (rewrite A7; auto). rewrite (nth_error_nth' _ (l_zero lib)) by (rewrite B7; auto). f_equal.
  rewrite <- B6 in A6. unfold window, tab2 in A6.
  apply (f_equal (fun l => nth i (nth j l []) (l_zero lib))) in A6. rewrite !(nth_tab N _ j) in A6 by auto. now rewrite !nth_tab in A6 by auto.
Qed.
