(** The memory a whole Solve leaves behind, from the grammar of its calls. *)
From Coq Require Import List Arith Bool Lia Permutation.
Require Import Verif.Base Verif.AlgModel Verif.AlgSpec Verif.AlgTrace Verif.AlgTraceProofs Verif.MemModel Verif.MemSpec Verif.MemLife.
Import ListNotations.

Section Log.
Context {F : Type} (b : backend) (g : dims).
Definition lz_of (c : call F) : nat := match c with CLanczos1 m => leak b g (MLanczos 1 m) | CLanczos2 m nv => leak b g (MLanczos nv m) | _ => 0 end.
Definition lz (log : list (call F)) : nat := list_sum (map lz_of log).
Definition dos_of (c : call F) : list nat := match c with CDos i m => [m * i] | _ => [] end.

Lemma lz_app l m : lz (l ++ m) = lz l + lz m.
Proof. unfold lz. now rewrite map_app, list_sum_app. Qed.
Lemma sum_cons a l : list_sum (a :: l) = a + list_sum l. Proof. reflexivity. Qed.

Lemma expands_leak log ms : expands log ms ->
  list_sum (map (leak b g) ms) = lz log + match b with KInpl => g_N g * swaps log | KCuda => diag_sums ms | _ => 0 end.
Proof.
  assert (D : forall l m, diag_sums (l ++ m) = diag_sums l + diag_sums m) by (intros; unfold diag_sums; now rewrite filter_app, app_length).
  induction 1 as [|c l log ms Hc He IH]; [unfold lz, swaps, diag_sums; cbn; destruct b; lia|].
  assert (S : swaps (c :: log) = (match c with CSwap _ _ => 1 | _ => 0 end) + swaps log) by (unfold swaps; destruct c; reflexivity).
  rewrite map_app, list_sum_app, IH, S, D. unfold lz. cbn [map]. rewrite sum_cons.
  destruct c; cbn [mem_calls] in Hc; try (subst l; cbn [map]; rewrite ?sum_cons; unfold diag_sums; cbn [lz_of leak list_sum fold_right filter length]; destruct b; cbn [leak]; lia).
  destruct Hc as [<-|[<-|[<-|[<-|[]]]]]; cbn [map]; rewrite ?sum_cons; unfold diag_sums; cbn [lz_of leak list_sum fold_right filter length]; destruct b; cbn [leak]; lia.
Qed.
Lemma expands_dos (log : list (call F)) ms : expands log ms -> dos_sizes ms = flat_map dos_of log.
Proof.
  induction 1 as [|c l log ms Hc He IH]; auto. unfold dos_sizes in *. rewrite flat_map_app, IH. cbn [flat_map].
  f_equal. destruct c; cbn [mem_calls] in Hc; try (subst l; reflexivity).
  destruct Hc as [<-|[<-|[<-|[<-|[]]]]]; reflexivity.
Qed.

Lemma lz_swaps off sw : lz (swap_calls off sw) = 0 /\ flat_map dos_of (swap_calls off sw) = [].
Proof. unfold lz, swap_calls. induction sw as [|p sw [IH1 IH2]]; auto. Qed.
Lemma lz_iter fo ub (r : iter_rec F) : lz (iter_calls fo ub r) = 0 /\ flat_map dos_of (iter_calls fo ub r) = [].
Proof.
  unfold iter_calls, filter_calls. cbv zeta. rewrite !lz_app, !flat_map_app.
  destruct (lz_swaps (it_locked r) (it_sw1 r)) as [-> ->]. destruct (lz_swaps (it_locked r) (it_sw2 r)) as [-> ->].
  assert (M : forall (f : nat -> nat) (g1 g2 : nat -> F) (o : nat -> nat) s, let l := map (fun i => CHemm (f i) (g1 i) (g2 i) (o i)) s in lz l = 0 /\ flat_map dos_of l = []).
  { intros f g1 g2 o s. unfold lz. induction s as [|i s [IH1 IH2]]; auto. }
  match goal with |- context [map (fun i => CHemm (@?f i) (@?g1 i) (@?g2 i) (@?o i)) ?s] => destruct (M f g1 g2 o s) as [M1 M2] end.
  split.
  - match goal with |- context [lz (CShift ?a ?c :: ?l)] => change (lz (CShift a c :: l)) with (lz l) end. rewrite lz_app, M1. reflexivity.
  - match goal with |- context [flat_map dos_of (CShift ?a ?c :: ?l)] => change (flat_map dos_of (CShift a c :: l)) with (flat_map dos_of l) end.
    rewrite flat_map_app, M2. reflexivity.
Qed.
Lemma lz_iters fo ub (rs : list (iter_rec F)) : lz (flat_map (iter_calls fo ub) rs) = 0 /\ flat_map dos_of (flat_map (iter_calls fo ub) rs) = [].
Proof.
  induction rs as [|r rs [IH1 IH2]]; auto. cbn [flat_map]. rewrite lz_app, flat_map_app, IH1, IH2. now destruct (lz_iter fo ub r) as [-> ->].
Qed.
Lemma lz_start fo cf sw idx : lz (start_calls fo cf sw idx) = leak b g (MLanczos (if c_approx cf then 1 else c_numlanczos cf) 0) /\
  length (flat_map dos_of (start_calls fo cf sw idx)) <= 1.
Proof.
  unfold start_calls. cbv zeta. destruct (c_approx cf).
  - split; [unfold lz; cbn; lia|cbn; lia].
  - rewrite !lz_app, !flat_map_app, !app_length. destruct (lz_swaps 0 sw) as [-> ->]. destruct (0 <? idx); split; try (unfold lz; cbn; lia); cbn; lia.
Qed.

Lemma solve_mem {St} fo (K : kernel F St) sort_idx : (forall keys, Permutation (sort_idx keys) (seq 0 (length keys))) ->
  forall fsort cf k ritzv resid o s ms, conf_ok cf -> solve fo (logK K) fsort sort_idx cf ([], k) ritzv resid = Ok o -> o_exit o = Some s ->
  expands (fst (o_k o)) ms ->
  list_sum (map (leak b g) ms) = leak b g (MLanczos (if c_approx cf then 1 else c_numlanczos cf) 0) +
     match b with KInpl => g_N g * swaps (fst (o_k o)) | KCuda => diag_sums ms | _ => 0 end /\
  dos_fit b ms.
Proof.
  intros Hp fsort cf k ritzv resid o s ms HC H Ho He.
  destruct (solve_log fo K sort_idx Hp fsort cf ([], k) ritzv resid o s HC H Ho) as (ub & rs & sw & idx & sw' & _ & _ & _ & E).
  cbn [fst app] in E. destruct (lz_start fo cf sw idx) as [S1 S2]. destruct (lz_iters fo ub rs) as [I1 I2]. destruct (lz_swaps 0 sw') as [W1 W2].
  assert (L : lz (fst (o_k o)) = leak b g (MLanczos (if c_approx cf then 1 else c_numlanczos cf) 0)).
  { rewrite E. rewrite !lz_app, S1, I1, W1. destruct (c_symcheck cf); unfold lz; cbn; lia. }
  split; [rewrite (expands_leak _ _ He), L; reflexivity|].
  unfold dos_fit. destruct b as [| | | |[]]; auto. rewrite (expands_dos _ _ He), E. rewrite !flat_map_app, I2, W2. cbn [app].
  replace (flat_map dos_of (if c_symcheck cf then [CSym] else [])) with (@nil nat) by (now destruct (c_symcheck cf)). cbn [app flat_map dos_of].
  rewrite app_nil_r. intros x. destruct (flat_map dos_of (start_calls fo cf sw idx)) as [|a [|a' l]]; cbn in *; [tauto| |lia]. intros [<-|[]]. auto.
Qed.
End Log.

Section Thms.
Context (k : backend) (g : dims) (h : heap) (pP pH pV pR : nat).
Hypotheses (VH : valid h pH) (VV : valid h pV) (VR : valid h pR).
Hypothesis HP : is_mpi k = true -> exists len, nth_error (hp_blk h) pP = Some (mk_blk Host len true).
Lemma life_safe_ calls : dos_fit k calls -> exists h', life k g pP pH pV pR calls h = Ok h' /\
    firstn (length (hp_blk h)) (hp_blk h') = if is_mpi k then freed pP (hp_blk h) else hp_blk h.
Proof. intros D. destruct (life_good k g h pH pV pR VH VV VR pP calls HP D) as (h' & E & _ & O). eauto. Qed.
Lemma life_leak_ calls : dos_fit k calls -> exists h', life k g pP pH pV pR calls h = Ok h' /\
    left_over (length (hp_blk h)) h' = leak0 k g + list_sum (map (leak k g) calls).
Proof. intros D. destruct (life_good k g h pH pV pR VH VV VR pP calls HP D) as (h' & E & L & _). eauto. Qed.
Lemma life_ub_iff_ calls : life k g pP pH pV pR calls h = UB <-> ~ dos_fit k calls.
Proof.
  split; [|now apply life_bad]. intros E D. destruct (life_safe_ calls D) as (h' & E' & _). congruence.
Qed.
Lemma leak_pos calls nv M : In (MLanczos nv M) calls -> 0 < nv -> 0 < g_N g -> 0 < g_m g -> 0 < list_sum (map (leak k g) calls).
Proof.
  intros Hi H1 H2 H3. induction calls as [|c l IH]; [destruct Hi|]. cbn [map]. rewrite sum_cons. destruct Hi as [->|Hi]; [|specialize (IH Hi); lia].
  assert (0 < leak k g (MLanczos nv M)); [|lia]. unfold leak. destruct k; nia.
Qed.
Lemma dos_fit_of_ok calls h' : life k g pP pH pV pR calls h = Ok h' -> dos_fit k calls.
Proof.
  intros E. destruct k as [| | | |[]] eqn:Ek; cbn; auto.
  assert (D : (forall s, In s (dos_sizes calls) -> s <= hd 0 (dos_sizes calls)) \/ ~ (forall s, In s (dos_sizes calls) -> s <= hd 0 (dos_sizes calls))).
  { generalize (hd 0 (dos_sizes calls)). generalize (dos_sizes calls). clear. intros l m. induction l as [|a l IH]; [left; intros s []|].
    destruct (le_dec a m) as [L|L]; [|right; intros H; apply L, H; now left].
    destruct IH as [IH|IH]; [left; intros s [<-|Hs]; auto|]. right. intros H. apply IH. intros s Hs. apply H. now right. }
  destruct D as [D|D]; auto. exfalso. rewrite <- Ek in *. rewrite (life_bad k g h pH pV pR VH VV VR pP calls) in E; [discriminate|].
  rewrite Ek. exact D.
Qed.
Lemma always_leaks_ calls h' nv M : life k g pP pH pV pR calls h = Ok h' -> In (MLanczos nv M) calls -> 0 < nv -> 0 < g_N g -> 0 < g_m g ->
  0 < left_over (length (hp_blk h)) h'.
Proof.
  intros E Hi H1 H2 H3. destruct (life_leak_ calls (dos_fit_of_ok calls h' E)) as (h2 & E2 & L). assert (h2 = h') as -> by congruence.
  rewrite L. pose proof (leak_pos calls nv M Hi H1 H2 H3). lia.
Qed.
Lemma life_clean_ calls : dos_fit k calls -> leak0 k g = 0 -> (forall c, In c calls -> leak k g c = 0) ->
  exists h', life k g pP pH pV pR calls h = Ok h' /\ left_over (length (hp_blk h)) h' = 0.
Proof.
  intros D L0 Hc. destruct (life_leak_ calls D) as (h' & E & L). exists h'. split; auto. rewrite L, L0. cbn.
  clear - Hc. induction calls as [|c l IH]; auto. cbn [map]. rewrite sum_cons, (Hc c), IH; auto; [|now left]. intros d Hd. apply Hc. now right.
Qed.
Lemma solve_leak_ {F St} (fo : fops F) (K : kernel F St) sort_idx : (forall keys, Permutation (sort_idx keys) (seq 0 (length keys))) ->
  forall fsort cf k0 ritzv resid o s calls, conf_ok cf ->
  solve fo (logK K) fsort sort_idx cf ([], k0) ritzv resid = Ok o -> o_exit o = Some s -> expands (fst (o_k o)) calls ->
  let nv := if c_approx cf then 1 else c_numlanczos cf in
  exists h', life k g pP pH pV pR calls h = Ok h' /\ left_over (length (hp_blk h)) h' =
    match k with
    | KSeq => 3 * (g_N g * nv)
    | KInpl => 3 * (g_N g * nv) + g_N g * swaps (fst (o_k o))
    | KCuda => 3 * (g_N g * nv) + diag_sums calls
    | KMpi => 3 * (g_m g * nv) + g_n g * nv
    | KMgpu _ => g_m g + g_n g + 2 * (3 * (g_m g * nv) + g_n g * nv)
    end.
Proof.
  intros Hp fsort cf k0 ritzv resid o s calls HC H Ho He nv.
  destruct (solve_mem k g fo K sort_idx Hp fsort cf k0 ritzv resid o s calls HC H Ho He) as [S D].
  destruct (life_leak_ calls D) as (h' & E & L). exists h'. split; auto. rewrite L, S. fold nv. unfold leak0, leak. destruct k; lia.
Qed.
End Thms.

Lemma life_safe : forall k g h pP pH pV pR calls, valid h pH -> valid h pV -> valid h pR ->
  (is_mpi k = true -> exists len, nth_error (hp_blk h) pP = Some (mk_blk Host len true)) -> dos_fit k calls ->
  exists h', life k g pP pH pV pR calls h = Ok h' /\
    firstn (length (hp_blk h)) (hp_blk h') = if is_mpi k then freed pP (hp_blk h) else hp_blk h.
Proof. intros. now apply life_safe_. Qed.
Lemma life_ub_iff : forall k g h pP pH pV pR calls, valid h pH -> valid h pV -> valid h pR ->
  (is_mpi k = true -> exists len, nth_error (hp_blk h) pP = Some (mk_blk Host len true)) ->
  (life k g pP pH pV pR calls h = UB <-> ~ dos_fit k calls).
Proof. intros. now apply life_ub_iff_. Qed.
Lemma life_leak : forall k g h pP pH pV pR calls, valid h pH -> valid h pV -> valid h pR ->
  (is_mpi k = true -> exists len, nth_error (hp_blk h) pP = Some (mk_blk Host len true)) -> dos_fit k calls ->
  exists h', life k g pP pH pV pR calls h = Ok h' /\
    left_over (length (hp_blk h)) h' = leak0 k g + list_sum (map (leak k g) calls).
Proof. intros. now apply life_leak_. Qed.
Lemma always_leaks : forall k g h pP pH pV pR calls h' nv M, valid h pH -> valid h pV -> valid h pR ->
  (is_mpi k = true -> exists len, nth_error (hp_blk h) pP = Some (mk_blk Host len true)) ->
  life k g pP pH pV pR calls h = Ok h' -> In (MLanczos nv M) calls -> 0 < nv -> 0 < g_N g -> 0 < g_m g ->
  0 < left_over (length (hp_blk h)) h'.
Proof. intros k g h pP pH pV pR calls h' nv M A B C D E I. now apply (always_leaks_ k g h pP pH pV pR A B C D calls h' nv M E I). Qed.
Lemma life_clean : forall k g h pP pH pV pR calls, valid h pH -> valid h pV -> valid h pR ->
  (is_mpi k = true -> exists len, nth_error (hp_blk h) pP = Some (mk_blk Host len true)) -> dos_fit k calls ->
  leak0 k g = 0 -> (forall c, In c calls -> leak k g c = 0) ->
  exists h', life k g pP pH pV pR calls h = Ok h' /\ left_over (length (hp_blk h)) h' = 0.
Proof. intros. now apply life_clean_. Qed.
Lemma solve_leak : forall (F St : Type) (fo : fops F) (K : kernel F St) sort_idx,
  (forall keys, Permutation (sort_idx keys) (seq 0 (length keys))) ->
  forall fsort cf k0 ritzv resid o s calls, conf_ok cf ->
  solve fo (logK K) fsort sort_idx cf ([], k0) ritzv resid = Ok o -> o_exit o = Some s -> expands (fst (o_k o)) calls ->
  forall k g h pP pH pV pR, valid h pH -> valid h pV -> valid h pR ->
  (is_mpi k = true -> exists len, nth_error (hp_blk h) pP = Some (mk_blk Host len true)) ->
  let nv := if c_approx cf then 1 else c_numlanczos cf in
  exists h', life k g pP pH pV pR calls h = Ok h' /\ left_over (length (hp_blk h)) h' =
    match k with
    | KSeq => 3 * (g_N g * nv)
    | KInpl => 3 * (g_N g * nv) + g_N g * swaps (fst (o_k o))
    | KCuda => 3 * (g_N g * nv) + diag_sums calls
    | KMpi => 3 * (g_m g * nv) + g_n g * nv
    | KMgpu _ => g_m g + g_n g + 2 * (3 * (g_m g * nv) + g_n g * nv)
    end.
Proof. intros. eapply solve_leak_; eauto. Qed.
Lemma solve_safe : forall (F St : Type) (fo : fops F) (K : kernel F St) sort_idx,
  (forall keys, Permutation (sort_idx keys) (seq 0 (length keys))) ->
  forall fsort cf k0 ritzv resid o s calls, conf_ok cf ->
  solve fo (logK K) fsort sort_idx cf ([], k0) ritzv resid = Ok o -> o_exit o = Some s -> expands (fst (o_k o)) calls ->
  forall k g h pP pH pV pR, valid h pH -> valid h pV -> valid h pR ->
  (is_mpi k = true -> exists len, nth_error (hp_blk h) pP = Some (mk_blk Host len true)) ->
  exists h', life k g pP pH pV pR calls h = Ok h'.
Proof.
  intros. destruct (solve_leak F St fo K sort_idx H fsort cf k0 ritzv resid o s calls H0 H1 H2 H3 k g h pP pH pV pR H4 H5 H6 H7) as (h' & E & _). eauto.
Qed.
Lemma shared_bad : forall k g g' h pP pH pV pR calls calls' h', is_mpi k = true ->
  valid h pH -> valid h pV -> valid h pR -> ~ In pP [pH; pV; pR] -> (exists len, nth_error (hp_blk h) pP = Some (mk_blk Host len true)) ->
  life k g pP pH pV pR calls h = Ok h' -> life k g' pP pH pV pR calls' h' = UB.
Proof.
  intros k g g' h pP pH pV pR calls calls' h' M VH VV VR Hn HP E.
  destruct (life_safe k g h pP pH pV pR calls VH VV VR (fun _ => HP) (dos_fit_of_ok k g h pP pH pV pR VH VV VR (fun _ => HP) calls h' E)) as (h2 & E2 & O).
  assert (h2 = h') as -> by congruence. rewrite M in O. destruct HP as (len & Hp). unfold freed in O. rewrite Hp in O. cbn [bk_kind bk_len] in O.
  assert (N : forall i, nth_error (firstn (length (hp_blk h)) (hp_blk h')) i <> None -> nth_error (hp_blk h') i = nth_error (firstn (length (hp_blk h)) (hp_blk h')) i).
  { intros i Hi. apply nth_error_Some in Hi. rewrite <- (firstn_skipn (length (hp_blk h)) (hp_blk h')) at 1. now rewrite nth_error_app1. }
  rewrite O in N.
  assert (V : forall p, p <> pP -> valid h p -> valid h' p).
  { intros p Np (x & Hx & Hl). exists x. split; auto. rewrite N; rewrite upd_other by auto; [auto|congruence]. }
  assert (Lp : pP < length (hp_blk h)) by (apply nth_error_Some; congruence).
  apply life_reuse; auto; try (apply V; auto; intros ->; apply Hn; cbn; auto).
  eexists. split; [rewrite N; rewrite upd_same by auto; [reflexivity|discriminate]|reflexivity].
Qed.
Lemma second_solve_bad : ~ (forall g h pP pH pV pR calls, valid h pH -> valid h pV -> valid h pR ->
  (exists len, nth_error (hp_blk h) pP = Some (mk_blk Host len true)) -> life (KMgpu true) g pP pH pV pR calls h <> UB).
Proof.
  intros H. set (h := mk_hp [mk_blk Host 36 true; mk_blk Host 18 true; mk_blk Host 3 true; mk_blk Host 1 true] []).
  apply (H (mk_dims 6 4 3 2 1 true 0 1 3 false) h 3 0 1 2 [MLanczos 4 3; MDos 1 3; MSwap; MLanczos 4 3; MDos 2 3; MSwap]).
  1-3: eexists; split; reflexivity.
  - eexists. reflexivity.
  - apply life_ub_iff; [eexists; split; reflexivity..| |].
    + intros _. eexists. reflexivity.
    + cbn. intros K. specialize (K 6 (or_intror (or_introl eq_refl))). lia.
Qed.
