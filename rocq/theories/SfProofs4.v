(** The methods on arrays agree with the methods on columns: mLanczos; whole runs. *)
From Coq Require Import List Arith ZArith Bool Lia.
Require Import Verif.Base Verif.AlgModel Verif.AlgSpec Verif.AlgProofs1 Verif.AlgProofs2 Verif.AlgSim Verif.DlaModel Verif.DlaSim Verif.ColModel Verif.SfModel Verif.SfSpec
  Verif.SfProofs1 Verif.SfProofs2 Verif.SfProofs3.
Import ListNotations.

Lemma rd_map {A B} (f : A -> B) l i : rd (map f l) i = let! a := rd l i in Ok (f a).
Proof. unfold rd. rewrite nth_error_map. now destruct (nth_error l i). Qed.

Section Rel.
Context {F T : Type} (fo : fops F) (lib : flib F T) (N ldh n : nat) (H0 : list T).
Context (N1 : 1 <= N) (NL : N <= ldh) (HL : (N - 1) * ldh + N <= length H0).
Local Notation z := (l_zero lib).
Local Notation f0 := (f_zero fo).
Local Notation bl := (col_blas fo lib N).
Local Notation R := (flat_rel lib N ldh n H0).
Local Notation pk := (packs (T := T) N).

Lemma len_nth buf cols i : pk buf cols -> i < length cols -> length (nth i cols []) = N.
Proof. intros H L. apply (proj1 (Forall_forall _ _) (proj2 H)). now apply nth_In. Qed.

(** transforming the columns one after the other *)
Lemma cols_loop (body : nat -> list T -> res (list T)) (y : nat -> list T) k x xs : pk x xs -> length xs = k ->
  (forall i, i < k -> length (y i) = N) ->
  (forall i b, i < k -> get_range b (i * N) N = Ok (nth i xs []) -> body i b = put_range b (i * N) (y i)) ->
  exists b, for_ k 0 body x = Ok b /\ pk b (tab k y).
Proof.
  intros H L Ly HB.
  destruct (for_inv (fun i b => pk b (tab i y ++ skipn i xs)) body k 0 x) as (b & E & Hb).
  - exact H.
  - intros i b Hi Hb. destruct (skipn_cons_ xs i) as [q Eq]; [lia|].
    assert (Eq' : q = nth i xs []). { rewrite <- (Nat.add_0_r i), <- nth_skipn, Eq. reflexivity. }
    rewrite Eq in Hb. rewrite HB; [|lia|].
    + pose proof (put1_packs N N1 _ _ i (y i) Hb (Ly i ltac:(lia))) as RP.
      rewrite wr_ok in RP by (rewrite app_length, tab_length; cbn [length]; lia). rewrite upd_mid in RP by apply tab_length.
      destruct (put_range b (i * N) (y i)) as [b'| |]; try easy. exists b'. split; auto. rewrite tab_app_S, <- app_assoc. exact RP.
    + rewrite (get1_packs N N1 _ _ _ Hb). unfold rd. rewrite nth_error_app2 by (rewrite tab_length; lia). rewrite tab_length, Nat.sub_diag. cbn. now rewrite Eq'.
  - exists b. split; auto. cbn [plus] in Hb. rewrite skipn_all2 in Hb by lia. now rewrite app_nil_r in Hb.
Qed.

Lemma nrm2_batch_ok x xs k r : pk x xs -> length xs = k -> length r = k -> nrm2_batch lib N x k r = Ok (map (l_nrm2 lib) xs).
Proof.
  intros H L Lr. unfold nrm2_batch. rewrite (fill_ok' _ (fun i => l_nrm2 lib (nth i xs []))); auto.
  - now rewrite (map_as_tab _ xs k []).
  - intros i s Hi Hs. rewrite (get1_packs N N1 _ _ _ H), (rd_nth _ _ []) by lia. reflexivity.
Qed.
Lemma dot_batch_ok x xs y ys k r : pk x xs -> length xs = k -> pk y ys -> length ys = k -> length r = k ->
  dot_batch lib N x y r k = Ok (zip (l_dot lib) xs ys).
Proof.
  intros H L H' L' Lr. unfold dot_batch. rewrite (fill_ok' _ (fun i => l_dot lib (nth i xs []) (nth i ys []))); auto.
  - now rewrite (zip_tab _ xs ys k [] []).
  - intros i s Hi Hs. rewrite (get1_packs N N1 _ _ _ H), (rd_nth _ _ []) by lia. cbn [bind]. rewrite (get1_packs N N1 _ _ _ H'), (rd_nth _ _ []) by lia. reflexivity.
Qed.
Lemma scal_batch_ok a x xs k : pk x xs -> length xs = k -> length a = k ->
  exists b, scal_batch lib N a x k = Ok b /\ pk b (zip (fun c v => map (l_scal lib c) v) a xs).
Proof.
  intros H L La. rewrite (zip_tab _ a xs k z []) by auto. unfold scal_batch. apply (cols_loop _ _ k x xs); auto.
  - intros i Hi. rewrite map_length. apply (len_nth _ _ _ H). lia.
  - intros i b Hi E. rewrite (rd_nth _ _ z) by lia. cbn [bind]. unfold scal. rewrite E. reflexivity.
Qed.
Lemma axpy_batch_ok a x xs y ys k : pk x xs -> length xs = k -> pk y ys -> length ys = k -> length a = k ->
  exists b, axpy_batch lib N a x y k = Ok b /\ pk b (zip (fun cv w => zip (l_axpy lib (fst cv)) (snd cv) w) (combine a xs) ys).
Proof.
  intros H L H' L' La. rewrite (zip_tab _ (combine a xs) ys k (z, []) []); [|rewrite combine_length; lia|auto].
  unfold axpy_batch. apply (cols_loop _ _ k y ys); auto.
  - intros i Hi. rewrite combine_nth by lia. cbn [fst snd]. rewrite zip_length. rewrite (len_nth _ _ _ H), (len_nth _ _ _ H') by lia. apply Nat.min_id.
  - intros i b Hi E. rewrite (rd_nth _ _ z) by lia. cbn [bind]. unfold axpy.
    rewrite (get1_packs N N1 _ _ _ H), (rd_nth _ _ []) by lia. cbn [bind]. rewrite E. cbn [bind]. rewrite combine_nth by lia. reflexivity.
Qed.

(** corresponding Lanczos states; [w] are the columns now in v_2 *)
Definition mlR (k : nat) (m : fml (F := F) (T := T)) (s : ml (F := F) (V := list T)) : Prop :=
  pk (m_C m) (ml_C s) /\ length (ml_C s) = n /\ pk (m_v0 m) (ml_v0 s) /\ length (ml_v0 s) = k /\ pk (m_v1 m) (ml_v1 s) /\ length (ml_v1 s) = k /\
  (exists w, pk (m_w m) w /\ length w = k) /\ m_d m = ml_d s /\ m_e m = ml_e s /\ m_b m = ml_b s /\ length (ml_b s) = k.

Lemma for_copy_rel (v1 : list T) v1c k0 q C Cc : pk v1 v1c -> pk C Cc -> length Cc = n ->
  rel_res (fun a b => pk a b /\ length b = n) (for_ q 0 (fun i C => cpy C (k0 * N) v1 (i * N) N) C) (for_ q 0 (fun i C => let! x := rd v1c i in wr C k0 x) Cc).
Proof.
  intros Hv HC L. apply rel_for with (Q := fun a b => pk a b /\ length b = n); [|now split].
  intros i a b [Hab Lb]. unfold cpy. rewrite (get1_packs N N1 _ _ _ Hv). destruct (rd v1c i) as [x| |] eqn:Ex; cbn [bind]; try exact I.
  assert (Lx : length x = N). { apply rd_ok, nth_error_In in Ex. exact (proj1 (Forall_forall _ _) (proj2 Hv) _ Ex). }
  pose proof (put1_packs N N1 _ _ k0 x Hab Lx) as G. destruct (wr b k0 x) as [b'| |] eqn:E; destruct (put_range a (k0 * N) x); try easy.
  cbn in *. split; auto. apply wr_inv in E as [_ ->]. now rewrite upd_length.
Qed.

Lemma body_rel h Hm second M k k0 m s : rdm h 0 ldh N N = Ok Hm -> mlR k m s ->
  rel_res (fun a b => mlR k a (fst b) /\ pk (m_w a) (snd b) /\ length (snd b) = k) (fm_body fo lib N ldh h second M k k0 m) (ml_body fo bl Hm second M k k0 s).
Proof.
  intros EM (HC & LC & H0' & L0 & H1 & L1 & (w & Hw & Lw) & Ed & Ee & Eb & Lb). unfold fm_body, ml_body.
  eapply rel_bind with (R := fun a b => pk a b /\ length b = n).
  { destruct second; [now split|]. now apply for_copy_rel. }
  intros C Cc [HC' LC'].
  pose proof (gemm0_rel lib N ldh N1 true k _ _ _ _ _ _ 0 0 0 0 EM H1 Hw eq_refl eq_refl) as G.
  rewrite get_all in G by auto. cbn [bind] in G. rewrite put_all in G by (rewrite map_length; lia).
  destruct (gemm0 lib true N k N h 0 ldh (m_v1 m) 0 N (m_w m) 0 N) as [w1| |]; try easy. cbn [bind]. cbn in G.
  change (fun u : list T => tab N (l_mul lib true Hm u)) with (b_mulH bl Hm) in G.
  set (v2 := map (b_mulH bl Hm) (ml_v1 s)) in *.
  assert (L2 : length v2 = k) by (unfold v2; now rewrite map_length).
  rewrite (dot_batch_ok _ _ _ _ k _ H1 L1 G L2 (repeat_length _ _)). cbn [bind].
  change (b_dot bl) with (l_dot lib). change (b_tneg bl) with (l_neg lib). change (b_re bl) with (l_re lib). change (b_inj bl) with (l_inj lib).
  change (b_axpy bl) with (fun a => zip (l_axpy lib a)). change (b_nrm2 bl) with (l_nrm2 lib).
  set (alpha := map (l_neg lib) (zip (l_dot lib) (ml_v1 s) v2)).
  assert (La : length alpha = k) by (unfold alpha; rewrite map_length, zip_length; lia).
  destruct (axpy_batch_ok alpha _ _ _ _ k H1 L1 G L2 La) as (w2 & -> & Hw2). cbn [bind].
  set (v2a := zip _ (combine alpha (ml_v1 s)) v2) in *.
  assert (L2a : length v2a = k) by (unfold v2a; rewrite zip_length, combine_length; lia).
  rewrite Ed. cbv zeta.
  assert (ED : for_ k 0 (fun i d => let! a := rd (map (l_neg lib) alpha) i in wr d (k0 + M * i) (l_re lib a)) (ml_d s) =
               for_ k 0 (fun i d => let! a := rd alpha i in wr d (k0 + M * i) (l_re lib (l_neg lib a))) (ml_d s)).
  { apply for_ext. intros i d _. rewrite rd_map. now destruct (rd alpha i). }
  rewrite ED. clear ED. rb.
  set (v2b := if k0 =? 0 then v2a else _).
  assert (G2 : exists w3, (if k0 =? 0 then Ok w2 else axpy_batch lib N (map (fun b => l_inj lib (f_neg fo b)) (m_b m)) (m_v0 m) w2 k) = Ok w3 /\ pk w3 v2b /\ length v2b = k).
  { unfold v2b. destruct (k0 =? 0); [eauto|]. rewrite Eb.
    destruct (axpy_batch_ok (map (fun b => l_inj lib (f_neg fo b)) (ml_b s)) _ _ _ _ k H0' L0 Hw2 L2a ltac:(now rewrite map_length)) as (w3 & -> & Hw3).
    exists w3. split; [reflexivity|].
    match type of Hw3 with packs _ _ ?u => match goal with |- packs _ _ ?v /\ _ => assert (EZ : u = v) end end.
    { rewrite (zip_tab _ _ _ k (z, []) []); [|rewrite combine_length, map_length; lia|auto].
      rewrite (zip_tab _ _ _ k (f0, []) []); [|rewrite combine_length; lia|auto].
      apply tab_ext. intros i Hi. rewrite !combine_nth by (rewrite ?map_length; lia). cbn [fst snd].
      rewrite (nth_indep _ z (l_inj lib (f_neg fo f0))) by (rewrite map_length; lia). now rewrite (map_nth (fun b => l_inj lib (f_neg fo b))). }
    rewrite EZ in Hw3. split; auto. rewrite zip_length, combine_length. lia. }
  destruct G2 as (w3 & -> & Hw3 & L3). cbn [bind].
  rewrite (nrm2_batch_ok _ _ k _ Hw3 L3) by congruence. cbn.
  split; [|split; auto]. unfold mlR. cbn. split; [exact HC'|]. split; [exact LC'|]. split; [exact H0'|]. split; [exact L0|]. split; [exact H1|]. split; [exact L1|].
  split; [eauto|]. split; [reflexivity|]. split; [exact Ee|]. split; [reflexivity|]. now rewrite map_length.
Qed.

Lemma next_rel M k k0 m s w : mlR k m s -> pk (m_w m) w -> length w = k -> rel_res (mlR k) (fm_next fo lib N M k k0 m) (ml_next fo bl M k k0 s w).
Proof.
  intros (HC & LC & H0' & L0 & H1 & L1 & _ & Ed & Ee & Eb & Lb) Hw Lw. unfold fm_next, ml_next. rewrite Eb.
  destruct (scal_batch_ok (map (fun b => l_inj lib (f_div fo (f_one fo) b)) (ml_b s)) _ _ k Hw Lw ltac:(now rewrite map_length)) as (w' & -> & Hw'). cbn [bind].
  rewrite Ee. rb. cbn. unfold mlR. cbn.
  set (v2s := zip _ (ml_b s) w).
  match type of Hw' with packs _ _ ?u => assert (EZ : u = v2s) end.
  { unfold v2s. rewrite (zip_tab _ _ _ k z []); [|now rewrite map_length|auto]. rewrite (zip_tab _ _ _ k f0 []); auto.
    apply tab_ext. intros i Hi.
    rewrite (nth_indep _ z (l_inj lib (f_div fo (f_one fo) f0))) by (rewrite map_length; lia). now rewrite (map_nth (fun b => l_inj lib (f_div fo (f_one fo) b))). }
  rewrite EZ in Hw'. split; [exact HC|]. split; [exact LC|]. split; [exact H1|]. split; [exact L1|]. split; [exact Hw'|].
  split; [unfold v2s; rewrite zip_length; lia|]. split; [eauto|]. split; [exact Ed|]. split; [reflexivity|]. split; [reflexivity|exact Lb].
Qed.

Lemma loop_rel h Hm second M k : rdm h 0 ldh N N = Ok Hm -> forall t k0 m s, mlR k m s ->
  rel_res (mlR k) (fm_loop fo lib N ldh t k0 h second M k m) (ml_loop fo bl t k0 Hm second M k s).
Proof.
  intros EM. induction t; intros k0 m s H; cbn [fm_loop ml_loop]; auto.
  eapply rel_bind; [now apply body_rel|]. intros m1 [s1 v2] (H1 & Hw & Lw). cbn [fst snd] in *.
  destruct t; auto. eapply rel_bind; [now apply next_rel|]. intros m2 s2 H2. now apply IHt.
Qed.

Lemma mlanczos_rel M nv f s : R f s -> rel_res (vrel R) (s_mlanczos fo lib N ldh M nv f) (c_mlanczos fo bl M nv s).
Proof.
  intros H. pose proof (rdm_H lib N ldh n H0 N1 NL HL _ _ H) as EM. sp H. unfold s_mlanczos, c_mlanczos, mlanczos.
  set (p := match nv with None => (true, 1) | Some k => (false, k) end). destruct p as [second k].
  rewrite (Nat.mul_comm N k).
  pose proof (cpy_rel N N1 _ _ _ _ 0 0 (k * N) 0 0 k (packs_zero N k z) HC eq_refl eq_refl eq_refl) as G. rewrite (Nat.mul_comm N k) in G.
  destruct (get_cases (cs_C s) 0 k) as [[start Es]|Es]; rewrite Es in *; cbn [bind] in *; [|now apply (ub_l _ _ _ _ G)].
  pose proof (get_len _ _ _ _ Es) as Ls. rewrite put_all in G by now rewrite repeat_length.
  destruct (cpy (repeat z (k * N)) 0 (f_C f) 0 (k * N)) as [v1| |]; try easy. cbn [bind]. cbn in G.
  rewrite (nrm2_batch_ok _ _ k _ G Ls (repeat_length _ _)). cbn [bind].
  destruct (scal_batch_ok (map (fun r => l_inj lib (f_div fo (f_one fo) r)) (map (l_nrm2 lib) start)) _ _ k G Ls ltac:(now rewrite !map_length)) as (v1' & -> & Hv1).
  cbn [bind].
  assert (E1 : zip (fun c v => map (l_scal lib c) v) (map (fun r => l_inj lib (f_div fo (f_one fo) r)) (map (l_nrm2 lib) start)) start =
     map (fun x => b_scal bl (b_inj bl (f_div fo (f_one fo) (b_nrm2 bl x))) x) start).
  { clear. induction start; cbn; auto. f_equal. exact IHstart. }
  rewrite E1 in Hv1. cbv zeta.
  rewrite bind_assoc.
  eapply rel_bind; [apply (loop_rel _ _ second M k EM); unfold mlR; cbn|].
  - split; [exact HC|]. split; [exact LC|]. pose proof (packs_zero N k z) as PZ. rewrite (Nat.mul_comm N k) in PZ. split; [exact PZ|]. split; [apply repeat_length|].
    split; [exact Hv1|]. split; [now rewrite map_length|]. split; [exists (repeat (repeat z N) k); split; [exact PZ|apply repeat_length]|].
    split; [reflexivity|]. split; [reflexivity|]. split; [reflexivity|]. apply repeat_length.
  - intros m s' (HC' & LC' & H0' & L0 & H1 & L1 & _ & Ed & Ee & Eb & _). rewrite bind_assoc. rewrite Ed, Ee, Eb.
    eapply rel_bind with (R := fun a b => pk a b /\ length b = n).
    { destruct second; [now split|].
      pose proof (cpy_rel N N1 _ _ _ _ 0 0 (k * N) 0 0 k HC' H1 eq_refl eq_refl eq_refl) as G2. rewrite get_all in G2 by auto. cbn [bind] in G2.
      destruct (put_range (ml_C s') 0 (ml_v1 s')) as [Cc| |] eqn:EP; destruct (cpy (m_C m) 0 (m_v1 m) 0 (k * N)); try easy. cbn in *. split; auto.
      apply put_range_length in EP. congruence. }
    intros C Cc [HC2' LC2']. cbn. split; [reflexivity|]. cbn [snd]. mkR.
Qed.

(** ** the whole backend *)
Theorem flat_dla : dla_rel (flatD fo lib N ldh n) (colD fo bl false n) R.
Proof.
  split; cbn [flatD colD d_shift d_apply d_hhqr d_chol1 d_chol2 d_schol2 d_lockcopy d_rr d_swap d_mlanczos d_dos]; intros.
  - now apply shift_rel.
  - now apply apply_rel.
  - now apply hhqr_rel.
  - now apply chol1_rel.
  - now apply chol2_rel.
  - now apply schol2_rel.
  - now apply lockcopy_rel.
  - now apply rr_rel.
  - now apply swap_rel.
  - now apply mlanczos_rel.
  - now apply dos_rel.
Qed.

Context (qe : qr_env F) (td : tridiag F) (nev nex : nat).
Theorem flat_kernel : kernel_rel (cmK fo qe td (flatD fo lib N ldh n) nev nex) (cmK fo qe td (colD fo bl false n) nev nex) (cmR R).
Proof.
  pose proof (cm_core_rel fo qe td nev nex _ _ _ flat_dla) as C.
  split; cbn [cmK k_sym k_start k_end k_init k_shift k_hemm k_qr k_rr k_resd k_swap k_lock k_lanczos1 k_lanczos2 k_dos].
  - intros s t [E H]. apply lift_v_rel; auto. now apply sym_rel.
  - intros s t [E H]. cbn. split; auto.
  - intros s t [E H]. apply lift_rel; auto.
  - intros r s t [E H]. unfold cm_init. apply lift_rel; auto. eapply rel_bind with (R := R).
    + destruct r; [now apply initrnd_rel|exact H].
    + intros. now apply init_rel.
  - intros. now apply (kr_shift _ _ _ C).
  - intros. now apply (kr_hemm _ _ _ C).
  - intros. now apply (kr_qr _ _ _ C).
  - intros. now apply (kr_rr _ _ _ C).
  - intros v l s t [E H]. rewrite E. apply lift_v_rel; auto. now apply resd_rel.
  - intros. now apply (kr_swap _ _ _ C).
  - intros. now apply (kr_lock _ _ _ C).
  - intros. now apply (kr_lanczos1 _ _ _ C).
  - intros. now apply (kr_lanczos2 _ _ _ C).
  - intros. now apply (kr_dos _ _ _ C).
Qed.
End Rel.
