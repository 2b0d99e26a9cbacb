(** The methods on arrays agree with the methods on columns: symmetry test, Rayleigh-Ritz, residuals, QR. *)
From Coq Require Import List Arith ZArith Bool Lia.
Require Import Verif.Base Verif.AlgModel Verif.AlgSpec Verif.AlgProofs1 Verif.AlgProofs2 Verif.AlgSim Verif.DlaModel Verif.DlaSim Verif.ColModel Verif.SfModel Verif.SfSpec
  Verif.SfProofs1 Verif.SfProofs2.
Import ListNotations.

Ltac sp H := destruct H as (HlH & Hpad & EH & HC & LC & HB & HC2 & HB2 & LA & Enx).
Ltac ta := try assumption; try congruence; try reflexivity.
Ltac mkR := unfold flat_rel; cbn [f_H f_C f_B f_C2 f_B2 f_A f_bAc cs_H cs_C cs_B cs_C2 cs_B2 cs_bAc];
  split; [ta|split; [ta|split; [ta|split; [ta|split; [ta|split; [ta|split; [ta|split; [ta|split; [ta|ta]]]]]]]]].

Lemma fill_ok' {A} (body : nat -> list A -> res (list A)) (y : nat -> A) k : (forall i r, i < k -> length r = k -> body i r = wr r i (y i)) ->
  forall r, length r = k -> for_ k 0 body r = Ok (tab k y).
Proof.
  intros H r Hr.
  destruct (for_inv (fun i r => length r = k /\ firstn i r = tab i y) body k 0 r) as (r' & -> & [L E]).
  - now split.
  - intros i s Hi [L E]. rewrite H by lia. rewrite wr_ok by lia. eexists. split; [reflexivity|]. rewrite upd_length. split; auto.
    rewrite tab_app_S, <- E. rewrite upd_firstn by lia.
    rewrite firstn_app, firstn_firstn, firstn_length. rewrite Nat.min_r by lia. rewrite Nat.min_l by lia. replace (S i - i) with 1 by lia. reflexivity.
  - cbn [plus] in E. rewrite firstn_all2 in E by lia. now rewrite E.
Qed.

(** square matrices, possibly empty *)
Section Square.
Context {T : Type} (z : T).
Lemma area_sq (buf : list T) m : length buf = m * m -> area_ok buf 0 m m m = true.
Proof.
  intros L. unfold area_ok. rewrite L, Nat.leb_refl. cbn [Nat.leb andb plus]. destruct m; cbn [Nat.eqb orb]; auto.
  apply Nat.leb_le. nia.
Qed.
Lemma packs_sq_len m (buf : list T) cols : packs m buf cols -> length cols = m -> length buf = m * m.
Proof.
  intros [-> H] L. assert (E : length (concat cols) = length cols * m).
  { clear L. induction H; cbn; auto. now rewrite app_length, H, IHForall. }
  now rewrite E, L.
Qed.
Lemma wrm_sq m (buf : list T) cols xs : packs m buf cols -> length cols = m -> length xs = m -> Forall (fun c => length c = m) xs ->
  exists b, wrm buf 0 m m xs = Ok b /\ packs m b xs.
Proof.
  intros H L Lx Fx. destruct m.
  - destruct xs; [|discriminate]. destruct cols; [|discriminate]. destruct H as [-> _]. exists []. split; [reflexivity|]. split; auto.
  - pose proof (wrm_packs (S m) ltac:(lia) _ _ 0 xs H Fx) as R. rewrite put_all in R by lia.
    destruct (wrm buf (0 * S m) (S m) (S m) xs) as [b| |] eqn:E; try easy. exists b. split; auto.
Qed.
Lemma rdm_sq m (buf : list T) cols : packs m buf cols -> length cols = m -> rdm buf 0 m m m = Ok cols.
Proof.
  intros H L. destruct m.
  - destruct cols; [|discriminate]. destruct H as [-> _]. reflexivity.
  - pose proof (rdm_packs (S m) ltac:(lia) _ _ 0 (S m) H) as R. rewrite get_all in R by auto. exact R.
Qed.
Lemma nth_packs m (buf : list T) cols i j d : packs m buf cols -> j < length cols -> i < m -> nth (j * m + i) buf d = nth i (nth j cols []) d.
Proof.
  intros [-> H] Hj Hi. revert j Hj. induction H; intros j Hj; cbn [length] in *; [lia|]. cbn [concat].
  destruct j.
  - rewrite app_nth1 by lia. reflexivity.
  - rewrite app_nth2 by (rewrite H; nia). rewrite H. replace (S j * m + i - m) with (j * m + i) by lia. rewrite IHForall by lia. reflexivity.
Qed.
End Square.

Section Rel.
Context {F T : Type} (fo : fops F) (lib : flib F T) (N ldh n : nat) (H0 : list T).
Context (N1 : 1 <= N) (NL : N <= ldh) (HL : (N - 1) * ldh + N <= length H0).
Local Notation z := (l_zero lib).
Local Notation bl := (col_blas fo lib N).
Local Notation R := (flat_rel lib N ldh n H0).
Local Notation pk := (packs (T := T) N).

Lemma rdl_sq m (buf : list T) cols : packs m buf cols -> length cols = m -> rdl buf 0 m m = Ok (lower lib cols).
Proof.
  intros H L. pose proof (packs_sq_len _ _ _ H L) as LB. unfold rdl. rewrite area_sq by auto. f_equal. unfold lower. rewrite L.
  rewrite map_seq_tab. apply tab_ext. intros j Hj. rewrite (sub_tab _ _ _ z) by nia. apply tab_ext. intros i Hi.
  unfold ent. replace (0 + j * m + j + i) with (j * m + (j + i)) by lia. apply nth_packs; auto; lia.
Qed.

Lemma eq_loop_ok u w : length u = length w -> forall t i, i + t = length u ->
  eq_loop lib t i u w = Ok (forallb (fun p => l_eq lib (fst p) (snd p)) (combine (skipn i u) (skipn i w))).
Proof.
  intros L. induction t; intros i Hi; cbn [eq_loop].
  - rewrite skipn_all2 by lia. reflexivity.
  - rewrite (rd_nth u _ z), (rd_nth w _ z) by lia. cbn [bind].
    assert (E : forall l : list T, i < length l -> skipn i l = nth i l z :: skipn (S i) l).
    { clear. intros l. revert i. induction l; intros [|i] H; cbn in *; try lia; auto. apply IHl. lia. }
    rewrite (E u), (E w) by lia. cbn [combine forallb fst snd]. destruct (l_eq lib _ _); cbn [andb]; auto. apply IHt. lia.
Qed.

Lemma sym_rel f s : R f s -> rel_res (vrel R) (s_sym lib N ldh f) (c_sym bl s).
Proof.
  intros H. pose proof (rdm_H lib N ldh n H0 N1 NL HL _ _ H) as EM. unfold s_sym, c_sym.
  rewrite (fill_ok' _ (l_rnd lib)) by (auto using repeat_length). cbn [bind].
  assert (PV : pk (tab N (l_rnd lib)) [tab N (l_rnd lib)]) by (apply packs_one, tab_length).
  assert (PZ : pk (repeat z N) [repeat z N]) by (apply packs_one, repeat_length).
  pose proof (gemm0_rel lib N ldh N1 false 1 _ _ _ _ _ _ 0 0 0 0 EM PV PZ eq_refl eq_refl) as G1.
  pose proof (gemm0_rel lib N ldh N1 true 1 _ _ _ _ _ _ 0 0 0 0 EM PV PZ eq_refl eq_refl) as G2.
  rewrite get_all in G1, G2 by reflexivity. cbn [bind map] in G1, G2. rewrite put_all in G1, G2 by reflexivity.
  destruct (gemm0 lib false N 1 N (f_H f) 0 ldh (tab N (l_rnd lib)) 0 N (repeat z N) 0 N) as [u| |]; try easy.
  destruct (gemm0 lib true N 1 N (f_H f) 0 ldh (tab N (l_rnd lib)) 0 N (repeat z N) 0 N) as [w| |]; try easy.
  cbn in G1, G2. destruct G1 as [-> _], G2 as [-> _]. cbn [bind concat]. rewrite !app_nil_r.
  rewrite eq_loop_ok by (rewrite !tab_length; auto). cbn. split; auto.
Qed.

Lemma rr_rel blk lo f s : R f s -> rel_res (vrel R) (s_rr lib N ldh blk lo f) (c_rr bl false n blk lo s).
Proof.
  intros H. unfold s_rr, c_rr. cbn [andb].
  eapply rel_bind; [exact (gather_rel fo lib N ldh n H0 N1 NL HL lo blk f s H)|]. clear H f s. intros f s H. sp H.
  unfold gemm0 at 1. rewrite !(rdm_packs N N1 _ _ _ _ HB2), !(rdm_packs N N1 _ _ _ _ HB).
  destruct (get_cases (cs_B2 s) lo blk) as [[b2 E2]|E2]; rewrite E2; cbn [bind];
    [|destruct (get_cases (cs_B s) lo blk) as [[b E1]|E1]; rewrite E1; cbn [bind]; exact I].
  destruct (get_cases (cs_B s) lo blk) as [[b E1]|E1]; rewrite E1; cbn [bind]; [|exact I].
  pose proof (get_len _ _ _ _ E1) as L1. pose proof (get_len _ _ _ _ E2) as L2.
  set (A := b_gram bl b2 b).
  assert (LA' : length A = blk) by (unfold A; cbn; now rewrite map_length).
  assert (FA : Forall (fun c => length c = blk) A) by (apply Forall_map_len; intros; rewrite tab_length; auto).
  replace (map (fun x => tab blk (l_mul lib true b2 x)) b) with A by (unfold A; cbn; now rewrite L2).
  destruct (wrm_sq blk (repeat z (blk * blk)) (repeat (repeat z blk) blk) A (packs_zero blk blk z) (repeat_length _ _) LA' FA) as (buf & -> & PA).
  cbn [bind]. unfold heevd. rewrite (rdl_sq _ _ _ PA LA'). cbn [bind].
  set (ev := l_heevd lib (lower lib A)).
  destruct (wrm_sq blk buf A (tab2 blk blk (snd ev)) PA LA' (tab2_length _ _ _) (tab2_Forall _ _ _)) as (buf2 & -> & PV).
  cbn [bind]. unfold gemm0. rewrite !(rdm_packs N N1 _ _ _ _ HC2). rewrite (rdm_sq _ _ _ PV (tab2_length _ _ _)).
  destruct (get_cases (cs_C2 s) lo blk) as [[c2 E3]|E3]; rewrite E3; cbn [bind]; [|exact I].
  set (new := map (fun x => tab N (l_mul lib false c2 x)) (tab2 blk blk (snd ev))).
  assert (EN : map (b_comb bl c2 A) (seq 0 blk) = new).
  { unfold new, tab2. rewrite map_tab, map_seq_tab. apply tab_ext. intros j Hj. cbn [b_comb col_blas]. rewrite LA'. reflexivity. }
  rewrite EN.
  assert (FN : Forall (fun c => length c = N) new) by (apply Forall_map_len; intros; apply tab_length).
  assert (LN : length new = blk) by (unfold new; now rewrite map_length, tab2_length).
  pose proof (wrm_packs N N1 _ _ lo new HC FN) as G.
  destruct (put_range (cs_C s) lo new) as [Cc| |] eqn:EC; destruct (wrm (f_C f) (lo * N) N N new) as [C| |]; try easy.
  cbn [bind]. cbn in G.
  pose proof (cpy_rel N N1 _ _ _ _ (lo * N) (lo * N) (N * blk) lo lo blk HC2 G eq_refl eq_refl (Nat.mul_comm _ _)) as G2.
  assert (EG : get_range Cc lo blk = Ok new).
  { apply put_range_inv in EC as [L ->]. rewrite LN in *. rewrite get_range_ok.
    - f_equal. rewrite skipn_app. rewrite skipn_all2 by (rewrite firstn_length; lia). rewrite firstn_length, Nat.min_l by lia. rewrite Nat.sub_diag. cbn [skipn app].
      rewrite firstn_app, LN, Nat.sub_diag. rewrite firstn_all2 by lia. cbn. now rewrite app_nil_r.
    - rewrite !app_length, firstn_length, skipn_length. lia. }
  rewrite EG in G2. cbn [bind] in G2.
  eapply rel_bind; [exact G2|]. intros C2 Cc2 HC2'. cbn. split; [reflexivity|]. cbn [snd]. apply put_range_length in EC. mkR.
Qed.

Lemma resd_rel rv lo unc f s : R f s -> rel_res (vrel R) (s_resd fo lib N ldh rv lo unc f) (c_resd fo bl rv lo unc s).
Proof.
  intros H. unfold s_resd, c_resd.
  pose proof (gather_rel fo lib N ldh n H0 N1 NL HL lo unc f s H) as G.
  destruct (c_gather bl lo unc s) as [s1| |] eqn:EG; destruct (s_gather lib N ldh lo unc f) as [f1| |]; try easy. cbn [bind]. cbn in G.
  assert (LB : lo + unc <= length (cs_B s1) /\ lo + unc <= length (cs_B2 s1)).
  { unfold c_gather in EG. apply bind_ok in EG as (c & Ec & EG). apply bind_ok in EG as (B & EB & EG). apply bind_ok in EG as (c2 & Ec2 & EG).
    apply bind_ok in EG as (B2 & EB2 & EG). injection EG as <-. cbn.
    pose proof (put_range_length _ _ _ _ EB). pose proof (put_range_length _ _ _ _ EB2). apply put_range_inv in EB as [EB _]. apply put_range_inv in EB2 as [EB2 _].
    rewrite map_length in EB. apply get_len in Ec, Ec2. lia. }
  clear EG H f s. rename f1 into f, s1 into s. rename G into H. sp H. destruct LB as [LB LB2].
  rewrite (get_range_ok (cs_B s)), (get_range_ok (cs_B2 s)) by auto.
  set (b := firstn unc (skipn lo (cs_B s))). set (b2 := firstn unc (skipn lo (cs_B2 s))).
  assert (Lb : length b = unc) by (unfold b; rewrite firstn_length, skipn_length; lia).
  assert (Lb2 : length b2 = unc) by (unfold b2; rewrite firstn_length, skipn_length; lia).
  set (f0 := f_zero fo).
  set (y := fun i => zip (l_axpy lib (l_inj lib (f_neg fo (nth i rv f0)))) (nth i b2 []) (nth i b [])).
  assert (nb : forall i, i < unc -> nth i b [] = nth (lo + i) (cs_B s) []) by (intros; unfold b; now rewrite nth_firstn, nth_skipn by auto).
  assert (nb2 : forall i, i < unc -> nth i b2 [] = nth (lo + i) (cs_B2 s) []) by (intros; unfold b2; now rewrite nth_firstn, nth_skipn by auto).
  assert (Ly : forall i, i < unc -> length (y i) = N).
  { intros i Hi. unfold y. rewrite zip_length, nb, nb2 by auto.
    rewrite (proj1 (Forall_forall _ _) (proj2 HB) (nth (lo + i) (cs_B s) [])) by (apply nth_In; lia).
    rewrite (proj1 (Forall_forall _ _) (proj2 HB2) (nth (lo + i) (cs_B2 s) [])) by (apply nth_In; lia). apply Nat.min_id. }
  set (P := fun i (p : list T * list F) => pk (fst p) (firstn lo (cs_B s) ++ tab i y ++ skipn (lo + i) (cs_B s)) /\ snd p = tab i (fun i => l_nrm2 lib (y i))).
  set (body := fun i (p : list T * list F) =>
      let! v := rd rv i in
      let! B := axpy lib N (l_inj lib (f_neg fo v)) (f_B2 f) (lo * N + N * i) (fst p) (lo * N + N * i) in
      let! x := get_range B (lo * N + N * i) N in
      Ok (B, snd p ++ [l_nrm2 lib x])).
  assert (HP0 : P 0 (f_B f, [])). { split; auto. cbn [fst tab seq map app]. rewrite Nat.add_0_r, firstn_skipn. exact HB. }
  assert (HS : forall i p, i < unc -> i < length rv -> P i p -> exists p', body i p = Ok p' /\ P (S i) p').
  { intros i [B r] Hi Hr [PB Er]. cbn [fst snd] in *. unfold body. rewrite (rd_nth _ _ f0) by auto. cbn [bind fst snd]. unfold axpy.
    replace (lo * N + N * i) with ((lo + i) * N) by lia.
    destruct (skipn_cons_ (cs_B s) (lo + i)) as [q Eq]; [lia|].
    assert (Eq' : q = nth (lo + i) (cs_B s) []). { rewrite <- (Nat.add_0_r (lo + i)), <- nth_skipn, Eq. reflexivity. }
    rewrite Eq in PB. rewrite app_assoc in PB.
    assert (Lf : length (firstn lo (cs_B s) ++ tab i y) = lo + i) by (rewrite app_length, firstn_length, tab_length; lia).
    rewrite (get1_packs N N1 _ _ _ HB2), (rd_nth _ _ []) by lia. cbn [bind].
    rewrite (get1_packs N N1 _ _ _ PB). unfold rd. rewrite nth_error_app2 by lia. rewrite Lf, Nat.sub_diag. cbn [nth_error bind].
    rewrite <- nb2 by auto. rewrite Eq', <- nb by auto. fold (y i).
    pose proof (put1_packs N N1 _ _ (lo + i) (y i) PB (Ly i Hi)) as RP.
    rewrite wr_ok in RP by (rewrite app_length, Lf; cbn [length]; lia). rewrite upd_mid in RP by auto.
    destruct (put_range B ((lo + i) * N) (y i)) as [B'| |]; try easy. cbn [bind]. cbn in RP.
    rewrite (get1_packs N N1 _ _ _ RP). unfold rd. rewrite nth_error_app2 by lia. rewrite Lf, Nat.sub_diag. cbn [nth_error bind].
    eexists. split; [reflexivity|]. split; cbn [fst snd].
    - rewrite tab_app_S. rewrite <- !app_assoc in *. cbn [app] in *. replace (lo + S i) with (S (lo + i)) by lia. exact RP.
    - rewrite tab_app_S. now rewrite Er. }
  destruct (Nat.leb_spec unc (length rv)) as [Lr|Lr].
  - rewrite (get_range_ok rv) by (cbn; lia). cbn [bind skipn].
    destruct (for_inv P body unc 0 (f_B f, [])) as ([B r] & E & PB & Er); auto.
    { intros i p Hi. apply HS; lia. }
    rewrite E. cbn [bind fst snd plus] in *.
    set (b' := zip _ (combine (firstn unc rv) b2) b).
    assert (Eb : b' = tab unc y).
    { unfold b'. rewrite (zip_tab _ _ _ unc (f0, []) []); auto.
      - apply tab_ext. intros i Hi. rewrite combine_nth by (rewrite firstn_length; lia). cbn [fst snd]. rewrite nth_firstn by auto. reflexivity.
      - rewrite combine_length, firstn_length. lia. }
    rewrite Eb. rewrite put_range_ok by (rewrite tab_length; lia). rewrite tab_length. cbn. split; cbn [fst snd].
    + rewrite map_tab. exact Er.
    + mkR.
  - replace (get_range rv 0 unc) with (UB (A := list F)) by (unfold get_range; apply Nat.leb_gt in Lr; cbn [plus]; now rewrite Lr).
    cbn [bind].
    assert (E : for_ unc 0 body (f_B f, []) = UB).
    { apply (for_ub P body (length rv)); auto; [lia| |].
      - intros j p Hj. apply HS; lia.
      - intros p _. unfold body, rd. replace (nth_error rv (length rv)) with (None (A := F)); auto. symmetry. now apply nth_error_None. }
    rewrite E. exact I.
Qed.

(** ** QR *)
Lemma rd_full f s : R f s -> rdm (f_C f) 0 N N n = Ok (cs_C s).
Proof. intros H. sp H. pose proof (rdm_packs N N1 _ _ 0 n HC) as E. rewrite get_all in E by auto. exact E. Qed.
Lemma wr_full buf cols xs : pk buf cols -> length xs = length cols -> Forall (fun c => length c = N) xs -> exists b, wrm buf 0 N N xs = Ok b /\ pk b xs.
Proof.
  intros H L Fx. pose proof (wrm_packs N N1 _ _ 0 xs H Fx) as G. rewrite put_all in G by auto.
  destruct (wrm buf (0 * N) N N xs) as [b| |] eqn:E; try easy. exists b. auto.
Qed.
Lemma set_C_ok (s : cst (V := list T) (M := list (list T))) g : length (cs_C s) = n -> set_C n s g = Ok (mk_cst (cs_H s) (map (g (cs_C s)) (seq 0 n)) (cs_B s) (cs_C2 s) (cs_B2 s) (cs_bAc s)).
Proof. intros L. unfold set_C. rewrite get_all by auto. cbn [bind]. rewrite put_all by (rewrite map_length, seq_length; auto). reflexivity. Qed.

Lemma hhqr_rel lo f s : R f s -> rel_res R (s_hhqr lib N n lo f) (c_hhqr bl false n lo s).
Proof.
  intros H. pose proof (rd_full _ _ H) as ER. sp H. unfold s_hhqr, c_hhqr, geqrf, gqr. rewrite ER. cbn [bind].
  rewrite set_C_ok by auto. cbn [bind].
  destruct (wr_full _ _ (tab2 N n (fst (l_geqrf lib (cs_C s)))) HC) as (b & -> & Pb); [now rewrite tab2_length|apply tab2_Forall|]. cbn [bind].
  pose proof (rdm_packs N N1 _ _ 0 n Pb) as E. rewrite get_all in E by apply tab2_length. change (0 * N) with 0 in E. rewrite E. cbn [bind].
  destruct (wr_full _ _ (tab2 N n (l_gqr lib (tab2 N n (fst (l_geqrf lib (cs_C s)))) (snd (l_geqrf lib (cs_C s))))) Pb) as (b' & -> & Pb');
    [now rewrite !tab2_length|apply tab2_Forall|]. cbn.
  rewrite LC in *. mkR. rewrite map_length, seq_length. reflexivity.
Qed.

(** the upper triangle stored in an n x n array *)
Definition stores_u (A : list T) (G : list (list T)) : Prop :=
  length A = n * n /\ exists g, G = upper n g /\ forall i j, i <= j -> j < n -> nth (j * n + i) A z = g i j.

Lemma upper_length m (g : nat -> nat -> T) : length (upper m g) = m.
Proof. apply tab_length. Qed.
Lemma wru_ok A g : length A = n * n -> exists A', wru A 0 n n g = Ok A' /\ stores_u A' (upper n g).
Proof.
  intros L. unfold wru. rewrite area_sq by auto.
  destruct (for_inv (fun k A => length A = n * n /\ forall i j, i <= j -> j < k -> nth (j * n + i) A z = g i j)
    (fun j b => put_range b (0 + j * n) (tab (S j) (fun i => g i j))) n 0 A) as (A' & -> & L' & V).
  - split; auto. intros. lia.
  - intros k B Hk [LB V]. destruct (put_range B (0 + k * n) (tab (S k) (fun i => g i k))) as [B'| |] eqn:E.
    2,3: exfalso; unfold put_range in E; rewrite tab_length in E; assert (X : 0 + k * n + S k <= length B) by nia; apply Nat.leb_le in X; rewrite X in E; discriminate.
    exists B'. split; auto. split; [now rewrite (put_range_length _ _ _ _ E)|]. intros i j Hi Hj.
    rewrite (nth_put _ _ _ _ _ z E), tab_length. cbn [plus]. destruct (Nat.eq_dec j k) as [->|D].
    + assert (X : k * n <=? k * n + i = true) by (apply Nat.leb_le; lia). assert (Y : k * n + i <? k * n + S k = true) by (apply Nat.ltb_lt; lia).
      rewrite X, Y. cbn [andb]. rewrite nth_tab by lia. f_equal. lia.
    + assert (X : k * n <=? j * n + i = false) by (apply Nat.leb_gt; nia). rewrite X. cbn [andb]. apply V; lia.
  - exists A'. split; auto. split; auto. exists g. split; auto.
Qed.
Lemma rdu_ok A G : stores_u A G -> rdu A 0 n n = Ok G.
Proof.
  intros (L & g & -> & V). unfold rdu. rewrite area_sq by auto. f_equal. unfold upper. rewrite map_seq_tab. apply tab_ext. intros j Hj.
  rewrite (sub_tab _ _ _ z) by nia. apply tab_ext. intros i Hi. apply V; lia.
Qed.
Lemma syherk_ok C cols A : pk C cols -> length cols = n -> length A = n * n ->
  exists A', syherk lib n N C N A n = Ok A' /\ stores_u A' (b_syherk bl cols).
Proof.
  intros H L LA. unfold syherk. pose proof (rdm_packs N N1 _ _ 0 n H) as E. rewrite get_all in E by auto. change (0 * N) with 0 in E. rewrite E. cbn [bind].
  cbn [b_syherk col_blas]. rewrite L. now apply wru_ok.
Qed.
Lemma stores_len A G : stores_u A G -> length G = n.
Proof. intros (_ & g & -> & _). apply upper_length. Qed.
Lemma potrf_ok A G : stores_u A G -> exists A', potrf lib n A n = Ok (fst (b_potrf bl G), A') /\ stores_u A' (snd (b_potrf bl G)).
Proof.
  intros H. unfold potrf. rewrite (rdu_ok _ _ H). cbn [bind].
  destruct (wru_ok A (snd (l_potrf lib G)) (proj1 H)) as (A' & -> & HA). cbn [bind]. exists A'. split; [reflexivity|].
  cbn [b_potrf col_blas snd]. now rewrite (stores_len _ _ H).
Qed.
Lemma trsm_ok A G C cols : stores_u A G -> pk C cols -> length cols = n ->
  exists C', trsm lib N n A n C N = Ok C' /\ pk C' (map (b_trsm bl G cols) (seq 0 n)).
Proof.
  intros H HC L. unfold trsm. rewrite (rdu_ok _ _ H). cbn [bind].
  pose proof (rdm_packs N N1 _ _ 0 n HC) as E. rewrite get_all in E by auto. change (0 * N) with 0 in E. rewrite E. cbn [bind].
  exact (wr_full _ _ (tab2 N n (l_trsm lib G cols)) HC ltac:(now rewrite tab2_length) (tab2_Forall _ _ _)).
Qed.
Lemma dshift_ok A G : stores_u A G -> exists nrmf A', abs_sum fo lib A n n = Ok nrmf /\ qr_shift lib A n (l_qshift lib N nrmf) = Ok A' /\ stores_u A' (b_dshift bl G).
Proof.
  intros H. pose proof (stores_len _ _ H) as LG. destruct H as (L & g & EG & V).
  assert (EE : forall i j, i <= j -> j < n -> ent lib G i j = g i j).
  { intros i j Hi Hj. rewrite EG. unfold ent, upper. rewrite (nth_tab n (fun j => tab (S j) (fun i => g i j)) j) by auto. now rewrite nth_tab by lia. }
  assert (ES : abs_sum fo lib A n n = Ok (fold_left (fun x i => f_add fo x (l_abs lib (ent lib G i i))) (seq 0 n) (f_zero fo))).
  { unfold abs_sum. generalize (f_zero fo) as x.
    assert (X : forall k i x, i + k <= n -> for_ k i (fun i x => let! a := rd A (i * n + i) in Ok (f_add fo x (l_abs lib a))) x =
       Ok (fold_left (fun x i => f_add fo x (l_abs lib (ent lib G i i))) (seq i k) x)).
    { induction k; intros i x Hk; cbn [for_ seq fold_left]; auto. rewrite (rd_nth _ _ z) by nia. cbn [bind]. rewrite V by lia. rewrite IHk by lia.
      rewrite EE by lia. reflexivity. }
    intros x. apply X. lia. }
  set (nrmf := fold_left _ _ _) in ES. set (c := l_qshift lib N nrmf).
  destruct (for_inv (fun k B => length B = n * n /\ forall i j, i <= j -> j < n -> nth (j * n + i) B z = if (i =? j) && (i <? k) then l_add lib (g i j) c else g i j)
    (fun i A => let! a := rd A (i * n + i) in wr A (i * n + i) (l_add lib a c)) n 0 A) as (B & EB & LB & VB).
  - split; auto. intros i j Hi Hj. rewrite andb_false_r. now apply V.
  - intros k B Hk [LB VB]. rewrite (rd_nth _ _ z) by nia. cbn [bind]. rewrite wr_ok by nia. eexists. split; [reflexivity|]. rewrite upd_length. split; auto.
    intros i j Hi Hj. rewrite nth_upd by nia. rewrite VB by lia. rewrite Nat.ltb_irrefl, andb_false_r.
    destruct (Nat.eqb_spec (j * n + i) (k * n + k)) as [E|D].
    + assert (i = k /\ j = k) as [-> ->] by (apply (idx_inj n); lia). rewrite Nat.eqb_refl.
      assert (X : k <? S k = true) by (apply Nat.ltb_lt; lia). now rewrite X.
    + rewrite VB by auto. destruct (Nat.eqb_spec i j) as [->|]; cbn [andb]; auto.
      destruct (Nat.ltb_spec j k), (Nat.ltb_spec j (S k)); auto; try lia. exfalso. apply D. assert (j = k) by lia. subst. lia.
  - exists nrmf, B. split; auto. split; [exact EB|]. cbn [plus] in VB. split; auto.
    exists (fun i j => if (i =? j) && (i <? n) then l_add lib (g i j) c else g i j). split; auto.
    cbn [b_dshift col_blas]. rewrite LG. fold nrmf. fold c. unfold upper. apply tab_ext. intros j Hj. apply tab_ext. intros i Hi. rewrite EE by lia.
    assert (X : i <? n = true) by (apply Nat.ltb_lt; lia). now rewrite X, andb_true_r.
Qed.

(** syherk, potrf of the columns now in C *)
Lemma map_seq_len {A} (g : nat -> A) : length (map g (seq 0 n)) = n.
Proof. now rewrite map_length, seq_length. Qed.
Lemma c_factor_ok b (s : cst (V := list T) (M := list (list T))) : length (cs_C s) = n -> c_factor bl n b s = Ok (b_potrf bl (if b then b_dshift bl (b_syherk bl (cs_C s)) else b_syherk bl (cs_C s))).
Proof. intros L. unfold c_factor. rewrite get_all by auto. reflexivity. Qed.

Ltac sy H L LAx := let A := fresh "A" in let HA := fresh "HA" in
  destruct (syherk_ok _ _ _ H L LAx) as (A & -> & HA); cbn [bind].
Ltac po HA := let A := fresh "A" in let HA' := fresh "HA" in destruct (potrf_ok _ _ HA) as (A & -> & HA'); cbn [bind].
Ltac tr HA HC L := let C := fresh "C" in let HC' := fresh "HC" in destruct (trsm_ok _ _ _ _ HA HC L) as (C & -> & HC'); cbn [bind].

Lemma chol1_rel lo f s : R f s -> rel_res (vrel R) (s_chol1 lib N n lo f) (c_chol1 bl n lo s).
Proof.
  intros H. sp H. unfold s_chol1, c_chol1. rewrite c_factor_ok by auto. cbn [bind].
  sy HC LC LA. po HA. destruct (b_potrf bl (b_syherk bl (cs_C s))) as [info G]. cbn [fst snd] in *.
  destruct (negb (info =? 0)%Z).
  - cbn. split; [reflexivity|]. cbn [snd]. unfold set_CA. mkR. apply HA0.
  - rewrite set_C_ok by auto. cbn [bind]. tr HA0 HC LC. cbn. split; [reflexivity|]. cbn [snd]. unfold set_CA. mkR; [apply map_seq_len|apply HA0].
Qed.
Lemma chol2_rel lo f s : R f s -> rel_res (vrel R) (s_chol2 lib N n lo f) (c_chol2 bl n lo s).
Proof.
  intros H. sp H. unfold s_chol2, c_chol2. rewrite c_factor_ok by auto. cbn [bind].
  sy HC LC LA. po HA. destruct (b_potrf bl (b_syherk bl (cs_C s))) as [info G]. cbn [fst snd] in *.
  destruct (negb (info =? 0)%Z).
  - cbn. split; [reflexivity|]. cbn [snd]. unfold set_CA. mkR. apply HA0.
  - rewrite set_C_ok by auto. cbn [bind]. tr HA0 HC LC.
    rewrite c_factor_ok by apply map_seq_len. cbn [bind cs_C]. sy HC0 (map_seq_len (b_trsm bl G (cs_C s))) (proj1 HA0). po HA1.
    destruct (b_potrf bl (b_syherk bl (map (b_trsm bl G (cs_C s)) (seq 0 n)))) as [info2 G2]. cbn [fst snd] in *.
    tr HA2 HC0 (map_seq_len (b_trsm bl G (cs_C s))). rewrite set_C_ok by apply map_seq_len. cbn. split; [reflexivity|]. cbn [snd]. unfold set_CA. mkR; [apply map_seq_len|apply HA2].
Qed.
Lemma schol2_rel lo f s : R f s -> rel_res (vrel R) (s_schol2 fo lib N n lo f) (c_schol2 bl false n lo s).
Proof.
  intros H. sp H. unfold s_schol2, c_schol2. rewrite c_factor_ok by auto. cbn [bind].
  sy HC LC LA. destruct (dshift_ok _ _ HA) as (nrmf & As & -> & ES & HAs). cbn [bind]. rewrite ES. cbn [bind]. po HAs.
  destruct (b_potrf bl (b_dshift bl (b_syherk bl (cs_C s)))) as [info G]. cbn [fst snd] in *.
  destruct (negb (info =? 0)%Z).
  - cbn. split; [reflexivity|]. cbn [snd]. unfold set_CA. mkR. apply HA0.
  - rewrite set_C_ok by auto. cbn [bind]. tr HA0 HC LC.
    rewrite c_factor_ok by apply map_seq_len. cbn [bind cs_C]. sy HC0 (map_seq_len (b_trsm bl G (cs_C s))) (proj1 HA0). po HA1.
    set (c1 := map (b_trsm bl G (cs_C s)) (seq 0 n)) in *.
    destruct (b_potrf bl (b_syherk bl c1)) as [info2 G2]. cbn [fst snd andb] in *.
    tr HA2 HC0 (map_seq_len (b_trsm bl G (cs_C s))). rewrite set_C_ok by apply map_seq_len. cbn [bind cs_C cs_H cs_B cs_C2 cs_B2 cs_bAc].
    set (c2 := map (b_trsm bl G2 c1) (seq 0 n)) in *.
    rewrite c_factor_ok by apply map_seq_len. cbn [bind cs_C]. sy HC1 (map_seq_len (b_trsm bl G2 c1)) (proj1 HA2). po HA3.
    destruct (b_potrf bl (b_syherk bl c2)) as [info3 G3]. cbn [fst snd] in *.
    tr HA4 HC1 (map_seq_len (b_trsm bl G2 c1)). rewrite set_C_ok by apply map_seq_len. cbn. split; [reflexivity|]. cbn [snd]. unfold set_CA. mkR; [apply map_seq_len|apply HA4].
Qed.
End Rel.
