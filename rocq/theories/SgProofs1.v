(** The single-GPU backend on arrays agrees with the single-GPU backend on columns: the methods that differ from the in-place backend. *)
From Coq Require Import List Arith ZArith Bool Lia.
Require Import Verif.Base Verif.AlgModel Verif.AlgSpec Verif.AlgProofs1 Verif.AlgProofs2 Verif.AlgSim Verif.DlaModel Verif.DlaSim Verif.ColModel Verif.GpuModel Verif.SfModel Verif.SfSpec
  Verif.SfProofs1 Verif.SfProofs2 Verif.SfProofs3 Verif.SfProofs4 Verif.SiModel Verif.SiSpec Verif.SiProofs1 Verif.SiProofs2 Verif.SgModel Verif.SgSpec.
Import ListNotations.

Lemma wrm_total {T} (buf : list T) off ld m cols : wrm buf off ld m cols <> Fuel.
Proof.
  unfold wrm. destruct (area_ok _ _ _ _ _); [|discriminate]. generalize (length cols) at 1. intros k. generalize 0. revert buf.
  induction k; intros b o; cbn [for_]; [discriminate|]. unfold rd. destruct (nth_error cols o); cbn [bind]; [|discriminate].
  unfold put_range. destruct (_ <=? _); cbn [bind]; [apply IHk|discriminate].
Qed.

(** an m x k matrix in the corner of an n x n array *)
Section Rect.
Context {F T : Type} (lib : flib F T).
Local Notation z := (l_zero lib).
Lemma area_rect (A : list T) n m k : m <= n -> k <= n -> length A = n * n -> area_ok A 0 n m k = true.
Proof.
  intros L L' LA. unfold area_ok. rewrite LA. apply Nat.leb_le in L as E. rewrite E. cbn [andb Nat.leb plus].
  destruct k; cbn [Nat.eqb orb]; auto. apply Nat.leb_le. replace (S k - 1) with k by lia.
  assert (k * n <= (n - 1) * n) by (apply Nat.mul_le_mono_r; lia). nia.
Qed.
Lemma wrm_rect (A : list T) n m k cols : m <= n -> k <= n -> length A = n * n -> length cols = k -> Forall (fun c => length c = m) cols ->
  exists A', wrm A 0 n m cols = Ok A' /\ length A' = n * n /\ rdm A' 0 n m k = Ok cols.
Proof.
  intros L L' LA LC FC. unfold wrm. rewrite LC, area_rect by auto.
  assert (Lc : forall j, j < k -> length (nth j cols []) = m). { intros j Hj. apply (proj1 (Forall_forall _ _) FC), nth_In. lia. }
  assert (B : forall j, j < k -> j * n + m <= n * n). { intros j Hj. assert (j * n <= (n - 1) * n) by (apply Nat.mul_le_mono_r; lia). nia. }
  destruct (for_inv (fun q b => length b = n * n /\ forall i j, i < m -> j < q -> nth (i + j * n) b z = nth i (nth j cols []) z)
    (fun j b => let! c := rd cols j in put_range b (0 + j * n) c) k 0 A) as (A' & -> & LA' & V).
  - split; auto. intros. lia.
  - intros q b Hk [Lb V]. rewrite (rd_nth _ _ []) by lia. cbn [bind].
    assert (X : 0 + q * n + m <= length b) by (rewrite Lb; specialize (B q); lia).
    destruct (put_range b (0 + q * n) (nth q cols [])) as [b'| |] eqn:E.
    2,3: exfalso; unfold put_range in E; rewrite Lc in E by lia; apply Nat.leb_le in X; rewrite X in E; discriminate.
    exists b'. split; auto. split; [now rewrite (put_range_length _ _ _ _ E)|]. intros i j Hi Hj.
    rewrite (nth_put _ _ _ _ _ z E), Lc by lia. cbn [plus]. destruct (Nat.eq_dec j q) as [->|D].
    + assert (X1 : q * n <=? i + q * n = true) by (apply Nat.leb_le; lia). assert (Y : i + q * n <? q * n + m = true) by (apply Nat.ltb_lt; lia).
      rewrite X1, Y. cbn [andb]. f_equal. lia.
    + assert (X1 : q * n <=? i + j * n = false) by (apply Nat.leb_gt; nia). rewrite X1. cbn [andb]. apply V; lia.
  - exists A'. split; auto. split; auto. unfold rdm. rewrite area_rect by auto. f_equal.
    rewrite map_seq_tab. rewrite (tab_nth cols []), LC. apply tab_ext. intros j Hj.
    rewrite (sub_tab _ _ _ z) by (rewrite LA'; specialize (B j); lia).
    rewrite (tab_nth (nth j cols []) z), Lc by auto. apply tab_ext. intros i Hi. rewrite <- V by auto. f_equal. lia.
Qed.
End Rect.

Lemma tab_packs {T} N k (f : nat -> T) : packs N (tab (N * k) f) (map (fun j => tab N (fun i => f (j * N + i))) (seq 0 k)).
Proof.
  split.
  - induction k; [now rewrite Nat.mul_0_r|]. rewrite seq_S, map_app, concat_app. cbn [map concat plus]. rewrite app_nil_r, <- IHk.
    unfold tab. replace (N * S k) with (N * k + N) by lia. rewrite seq_app, map_app. f_equal. cbn [plus].
    rewrite (Nat.mul_comm N k). generalize (k * N). clear. intros o.
    replace o with (o + 0) at 1 by lia. generalize 0. induction N as [|N IH]; intros q; cbn [seq map]; auto. f_equal.
    rewrite <- IH. f_equal. f_equal. lia.
  - apply Forall_forall. intros c H. apply in_map_iff in H as (j & <- & _). apply tab_length.
Qed.

Section Dev.
Context {F T : Type} (fo : fops F) (lib : flib F T) (N n : nat) (N1 : 1 <= N).
Local Notation z := (l_zero lib).
Local Notation f0 := (f_zero fo).
Local Notation Hz := (repeat z (N * N)).
Local Notation bl := (col_blas fo lib N).
Local Notation R := (iflat_rel lib N N n Hz).
Local Notation pk := (packs (T := T) N).
Local Notation icst := (ist (V := list T) (M := list (list T))).

Lemma HLz : (N - 1) * N + N <= length Hz.
Proof. rewrite repeat_length. nia. Qed.
Local Notation NL := (Nat.le_refl N).
Local Notation EM_ := (rdm_Hi lib N N n Hz N1 NL HLz).

Ltac save f s H := eapply rel_bind; [exact (g_save_rel lib N N n Hz N1 _ f s H)|]; clear H f s; intros f s H.
Ltac sy H L LAx := let A := fresh "A" in let HA := fresh "HA" in
  destruct (syherk_ok fo lib N N n Hz N1 NL HLz _ _ _ H L LAx) as (A & -> & HA); cbn [bind].
Ltac po HA := let A := fresh "A" in let HA' := fresh "HA" in destruct (potrf_ok fo lib N N n Hz N1 NL HLz _ _ HA) as (A & -> & HA'); cbn [bind].
Ltac tr HA HC L := let C := fresh "C" in let HC' := fresh "HC" in destruct (trsm_ok fo lib N N n Hz N1 NL HLz _ _ _ _ HA HC L) as (C & -> & HC'); cbn [bind].
Ltac fin HA := cbn; split; [reflexivity|]; cbn [snd]; unfold set_VA; gmk; try apply map_seq_len; try apply HA.

Lemma ud_chol2_rel lo f s : R f s -> rel_res (vrel R) (ud_chol2 lib N n lo f) (dv_chol2 bl n lo s).
Proof.
  intros H. unfold ud_chol2, dv_chol2. save f s H. gsp H. rewrite i_factor_ok by auto. cbn [bind].
  sy HV LV LA. po HA. destruct (b_potrf bl (b_syherk bl (is_V1 s))) as [info G]. cbn [fst snd] in *.
  destruct (negb (info =? 0)%Z).
  - fin HA0.
  - rewrite i_set_ok by auto. cbn [bind]. tr HA0 HV LV.
    rewrite i_factor_ok by apply map_seq_len. cbn [bind is_V1]. sy HC (map_seq_len n (b_trsm bl G (is_V1 s))) (proj1 HA0). po HA1.
    destruct (b_potrf bl (b_syherk bl (map (b_trsm bl G (is_V1 s)) (seq 0 n)))) as [info2 G2]. cbn [fst snd] in *.
    tr HA2 HC (map_seq_len n (b_trsm bl G (is_V1 s))). rewrite i_set_ok by apply map_seq_len. fin HA2.
Qed.
Lemma ud_schol2_rel lo f s : R f s -> rel_res (vrel R) (ud_schol2 fo lib N n lo f) (dv_schol2 bl n lo s).
Proof.
  intros H. unfold ud_schol2, dv_schol2. save f s H. gsp H. rewrite i_factor_ok by auto. cbn [bind].
  sy HV LV LA. destruct (dshift_ok fo lib N N n Hz N1 NL HLz _ _ HA) as (nrmf & As & -> & ES & HAs). cbn [bind]. rewrite ES. cbn [bind]. po HAs.
  destruct (b_potrf bl (b_dshift bl (b_syherk bl (is_V1 s)))) as [info G]. cbn [fst snd] in *.
  destruct (negb (info =? 0)%Z).
  - fin HA0.
  - rewrite i_set_ok by auto. cbn [bind]. tr HA0 HV LV.
    rewrite i_factor_ok by apply map_seq_len. cbn [bind is_V1]. sy HC (map_seq_len n (b_trsm bl G (is_V1 s))) (proj1 HA0). po HA1.
    set (c1 := map (b_trsm bl G (is_V1 s)) (seq 0 n)) in *.
    destruct (b_potrf bl (b_syherk bl c1)) as [info2 G2]. cbn [fst snd] in *.
    destruct (negb (info2 =? 0)%Z).
    + fin HA2.
    + tr HA2 HC (map_seq_len n (b_trsm bl G (is_V1 s))). rewrite i_set_ok by apply map_seq_len. cbn [bind is_V1 is_H is_V2 is_sw].
      set (c2 := map (b_trsm bl G2 c1) (seq 0 n)) in *.
      rewrite i_factor_ok by apply map_seq_len. cbn [bind is_V1]. sy HC0 (map_seq_len n (b_trsm bl G2 c1)) (proj1 HA2). po HA3.
      destruct (b_potrf bl (b_syherk bl c2)) as [info3 G3]. cbn [fst snd] in *.
      tr HA4 HC0 (map_seq_len n (b_trsm bl G2 c1)). rewrite i_set_ok by apply map_seq_len. fin HA4.
Qed.

Lemma rdm_coef rv m idx : rdm (map (l_inj lib) rv) 0 m m idx = let! r := get_range rv 0 (idx * m) in
     Ok (tab idx (fun j => map (l_inj lib) (firstn m (skipn (j * m) r)))).
Proof.
  unfold rdm, area_ok, get_range. rewrite Nat.leb_refl, map_length. cbn [plus Nat.leb andb].
  assert (EB : (idx =? 0) || ((idx - 1) * m + m <=? length rv) = (idx * m <=? length rv)).
  { destruct idx; cbn [Nat.eqb orb]; [reflexivity|]. f_equal. nia. }
  rewrite EB. destruct (Nat.leb_spec (idx * m) (length rv)); cbn [bind]; auto. f_equal. rewrite map_seq_tab. apply tab_ext. intros j Hj.
  cbn [skipn plus]. rewrite skipn_map, firstn_map. f_equal.
  rewrite skipn_firstn_comm, firstn_firstn. f_equal. rewrite Nat.min_l; auto. nia.
Qed.

Lemma put_ub {A} (l : list A) o xs : length l < o + length xs -> put_range l o xs = UB.
Proof. intros L. unfold put_range. apply Nat.leb_gt in L. now rewrite L. Qed.

Lemma ud_dos_rel idx m rv f s : R f s -> rel_res R (ud_dos lib N n idx m rv f) (i_dos bl idx m rv s).
Proof.
  intros H. gsp H. unfold ud_dos, i_dos, gemm0. rewrite rdm_coef.
  destruct (get_cases rv 0 (idx * m)) as [[r Er]|Er]; rewrite Er; cbn [bind]; [|exact I].
  pose proof (get_len _ _ _ _ Er) as Lr.
  set (Rc := tab idx (fun j => map (l_inj lib) (firstn m (skipn (j * m) r)))).
  assert (LR : length Rc = idx) by apply tab_length.
  assert (FR : Forall (fun c => length c = m) Rc).
  { apply Forall_forall. intros c Hc. unfold Rc, tab in Hc. apply in_map_iff in Hc as (j & <- & Hj). apply in_seq in Hj.
    rewrite map_length, firstn_length, skipn_length, Lr. apply Nat.min_l. nia. }
  rewrite (rdm_packs N N1 _ _ 0 m HV : rdm (g_V1 f) 0 N N m = _).
  destruct (get_cases (is_V1 s) 0 m) as [[c Ec]|Ec]; rewrite Ec; cbn [bind]; [|destruct (wrm (g_A f) 0 n m Rc) as [A'| |] eqn:E; try exact I].
  2:{ now apply wrm_total in E. }
  pose proof (get_len _ _ _ _ Ec) as Lc.
  assert (Lm : m <= n). { unfold get_range in Ec. destruct (Nat.leb_spec (0 + m) (length (is_V1 s))); [lia|discriminate]. }
  set (new := map (fun x => tab N (l_mul lib false c x)) Rc).
  assert (EN : map (b_combl bl c r) (seq 0 idx) = new).
  { unfold new, Rc. rewrite map_tab. cbn [b_combl col_blas]. unfold tab at 2. now rewrite Lc. }
  rewrite EN. assert (Ln : length new = idx) by (unfold new; now rewrite map_length).
  destruct (Nat.leb_spec idx n) as [Li|Li].
  2:{ rewrite put_ub by lia. cbn [bind]. destruct (wrm (g_A f) 0 n m Rc) as [A'| |] eqn:E; cbn [bind]; try exact I.
      - destruct (rdm A' 0 n m idx) as [B| |] eqn:EB; cbn [bind]; try exact I.
        + pose proof (wrm_packs N N1 _ _ 0 (map (fun x => tab N (l_mul lib false c x)) B) HW (Forall_map_len _ _ _ (fun x _ => tab_length _ _))) as G.
          assert (LB : length B = idx). { unfold rdm in EB. destruct (area_ok _ _ _ _ _); [|discriminate]. injection EB as <-. now rewrite map_length, seq_length. }
          rewrite put_ub in G by (rewrite map_length; lia). change (0 * N) with 0 in G.
          destruct (wrm (g_V2 f) 0 N N _); easy.
        + unfold rdm in EB. destruct (area_ok _ _ _ _ _); discriminate.
      - now apply wrm_total in E. }
  destruct (wrm_rect lib (g_A f) n m idx Rc Lm Li LA LR FR) as (A' & -> & LA' & ER). cbn [bind]. rewrite ER. cbn [bind]. fold new.
  pose proof (wrm_packs N N1 _ _ 0 new HW (Forall_map_len _ _ _ (fun x _ => tab_length _ _))) as G. change (0 * N) with 0 in G.
  destruct (put_range (is_V2 s) 0 new) as [W2| |] eqn:E2; destruct (wrm (g_V2 f) 0 N N new) as [V2| |]; try easy. cbn [bind]. cbn in G.
  rewrite <- bind_assoc. pose proof (cpy_rel N N1 _ _ _ _ 0 0 (m * N) 0 0 m HV G eq_refl eq_refl eq_refl) as G2.
  destruct (let! x := get_range W2 0 m in put_range (is_V1 s) 0 x) as [Cc| |] eqn:EC; destruct (cpy (g_V1 f) 0 V2 0 (m * N)) as [C| |]; try easy.
  cbn. apply bind_ok in EC as (a & _ & EC). apply put_range_length in EC. apply put_range_length in E2. cbn in G2. gmk.
Qed.

(** ** mLanczos *)
Lemma ua_batch_ok a x xs y ys k : pk x xs -> length xs = k -> pk y ys -> length ys = k -> length a = k ->
  exists b, ua_batch lib N a x y k = Ok b /\ pk b (GpuModel.axpy_batch bl a xs ys) /\ length (GpuModel.axpy_batch bl a xs ys) = k.
Proof.
  intros H L H' L' La. destruct a as [|a0 a].
  - cbn in La. rewrite <- La in *. exists y. split; [reflexivity|]. cbn. auto.
  - cbn [GpuModel.axpy_batch]. change (b_axpy bl a0) with (zip (l_axpy lib a0)). rewrite (zip_tab _ xs ys k [] []) by auto. 
    destruct (cols_loop N N Hz N1 NL HLz (fun i y => let! c := rd (a0 :: a) 0 in axpy lib N c x (i * N) y (i * N)) (fun i => zip (l_axpy lib a0) (nth i xs []) (nth i ys [])) k y ys) as (b & E & P); auto.
    + intros i Hi. rewrite zip_length. rewrite (len_nth N _ _ _ H), (len_nth N _ _ _ H') by lia. apply Nat.min_id.
    + intros i b Hi E. cbn [rd nth_error bind]. unfold axpy.
      rewrite (get1_packs N N1 _ _ _ H), (rd_nth _ _ []) by lia. cbn [bind]. rewrite E. reflexivity.
    + exists b. split; [exact E|]. split; [exact P|apply tab_length].
Qed.

Local Notation mlR_ := (mlR N n).
Lemma um_body_rel h Hm second M k k0 m s : rdm h 0 N N N = Ok Hm -> mlR_ k m s ->
  rel_res (fun a b => mlR_ k a (fst b) /\ pk (m_w a) (snd b) /\ length (snd b) = k) (um_body fo lib N h second M k k0 m) (g_body fo bl Hm second M k k0 s).
Proof.
  intros EM (HC & LC & H0' & L0 & H1 & L1 & (w & Hw & Lw) & Ed & Ee & Eb & Lb). unfold um_body, g_body.
  eapply rel_bind with (R := fun a b => pk a b /\ length b = n).
  { destruct second; [now split|]. now apply for_copy_rel. }
  intros C Cc [HC' LC'].
  pose proof (gemm0_rel lib N N N1 false k _ _ _ _ _ _ 0 0 0 0 EM H1 Hw eq_refl eq_refl) as G.
  rewrite get_all in G by auto. cbn [bind] in G. rewrite put_all in G by (rewrite map_length; lia).
  destruct (gemm0 lib false N k N h 0 N (m_v1 m) 0 N (m_w m) 0 N) as [w1| |]; try easy. cbn [bind]. cbn in G.
  change (fun u : list T => tab N (l_mul lib false Hm u)) with (b_mulN bl Hm) in G.
  set (v2 := map (b_mulN bl Hm) (ml_v1 s)) in *.
  assert (L2 : length v2 = k) by (unfold v2; now rewrite map_length).
  rewrite (dot_batch_ok lib N N Hz N1 NL HLz _ _ _ _ k _ H1 L1 G L2 (repeat_length _ _)). cbn [bind].
  change (b_dot bl) with (l_dot lib). change (b_tneg bl) with (l_neg lib). change (b_re bl) with (l_re lib). change (b_inj bl) with (l_inj lib).
  change (b_nrm2 bl) with (l_nrm2 lib).
  set (alpha := map (l_neg lib) (zip (l_dot lib) (ml_v1 s) v2)).
  assert (La : length alpha = k) by (unfold alpha; rewrite map_length, zip_length; lia).
  destruct (ua_batch_ok alpha _ _ _ _ k H1 L1 G L2 La) as (w2 & -> & Hw2 & L2a). cbn [bind].
  set (v2a := GpuModel.axpy_batch bl alpha (ml_v1 s) v2) in *.
  rewrite Ed. cbv zeta.
  assert (ED : for_ k 0 (fun i d => let! a := rd (map (l_neg lib) alpha) i in wr d (k0 + M * i) (l_re lib a)) (ml_d s) =
               for_ k 0 (fun i d => let! a := rd alpha i in wr d (k0 + M * i) (l_re lib (l_neg lib a))) (ml_d s)).
  { apply for_ext. intros i d _. rewrite rd_map. now destruct (rd alpha i). }
  rewrite ED. clear ED. eapply rel_bind with (R := eq).
  { destruct (for_ _ _ _ _); cbn; auto. }
  intros d ? <-.
  set (v2b := if k0 =? 0 then v2a else _).
  assert (G2 : exists w3, (if k0 =? 0 then Ok w2 else ua_batch lib N (map (fun b => l_inj lib (f_neg fo b)) (m_b m)) (m_v0 m) w2 k) = Ok w3 /\ pk w3 v2b /\ length v2b = k).
  { unfold v2b. destruct (k0 =? 0); [eauto|]. rewrite Eb.
    destruct (ua_batch_ok (map (fun b => l_inj lib (f_neg fo b)) (ml_b s)) _ _ _ _ k H0' L0 Hw2 L2a ltac:(now rewrite map_length)) as (w3 & -> & Hw3).
    exists w3. split; [reflexivity|]. exact Hw3. }
  destruct G2 as (w3 & -> & Hw3 & L3). cbn [bind].
  rewrite (nrm2_batch_ok lib N N Hz N1 NL HLz _ _ k _ Hw3 L3) by congruence. cbn.
  split; [|split; auto]. unfold mlR. cbn. split; [exact HC'|]. split; [exact LC'|]. split; [exact H0'|]. split; [exact L0|]. split; [exact H1|]. split; [exact L1|].
  split; [eauto|]. split; [reflexivity|]. split; [exact Ee|]. split; [reflexivity|]. now rewrite map_length.
Qed.

Lemma um_loop_rel h Hm second M k : rdm h 0 N N N = Ok Hm -> forall t k0 m s, mlR_ k m s ->
  rel_res (mlR_ k) (um_loop fo lib N t k0 h second M k m) (g_loop fo bl t k0 Hm second M k s).
Proof.
  intros EM. induction t; intros k0 m s H; cbn [um_loop g_loop]; auto.
  eapply rel_bind; [now apply um_body_rel|]. intros m1 [s1 v2] (H1 & Hw & Lw). cbn [fst snd] in *.
  destruct t; auto. eapply rel_bind; [eapply (next_rel fo lib N N n Hz N1 NL HLz); eauto|]. intros m2 s2 H2. now apply IHt.
Qed.

Lemma ud_mlanczos_rel M nv f s : R f s -> rel_res (vrel R) (ud_mlanczos fo lib N M nv f) (dv_mlanczos fo bl M nv s).
Proof.
  intros H. pose proof (EM_ _ _ H) as EM. gsp H. unfold ud_mlanczos, dv_mlanczos, g_lanczos.
  set (p := match nv with None => (true, 1) | Some k => (false, k) end). destruct p as [second k].
  rewrite (Nat.mul_comm N k).
  pose proof (cpy_rel N N1 _ _ _ _ 0 0 (k * N) 0 0 k (packs_zero N k z) HV eq_refl eq_refl eq_refl) as G. rewrite (Nat.mul_comm N k) in G.
  destruct (get_cases (is_V1 s) 0 k) as [[start Es]|Es]; rewrite Es in *; cbn [bind] in *; [|now apply (ub_l _ _ _ _ G)].
  pose proof (get_len _ _ _ _ Es) as Ls. rewrite put_all in G by now rewrite repeat_length.
  destruct (cpy (repeat z (k * N)) 0 (g_V1 f) 0 (k * N)) as [v1| |]; try easy. cbn [bind]. cbn in G.
  rewrite (nrm2_batch_ok lib N N Hz N1 NL HLz _ _ k _ G Ls (repeat_length _ _)). cbn [bind].
  destruct (scal_batch_ok lib N N Hz N1 NL HLz (map (fun r => l_inj lib (f_div fo (f_one fo) r)) (map (l_nrm2 lib) start)) _ _ k G Ls ltac:(now rewrite !map_length)) as (v1' & -> & Hv1).
  cbn [bind].
  assert (E1 : zip (fun c v => map (l_scal lib c) v) (map (fun r => l_inj lib (f_div fo (f_one fo) r)) (map (l_nrm2 lib) start)) start =
     map (fun x => b_scal bl (b_inj bl (f_div fo (f_one fo) (b_nrm2 bl x))) x) start).
  { clear. induction start; cbn; auto. f_equal. exact IHstart. }
  rewrite E1 in Hv1. cbv zeta.
  rewrite bind_assoc.
  eapply rel_bind; [apply (um_loop_rel _ _ second M k EM); unfold mlR; cbn|].
  - split; [exact HV|]. split; [exact LV|]. pose proof (packs_zero N k z) as PZ. rewrite (Nat.mul_comm N k) in PZ. split; [exact PZ|]. split; [apply repeat_length|].
    split; [exact Hv1|]. split; [now rewrite map_length|]. split; [exists (repeat (repeat z N) k); split; [exact PZ|apply repeat_length]|].
    split; [reflexivity|]. split; [reflexivity|]. split; [reflexivity|]. apply repeat_length.
  - intros m s' (HC' & LC' & H0' & L0 & H1 & L1 & _ & Ed & Ee & Eb & _). rewrite bind_assoc. rewrite Ed, Ee, Eb.
    eapply rel_bind with (R := fun a b => pk a b /\ length b = n).
    { destruct second; [now split|].
      pose proof (cpy_rel N N1 _ _ _ _ 0 0 (k * N) 0 0 k HC' H1 eq_refl eq_refl eq_refl) as G2. rewrite get_all in G2 by auto. cbn [bind] in G2.
      destruct (put_range (ml_C s') 0 (ml_v1 s')) as [Cc| |] eqn:EP; destruct (cpy (m_C m) 0 (m_v1 m) 0 (k * N)); try easy. cbn in *. split; auto.
      apply put_range_length in EP. congruence. }
    intros C Cc [HC2' LC2']. cbn. split; [reflexivity|]. cbn [snd]. unfold set_VA. gmk.
Qed.
End Dev.
