(** The in-place backend on arrays agrees with the in-place backend on columns. *)
From Coq Require Import List Arith ZArith Bool Lia.
Require Import Verif.Base Verif.AlgModel Verif.AlgSpec Verif.AlgProofs1 Verif.AlgProofs2 Verif.AlgSim Verif.DlaModel Verif.DlaSim Verif.ColModel Verif.SfModel Verif.SfSpec
  Verif.SfProofs1 Verif.SfProofs2 Verif.SfProofs3 Verif.SfProofs4 Verif.SiModel Verif.SiSpec.
Import ListNotations.

Lemma get_put {A} (l l' xs : list A) lo : put_range l lo xs = Ok l' -> get_range l' lo (length xs) = Ok xs.
Proof.
  intros E. apply put_range_inv in E as [L ->]. rewrite get_range_ok.
  - f_equal. rewrite skipn_app. rewrite skipn_all2 by (rewrite firstn_length; lia). rewrite firstn_length, Nat.min_l by lia. rewrite Nat.sub_diag. cbn [skipn app].
    rewrite firstn_app, Nat.sub_diag. rewrite firstn_all2 by lia. cbn. now rewrite app_nil_r.
  - rewrite !app_length, firstn_length, skipn_length. lia.
Qed.
Lemma put_put {A} (l l' xs ys : list A) lo : put_range l lo xs = Ok l' -> length ys = length xs -> put_range l' lo ys = put_range l lo ys.
Proof.
  intros E L. pose proof (put_range_length _ _ _ _ E) as L'. apply put_range_inv in E as [Lx El].
  rewrite !put_range_ok by lia. f_equal. subst l'. rewrite firstn_app, firstn_firstn, Nat.min_id, firstn_length, Nat.min_l by lia. rewrite Nat.sub_diag. cbn [firstn]. rewrite app_nil_r.
  f_equal. f_equal. rewrite app_assoc, skipn_app. rewrite skipn_all2 by (rewrite app_length, firstn_length; lia). cbn [app].
  rewrite app_length, firstn_length. replace (lo + length ys - (Nat.min lo (length l) + length xs)) with 0 by lia. cbn [skipn]. f_equal. lia.
Qed.
Lemma get_ub {A} (l : list A) o k : length l < o + k -> get_range l o k = UB.
Proof. intros L. unfold get_range. apply Nat.leb_gt in L. now rewrite L. Qed.

(** an m x m matrix in the corner of an n x n array *)
Section Corner.
Context {F T : Type} (lib : flib F T).
Local Notation z := (l_zero lib).
Definition stores_m (n m : nat) (A : list T) (cols : list (list T)) : Prop :=
  m <= n /\ length A = n * n /\ length cols = m /\ Forall (fun c => length c = m) cols /\ forall i j, i < m -> j < m -> nth (i + j * n) A z = nth i (nth j cols []) z.

Lemma area_corner (A : list T) n m : m <= n -> length A = n * n -> area_ok A 0 n m m = true.
Proof.
  intros L LA. unfold area_ok. rewrite LA. apply Nat.leb_le in L as E. rewrite E. cbn [andb Nat.leb plus].
  destruct m; cbn [Nat.eqb orb]; auto. apply Nat.leb_le. replace (S m - 1) with m by lia.
  assert (m * n <= (n - 1) * n) by (apply Nat.mul_le_mono_r; lia). nia.
Qed.
Lemma wrm_corner (A : list T) n m cols : m <= n -> length A = n * n -> length cols = m -> Forall (fun c => length c = m) cols ->
  exists A', wrm A 0 n m cols = Ok A' /\ stores_m n m A' cols.
Proof.
  intros L LA LC FC. unfold wrm. rewrite LC, area_corner by auto.
  assert (Lc : forall j, j < m -> length (nth j cols []) = m). { intros j Hj. apply (proj1 (Forall_forall _ _) FC), nth_In. lia. }
  destruct (for_inv (fun k b => length b = n * n /\ forall i j, i < m -> j < k -> nth (i + j * n) b z = nth i (nth j cols []) z)
    (fun j b => let! c := rd cols j in put_range b (0 + j * n) c) m 0 A) as (A' & -> & LA' & V).
  - split; auto. intros. lia.
  - intros k b Hk [Lb V]. rewrite (rd_nth _ _ []) by lia. cbn [bind].
    assert (X : 0 + k * n + m <= length b). { rewrite Lb. assert (k * n <= (n - 1) * n) by (apply Nat.mul_le_mono_r; lia). nia. }
    destruct (put_range b (0 + k * n) (nth k cols [])) as [b'| |] eqn:E.
    2,3: exfalso; unfold put_range in E; rewrite Lc in E by lia; apply Nat.leb_le in X; rewrite X in E; discriminate.
    exists b'. split; auto. split; [now rewrite (put_range_length _ _ _ _ E)|]. intros i j Hi Hj.
    rewrite (nth_put _ _ _ _ _ z E), Lc by lia. cbn [plus]. destruct (Nat.eq_dec j k) as [->|D].
    + assert (X1 : k * n <=? i + k * n = true) by (apply Nat.leb_le; lia). assert (Y : i + k * n <? k * n + m = true) by (apply Nat.ltb_lt; lia).
      rewrite X1, Y. cbn [andb]. f_equal. lia.
    + assert (X1 : k * n <=? i + j * n = false) by (apply Nat.leb_gt; nia). rewrite X1. cbn [andb]. apply V; lia.
  - exists A'. split; auto. repeat split; auto.
Qed.
Lemma corner_in n m A cols i j : stores_m n m A cols -> i < m -> j < m -> i + j * n < length A.
Proof. intros (L & -> & _) Hi Hj. assert (j * n <= (n - 1) * n) by (apply Nat.mul_le_mono_r; lia). nia. Qed.
Lemma rdm_corner n m A cols : stores_m n m A cols -> rdm A 0 n m m = Ok cols.
Proof.
  intros H. pose proof (corner_in _ _ _ _ (m - 1) (m - 1) H) as B. pose proof (fun j => corner_in _ _ _ _ (m - 1) j H) as B2. destruct H as (L & LA & LC & FC & V). unfold rdm. rewrite area_corner by auto. f_equal.
  rewrite map_seq_tab. rewrite (tab_nth cols []), LC. apply tab_ext. intros j Hj.
  rewrite (sub_tab _ _ _ z) by (specialize (B2 j); lia).
  rewrite (tab_nth (nth j cols []) z). replace (length (nth j cols [])) with m.
  - apply tab_ext. intros i Hi. rewrite <- V by auto. f_equal. lia.
  - symmetry. apply (proj1 (Forall_forall _ _) FC), nth_In. lia.
Qed.
Lemma rdl_corner n m A cols : stores_m n m A cols -> rdl A 0 n m = Ok (lower lib cols).
Proof.
  intros H. pose proof (fun j => corner_in _ _ _ _ (m - 1) j H) as B2. destruct H as (L & LA & LC & FC & V). unfold rdl. rewrite area_corner by auto. f_equal. unfold lower. rewrite LC.
  rewrite map_seq_tab. apply tab_ext. intros j Hj. rewrite (sub_tab _ _ _ z) by (specialize (B2 j); lia). apply tab_ext. intros i Hi.
  unfold ent. rewrite <- V by lia. f_equal. lia.
Qed.
End Corner.

Ltac gsp H := destruct H as (HlH & Hpad & EH & HV & LV & HW & LW & LA & Esw).
Ltac gta := try assumption; try congruence; try reflexivity.
Ltac gmk := unfold iflat_rel; cbn [g_H g_V1 g_V2 g_A g_sw is_H is_V1 is_V2 is_sw];
  split; [gta|split; [gta|split; [gta|split; [gta|split; [gta|split; [gta|split; [gta|split; [gta|gta]]]]]]]].

Section Rel.
Context {F T : Type} (fo : fops F) (lib : flib F T) (N ldh n : nat) (H0 : list T).
Context (N1 : 1 <= N) (NL : N <= ldh) (HL : (N - 1) * ldh + N <= length H0).
Local Notation z := (l_zero lib).
Local Notation bl := (col_blas fo lib N).
Local Notation R := (iflat_rel lib N ldh n H0).
Local Notation RS := (flat_rel lib N ldh n H0).
Local Notation pk := (packs (T := T) N).
Local Notation icst := (ist (V := list T) (M := list (list T))).
Definition as_col (s : icst) : cst (V := list T) (M := list (list T)) := mk_cst (is_H s) (is_V1 s) (is_V2 s) [] [] true.

Lemma as_rel f s : R f s -> RS (as_seq f) (as_col s).
Proof.
  intros H. gsp H. unfold as_seq, as_col, flat_rel. cbn.
  split; [auto|]. split; [auto|]. split; [auto|]. split; [auto|]. split; [auto|]. split; [auto|].
  split; [split; auto|]. split; [split; auto|]. split; auto.
Qed.
Lemma rdm_Hi f s : R f s -> rdm (g_H f) 0 ldh N N = Ok (is_H s).
Proof. intros H. exact (rdm_H lib N ldh n H0 N1 NL HL _ _ (as_rel _ _ H)). Qed.

Lemma g_sym_rel f s : R f s -> rel_res (vrel R) (g_sym lib N ldh f) (i_sym bl s).
Proof.
  intros H. unfold g_sym. pose proof (sym_rel fo lib N ldh n H0 N1 NL HL _ _ (as_rel _ _ H)) as G.
  unfold c_sym in G. destruct (s_sym lib N ldh (as_seq f)) as [[b f']| |]; try easy. destruct G as [G _]. cbn in G. cbn. split; auto.
Qed.
Lemma g_shift_rel c u f s : R f s -> rel_res R (g_shift lib N ldh c u f) (i_shift bl c u s).
Proof.
  intros H. unfold g_shift, i_shift. pose proof (shift_rel fo lib N ldh n H0 N1 NL HL c u _ _ (as_rel _ _ H)) as G. unfold c_shift in G.
  destruct (s_shift lib N ldh c u (as_seq f)) as [f'| |]; try easy. cbn in G. sp G. clear - H HlH Hpad EH. rename HlH into h1, Hpad into h2, EH into h3.
  gsp H. cbn. gmk.
Qed.
Lemma g_initrnd_rel f s : R f s -> rel_res R (g_initrnd lib N n f) (i_initrnd bl n s).
Proof.
  intros H. unfold g_initrnd, i_initrnd. pose proof (initrnd_rel fo lib N ldh n H0 N1 NL HL _ _ (as_rel _ _ H)) as G. unfold c_initrnd in G.
  cbn [as_col cs_C] in G. destruct (put_range (is_V1 s) 0 (map (b_rnd bl) (seq 0 n))) as [v| |]; destruct (s_initrnd lib N n (as_seq f)) as [f'| |]; try easy.
  cbn in G. sp G. cbn in *. clear - H HC LC. gsp H. gmk.
Qed.
Lemma g_mlanczos_rel M nv f s : R f s -> rel_res (vrel R) (g_mlanczos fo lib N ldh M nv f) (i_mlanczos fo bl M nv s).
Proof.
  intros H. unfold g_mlanczos, i_mlanczos. pose proof (mlanczos_rel fo lib N ldh n H0 N1 NL HL M nv _ _ (as_rel _ _ H)) as G. unfold c_mlanczos in G.
  cbn [as_col cs_C cs_H] in G. destruct (mlanczos fo bl (is_H s) M nv (is_V1 s)) as [[[[d e] b] C]| |]; destruct (s_mlanczos fo lib N ldh M nv (as_seq f)) as [[[[d' e'] b'] f']| |]; try easy.
  cbn in G. destruct G as [G1 G2]. cbn [fst snd] in *. sp G2. cbn in HC, LC. cbn. split; [exact G1|]. cbn [snd]. clear - H HC LC. gsp H. gmk.
Qed.

Lemma g_init_rel f s : R f s -> rel_res R (g_init N n f) (i_init n s).
Proof.
  intros H. gsp H. unfold g_init, i_init, lacpy. rewrite (rdm_packs N N1 _ _ 0 n HV : rdm (g_V1 f) 0 N N n = _). rewrite get_all by auto. cbn [bind].
  pose proof (wrm_packs N N1 _ _ 0 _ HW (proj2 HV)) as G. rewrite put_all in * by lia. cbn [bind]. change (0 * N) with 0 in G.
  destruct (wrm (g_V2 f) 0 N N (is_V1 s)) as [V| |]; [|easy|easy]. cbn in *. gmk.
Qed.

Lemma g_apply_rel al be off blk lo f s : R f s -> rel_res R (g_apply lib N ldh al be off blk lo f) (i_apply bl al be off blk lo s).
Proof.
  intros H. pose proof (rdm_Hi _ _ H) as EM. gsp H. unfold g_apply, i_apply.
  pose proof (gemm_rel lib N ldh N1 false blk al _ _ _ _ _ _ (off * N + lo * N) (lo * N + off * N) (lo + off) (lo + off) be EM HV HW ltac:(lia) ltac:(lia)) as G.
  destruct (get_cases (is_V1 s) (lo + off) blk) as [[u E1]|E1]; rewrite E1 in *; cbn [bind] in *; [|now apply (ub_l _ _ _ _ G)].
  destruct (get_cases (is_V2 s) (lo + off) blk) as [[v E2]|E2]; rewrite E2 in *; cbn [bind] in *; [|now apply (ub_l _ _ _ _ G)].
  change (b_gemmN bl (is_H s) al be) with (fun u v => tab N (l_gemm lib false al be (is_H s) u v)).
  destruct (put_range (is_V2 s) (lo + off) _) as [W| |] eqn:EP; destruct (gemm _ _ _ _ _ _ _ _ _ _ _ _ _ _ _ _) as [V| |]; try contradiction; try exact I.
  cbn in *. apply put_range_length in EP. gmk.
Qed.

Lemma g_save_rel lo f s : R f s -> rel_res R (g_save N lo f) (i_save lo s).
Proof.
  intros H. gsp H. unfold g_save, i_save. rewrite <- bind_assoc.
  pose proof (cpy_rel N N1 _ _ _ _ 0 0 (lo * N) 0 0 lo HW HV eq_refl eq_refl eq_refl) as G.
  destruct (let! x := get_range (is_V1 s) 0 lo in put_range (is_V2 s) 0 x) as [W| |] eqn:EC; destruct (cpy (g_V2 f) 0 (g_V1 f) 0 (lo * N)) as [V| |]; try contradiction; try exact I.
  cbn in *. apply bind_ok in EC as (a & _ & EC). apply put_range_length in EC. gmk.
Qed.
Lemma g_lockcopy_rel lo b f s : R f s -> rel_res R (g_lockcopy N lo b f) (i_lockcopy lo b s).
Proof.
  intros H. gsp H. unfold g_lockcopy, i_lockcopy, set_VA. rewrite <- bind_assoc.
  pose proof (cpy_rel N N1 _ _ _ _ 0 0 (lo * N) 0 0 lo HV HW eq_refl eq_refl eq_refl) as G.
  destruct (let! x := get_range (is_V2 s) 0 lo in put_range (is_V1 s) 0 x) as [W| |] eqn:EC; destruct (cpy (g_V1 f) 0 (g_V2 f) 0 (lo * N)) as [V| |]; try contradiction; try exact I.
  cbn in *. apply bind_ok in EC as (a & _ & EC). apply put_range_length in EC. gmk.
Qed.
Lemma g_swap_rel i j f s : R f s -> rel_res R (g_swap N i j f) (i_swap i j s).
Proof.
  intros H. gsp H. unfold g_swap, i_swap, set_VA. pose proof (swap_cols_rel N N1 _ _ i j HV) as G.
  destruct (swap_ (is_V1 s) i j) as [W| |] eqn:EC; destruct (swap_cols N (g_V1 f) i j) as [V| |]; try contradiction; try exact I. cbn in *. apply swap_len in EC. gmk.
Qed.
Lemma g_dos_rel idx m rv f s : R f s -> rel_res R (g_dos lib N idx m rv f) (i_dos bl idx m rv s).
Proof.
  intros H.
  set (f' := mk_fs (g_H f) (g_V1 f) [] (g_V2 f) [] (g_A f) true). set (s' := mk_cst (is_H s) (is_V1 s) [] (is_V2 s) [] true).
  assert (H' : RS f' s').
  { gsp H. unfold flat_rel. cbn. split; [auto|]. split; [auto|]. split; [auto|]. split; [auto|]. split; [auto|]. split; [split; auto|].
    split; [auto|]. split; [split; auto|]. split; auto. }
  pose proof (dos_rel fo lib N ldh n H0 N1 NL HL idx m rv f' s' H') as G. unfold s_dos, c_dos in G. unfold g_dos, i_dos. cbn [f' s' f_C f_C2 cs_C cs_C2 f_H f_B f_B2 f_A f_bAc cs_H cs_B cs_B2 cs_bAc] in G.
  destruct (gemm0 lib false N idx m (g_V1 f) 0 N (map (l_inj lib) rv) 0 m (g_V2 f) 0 N) as [V2| |]; cbn [bind] in *.
  2,3: destruct (get_range rv 0 (idx * m)); cbn [bind] in *; try easy; destruct (get_range (is_V1 s) 0 m); cbn [bind] in *; try easy;
    destruct (put_range (is_V2 s) _ _); cbn [bind] in *; try easy; destruct (get_range _ 0 m); cbn [bind] in *; try easy; destruct (put_range (is_V1 s) _ _); easy.
  destruct (get_range rv 0 (idx * m)); cbn [bind] in *; [|destruct (cpy _ _ _ _ _); easy|destruct (cpy _ _ _ _ _); easy].
  destruct (get_range (is_V1 s) 0 m); cbn [bind] in *; [|destruct (cpy _ _ _ _ _); easy|destruct (cpy _ _ _ _ _); easy].
  destruct (put_range (is_V2 s) _ _) as [W2| |] eqn:E2; cbn [bind] in *; [|destruct (cpy _ _ _ _ _); easy|destruct (cpy _ _ _ _ _); easy].
  destruct (get_range W2 0 m); cbn [bind] in *; [|destruct (cpy _ _ _ _ _); easy|destruct (cpy _ _ _ _ _); easy].
  destruct (put_range (is_V1 s) _ _) as [W| |] eqn:E1; destruct (cpy (g_V1 f) 0 V2 0 (m * N)) as [V| |]; try contradiction; try exact I. cbn in *.
  apply put_range_length in E2. sp G. cbn in HC, LC, HC2. clear - H HC LC HC2 E2. gsp H. gmk.
Qed.
End Rel.
