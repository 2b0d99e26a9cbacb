(** The methods on arrays agree with the methods on columns: everything except mLanczos. *)
From Coq Require Import List Arith ZArith Bool Lia.
Require Import Verif.Base Verif.AlgModel Verif.AlgSpec Verif.AlgProofs1 Verif.AlgProofs2 Verif.AlgSim Verif.DlaModel Verif.DlaSim Verif.ColModel Verif.SfModel Verif.SfSpec Verif.SfProofs1.
Import ListNotations.

Lemma bind_assoc {A B C} (x : res A) (f : A -> res B) (g : B -> res C) : bind (bind x f) g = bind x (fun a => bind (f a) g).
Proof. now destruct x. Qed.
Lemma get_len {A} (l x : list A) o k : get_range l o k = Ok x -> length x = k.
Proof. intros H. apply get_range_inv in H as [L ->]. rewrite firstn_length, skipn_length. lia. Qed.
Lemma get_all {A} (l : list A) k : length l = k -> get_range l 0 k = Ok l.
Proof. intros <-. rewrite get_range_ok by lia. cbn [skipn]. now rewrite firstn_all. Qed.
Lemma put_all {A} (l x : list A) : length x = length l -> put_range l 0 x = Ok x.
Proof. intros H. rewrite put_range_ok by lia. cbn [plus firstn app]. rewrite H, skipn_all. now rewrite app_nil_r. Qed.
Lemma get_Forall {A} (P : A -> Prop) l o k x : Forall P l -> get_range l o k = Ok x -> Forall P x.
Proof. intros H E. apply get_range_inv in E as [_ ->]. now apply Forall_firstn', Forall_skipn'. Qed.
Lemma for_ext {A} (f g : nat -> A -> res A) n i s : (forall k a, i <= k < i + n -> f k a = g k a) -> for_ n i f s = for_ n i g s.
Proof.
  revert i s. induction n; intros i s H; cbn; auto. rewrite H by lia. destruct (g i s); cbn; auto. apply IHn. intros. apply H. lia.
Qed.
(** a loop whose k-th pass is undefined *)
Lemma for_ub {A} (P : nat -> A -> Prop) (body : nat -> A -> res A) k : forall n i s, P i s -> i <= k < i + n ->
  (forall j s, i <= j < k -> P j s -> exists s', body j s = Ok s' /\ P (S j) s') ->
  (forall s, P k s -> body k s = UB) -> for_ n i body s = UB.
Proof.
  induction n; intros i s Hi Hk Hb Hu; [lia|]. cbn.
  destruct (Nat.eq_dec i k) as [->|D]; [now rewrite Hu|].
  destruct (Hb i s) as (s' & -> & Hs); [lia|auto|]. cbn. apply IHn; auto; [lia|]. intros. apply Hb; auto. lia.
Qed.
Lemma zip_length {A B C} (f : A -> B -> C) l m : length (zip f l m) = Nat.min (length l) (length m).
Proof. unfold zip. now rewrite map_length, combine_length. Qed.
Lemma zip_tab {A B C} (f : A -> B -> C) l m k da db : length l = k -> length m = k ->
  zip f l m = tab k (fun i => f (nth i l da) (nth i m db)).
Proof.
  intros Hl Hm. apply nth_ext with (d := f da db) (d' := f da db).
  - rewrite zip_length, tab_length. lia.
  - intros i Hi. rewrite zip_length in Hi. rewrite nth_tab by lia. unfold zip.
    rewrite map_nth with (f := fun p => f (fst p) (snd p)) (d := (da, db)). rewrite combine_nth by congruence. reflexivity.
Qed.
Lemma map_seq_tab {A} (f : nat -> A) k : map f (seq 0 k) = tab k f.
Proof. reflexivity. Qed.
Lemma map_as_tab {A B} (f : A -> B) l k d : length l = k -> map f l = tab k (fun i => f (nth i l d)).
Proof. intros <-. rewrite (tab_nth l d) at 1. now rewrite map_tab. Qed.
Lemma Forall_map_len {A B} (f : A -> list B) l m : (forall x, In x l -> length (f x) = m) -> Forall (fun c => length c = m) (map f l).
Proof. intros H. apply Forall_forall. intros c Hc. apply in_map_iff in Hc as (x & <- & Hx). auto. Qed.
Lemma Forall_tab {A} (P : A -> Prop) k f : (forall i, i < k -> P (f i)) -> Forall P (tab k f).
Proof. intros H. apply Forall_forall. intros c Hc. apply in_map_iff in Hc as (i & <- & Hi). apply in_seq in Hi. apply H. lia. Qed.
Lemma Forall_zip_len {A B C} (f : A -> B -> list C) l m k : (forall x y, In x l -> In y m -> length (f x y) = k) -> Forall (fun c => length c = k) (zip f l m).
Proof.
  intros H. apply Forall_forall. intros c Hc. apply in_map_iff in Hc as ([x y] & <- & Hx). apply H.
  - eapply in_combine_l; eauto.
  - eapply in_combine_r; eauto.
Qed.
Lemma idx_inj ldh a b i j : a < ldh -> i < ldh -> a + b * ldh = i + j * ldh -> a = i /\ b = j.
Proof.
  intros Ha Hi E.
  assert (b = j). { destruct (Nat.lt_trichotomy b j) as [L|[L|L]]; auto; exfalso; nia. }
  subst. lia.
Qed.

Section Rel.
Context {F T : Type} (fo : fops F) (lib : flib F T) (N ldh n : nat) (H0 : list T).
Context (N1 : 1 <= N) (NL : N <= ldh) (HL : (N - 1) * ldh + N <= length H0).
Local Notation z := (l_zero lib).
Local Notation bl := (col_blas fo lib N).
Local Notation R := (flat_rel lib N ldh n H0).
Local Notation pk := (packs (T := T) N).
Local Notation lenN := (fun c : list T => length c = N).

Lemma idx_in i j : i < N -> j < N -> i + j * ldh < length H0.
Proof. intros. assert (j * ldh <= (N - 1) * ldh) by (apply Nat.mul_le_mono_r; lia). lia. Qed.

Lemma rdm_H f s : R f s -> rdm (f_H f) 0 ldh N N = Ok (cs_H s).
Proof.
  intros (L & _ & -> & _). unfold rdm, area_ok. rewrite L.
  apply Nat.leb_le in NL as E1. apply Nat.leb_le in HL as E2. rewrite E1. cbn [andb Nat.leb plus]. rewrite E2, orb_true_r. f_equal.
  unfold window, tab2. rewrite map_seq_tab. apply tab_ext. intros j Hj.
  rewrite (sub_tab _ _ _ z).
  - apply tab_ext. intros i Hi. f_equal. lia.
  - rewrite L. pose proof (idx_in (N - 1) j ltac:(lia) Hj). lia.
Qed.

Lemma gemm_rel cj k al h Hm x xc y yc xo yo o o' be : rdm h 0 ldh N N = Ok Hm -> pk x xc -> pk y yc -> xo = o * N -> yo = o' * N ->
  rel_res pk (gemm lib cj N k N al h 0 ldh x xo N be y yo N)
    (let! u := get_range xc o k in let! v := get_range yc o' k in
     put_range yc o' (zip (fun u v => tab N (l_gemm lib cj al be Hm u v)) u v)).
Proof.
  intros EH Hx Hy -> ->. unfold gemm. replace (if cj then rdm h 0 ldh N N else rdm h 0 ldh N N) with (Ok Hm) by now destruct cj.
  cbn [bind]. rewrite (rdm_packs N N1 _ _ _ _ Hx), (rdm_packs N N1 _ _ _ _ Hy).
  destruct (get_range xc o k) eqn:E1; cbn; auto. destruct (get_range yc o' k) eqn:E2; cbn; auto.
  apply wrm_packs; auto. apply Forall_zip_len. intros. apply tab_length.
Qed.
Lemma gemm0_rel cj k h Hm x xc y yc xo yo o o' : rdm h 0 ldh N N = Ok Hm -> pk x xc -> pk y yc -> xo = o * N -> yo = o' * N ->
  rel_res pk (gemm0 lib cj N k N h 0 ldh x xo N y yo N)
    (let! u := get_range xc o k in put_range yc o' (map (fun u => tab N (l_mul lib cj Hm u)) u)).
Proof.
  intros EH Hx Hy -> ->. unfold gemm0. replace (if cj then rdm h 0 ldh N N else rdm h 0 ldh N N) with (Ok Hm) by now destruct cj.
  cbn [bind]. rewrite (rdm_packs N N1 _ _ _ _ Hx).
  destruct (get_range xc o k) eqn:E1; cbn; auto.
  apply wrm_packs; auto. apply Forall_map_len. intros. apply tab_length.
Qed.

(** ** sizes: C keeps its n columns *)
Ltac sp H := destruct H as (HlH & Hpad & EH & HC & LC & HB & HC2 & HB2 & LA & Enx).
Ltac ta := try assumption; try congruence; try reflexivity.
Ltac mkR := unfold flat_rel; cbn [f_H f_C f_B f_C2 f_B2 f_A f_bAc cs_H cs_C cs_B cs_C2 cs_B2 cs_bAc];
  split; [ta|split; [ta|split; [ta|split; [ta|split; [ta|split; [ta|split; [ta|split; [ta|split; [ta|ta]]]]]]]]].

Lemma get_cases {A} (l : list A) o k : (exists x, get_range l o k = Ok x) \/ get_range l o k = UB.
Proof. unfold get_range. destruct (_ <=? _); eauto. Qed.
Lemma ub_l {A B C D} (P : A -> B -> Prop) (Q : C -> D -> Prop) (x : res A) (g : A -> res C) : rel_res P x UB -> rel_res Q (bind x g) UB.
Proof. now destruct x. Qed.

Lemma apply_rel al be off blk lo f s : R f s -> rel_res R (s_apply lib N ldh al be off blk lo f) (c_apply bl al be off blk lo s).
Proof.
  intros H. pose proof (rdm_H _ _ H) as EM. sp H. unfold s_apply, c_apply. rewrite Enx. destruct (cs_bAc s).
  - pose proof (gemm_rel true blk al _ _ _ _ _ _ (off * N + lo * N) (lo * N + off * N) (lo + off) (lo + off) be EM HC HB ltac:(lia) ltac:(lia)) as G.
    destruct (get_cases (cs_C s) (lo + off) blk) as [[u E1]|E1]; rewrite E1 in *; cbn [bind] in *; [|now apply (ub_l _ _ _ _ G)].
    destruct (get_cases (cs_B s) (lo + off) blk) as [[v E2]|E2]; rewrite E2 in *; cbn [bind] in *; [|now apply (ub_l _ _ _ _ G)].
    eapply rel_bind; [exact G|]. intros B Bc HB'. cbn. mkR.
  - pose proof (gemm_rel false blk al _ _ _ _ _ _ (off * N + lo * N) (off * N + lo * N) (lo + off) (lo + off) be EM HB HC ltac:(lia) ltac:(lia)) as G.
    destruct (get_cases (cs_C s) (lo + off) blk) as [[u E1]|E1]; rewrite E1 in *; cbn [bind] in *.
    + destruct (get_cases (cs_B s) (lo + off) blk) as [[v E2]|E2]; rewrite E2 in *; cbn [bind] in *; [|now apply (ub_l _ _ _ _ G)].
      change (b_gemmN bl (cs_H s) al be) with (fun u v => tab N (l_gemm lib false al be (cs_H s) u v)).
      destruct (put_range (cs_C s) _ _) as [Cc| |] eqn:EP; cbn [bind] in *; [|now apply (ub_l _ _ _ _ G)|].
      * destruct (gemm _ _ _ _ _ _ _ _ _ _ _ _ _ _ _ _) as [C| |]; try easy. cbn in G. cbn. apply put_range_length in EP. mkR.
      * destruct (gemm _ _ _ _ _ _ _ _ _ _ _ _ _ _ _ _); easy.
    + destruct (get_cases (cs_B s) (lo + off) blk) as [[v E2]|E2]; rewrite E2 in *; cbn [bind] in *; now apply (ub_l _ _ _ _ G).
Qed.
Lemma shift_rel c u f s : R f s -> rel_res R (s_shift lib N ldh c u f) (c_shift bl c u s).
Proof.
  intros H. sp H. unfold s_shift, c_shift.
  set (v := l_inj lib c).
  destruct (for_inv (fun i h => length h = length H0 /\ (forall p, padding N ldh p -> nth p h z = nth p H0 z) /\
      forall a b, a < N -> b < N -> nth (a + b * ldh) h z =
        if (a =? b) && (a <? i) then l_add lib (nth (a + b * ldh) (f_H f) z) v else nth (a + b * ldh) (f_H f) z)
    (fun i h => let! a := rd h (i + i * ldh) in wr h (i + i * ldh) (l_add lib a v)) N 0 (f_H f)) as (h & -> & Lh & Ph & Eh).
  - split; auto. split; auto. intros a b Ha Hb. now rewrite andb_false_r.
  - intros i h Hi (Lh & Ph & Eh). pose proof (idx_in i i ltac:(lia) ltac:(lia)) as B.
    rewrite (rd_nth _ _ z) by lia. cbn [bind]. rewrite wr_ok by lia. eexists. split; [reflexivity|].
    rewrite upd_length. split; auto. split.
    + intros p Hp. rewrite nth_upd by lia. destruct (Nat.eqb_spec p (i + i * ldh)) as [->|]; auto.
      exfalso. apply (Hp i i); lia.
    + intros a b Ha Hb. rewrite nth_upd by lia. destruct (Nat.eqb_spec (a + b * ldh) (i + i * ldh)) as [E|D].
      * destruct (idx_inj ldh a b i i) as [-> ->]; try lia; auto.
        rewrite Nat.eqb_refl. assert (X : i <? S i = true) by (apply Nat.ltb_lt; lia). rewrite X. cbn [andb]. f_equal.
        rewrite Eh by lia. now rewrite Nat.ltb_irrefl, andb_false_r.
      * rewrite Eh by auto. destruct (Nat.eqb_spec a b) as [->|]; cbn [andb]; auto.
        destruct (Nat.ltb_spec b i), (Nat.ltb_spec b (S i)); auto; try lia. exfalso. apply D. assert (b = i) by lia. now subst.
  - cbn [bind rel_res]. mkR. rewrite EH. cbn [b_shift col_blas]. unfold window, tab2. apply tab_ext. intros j Hj. apply tab_ext. intros i Hi.
    assert (Q : ent lib (tab N (fun j => tab N (fun i => nth (i + j * ldh) (f_H f) z))) i j = nth (i + j * ldh) (f_H f) z).
    { unfold ent. rewrite (nth_tab N (fun j => tab N (fun i => nth (i + j * ldh) (f_H f) z)) j) by auto. now rewrite nth_tab by auto. }
    rewrite Q. rewrite Eh by auto. assert (X : i <? 0 + N = true) by (apply Nat.ltb_lt; lia). rewrite X, andb_true_r. reflexivity.
Qed.

Lemma init_rel f s : R f s -> rel_res R (s_init N n f) (c_init n s).
Proof.
  intros H. sp H. unfold s_init, c_init, lacpy. rewrite (rdm_packs N N1 _ _ 0 n HC : rdm (f_C f) 0 N N n = _).
  rewrite get_all by auto. cbn [bind].
  eapply rel_bind; [exact (wrm_packs N N1 _ _ 0 _ HC2 (proj2 HC))|]. intros C2 Cc HC2'. cbn. mkR.
Qed.

Lemma initrnd_rel f s : R f s -> rel_res R (s_initrnd lib N n f) (c_initrnd bl n s).
Proof.
  intros H. sp H. unfold s_initrnd, c_initrnd. rewrite put_all by (rewrite map_length, seq_length; auto). cbn [bind].
  destruct (for_inv (fun j C => pk C (tab j (b_rnd bl) ++ skipn j (cs_C s)))
    (fun j C => for_ N 0 (fun i C => wr C (i + j * N) (l_rnd lib (j * N + i))) C) n 0 (f_C f)) as (C & -> & HC').
  - exact HC.
  - intros j C Hj HCj.
    destruct (skipn_cons_ (cs_C s) j) as [y Ey]; [lia|]. rewrite Ey in HCj.
    pose proof (packs_len N N1 _ _ HCj) as LCj. rewrite app_length, tab_length in LCj. cbn [length] in LCj. rewrite skipn_length in LCj.
    destruct (for_inv (fun i C' => length C' = length C /\ forall p, nth p C' z =
        if (j * N <=? p) && (p <? j * N + i) then l_rnd lib p else nth p C z)
      (fun i C => wr C (i + j * N) (l_rnd lib (j * N + i))) N 0 C) as (C' & EC' & LC' & VC').
    + split; auto. intros p. rewrite Nat.add_0_r. destruct (Nat.leb_spec (j * N) p), (Nat.ltb_spec p (j * N)); auto; lia.
    + intros i C' Hi [L V]. rewrite wr_ok by nia. eexists. split; [reflexivity|]. rewrite upd_length. split; auto.
      intros p. rewrite nth_upd by nia. destruct (Nat.eqb_spec p (i + j * N)) as [->|D].
      * replace (j * N + i) with (i + j * N) by lia. assert (X : j * N <=? i + j * N = true) by (apply Nat.leb_le; lia).
        assert (Y : i + j * N <? j * N + S i = true) by (apply Nat.ltb_lt; lia). now rewrite X, Y.
      * rewrite V. destruct (Nat.leb_spec (j * N) p); auto. cbn [andb].
        destruct (Nat.ltb_spec p (j * N + i)), (Nat.ltb_spec p (j * N + S i)); auto; lia.
    + exists C'. split; auto.
      pose proof (put1_packs N N1 _ _ j (b_rnd bl j) HCj (tab_length _ _)) as RP.
      rewrite wr_ok in RP by (rewrite app_length, tab_length; cbn [length]; lia).
      rewrite upd_mid in RP by apply tab_length.
      destruct (put_range C (j * N) (b_rnd bl j)) as [D| |] eqn:ED; try easy. cbn in RP.
      assert (C' = D).
      { pose proof (put_range_length _ _ _ _ ED) as LD. apply nth_ext with (d := z) (d' := z); [lia|]. intros p Hp.
        rewrite VC', (nth_put _ _ _ _ _ z ED). cbn [b_rnd col_blas]. rewrite tab_length.
        destruct (Nat.leb_spec (j * N) p); auto. cbn [andb plus]. destruct (Nat.ltb_spec p (j * N + N)); auto.
        rewrite nth_tab by lia. f_equal. lia. }
      subst D. rewrite tab_app_S, <- app_assoc. exact RP.
  - cbn [bind rel_res plus] in *. rewrite <- LC in HC' at 2. rewrite skipn_all, app_nil_r in HC'. mkR.
    rewrite map_length, seq_length. reflexivity.
Qed.

Lemma cpy_rel dst dc src sc doff soff len c d k : pk dst dc -> pk src sc -> doff = c * N -> soff = d * N -> len = k * N ->
  rel_res pk (cpy dst doff src soff len) (let! x := get_range sc d k in put_range dc c x).
Proof. intros H H' -> -> ->. now apply cpy_packs. Qed.

Lemma gather_rel lo blk f s : R f s -> rel_res R (s_gather lib N ldh lo blk f) (c_gather bl lo blk s).
Proof.
  intros H. pose proof (rdm_H _ _ H) as EM. sp H. unfold s_gather, c_gather.
  pose proof (gemm0_rel true blk _ _ _ _ _ _ (lo * N) (lo * N) lo lo EM HC HB eq_refl eq_refl) as G.
  rewrite <- bind_assoc. eapply rel_bind; [exact G|]. intros B Bc HB'.
  rewrite <- bind_assoc. eapply rel_bind; [apply (cpy_rel _ _ _ _ _ _ _ _ _ _ HB2 HC2); try reflexivity; lia|].
  intros B2 Bc2 HB2'. cbn. mkR.
Qed.

Lemma lockcopy_rel lo b f s : R f s -> rel_res R (s_lockcopy N n lo b f) (c_lockcopy n lo b s).
Proof.
  intros H. sp H. unfold s_lockcopy, c_lockcopy.
  rewrite <- bind_assoc. pose proof (cpy_rel _ _ _ _ 0 0 (lo * N) 0 0 lo HC HC2 eq_refl eq_refl eq_refl) as G.
  destruct (let! x := get_range (cs_C2 s) 0 lo in put_range (cs_C s) 0 x) as [Cc| |] eqn:EC; destruct (cpy (f_C f) 0 (f_C2 f) 0 (lo * N)) as [C| |]; try easy.
  cbn [bind]. cbn in G. rewrite <- bind_assoc.
  eapply rel_bind; [apply (cpy_rel _ _ _ _ _ _ _ lo lo (n - lo) HC2 G); reflexivity|].
  intros C2 Cc2 HC2'. cbn. apply bind_ok in EC as (a & _ & EC). apply put_range_length in EC. mkR.
Qed.

Lemma swap_cols_rel buf cols i j : pk buf cols -> rel_res pk (swap_cols N buf i j) (swap_ cols i j).
Proof.
  intros H. unfold swap_cols, swap_, cpy. rewrite (Nat.mul_comm N i), (Nat.mul_comm N j).
  rewrite !(get1_packs N N1 _ _ _ H). destruct (rd cols i) as [x| |] eqn:Ex; cbn [bind]; try exact I.
  destruct (rd cols j) as [y| |] eqn:Ey; cbn [bind]; try exact I.
  assert (Lx : length x = N). { apply rd_ok, nth_error_In in Ex. exact (proj1 (Forall_forall _ _) (proj2 H) _ Ex). }
  assert (Ly : length y = N). { apply rd_ok, nth_error_In in Ey. exact (proj1 (Forall_forall _ _) (proj2 H) _ Ey). }
  eapply rel_bind; [now apply put1_packs|]. intros b c Hb. now apply put1_packs.
Qed.
Lemma swap_len {A} (l l' : list A) i j : swap_ l i j = Ok l' -> length l' = length l.
Proof.
  unfold swap_. intros H. apply bind_ok in H as (x & _ & H). apply bind_ok in H as (y & _ & H). apply bind_ok in H as (l1 & E & H).
  apply wr_inv in E as [_ ->]. apply wr_inv in H as [_ ->]. now rewrite !upd_length.
Qed.
Lemma swap_rel i j f s : R f s -> rel_res R (s_swap N i j f) (c_swap false i j s).
Proof.
  intros H. sp H. unfold s_swap, c_swap. pose proof (swap_cols_rel _ _ i j HC) as G.
  destruct (swap_ (cs_C s) i j) as [Cc| |] eqn:EC; destruct (swap_cols N (f_C f) i j) as [C| |]; try easy. cbn [bind].
  eapply rel_bind; [now apply swap_cols_rel|]. intros C2 Cc2 HC2'. cbn. apply swap_len in EC. cbn in G. mkR.
Qed.

Lemma dos_rel idx m rv f s : R f s -> rel_res R (s_dos lib N idx m rv f) (c_dos bl idx m rv s).
Proof.
  intros H. sp H. unfold s_dos, c_dos, gemm0.
  rewrite (rdm_packs N N1 _ _ 0 m HC : rdm (f_C f) 0 N N m = _).
  destruct (get_cases (cs_C s) 0 m) as [[c Ec]|Ec]; rewrite Ec; cbn [bind];
    [|destruct (get_cases rv 0 (idx * m)) as [[r Er]|Er]; rewrite Er; cbn [bind]; exact I].
  pose proof (get_len _ _ _ _ Ec) as Lc.
  assert (EV : rdm (map (l_inj lib) rv) 0 m m idx = let! r := get_range rv 0 (idx * m) in
     Ok (tab idx (fun j => map (l_inj lib) (firstn m (skipn (j * m) r))))).
  { unfold rdm, area_ok, get_range. rewrite Nat.leb_refl, map_length. cbn [plus Nat.leb andb].
    assert (EB : (idx =? 0) || ((idx - 1) * m + m <=? length rv) = (idx * m <=? length rv)).
    { destruct idx; cbn [Nat.eqb orb]; [reflexivity|]. f_equal. nia. }
    rewrite EB. destruct (Nat.leb_spec (idx * m) (length rv)); cbn [bind]; auto. f_equal. rewrite map_seq_tab. apply tab_ext. intros j Hj.
    cbn [skipn plus]. rewrite skipn_map, firstn_map. f_equal.
    rewrite skipn_firstn_comm, firstn_firstn. f_equal. rewrite Nat.min_l; auto. nia. }
  rewrite EV. destruct (get_cases rv 0 (idx * m)) as [[r Er]|Er]; rewrite Er; cbn [bind]; [|exact I].
  pose proof (wrm_packs N N1 _ _ 0 (map (fun x => tab N (l_mul lib false c x)) (tab idx (fun j => map (l_inj lib) (firstn m (skipn (j * m) r)))))
    HC2 (Forall_map_len _ _ _ (fun x _ => tab_length _ _))) as G.
  rewrite map_tab in *.
  replace (map (b_combl bl c r) (seq 0 idx)) with (tab idx (fun i => tab N (l_mul lib false c (map (l_inj lib) (firstn m (skipn (i * m) r))))))
    by (cbn [b_combl col_blas]; unfold tab at 1; now rewrite Lc).
  eapply rel_bind; [exact G|]. intros C2 Cc2 HC2'. 
  rewrite <- bind_assoc. pose proof (cpy_rel _ _ _ _ 0 0 (m * N) 0 0 m HC HC2' eq_refl eq_refl eq_refl) as G2.
  destruct (let! x := get_range Cc2 0 m in put_range (cs_C s) 0 x) as [Cc| |] eqn:EC; destruct (cpy (f_C f) 0 C2 0 (m * N)) as [C| |]; try easy.
  cbn. apply bind_ok in EC as (a & _ & EC). apply put_range_length in EC. cbn in G2. mkR.
Qed.
End Rel.
