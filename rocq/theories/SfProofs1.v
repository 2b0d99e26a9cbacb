(** Arrays that hold columns: copies and library operands. *)
From Coq Require Import List Arith ZArith Bool Lia.
Require Import Verif.Base Verif.AlgModel Verif.AlgSpec Verif.AlgProofs1 Verif.AlgProofs2 Verif.AlgSim Verif.DlaModel Verif.DlaSim Verif.ColModel Verif.SfModel Verif.SfSpec.
Import ListNotations.

(** ** tabulated lists *)
Lemma tab_length {A} m (f : nat -> A) : length (tab m f) = m.
Proof. unfold tab. now rewrite map_length, seq_length. Qed.
Lemma tab_ext {A} m (f g : nat -> A) : (forall i, i < m -> f i = g i) -> tab m f = tab m g.
Proof. intros H. apply map_ext_in. intros i Hi. apply in_seq in Hi. apply H. lia. Qed.
Lemma nth_tab {A} m (f : nat -> A) i d : i < m -> nth i (tab m f) d = f i.
Proof.
  intros H. unfold tab. rewrite nth_indep with (d' := f 0) by (rewrite map_length, seq_length; lia).
  rewrite map_nth, seq_nth by lia. reflexivity.
Qed.
Lemma nth_error_tab {A} m (f : nat -> A) i : i < m -> nth_error (tab m f) i = Some (f i).
Proof. intros H. rewrite (nth_error_nth' _ (f 0)) by (rewrite tab_length; auto). now rewrite nth_tab. Qed.
Lemma rd_tab {A} m (f : nat -> A) i : i < m -> rd (tab m f) i = Ok (f i).
Proof. intros H. unfold rd. now rewrite nth_error_tab. Qed.
Lemma tab_nth {A} (l : list A) d : l = tab (length l) (fun i => nth i l d).
Proof.
  apply nth_ext with (d := d) (d' := d); [now rewrite tab_length|]. intros i H. rewrite nth_tab; auto.
Qed.
Lemma tab_nth_n {A} (l : list A) m d : length l = m -> tab m (fun i => nth i l d) = l.
Proof. intros <-. symmetry. apply tab_nth. Qed.
Lemma tab2_length {A} m n (f : nat -> nat -> A) : length (tab2 m n f) = n.
Proof. apply tab_length. Qed.
Lemma tab2_Forall {A} m n (f : nat -> nat -> A) : Forall (fun c => length c = m) (tab2 m n f).
Proof. unfold tab2. apply Forall_forall. intros c H. apply in_map_iff in H as (j & <- & _). apply tab_length. Qed.
Lemma tab_app_S {A} m (f : nat -> A) : tab (S m) f = tab m f ++ [f m].
Proof. unfold tab. rewrite seq_S, map_app. reflexivity. Qed.
Lemma map_tab {A B} m (f : nat -> A) (g : A -> B) : map g (tab m f) = tab m (fun i => g (f i)).
Proof. unfold tab. now rewrite map_map. Qed.

Lemma rd_nth {A} (l : list A) i d : i < length l -> rd l i = Ok (nth i l d).
Proof. intros H. unfold rd. now rewrite (nth_error_nth' _ d). Qed.
Lemma nth_upd {A} (l : list A) i j v d : i < length l -> nth j (upd l i v) d = if j =? i then v else nth j l d.
Proof.
  revert i j. induction l; intros [|i] [|j] H; cbn in *; try lia; auto. apply IHl. lia.
Qed.
Lemma nth_firstn {A} (l : list A) m i d : i < m -> nth i (firstn m l) d = nth i l d.
Proof. revert m i. induction l; intros [|m] [|i] H; cbn; try lia; auto. apply IHl. lia. Qed.
Lemma nth_skipn {A} (l : list A) m i d : nth i (skipn m l) d = nth (m + i) l d.
Proof. revert m. induction l; intros [|m]; cbn; auto. now destruct i. Qed.
Lemma sub_tab {A} (l : list A) m p d : p + m <= length l -> firstn m (skipn p l) = tab m (fun i => nth (p + i) l d).
Proof.
  intros H. apply nth_ext with (d := d) (d' := d).
  - rewrite firstn_length, skipn_length, tab_length. lia.
  - intros i Hi. rewrite firstn_length, skipn_length in Hi. rewrite nth_firstn by lia. rewrite nth_skipn, nth_tab by lia. reflexivity.
Qed.
Lemma nth_put {A} (l l' : list A) off xs p d : put_range l off xs = Ok l' ->
  nth p l' d = if (off <=? p) && (p <? off + length xs) then nth (p - off) xs d else nth p l d.
Proof.
  intros H. apply put_range_inv in H as [Hl ->].
  destruct (Nat.leb_spec off p); cbn [andb].
  - rewrite app_nth2 by (rewrite firstn_length; lia). rewrite firstn_length, Nat.min_l by lia.
    destruct (Nat.ltb_spec p (off + length xs)).
    + now rewrite app_nth1 by lia.
    + rewrite app_nth2 by lia. rewrite nth_skipn. f_equal. lia.
  - rewrite app_nth1 by (rewrite firstn_length; lia). apply nth_firstn. lia.
Qed.

Lemma upd_firstn {A} (l : list A) i v : i < length l -> upd l i v = firstn i l ++ [v] ++ skipn (S i) l.
Proof. revert i. induction l; intros [|i] H; cbn in *; try lia; auto. f_equal. rewrite IHl by lia. reflexivity. Qed.
Lemma wr_put {A} (l : list A) i v : wr l i v = put_range l i [v].
Proof.
  unfold wr, put_range. cbn [length]. destruct (Nat.ltb_spec i (length l)).
  - assert (L : i + 1 <= length l) by lia. apply Nat.leb_le in L. rewrite L. f_equal. rewrite upd_firstn by auto.
    now replace (i + 1) with (S i) by lia.
  - assert (L : length l < i + 1) by lia. apply Nat.leb_gt in L. now rewrite L.
Qed.
Lemma firstn_skipn_tab {A} (l : list A) c k d : c + k <= length l -> firstn k (skipn c l) = map (fun j => nth (c + j) l d) (seq 0 k).
Proof. intros H. exact (sub_tab l k c d H). Qed.
Lemma firstn_S_rd {A} (l : list A) j x : rd l j = Ok x -> firstn (S j) l = firstn j l ++ [x].
Proof.
  intros H. apply rd_ok in H. revert j H. induction l; intros [|j] H; cbn in *; try discriminate.
  - now injection H as ->.
  - f_equal. auto.
Qed.
Lemma upd_mid {A} (P : list A) i v x Q : length P = i -> upd (P ++ x :: Q) i v = P ++ v :: Q.
Proof. intros <-. induction P; cbn; auto. now rewrite IHP. Qed.
Lemma skipn_cons_ {A} (l : list A) i : i < length l -> exists x, skipn i l = x :: skipn (S i) l.
Proof. revert i. induction l; intros [|i] H; cbn in *; try lia; eauto. apply IHl. lia. Qed.
Lemma Forall_firstn' {A} (P : A -> Prop) l k : Forall P l -> Forall P (firstn k l).
Proof. intros H. revert k. induction H; intros [|k]; cbn; auto. Qed.
Lemma Forall_skipn' {A} (P : A -> Prop) l k : Forall P l -> Forall P (skipn k l).
Proof. intros H. revert k. induction H; intros [|k]; cbn; auto. Qed.

(** ** concatenated columns *)
Section Packs.
Context {T : Type} (N : nat) (N1 : 1 <= N).
Notation pk := (packs (T := T) N).
Local Notation lenN := (fun c : list T => length c = N).

Lemma concat_len cols : Forall lenN cols -> length (concat cols) = length cols * N.
Proof. induction 1; cbn; auto. rewrite app_length. rewrite H, IHForall. lia. Qed.
Lemma concat_firstn cols c : Forall lenN cols -> firstn (c * N) (concat cols) = concat (firstn c cols).
Proof.
  intros H. revert c. induction H; intros [|c]; cbn; auto using firstn_nil.
  rewrite firstn_app. rewrite H. replace (N + c * N - N) with (c * N) by lia. rewrite firstn_all2 by lia. now rewrite IHForall.
Qed.
Lemma concat_skipn cols c : Forall lenN cols -> skipn (c * N) (concat cols) = concat (skipn c cols).
Proof.
  intros H. revert c. induction H; intros [|c]; cbn; auto using skipn_nil.
  rewrite skipn_app. rewrite H. replace (N + c * N - N) with (c * N) by lia. rewrite skipn_all2 by lia. now rewrite IHForall.
Qed.

Lemma packs_len buf cols : pk buf cols -> length buf = length cols * N.
Proof. intros [-> H]. now apply concat_len. Qed.
Lemma packs_concat cols : Forall lenN cols -> pk (concat cols) cols.
Proof. now split. Qed.
Lemma packs_app a b x y : pk a x -> pk b y -> pk (a ++ b) (x ++ y).
Proof. intros [-> H] [-> H']. split; [now rewrite concat_app|]. apply Forall_app; auto. Qed.
Lemma packs_firstn buf cols c : pk buf cols -> pk (firstn (c * N) buf) (firstn c cols).
Proof. intros [-> H]. rewrite concat_firstn by auto. apply packs_concat. now apply Forall_firstn'. Qed.
Lemma packs_skipn buf cols c : pk buf cols -> pk (skipn (c * N) buf) (skipn c cols).
Proof. intros [-> H]. rewrite concat_skipn by auto. apply packs_concat. now apply Forall_skipn'. Qed.
Lemma packs_one x : length x = N -> pk x [x].
Proof. intros H. split; cbn; [now rewrite app_nil_r|auto]. Qed.
Lemma packs_zero k (v : T) : pk (repeat v (N * k)) (repeat (repeat v N) k).
Proof.
  clear N1.
  split.
  - induction k; cbn. { now rewrite Nat.mul_0_r. } rewrite <- IHk, <- repeat_app. f_equal. lia.
  - apply Forall_forall. intros c H. apply repeat_spec in H as ->. apply repeat_length.
Qed.
Lemma packs_nth buf cols c (d : list T) : pk buf cols -> c < length cols -> firstn N (skipn (c * N) buf) = nth c cols d.
Proof.
  intros H Hc. destruct (packs_skipn _ _ c H) as [-> H'].
  assert (E : skipn c cols = nth c cols d :: skipn (S c) cols).
  { clear - Hc. revert c Hc. induction cols; intros [|c] H; cbn in *; try lia; auto. apply IHcols. lia. }
  rewrite E in *. inversion H'; subst. cbn [concat]. rewrite firstn_app, firstn_all, Nat.sub_diag. cbn. now rewrite app_nil_r.
Qed.

Lemma get_packs buf cols c k : pk buf cols -> rel_res pk (get_range buf (c * N) (k * N)) (get_range cols c k).
Proof.
  intros H. unfold get_range. rewrite (packs_len _ _ H).
  destruct (Nat.leb_spec (c + k) (length cols)) as [L|L].
  - assert (c * N + k * N <= length cols * N) by nia. apply Nat.leb_le in H0. rewrite H0. cbn.
    apply packs_firstn, packs_skipn, H.
  - assert (length cols * N < c * N + k * N) by nia. apply Nat.leb_gt in H0. rewrite H0. exact I.
Qed.
Lemma put_packs buf cols c x xs : pk buf cols -> pk x xs -> rel_res pk (put_range buf (c * N) x) (put_range cols c xs).
Proof.
  intros H Hx. unfold put_range. rewrite (packs_len _ _ H), (packs_len _ _ Hx).
  destruct (Nat.leb_spec (c + length xs) (length cols)) as [L|L].
  - assert (c * N + length xs * N <= length cols * N) by nia. apply Nat.leb_le in H0. rewrite H0. cbn.
    apply packs_app; [now apply packs_firstn|]. apply packs_app; auto.
    replace (c * N + length xs * N) with ((c + length xs) * N) by lia. now apply packs_skipn.
  - assert (length cols * N < c * N + length xs * N) by nia. apply Nat.leb_gt in H0. rewrite H0. exact I.
Qed.
Lemma cpy_packs dst dcols src scols c d k : pk dst dcols -> pk src scols ->
  rel_res pk (cpy dst (c * N) src (d * N) (k * N)) (let! x := get_range scols d k in put_range dcols c x).
Proof. intros H H'. unfold cpy. eapply rel_bind; [now apply get_packs|]. intros. now apply put_packs. Qed.

Lemma get1_packs buf cols i : pk buf cols -> get_range buf (i * N) N = rd cols i.
Proof.
  intros H. unfold get_range, rd. rewrite (packs_len _ _ H).
  destruct (nth_error cols i) eqn:E.
  - assert (L : i < length cols) by (apply nth_error_Some; congruence).
    assert (i * N + N <= length cols * N) by nia. apply Nat.leb_le in H0. rewrite H0.
    rewrite (packs_nth _ _ _ [] H L). f_equal. now apply nth_error_nth.
  - apply nth_error_None in E. assert (length cols * N < i * N + N) by nia. apply Nat.leb_gt in H0. now rewrite H0.
Qed.
Lemma put1_packs buf cols i x : pk buf cols -> length x = N -> rel_res pk (put_range buf (i * N) x) (wr cols i x).
Proof. intros H Hx. rewrite wr_put. apply put_packs; auto. now apply packs_one. Qed.

(** ** operands *)
Lemma area_packs buf cols c k : pk buf cols -> area_ok buf (c * N) N N k = (c + k <=? length cols).
Proof.
  intros H. unfold area_ok. rewrite (packs_len _ _ H), Nat.leb_refl. cbn [andb].
  destruct k.
  - cbn [Nat.eqb orb]. rewrite andb_true_r, Nat.add_0_r.
    destruct (Nat.leb_spec c (length cols)); [apply Nat.leb_le|apply Nat.leb_gt]; nia.
  - cbn [Nat.eqb orb]. replace (S k - 1) with k by lia.
    destruct (Nat.leb_spec (c + S k) (length cols)).
    + apply andb_true_intro. split; apply Nat.leb_le; nia.
    + apply andb_false_intro2. apply Nat.leb_gt. nia.
Qed.
Lemma rdm_packs buf cols c k : pk buf cols -> rdm buf (c * N) N N k = get_range cols c k.
Proof.
  intros H. unfold rdm, get_range. rewrite (area_packs _ _ _ _ H).
  destruct (Nat.leb_spec (c + k) (length cols)) as [L|L]; auto.
  rewrite (firstn_skipn_tab cols c k []) by auto. f_equal. apply map_ext_in. intros j Hj. apply in_seq in Hj.
  replace (c * N + j * N) with ((c + j) * N) by lia. apply packs_nth; auto. lia.
Qed.
Lemma wrm_packs buf cols c xs : pk buf cols -> Forall lenN xs -> rel_res pk (wrm buf (c * N) N N xs) (put_range cols c xs).
Proof.
  intros H Hx. unfold wrm. rewrite (area_packs _ _ _ _ H).
  destruct (Nat.leb_spec (c + length xs) (length cols)) as [L|L];
    [|unfold put_range; apply Nat.leb_gt in L; rewrite L; exact I].
  rewrite (put_range_ok cols) by auto.
  destruct (for_inv (fun j b => pk b (firstn c cols ++ firstn j xs ++ skipn (c + j) cols))
    (fun j b => let! x := rd xs j in put_range b (c * N + j * N) x) (length xs) 0 buf) as (b & -> & Hb).
  - cbn [firstn]. rewrite Nat.add_0_r. cbn. now rewrite firstn_skipn.
  - intros j b Hj Hb. destruct (rd_in xs j) as [x Ex]; [lia|]. rewrite Ex. cbn [bind].
    assert (Lx : length x = N). { rewrite Forall_forall in Hx. apply Hx. apply rd_ok in Ex. eapply nth_error_In; eauto. }
    replace (c * N + j * N) with ((c + j) * N) by lia.
    pose proof (put1_packs _ _ (c + j) x Hb Lx) as R.
    assert (Len : length (firstn c cols ++ firstn j xs ++ skipn (c + j) cols) = length cols).
    { rewrite !app_length, !firstn_length, skipn_length. lia. }
    rewrite wr_ok in R by (rewrite Len; lia). destruct (put_range b ((c + j) * N) x) as [b2| |]; try easy. exists b2. split; auto. cbn in R.
    match goal with R : packs _ _ ?u |- packs _ _ ?v => replace v with u; auto end.
    rewrite (firstn_S_rd _ _ _ Ex). rewrite app_assoc.
    assert (Lf : length (firstn c cols ++ firstn j xs) = c + j) by (rewrite app_length, !firstn_length; lia).
    destruct (skipn_cons_ cols (c + j)) as [y Ey]; [lia|]. rewrite Ey. rewrite upd_mid by auto. rewrite <- !app_assoc. cbn [app].
    now replace (c + S j) with (S (c + j)) by lia.
  - cbn [plus] in Hb. rewrite firstn_all in Hb. cbn. exact Hb.
Qed.
End Packs.

(** filling an array, transforming the columns of an array one after the other *)
Lemma fill_ok {A} (g : nat -> res A) (y : nat -> A) k : (forall i, i < k -> g i = Ok (y i)) -> forall r, length r = k ->
  for_ k 0 (fun i r => let! x := g i in wr r i x) r = Ok (tab k y).
Proof.
  intros H r Hr.
  destruct (for_inv (fun i r => length r = k /\ firstn i r = tab i y) (fun i r => let! x := g i in wr r i x) k 0 r) as (r' & -> & [L E]).
  - now split.
  - intros i s Hi [L E]. rewrite H by lia. cbn [bind]. rewrite wr_ok by lia. eexists. split; [reflexivity|]. rewrite upd_length. split; auto.
    rewrite tab_app_S, <- E. rewrite upd_firstn by lia.
    rewrite firstn_app, firstn_firstn, firstn_length. rewrite Nat.min_r by lia. rewrite Nat.min_l by lia. replace (S i - i) with 1 by lia. reflexivity.
  - cbn [plus] in E. rewrite firstn_all2 in E by lia. now rewrite E.
Qed.
