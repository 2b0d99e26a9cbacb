From Coq Require Import List Arith ZArith Lia Bool.
Require Import Verif.Base Verif.MatModel Verif.MatSpec.
Import ListNotations.

Lemma to_int_small n : (Z.of_nat n < 2 ^ 31)%Z -> to_int n = Z.of_nat n.
Proof.
  intros H. unfold to_int. rewrite Z.mod_small by lia. destruct (Z.ltb_spec (Z.of_nat n) (2 ^ 31)); lia.
Qed.

Lemma nth_error_ext {A} (l l' : list A) : (forall k, nth_error l k = nth_error l' k) -> l = l'.
Proof.
  revert l'. induction l as [|a l IH]; destruct l' as [|b l']; intros H; auto.
  - specialize (H 0); discriminate.
  - specialize (H 0); discriminate.
  - f_equal. + specialize (H 0). now inversion H. + apply IH. intros k. apply (H (S k)).
Qed.

Section Proofs.
  Context {A : Type}.
  Implicit Types (src dst b : list A) (x : matrix A).

  Lemma col_copied rows src s dst d : s + rows <= length src -> d + rows <= length dst ->
    exists b, for_ rows 0 (fun i b => let! v := rd src (s + i) in wr b (d + i) v) dst = Ok b /\
      length b = length dst /\
      (forall i, i < rows -> nth_error b (d + i) = nth_error src (s + i)) /\
      (forall k, (forall i, i < rows -> k <> d + i) -> nth_error b k = nth_error dst k).
  Proof.
    intros Hs Hd.
    destruct (for_inv (fun r b => length b = length dst /\
      (forall i, i < r -> nth_error b (d + i) = nth_error src (s + i)) /\
      (forall k, (forall i, i < r -> k <> d + i) -> nth_error b k = nth_error dst k))
      (fun i b => let! v := rd src (s + i) in wr b (d + i) v) rows 0 dst) as (b & E & P).
    - repeat split; auto. intros; lia.
    - intros r b Hr (L & P & Q). destruct (rd_in src (s + r)) as (v & Ev); [lia|].
      exists (upd b (d + r) v). rewrite Ev. cbn [bind]. rewrite wr_ok by lia. split; auto.
      apply rd_ok in Ev.
      split; [|split].
      + now rewrite upd_length.
      + intros i Hi. destruct (Nat.eq_dec i r) as [->|N].
        * rewrite upd_same by lia. auto.
        * rewrite upd_other by lia. apply P. lia.
      + intros k Hk. rewrite upd_other by (specialize (Hk r); lia). apply Q. intros i Hi. apply Hk. lia.
    - exists b. auto.
  Qed.

  Lemma copy_tile_spec rows cols src s lda dst d ldb :
    rows <= lda -> rows <= ldb -> s + cols * lda <= length src -> d + cols * ldb <= length dst ->
    exists b, copy_tile rows cols src s lda dst d ldb = Ok b /\ length b = length dst /\
      (forall i j, i < rows -> j < cols -> nth_error b (d + j * ldb + i) = nth_error src (s + j * lda + i)) /\
      (forall k, (forall i j, i < rows -> j < cols -> k <> d + j * ldb + i) -> nth_error b k = nth_error dst k).
  Proof.
    intros Ha Hb Hs Hd. unfold copy_tile.
    edestruct (for_inv (fun c b => length b = length dst /\
      (forall i j, i < rows -> j < c -> nth_error b (d + j * ldb + i) = nth_error src (s + j * lda + i)) /\
      (forall k, (forall i j, i < rows -> j < c -> k <> d + j * ldb + i) -> nth_error b k = nth_error dst k)))
      with (todo := cols) (i := 0) (s := dst) as (b & E & P).
    - repeat split; auto. intros; lia.
    - intros c b Hc (L & P & Q).
      assert (S c * lda <= cols * lda) by (apply Nat.mul_le_mono_r; lia).
      assert (S c * ldb <= cols * ldb) by (apply Nat.mul_le_mono_r; lia).
      destruct (col_copied rows src (s + c * lda) b (d + c * ldb)) as (b' & E & L' & P' & Q'); [lia|lia|].
      exists b'. split; [exact E|]. split; [lia|]. split.
      + intros i j Hi Hj. destruct (Nat.eq_dec j c) as [->|N].
        * apply P'; auto.
        * rewrite Q'; [apply P; lia|]. intros i' Hi'.
          assert (S j * ldb <= c * ldb) by (apply Nat.mul_le_mono_r; lia). lia.
      + intros k Hk. rewrite Q'; [apply Q; intros; apply Hk; lia|]. intros i Hi. apply Hk; lia.
    - exists b. auto.
  Qed.

  Lemma cublas_copy_spec rows cols src s lda dst d ldb :
    0 < lda -> 0 < ldb -> rows <= lda -> rows <= ldb ->
    (Z.of_nat lda < 2 ^ 31)%Z -> (Z.of_nat ldb < 2 ^ 31)%Z -> (Z.of_nat cols < 2 ^ 31)%Z ->
    cublas_copy (to_int rows) (to_int cols) src s (to_int lda) dst d (to_int ldb) = copy_tile rows cols src s lda dst d ldb.
  Proof.
    intros. unfold cublas_copy. rewrite !to_int_small by lia.
    rewrite !Nat2Z.id.
    replace (((Z.of_nat rows <? 0) || (Z.of_nat cols <? 0) || (Z.of_nat lda <=? 0) || (Z.of_nat ldb <=? 0)
      || (Z.of_nat lda <? Z.of_nat rows) || (Z.of_nat ldb <? Z.of_nat rows))%Z) with false; auto.
    symmetry. rewrite !orb_false_iff. repeat split; try (apply Z.ltb_ge; lia); apply Z.leb_gt; lia.
  Qed.

  Lemma tile_of_copy rows cols off src lds dst ldd n :
    rows <= lds -> rows <= ldd -> off + cols <= n -> lds * n <= length src -> ldd * n <= length dst ->
    exists b, copy_tile rows cols src (off * lds) lds dst (off * ldd) ldd = Ok b /\ tile_copied rows cols off src lds dst ldd b.
  Proof.
    intros Ha Hb Hn Hs Hd.
    assert (Es : off * lds + cols * lds <= length src).
    { rewrite <- Nat.mul_add_distr_r. apply Nat.le_trans with (n * lds); [apply Nat.mul_le_mono_r; lia|lia]. }
    assert (Ed : off * ldd + cols * ldd <= length dst).
    { rewrite <- Nat.mul_add_distr_r. apply Nat.le_trans with (n * ldd); [apply Nat.mul_le_mono_r; lia|lia]. }
    destruct (copy_tile_spec rows cols src (off * lds) lds dst (off * ldd) ldd) as (b & E & L & P & Q); auto.
    exists b. split; auto. split; auto. split.
    - intros i j Hi Hj. unfold entry. specialize (P i (j - off) Hi ltac:(lia)).
      replace (off * ldd + (j - off) * ldd + i) with (j * ldd + i) in P by nia.
      replace (off * lds + (j - off) * lds + i) with (j * lds + i) in P by nia.
      split; auto. apply nth_error_Some.
      assert (S j * lds <= n * lds) by (apply Nat.mul_le_mono_r; lia). lia.
    - intros k Hk. apply Q. intros i j Hi Hj. specialize (Hk i (off + j) Hi ltac:(lia)). lia.
  Qed.

  Lemma upload_part x h d nrows ncols off : well_formed x h d -> inside x nrows ncols off ->
    exists d', h2d_part nrows ncols off x = Ok (with_dev x d') /\ tile_copied nrows ncols off h (mld x) d (mm x) d'.
  Proof.
    intros (Eh & Ed & Hm & Lh & Ld & B1 & B2) (I1 & I2). unfold h2d_part. rewrite Eh, Ed.
    rewrite cublas_copy_spec by lia.
    destruct (tile_of_copy nrows ncols off h (mld x) d (mm x) (mn x)) as (b & E & T); [lia..|].
    rewrite E. cbn [bind]. eauto.
  Qed.
  Lemma download_part x h d nrows ncols off : well_formed x h d -> inside x nrows ncols off ->
    exists h', d2h_part nrows ncols off x = Ok (with_host x h') /\ tile_copied nrows ncols off d (mm x) h (mld x) h'.
  Proof.
    intros (Eh & Ed & Hm & Lh & Ld & B1 & B2) (I1 & I2). unfold d2h_part. rewrite Eh, Ed.
    rewrite cublas_copy_spec by lia.
    destruct (tile_of_copy nrows ncols off d (mm x) h (mld x) (mn x)) as (b & E & T); [lia..|].
    rewrite E. cbn [bind]. eauto.
  Qed.

  Lemma all_is_part_up x : h2d_all x = h2d_part (mm x) (mn x) 0 x.
  Proof. reflexivity. Qed.
  Lemma all_is_part_down x : d2h_all x = d2h_part (mm x) (mn x) 0 x.
  Proof. reflexivity. Qed.

  Lemma upload_all x h d : well_formed x h d ->
    exists d', h2d_all x = Ok (with_dev x d') /\ tile_copied (mm x) (mn x) 0 h (mld x) d (mm x) d'.
  Proof. intros W. rewrite all_is_part_up. apply upload_part; auto. split; lia. Qed.
  Lemma download_all x h d : well_formed x h d ->
    exists h', d2h_all x = Ok (with_host x h') /\ tile_copied (mm x) (mn x) 0 d (mm x) h (mld x) h'.
  Proof. intros W. rewrite all_is_part_down. apply download_part; auto. split; lia. Qed.

  Lemma well_formed_dev x h d d' : well_formed x h d -> length d' = length d -> well_formed (with_dev x d') h d'.
  Proof. intros (Eh & Ed & Hm & Lh & Ld & B1 & B2) E. unfold well_formed; cbn. rewrite E. repeat split; auto; lia. Qed.
  Lemma well_formed_host x h d h' : well_formed x h d -> length h' = length h -> well_formed (with_host x h') h' d.
  Proof. intros (Eh & Ed & Hm & Lh & Ld & B1 & B2) E. unfold well_formed; cbn. rewrite E. repeat split; auto; lia. Qed.

  Lemma tile_there_and_back rows cols off a la b lb b' a' :
    rows <= la -> tile_copied rows cols off a la b lb b' -> tile_copied rows cols off b' lb a la a' -> a' = a.
  Proof.
    intros Hl (L & P & Q) (L' & P' & Q'). apply nth_error_ext. intros k.
    assert (D : (exists i j, i < rows /\ off <= j < off + cols /\ k = j * la + i) \/
                (forall i j, i < rows -> off <= j < off + cols -> k <> j * la + i)).
    { destruct (Nat.eq_dec la 0) as [->|N].
      - right. intros. lia.
      - destruct (lt_dec (k mod la) rows) as [Lr|Nr].
        + destruct (le_lt_dec off (k / la)) as [L1|G1]; [destruct (lt_dec (k / la) (off + cols)) as [L2|G2]|].
          * left. exists (k mod la), (k / la). split; auto. split; [lia|]. rewrite Nat.mul_comm. apply Nat.div_mod. auto.
          * right. intros i j Hi Hj ->. apply G2. rewrite Nat.div_add_l, Nat.div_small by lia. lia.
          * right. intros i j Hi Hj ->. rewrite Nat.div_add_l, Nat.div_small in G1 by lia. lia.
        + right. intros i j Hi Hj ->. apply Nr. rewrite Nat.add_comm, Nat.mod_add, Nat.mod_small by lia. lia. }
    destruct D as [(i & j & Hi & Hj & ->)|D].
    - destruct (P' i j Hi Hj) as (E' & _). destruct (P i j Hi Hj) as (E & _). unfold entry in *. congruence.
    - auto.
  Qed.

  Lemma host_with_dev x d : mhost (with_dev x d) = mhost x. Proof. reflexivity. Qed.

  Lemma up_down x h d nrows ncols off : well_formed x h d -> inside x nrows ncols off ->
    exists x1 x2, h2d_part nrows ncols off x = Ok x1 /\ d2h_part nrows ncols off x1 = Ok x2 /\ mhost x2 = Some h /\ mdev x2 = mdev x1.
  Proof.
    intros W I. destruct (upload_part x h d nrows ncols off W I) as (d' & E & T).
    assert (W' := well_formed_dev x h d d' W (proj1 T)).
    destruct (download_part _ h d' nrows ncols off W' I) as (h' & E' & T').
    exists (with_dev x d'), (with_host (with_dev x d') h'). split; auto. split; auto.
    assert (h' = h). { eapply tile_there_and_back; [|exact T|exact T']. destruct W as (_ & _ & Hm & _). destruct I. lia. }
    subst h'. cbn. auto.
  Qed.
  Lemma down_up x h d nrows ncols off : well_formed x h d -> inside x nrows ncols off ->
    exists x1 x2, d2h_part nrows ncols off x = Ok x1 /\ h2d_part nrows ncols off x1 = Ok x2 /\ mdev x2 = Some d /\ mhost x2 = mhost x1.
  Proof.
    intros W I. destruct (download_part x h d nrows ncols off W I) as (h' & E & T).
    assert (W' := well_formed_host x h d h' W (proj1 T)).
    destruct (upload_part _ h' d nrows ncols off W' I) as (d' & E' & T').
    exists (with_host x h'), (with_dev (with_host x h') d'). split; auto. split; auto.
    assert (d' = d). { eapply tile_there_and_back; [|exact T|exact T']. destruct I. auto. }
    subst d'. cbn. auto.
  Qed.

  (** a whole session never reaches beyond row m of the host copy, nor past its last column *)
  Definition in_session (x : matrix A) (c : step A) : Prop :=
    match c with
    | Up r k o | Down r k o => inside x r k o
    | UpAll | DownAll => True
    | DevStore k _ => k < mm x * mn x
    end.
  Definition same_shape (x y : matrix A) := mm x = mm y /\ mn x = mn y /\ mld x = mld y.

  Lemma step_ok x h d c : well_formed x h d -> in_session x c ->
    exists x' h' d', run_step c x = Ok x' /\ well_formed x' h' d' /\ same_shape x x' /\ length h' = length h /\
      (forall i j, mm x <= i < mld x -> j < mn x -> entry h' (mld x) i j = entry h (mld x) i j) /\
      (forall k, mld x * mn x <= k -> nth_error h' k = nth_error h k).
  Proof.
    intros W I.
    assert (K : forall r k o h', inside x r k o -> tile_copied r k o d (mm x) h (mld x) h' ->
      (forall i j, mm x <= i < mld x -> j < mn x -> entry h' (mld x) i j = entry h (mld x) i j) /\
      (forall k, mld x * mn x <= k -> nth_error h' k = nth_error h k)).
    { intros r k o h' (I1 & I2) (L & _ & Q). destruct W as (_ & _ & Hm & _). split.
      - intros i j Hi Hj. apply Q. intros i' j' Hi' Hj' E.
        destruct (lt_eq_lt_dec j j') as [[G|G]|G].
        + assert (S j * mld x <= j' * mld x) by (apply Nat.mul_le_mono_r; lia). lia.
        + subst. lia.
        + assert (S j' * mld x <= j * mld x) by (apply Nat.mul_le_mono_r; lia). lia.
      - intros n Hn. apply Q. intros i j Hi Hj ->.
        assert (S j * mld x <= mn x * mld x) by (apply Nat.mul_le_mono_r; lia). lia. }
    destruct c as [r k o|r k o| | |k v]; cbn [in_session run_step] in *.
    - destruct (upload_part x h d r k o W I) as (d' & E & T). exists (with_dev x d'), h, d'.
      repeat split; auto; try apply (well_formed_dev x h d d' W (proj1 T)).
    - destruct (download_part x h d r k o W I) as (h' & E & T). exists (with_host x h'), h', d.
      pose proof (well_formed_host x h d h' W (proj1 T)) as W'. destruct (K r k o h' I T) as (K1 & K2).
      split; [exact E|]. split; [exact W'|]. split; [repeat split|]. split; [apply T|]. split; assumption.
    - destruct (upload_all x h d W) as (d' & E & T). exists (with_dev x d'), h, d'.
      repeat split; auto; try apply (well_formed_dev x h d d' W (proj1 T)).
    - destruct (download_all x h d W) as (h' & E & T). exists (with_host x h'), h', d.
      pose proof (well_formed_host x h d h' W (proj1 T)) as W'. destruct (K (mm x) (mn x) 0 h' (conj (le_n _) (le_n _)) T) as (K1 & K2).
      split; [exact E|]. split; [exact W'|]. split; [repeat split|]. split; [apply T|]. split; assumption.
    - assert (Ed := proj1 (proj2 W)). rewrite Ed.
      assert (Ld : mm x * mn x <= length d) by apply W.
      rewrite wr_ok by lia. cbn [bind]. exists (with_dev x (upd d k v)), h, (upd d k v).
      split; auto. split; [apply (well_formed_dev x h d); auto; apply upd_length|]. repeat split; auto.
  Qed.

  Lemma padding_safe l : forall x h d, well_formed x h d -> Forall (in_session x) l ->
    exists x' h' d', run_steps l x = Ok x' /\ well_formed x' h' d' /\ same_shape x x' /\ length h' = length h /\
      (forall i j, mm x <= i < mld x -> j < mn x -> entry h' (mld x) i j = entry h (mld x) i j) /\
      (forall k, mld x * mn x <= k -> nth_error h' k = nth_error h k).
  Proof.
    induction l as [|c l IH]; intros x h d W F.
    - exists x, h, d. cbn. unfold same_shape. repeat split; auto; apply W.
    - inversion F as [|? ? Fc Fl]; subst.
      destruct (step_ok x h d c W Fc) as (x1 & h1 & d1 & E & W1 & S1 & L1 & P1 & Q1).
      assert (F1 : Forall (in_session x1) l).
      { eapply Forall_impl; [|exact Fl]. destruct S1 as (S1 & S2 & S3). intros [] H; cbn in *; unfold inside in *; rewrite <- ?S1, <- ?S2; auto. }
      destruct (IH x1 h1 d1 W1 F1) as (x2 & h2 & d2 & E2 & W2 & S2 & L2 & P2 & Q2).
      exists x2, h2, d2. cbn [run_steps]. rewrite E. cbn [bind]. split; auto. split; auto.
      destruct S1 as (A1 & A2 & A3), S2 as (B1 & B2 & B3).
      split; [unfold same_shape; lia|]. split; [lia|]. rewrite A1, A2, A3 in *. split.
      + intros i j Hi Hj. rewrite P2 by auto. apply P1; auto.
      + intros k Hk. rewrite Q2 by auto. apply Q1; auto.
  Qed.
End Proofs.

(** the modes *)
Section Modes.
  Context {A R : Type} (zA : A) (zR : R).

  Lemma modes_served cuda mode m n mb (H : list A) ldh (V1 : list A) (rv : list R) :
    mode = 0 \/ (cuda = true /\ mode <= 2) ->
    let X := make_matrices cuda zA zR mode m n mb H ldh V1 rv in
    let there := if mode =? 2 then OnDevice else OnHost in
    Forall (fun x => comm_ptr cuda mode x = Ok there) [xC X; xC2 X; xB X; xB2 X; xA X; xvv X] /\
    comm_ptr cuda mode (xResid X) = Ok there /\
    mhost (xH X) = Some H /\ mhost (xC X) = Some V1 /\ mhost (xRitzv X) = Some rv /\
    Forall (fun x => exists p, ptr x = Ok p) [xH X; xC X; xC2 X; xB X; xB2 X; xA X; xvv X] /\
    ptr (xC X) = Ok OnHost /\ ptr (xResid X) = Ok OnHost.
  Proof.
    intros [->|(-> & Hm)]; [destruct cuda|destruct mode as [|[|[|]]]; [| | |lia]]; cbn;
      repeat match goal with
             | |- _ /\ _ => split
             | |- Forall _ (_ :: _) => apply Forall_cons
             | |- Forall _ [] => apply Forall_nil
             | |- exists _, _ => eexists
             end; reflexivity.
  Qed.

  Lemma modes_unserved mode m n mb (H : list A) ldh (V1 : list A) (rv : list R) : 1 <= mode ->
    let X := make_matrices false zA zR mode m n mb H ldh V1 rv in
    Forall (fun x => comm_ptr false mode x = UB) [xC X; xC2 X; xB X; xB2 X; xA X; xvv X].
  Proof. intros L. destruct mode as [|[|[|]]]; [lia| | |]; cbn; repeat constructor. Qed.

  (** the guarded synchronisation: brings the host copy of C up to date exactly when the solver works on the device copy *)
  Lemma guarded_sync_ok cuda mode m n mb (H : list A) ldh (V1 : list A) (rv : list R) (dC : list A) :
    mode = 0 \/ (cuda = true /\ mode <= 2) ->
    0 < m -> (Z.of_nat m < 2 ^ 31)%Z -> (Z.of_nat mb < 2 ^ 31)%Z -> m * mb <= length V1 -> length dC = m * mb ->
    let C := xC (make_matrices cuda zA zR mode m n mb H ldh V1 rv) in
    let C' := match mdev C with Some _ => with_dev C dC | None => C end in
    exists C2 h, guarded_sync cuda mode C' = Ok C2 /\ mhost C2 = Some h /\ mdev C2 = mdev C' /\
      (mode <> 2 -> h = V1) /\ (mode = 2 -> tile_copied m mb 0 dC m V1 m h).
  Proof.
    intros M Hm B1 B2 LV Ld.
    destruct M as [->|(-> & Hmo)].
    - destruct cuda; cbn; exists (Matrix m mb m (Some V1) None), V1; repeat split; auto; lia.
    - destruct mode as [|[|[|]]]; [| | |lia].
      + cbn; exists (Matrix m mb m (Some V1) None), V1; repeat split; auto; lia.
      + cbn; exists (Matrix m mb m (Some V1) (Some dC)), V1; repeat split; auto; lia.
      + cbn zeta. unfold guarded_sync.
        change (let! c := comm_ptr true 2 (Matrix m mb m (Some V1) (Some dC)) in
          let! p := ptr (Matrix m mb m (Some V1) (Some dC)) in
          match c, p with OnHost, OnHost | OnDevice, OnDevice => Ok (Matrix m mb m (Some V1) (Some dC))
          | _, _ => sync2ptr true (Matrix m mb m (Some V1) (Some dC)) end) with (d2h_all (Matrix m mb m (Some V1) (Some dC))).
        destruct (download_all (Matrix m mb m (Some V1) (Some dC)) V1 dC) as (h & E & T).
        { unfold well_formed; cbn. repeat split; auto; lia. }
        cbn in E, T. exists (with_host (Matrix m mb m (Some V1) (Some dC)) h), h.
        split; [exact E|]. split; [reflexivity|]. split; [reflexivity|]. split; [lia|]. intros _. exact T.
  Qed.
End Modes.

(** the Ritz value buffer: one row, but the leading dimension of a column of max_block *)
Lemma for_second_ub {S} (f : nat -> S -> res S) t s :
  f 0 s = UB \/ (exists s', f 0 s = Ok s' /\ f 1 s' = UB) -> for_ (2 + t) 0 f s = UB.
Proof. intros [E|(s' & E & E')]; cbn; rewrite E; auto. cbn. now rewrite E'. Qed.

Lemma rd_beyond {A} (l : list A) i : length l <= i -> rd l i = UB.
Proof. intros H. unfold rd. now rewrite (proj2 (nth_error_None l i) H). Qed.
Lemma wr_beyond {A} (l : list A) i v : length l <= i -> wr l i v = UB.
Proof. intros H. unfold wr. apply Nat.ltb_ge in H. now rewrite H. Qed.
Lemma rd_cases {A} (l : list A) i : rd l i = UB \/ exists v, rd l i = Ok v.
Proof. unfold rd. destruct (nth_error l i); eauto. Qed.

Lemma ritz_upload_ub {R} (zR : R) mb (rv : list R) :
  2 <= mb -> (Z.of_nat mb < 2 ^ 31)%Z -> length rv = mb ->
  h2d_all (mat_user true zR 1 1 mb rv mb) = UB /\
  forall d, d2h_all (with_dev (mat_user true zR 1 1 mb rv mb) d) = UB.
Proof.
  intros Hm B L.
  split.
  - unfold h2d_all, mat_user. cbn [mhost mdev mm mn mld]. rewrite cublas_copy_spec by lia. unfold copy_tile.
    replace mb with (2 + (mb - 2)) at 1 by lia.
    rewrite for_second_ub; [reflexivity|]. right.
    exists (upd (repeat zR (1 * mb)) 0 (nth 0 rv zR)). cbn [for_].
    assert (E : rd rv (0 + 0 * mb + 0) = Ok (nth 0 rv zR)) by (apply rd_ok; destruct rv; cbn in *; [lia|auto]).
    rewrite E. cbn [bind]. rewrite wr_ok by (rewrite repeat_length; lia). split; [reflexivity|].
    rewrite rd_beyond by lia. reflexivity.
  - intros d. unfold d2h_all, mat_user, with_dev. cbn [mhost mdev mm mn mld]. rewrite cublas_copy_spec by lia. unfold copy_tile.
    replace mb with (2 + (mb - 2)) at 1 by lia.
    rewrite for_second_ub; [reflexivity|]. cbn [for_].
    destruct (rd_cases d (0 + 0 * 1 + 0)) as [->|(v & ->)]; [left; reflexivity|]. right. cbn [bind].
    exists (upd rv 0 v). rewrite wr_ok by lia. split; [reflexivity|].
    destruct (rd_cases d (0 + 1 * 1 + 0)) as [->|(w & ->)]; [reflexivity|]. cbn [bind].
    rewrite wr_beyond by (rewrite upd_length; lia). reflexivity.
Qed.

(** sizes an int cannot hold *)
Lemma upload_huge_noop {A} (x : matrix A) h d : mhost x = Some h -> mdev x = Some d ->
  (2 ^ 31 <= Z.of_nat (mm x) < 2 ^ 32)%Z -> h2d_all x = Ok (with_dev x d).
Proof.
  intros Eh Ed Hm. unfold h2d_all. rewrite Eh, Ed. unfold cublas_copy.
  assert (E : (to_int (mm x) <? 0)%Z = true).
  { unfold to_int. rewrite Z.mod_small by lia. destruct (Z.ltb_spec (Z.of_nat (mm x)) (2 ^ 31)); [lia|]. apply Z.ltb_lt. lia. }
  rewrite E. reflexivity.
Qed.

Lemma modes_memory A R (zA : A) (zR : R) mode m n mb H ldh V1 rv : mode <= 2 ->
  let X := make_matrices true zA zR mode m n mb H ldh V1 rv in let vs := [xC X; xC2 X; xB X; xB2 X; xA X] in
  map (fun x => copy_size (mdev x)) (xH X :: xvv X :: vs) = (if mode =? 0 then [0; 0; 0; 0; 0; 0; 0] else [m * n; m; m * mb; m * mb; n * mb; n * mb; mb * mb]) /\
  map (fun x => copy_size (mdev x)) [xRitzv X; xResid X] = (if mode =? 0 then [0; 0] else [mb; mb]) /\
  map (fun x => copy_size (mhost x)) [xC2 X; xB X; xB2 X; xA X] = (if mode =? 2 then [0; 0; 0; 0] else [m * mb; n * mb; n * mb; mb * mb]) /\
  copy_size (mhost (xvv X)) = m /\ copy_size (mhost (xResid X)) = mb.
Proof.
  intros HM. destruct mode as [|[|[|mode]]]; [| | |lia]; cbv zeta; cbn [make_matrices storage_flags Nat.eqb xH xC xC2 xB xB2 xA xRitzv xResid xvv mat_user mat_own mhost mdev map copy_size];
    rewrite ?repeat_length, ?Nat.mul_1_r, ?Nat.mul_1_l; auto.
Qed.
