From Coq Require Import List Arith ZArith Bool Lia Permutation.
Require Import Verif.Base Verif.DistModel Verif.DistSpec.
Import ListNotations.

(** ** mydist *)
Lemma mydist_lt i src p : 0 < p -> mydist i src p < p.
Proof. intros; apply Nat.mod_upper_bound; lia. Qed.

Lemma mod_cases a p : 0 < p -> a < 2 * p -> a mod p = if a <? p then a else a - p.
Proof.
  intros Hp H. destruct (a <? p) eqn:E.
  - apply Nat.ltb_lt in E. now apply Nat.mod_small.
  - apply Nat.ltb_ge in E. symmetry. apply Nat.mod_unique with 1; lia.
Qed.

(** b is the residue class dealt to i iff it equals mydist *)
Lemma mydist_iff i src p b : src < p -> i < p -> b < p ->
  ((b + src) mod p = i <-> b = mydist i src p).
Proof.
  intros Hs Hi Hb. unfold mydist.
  rewrite (mod_cases (b + src)) by lia. rewrite (mod_cases (p + i - src)) by lia.
  destruct (b + src <? p) eqn:E1, (p + i - src <? p) eqn:E2;
    rewrite ?Nat.ltb_lt, ?Nat.ltb_ge in *; lia.
Qed.

Lemma owner_mod p src k : 0 < p -> (k + src) mod p = (k mod p + src) mod p.
Proof. intros. rewrite Nat.add_mod_idemp_l; lia. Qed.

Lemma owner_iff nb p src i g : src < p -> i < p ->
  (owner nb p src g = i <-> (g / nb) mod p = mydist i src p).
Proof.
  intros Hs Hi. unfold owner. rewrite owner_mod by lia.
  apply mydist_iff; auto. apply Nat.mod_upper_bound; lia.
Qed.

(** ** numroc counts *)
Definition nloc n nb i src p := fst (numroc n nb i src p).

Lemma nloc_succ n nb i src p : 0 < nb -> src < p -> i < p ->
  nloc (S n) nb i src p = nloc n nb i src p + if owner nb p src n =? i then 1 else 0.
Proof.
  intros Hnb Hs Hi.
  assert (Hd : mydist i src p < p) by (apply mydist_lt; lia).
  assert (Ho := owner_iff nb p src i n Hs Hi).
  unfold nloc, numroc; cbn [fst].
  set (d := mydist i src p) in *.
  set (q := n / nb) in *. set (t := n mod nb).
  assert (Hn : n = nb * q + t) by (apply Nat.div_mod; lia).
  assert (Ht : t < nb) by (apply Nat.mod_upper_bound; lia).
  set (a := q / p). set (b := q mod p) in *.
  assert (Hq : q = p * a + b) by (apply Nat.div_mod; lia).
  assert (Hb : b < p) by (apply Nat.mod_upper_bound; lia).
  assert (HO : (owner nb p src n =? i) = (d =? b)).
  { destruct (owner nb p src n =? i) eqn:E; symmetry.
    - apply Nat.eqb_eq in E. apply Nat.eqb_eq. symmetry. now apply Ho.
    - apply Nat.eqb_neq in E. apply Nat.eqb_neq. intros C. apply E, Ho. auto. }
  rewrite HO. clear HO Ho.
  destruct (Nat.eq_dec (t + 1) nb) as [Et|Et].
  - assert (Hq' : S n / nb = q + 1) by (symmetry; apply Nat.div_unique with 0; nia).
    assert (Ht' : S n mod nb = 0) by (symmetry; apply Nat.mod_unique with (q + 1); nia).
    rewrite Hq', Ht'.
    destruct (Nat.eq_dec (b + 1) p) as [Eb|Eb].
    + assert (Ha' : (q + 1) / p = a + 1) by (symmetry; apply Nat.div_unique with 0; nia).
      assert (Hb' : (q + 1) mod p = 0) by (symmetry; apply Nat.mod_unique with (a + 1); nia).
      rewrite Ha', Hb'. 
      destruct (d <? 0) eqn:E0; [apply Nat.ltb_lt in E0; lia|].
      destruct (d =? 0) eqn:E1; destruct (d <? b) eqn:E2; destruct (d =? b) eqn:E3;
        rewrite ?Nat.ltb_lt, ?Nat.ltb_ge, ?Nat.eqb_eq, ?Nat.eqb_neq in *; nia.
    + assert (Ha' : (q + 1) / p = a) by (symmetry; apply Nat.div_unique with (b + 1); nia).
      assert (Hb' : (q + 1) mod p = b + 1) by (symmetry; apply Nat.mod_unique with a; nia).
      rewrite Ha', Hb'.
      destruct (d <? b + 1) eqn:E0; destruct (d =? b + 1) eqn:E1; destruct (d <? b) eqn:E2; destruct (d =? b) eqn:E3;
        rewrite ?Nat.ltb_lt, ?Nat.ltb_ge, ?Nat.eqb_eq, ?Nat.eqb_neq in *; lia.
  - assert (Hq' : S n / nb = q) by (symmetry; apply Nat.div_unique with (t + 1); nia).
    assert (Ht' : S n mod nb = t + 1) by (symmetry; apply Nat.mod_unique with q; nia).
    rewrite Hq', Ht'. fold a b.
    destruct (d <? b) eqn:E2; destruct (d =? b) eqn:E3;
      rewrite ?Nat.ltb_lt, ?Nat.ltb_ge, ?Nat.eqb_eq, ?Nat.eqb_neq in *; lia.
Qed.

Lemma nloc_0 nb i src p : 0 < nb -> 0 < p -> nloc 0 nb i src p = 0.
Proof.
  intros. unfold nloc, numroc. cbn [fst].
  rewrite Nat.div_small, Nat.div_small, Nat.mod_small, Nat.mod_small by lia.
  destruct (_ <? 0) eqn:E; [apply Nat.ltb_lt in E; lia|]. destruct (_ =? 0); lia.
Qed.

Lemma owned_succ N nb p src i :
  owned (S N) nb p src i = owned N nb p src i ++ if owner nb p src N =? i then [N] else [].
Proof.
  unfold owned. rewrite seq_S, filter_app. simpl.
  destruct (_ =? i); auto.
Qed.

Lemma numroc_counts N nb p src i : 0 < nb -> src < p -> i < p ->
  fst (numroc N nb i src p) = length (owned N nb p src i).
Proof.
  intros Hnb Hs Hi. fold (nloc N nb i src p).
  induction N.
  - rewrite nloc_0 by lia. reflexivity.
  - rewrite nloc_succ, owned_succ, app_length, IHN by auto.
    destruct (_ =? i); reflexivity.
Qed.

Lemma owner_lt nb p src g : 0 < p -> owner nb p src g < p.
Proof. intros; apply Nat.mod_upper_bound; lia. Qed.

Lemma list_sum_indic (o p : nat) (f : nat -> nat) : o < p ->
  list_sum (map (fun i => f i + if o =? i then 1 else 0) (seq 0 p)) = list_sum (map f (seq 0 p)) + 1.
Proof.
  intros Ho.
  assert (H : forall k, list_sum (map (fun i => f i + if o =? i then 1 else 0) (seq 0 k))
             = list_sum (map f (seq 0 k)) + if o <? k then 1 else 0).
  { induction k; [reflexivity|].
    rewrite seq_S, !map_app, !list_sum_app, IHk. simpl.
    destruct (o <? k) eqn:E1, (o <? S k) eqn:E2, (o =? k) eqn:E3;
      rewrite ?Nat.ltb_lt, ?Nat.ltb_ge, ?Nat.eqb_eq, ?Nat.eqb_neq in *; lia. }
  rewrite H. apply Nat.ltb_lt in Ho. now rewrite Ho.
Qed.

Lemma numroc_sum N nb p src : 0 < nb -> src < p ->
  list_sum (map (fun i => fst (numroc N nb i src p)) (seq 0 p)) = N.
Proof.
  intros Hnb Hs.
  assert (H : map (fun i => fst (numroc N nb i src p)) (seq 0 p)
            = map (fun i => length (owned N nb p src i)) (seq 0 p)).
  { apply map_ext_in. intros i Hi. apply in_seq in Hi. apply numroc_counts; lia. }
  rewrite H. clear H. induction N.
  - induction (seq 0 p); auto.
  - transitivity (list_sum (map (fun i => length (owned N nb p src i)) (seq 0 p)) + 1); [|lia].
    rewrite <- (list_sum_indic (owner nb p src N)) by (apply owner_lt; lia).
    f_equal. apply map_ext. intros i. rewrite owned_succ, app_length.
    destruct (_ =? i); reflexivity.
Qed.

(** ** number of blocks *)
Lemma nblocks_le N nb : 0 < nb -> nblocks N nb * nb < N + nb.
Proof. intros. unfold nblocks. pose proof (Nat.mul_div_le (N + nb - 1) nb). lia. Qed.
Lemma nblocks_ge N nb : 0 < nb -> N <= nblocks N nb * nb.
Proof. intros. unfold nblocks. pose proof (Nat.mul_succ_div_gt (N + nb - 1) nb). lia. Qed.

Lemma nblocks_unique N nb K : 0 < nb -> N <= K * nb -> K * nb < N + nb -> nblocks N nb = K.
Proof.
  intros. unfold nblocks. symmetry. apply Nat.div_unique with (N + nb - 1 - K * nb); nia.
Qed.

Lemma numroc_snd N nb i src p : 0 < nb -> src < p -> i < p ->
  snd (numroc N nb i src p) = length (owned_blocks N nb p src i).
Proof.
  intros Hnb Hs Hi.
  assert (HK : length (owned_blocks N nb p src i) = nloc (nblocks N nb) 1 i src p).
  { unfold nloc. rewrite numroc_counts by lia. unfold owned_blocks, owned, owner.
    f_equal. apply filter_ext. intros k. now rewrite Nat.div_1_r. }
  rewrite HK. clear HK.
  unfold nloc, numroc. cbn [fst snd].
  assert (Hd : mydist i src p < p) by (apply mydist_lt; lia).
  set (d := mydist i src p) in *.
  set (q := N / nb). set (t := N mod nb).
  assert (Hn : N = nb * q + t) by (apply Nat.div_mod; lia).
  assert (Ht : t < nb) by (apply Nat.mod_upper_bound; lia).
  set (a := q / p). set (b := q mod p) in *.
  assert (Hq : q = p * a + b) by (apply Nat.div_mod; lia).
  assert (Hb : b < p) by (apply Nat.mod_upper_bound; lia).
  rewrite Nat.div_1_r, Nat.mod_1_r, Nat.mul_1_r, Nat.add_0_r.
  assert (Hdiv : forall x y, y < nb -> (x * nb + y) / nb = x /\ (x * nb + y) mod nb = y).
  { intros x y Hy. split; symmetry; [apply Nat.div_unique with y|apply Nat.mod_unique with x]; lia. }
  destruct (Nat.eq_dec t 0) as [T0|T0].
  - assert (HN : nblocks N nb = q) by (apply nblocks_unique; nia).
    rewrite HN. fold a b. rewrite T0.
    destruct (d <? b) eqn:E2; [|destruct (d =? b) eqn:E3].
    + replace (a * nb + nb) with ((a + 1) * nb + 0) by lia.
      destruct (Hdiv (a + 1) 0) as [-> ->]; simpl; lia.
    + destruct (Hdiv a 0) as [-> ->]; simpl; lia.
    + replace (a * nb) with (a * nb + 0) by lia.
      destruct (Hdiv a 0) as [-> ->]; simpl; lia.
  - assert (HN : nblocks N nb = q + 1) by (apply nblocks_unique; nia).
    rewrite HN.
    assert (Hab : ((q + 1) / p = a + 1 /\ (q + 1) mod p = 0 /\ b + 1 = p) \/
                  ((q + 1) / p = a /\ (q + 1) mod p = b + 1 /\ b + 1 < p)).
    { destruct (Nat.eq_dec (b + 1) p); [left|right]; repeat split; try lia; symmetry.
      - apply Nat.div_unique with 0; nia. - apply Nat.mod_unique with (a + 1); nia.
      - apply Nat.div_unique with (b + 1); nia. - apply Nat.mod_unique with a; nia. }
    destruct (d <? b) eqn:E2; [|destruct (d =? b) eqn:E3].
    + replace (a * nb + nb) with ((a + 1) * nb + 0) by lia.
      destruct (Hdiv (a + 1) 0) as [-> ->]; [lia|]; simpl Nat.eqb; cbv iota.
      apply Nat.ltb_lt in E2.
      destruct Hab as [(-> & -> & ?)|(-> & -> & ?)];
      destruct (d <? _) eqn:E4; try (destruct (d =? _) eqn:E5);
        rewrite ?Nat.ltb_lt, ?Nat.ltb_ge, ?Nat.eqb_eq, ?Nat.eqb_neq in *; lia.
    + destruct (Hdiv a t) as [-> ->]; [lia|].
      apply Nat.ltb_ge in E2. apply Nat.eqb_eq in E3.
      destruct (t =? 0) eqn:E6; [apply Nat.eqb_eq in E6; lia|].
      destruct Hab as [(-> & -> & ?)|(-> & -> & ?)];
      destruct (d <? _) eqn:E4; try (destruct (d =? _) eqn:E5);
        rewrite ?Nat.ltb_lt, ?Nat.ltb_ge, ?Nat.eqb_eq, ?Nat.eqb_neq in *; lia.
    + replace (a * nb) with (a * nb + 0) by lia.
      destruct (Hdiv a 0) as [-> ->]; [lia|]; simpl Nat.eqb; cbv iota.
      apply Nat.ltb_ge in E2. apply Nat.eqb_neq in E3.
      destruct Hab as [(-> & -> & ?)|(-> & -> & ?)];
      destruct (d <? _) eqn:E4; try (destruct (d =? _) eqn:E5);
        rewrite ?Nat.ltb_lt, ?Nat.ltb_ge, ?Nat.eqb_eq, ?Nat.eqb_neq in *; lia.
Qed.

(** ** the offset loop *)
Definition pre (p src i k : nat) : list nat := filter (fun b => (b + src) mod p =? i) (seq 0 k).

Lemma pre_succ p src i k :
  pre p src i (S k) = pre p src i k ++ if (k + src) mod p =? i then [k] else [].
Proof. unfold pre. rewrite seq_S, filter_app. simpl. destruct (_ =? i); auto. Qed.

Lemma pre_mono p src i k k' : k <= k' -> length (pre p src i k) <= length (pre p src i k').
Proof.
  induction 1; auto. rewrite pre_succ, app_length. lia.
Qed.

Lemma upd_app_repeat (l : list nat) n c v : c = length l ->
  upd (l ++ repeat 0 (S n)) c v = (l ++ [v]) ++ repeat 0 n.
Proof. intros ->. induction l; simpl; [reflexivity|]. f_equal. exact IHl. Qed.

Definition blen N mb b := Nat.min mb (N - b * mb).

Definition tab_at N mb p src i M k : tabs :=
  mk_tabs (length (pre p src i k))
          (map (fun b => b * mb) (pre p src i k) ++ repeat 0 (M - length (pre p src i k)))
          (map (blen N mb) (pre p src i k) ++ repeat 0 (M - length (pre p src i k))).

Lemma offs_loop_spec N mb p src i M : 0 < mb -> 0 < p ->
  length (pre p src i (nblocks N mb)) <= M ->
  forall fuel k, k <= nblocks N mb -> nblocks N mb <= fuel + k ->
  offs_loop fuel N mb p i (k * mb) ((k + src) mod p) (tab_at N mb p src i M k)
  = Ok (tab_at N mb p src i M (nblocks N mb)).
Proof.
  intros Hmb Hp HM. induction fuel as [|fuel IH]; intros k Hk Hf.
  - assert (k = nblocks N mb) by lia. subst k.
    simpl. pose proof (nblocks_ge N mb Hmb).
    destruct (_ <? N) eqn:E; [apply Nat.ltb_lt in E; lia|]. reflexivity.
  - simpl. destruct (k * mb <? N) eqn:E.
    + apply Nat.ltb_lt in E.
      assert (Hk' : k < nblocks N mb) by (pose proof (nblocks_ge N mb Hmb); nia).
      assert (Hnr : (if N - k * mb <? mb then N - k * mb else mb) = blen N mb k).
      { unfold blen. destruct (_ <? mb) eqn:E1; rewrite ?Nat.ltb_lt, ?Nat.ltb_ge in E1; lia. }
      rewrite Hnr.
      assert (Hnext : bind (if i =? (k + src) mod p then
         (let! o := wr (t_offs (tab_at N mb p src i M k)) (t_cnt (tab_at N mb p src i M k)) (k * mb) in
          let! l := wr (t_lens (tab_at N mb p src i M k)) (t_cnt (tab_at N mb p src i M k)) (blen N mb k) in
          Ok (mk_tabs (t_cnt (tab_at N mb p src i M k) + 1) o l)) else Ok (tab_at N mb p src i M k))
         (fun st => Ok st) = Ok (tab_at N mb p src i M (S k))).
      { pose proof (pre_mono p src i (S k) (nblocks N mb) Hk') as Hm.
        rewrite pre_succ in Hm.
        rewrite Nat.eqb_sym. unfold tab_at. rewrite pre_succ. cbn [t_offs t_lens t_cnt].
        destruct ((k + src) mod p =? i) eqn:Ei.
        - rewrite app_length in Hm. simpl in Hm.
          set (L := pre p src i k) in *.
          replace (M - length L) with (S (M - length L - 1)) by lia.
          rewrite !wr_ok by (rewrite app_length, map_length, repeat_length; lia).
          cbn [bind].
          rewrite !upd_app_repeat by (now rewrite map_length).
          rewrite !map_app, !app_length. simpl.
          replace (M - (length L + 1)) with (M - length L - 1) by lia. reflexivity.
        - rewrite app_nil_r. reflexivity. }
      destruct (if i =? (k + src) mod p then _ else _) as [st| |] eqn:Est; simpl in Hnext; try discriminate.
      inversion Hnext; subst st. cbn [bind].
      replace (k * mb + mb) with (S k * mb) by lia.
      assert (Hsd : ((k + src) mod p + 1) mod p = (S k + src) mod p).
      { rewrite Nat.add_mod_idemp_l by lia. f_equal. lia. }
      rewrite Hsd. apply IH; lia.
    + apply Nat.ltb_ge in E.
      assert (k = nblocks N mb) by (pose proof (nblocks_le N mb Hmb); nia). subst k. reflexivity.
Qed.

Lemma offs_loop_run N mb p src i : 0 < mb -> src < p -> i < p ->
  let M := snd (numroc N mb i src p) in
  offs_loop N N mb p i 0 src (mk_tabs 0 (repeat 0 M) (repeat 0 M))
  = Ok (mk_tabs M (map (fun b => b * mb) (owned_blocks N mb p src i))
                  (map (blen N mb) (owned_blocks N mb p src i))).
Proof.
  intros Hmb Hs Hi M.
  assert (HM : M = length (owned_blocks N mb p src i)) by (apply numroc_snd; auto).
  pose proof (offs_loop_spec N mb p src i M Hmb ltac:(lia)) as H.
  assert (HP : pre p src i (nblocks N mb) = owned_blocks N mb p src i) by reflexivity.
  specialize (H ltac:(rewrite HP; lia) N 0 ltac:(lia)).
  assert (HB : nblocks N mb <= N).
  { pose proof (nblocks_le N mb Hmb). destruct N; [|nia].
    unfold nblocks. rewrite Nat.div_small; lia. }
  specialize (H ltac:(lia)). rewrite (Nat.mod_small (0 + src)) in H by lia.
  unfold tab_at in H. rewrite HP in H. simpl in H. rewrite Nat.sub_0_r in H.
  rewrite H. rewrite <- HM, Nat.sub_diag. simpl. rewrite !app_nil_r. reflexivity.
Qed.

(** ** prefix sums *)
Definition psums (lens : list nat) : list nat :=
  map (fun k => list_sum (firstn k lens)) (seq 0 (length lens)).

Lemma psums_nth lens k : k < length lens -> nth_error (psums lens) k = Some (list_sum (firstn k lens)).
Proof.
  intros. unfold psums. rewrite nth_error_map.
  rewrite (nth_error_nth' _ 0) by (rewrite seq_length; lia). rewrite seq_nth by lia. reflexivity.
Qed.

Lemma firstn_S_nth (l : list nat) k x : nth_error l k = Some x -> firstn (S k) l = firstn k l ++ [x].
Proof.
  revert k; induction l; destruct k; simpl; intros H; inversion H; auto.
  f_equal. now apply IHl.
Qed.

Lemma firstn_S_upd (l : list nat) k v : k < length l -> firstn (S k) (upd l k v) = firstn k l ++ [v].
Proof.
  revert k; induction l; destruct k; simpl; intros; try lia; auto.
  f_equal. apply IHl. lia.
Qed.

Lemma prefix_loop_spec lens : forall todo i ol,
  0 < i -> i + todo = length lens -> length ol = length lens ->
  firstn i ol = firstn i (psums lens) ->
  prefix_loop todo i lens ol = Ok (psums lens).
Proof.
  induction todo; intros i ol Hi Ht Hl Hf.
  - simpl. f_equal. assert (E : length (psums lens) = length lens) by (unfold psums; now rewrite map_length, seq_length).
    rewrite <- (firstn_all ol), <- (firstn_all (psums lens)).
    rewrite Hl, E. replace (length lens) with i by lia. exact Hf.
  - simpl.
    assert (Ha : nth_error ol (i - 1) = Some (list_sum (firstn (i - 1) lens))).
    { rewrite <- psums_nth by lia.
      rewrite <- (firstn_skipn i ol), <- (firstn_skipn i (psums lens)).
      assert (E : length (psums lens) = length lens) by (unfold psums; now rewrite map_length, seq_length).
      rewrite !nth_error_app1 by (rewrite firstn_length; lia). now rewrite Hf. }
    destruct (nth_error lens (i - 1)) as [x|] eqn:Hx; [|apply nth_error_None in Hx; lia].
    unfold rd at 1 2. rewrite Ha, Hx. cbn [bind].
    rewrite wr_ok by lia. cbn [bind].
    apply IHtodo; try lia.
    + rewrite upd_length; lia.
    + replace (i + 1) with (S i) by lia. rewrite firstn_S_upd by lia. rewrite Hf.
      rewrite (firstn_S_nth (psums lens) i (list_sum (firstn i lens))) by (apply psums_nth; lia).
      f_equal. f_equal. replace i with (S (i - 1)) at 2 by lia.
      rewrite (firstn_S_nth lens (i - 1) x Hx), list_sum_app. simpl. lia.
Qed.

(** ** the constructor *)
Lemma bc_ctor_ok N mb p src i : 0 < mb -> src < p -> i < p ->
  owned_blocks N mb p src i <> [] ->
  let B := owned_blocks N mb p src i in
  bc_ctor N mb p src i =
    Ok (mk_dim (length (owned N mb p src i)) (length B)
               (map (fun b => b * mb) B) (map (blen N mb) B) (psums (map (blen N mb) B))).
Proof.
  intros Hmb Hs Hi Hne B. unfold bc_ctor.
  pose proof (offs_loop_run N mb p src i Hmb Hs Hi) as HL.
  pose proof (numroc_counts N mb p src i Hmb Hs Hi) as Hm.
  pose proof (numroc_snd N mb i src p Hmb Hs Hi) as Hb.
  destruct (numroc N mb i src p) as [m M]. simpl fst in Hm. simpl snd in Hb. cbn [snd] in HL.
  subst m M. rewrite HL. cbn [bind].
  fold B in Hne. fold B. clearbody B. destruct B as [|b0 B']; [congruence|].
  rewrite wr_ok by (simpl; lia). cbn [bind t_lens].
  rewrite prefix_loop_spec; cbn [bind]; auto; try reflexivity.
  - rewrite map_length. simpl. lia.
  - rewrite upd_length, repeat_length, map_length. reflexivity.
Qed.

Lemma bc_ctor_ub N mb p src i : 0 < mb -> src < p -> i < p ->
  owned_blocks N mb p src i = [] -> bc_ctor N mb p src i = UB.
Proof.
  intros Hmb Hs Hi He. unfold bc_ctor.
  pose proof (offs_loop_run N mb p src i Hmb Hs Hi) as HL.
  pose proof (numroc_snd N mb i src p Hmb Hs Hi) as Hb.
  destruct (numroc N mb i src p) as [m M]. simpl snd in Hb. cbn [snd] in HL.
  rewrite He in *. simpl in Hb. subst M. rewrite HL. reflexivity.
Qed.

Lemma owned_blocks_nonempty N mb p src i : 0 < mb -> src < p -> i < p ->
  (owned_blocks N mb p src i <> [] <-> mydist i src p < nblocks N mb).
Proof.
  intros Hmb Hs Hi. assert (Hd := mydist_lt i src p ltac:(lia)).
  split.
  - intros H. destruct (owned_blocks N mb p src i) as [|b l] eqn:E; [congruence|].
    assert (Hin : In b (owned_blocks N mb p src i)) by (rewrite E; left; auto).
    apply filter_In in Hin as [Hb Ho]. apply in_seq in Hb. apply Nat.eqb_eq in Ho.
    rewrite owner_mod in Ho by lia.
    apply mydist_iff in Ho; try lia; [|apply Nat.mod_upper_bound; lia].
    rewrite <- Ho. pose proof (Nat.mod_le b p). lia.
  - intros H E.
    assert (Hin : In (mydist i src p) (owned_blocks N mb p src i)).
    { apply filter_In. split; [apply in_seq; lia|]. apply Nat.eqb_eq.
      apply mydist_iff; auto. }
    rewrite E in Hin. destruct Hin.
Qed.

(** ** expansion = owned list *)
Lemma filter_seq_block N mb p src i k : 0 < mb -> 0 < p -> k * mb <= N ->
  filter (fun g => owner mb p src g =? i) (seq (k * mb) (blen N mb k))
  = if (k + src) mod p =? i then seq (k * mb) (blen N mb k) else [].
Proof.
  intros Hmb Hp Hk.
  assert (H : forall g, In g (seq (k * mb) (blen N mb k)) -> owner mb p src g = (k + src) mod p).
  { intros g Hg. apply in_seq in Hg. unfold owner, blen in *.
    assert (g / mb = k) as ->; auto.
    symmetry. apply Nat.div_unique with (g - k * mb); nia. }
  revert H. generalize (seq (k * mb) (blen N mb k)) as l. intros l H.
  destruct ((k + src) mod p =? i) eqn:E.
  - induction l; simpl; auto. rewrite (H a) by (left; auto). rewrite E. f_equal. apply IHl.
    intros; apply H; right; auto.
  - induction l; simpl; auto. rewrite (H a) by (left; auto). rewrite E. apply IHl.
    intros; apply H; right; auto.
Qed.

Lemma flat_map_map {A B C} (f : A -> B) (g : B -> list C) l :
  flat_map g (map f l) = flat_map (fun a => g (f a)) l.
Proof. induction l; simpl; congruence. Qed.

Lemma combine_map2 {A B C} (f : A -> B) (g : A -> C) l :
  combine (map f l) (map g l) = map (fun a => (f a, g a)) l.
Proof. induction l; simpl; congruence. Qed.

Lemma pre_expand N mb p src i : 0 < mb -> 0 < p -> forall k, k <= nblocks N mb ->
  flat_map (fun b => seq (b * mb) (blen N mb b)) (pre p src i k)
  = owned (Nat.min N (k * mb)) mb p src i.
Proof.
  intros Hmb Hp. induction k; intros Hk.
  - simpl. rewrite Nat.min_0_r. reflexivity.
  - rewrite pre_succ, flat_map_app, IHk by lia.
    pose proof (nblocks_le N mb Hmb).
    assert (Hle : k * mb < N) by nia.
    replace (Nat.min N (S k * mb)) with (k * mb + blen N mb k) by (unfold blen; nia).
    rewrite Nat.min_r by lia.
    unfold owned. rewrite seq_app, filter_app. f_equal. simpl Nat.add.
    rewrite filter_seq_block by lia.
    destruct (_ =? i); simpl; rewrite ?app_nil_r; reflexivity.
Qed.

Lemma expand_owned N mb p src i : 0 < mb -> 0 < p ->
  expand (map (fun b => b * mb) (owned_blocks N mb p src i))
         (map (blen N mb) (owned_blocks N mb p src i)) = owned N mb p src i.
Proof.
  intros Hmb Hp. unfold expand. rewrite combine_map2, flat_map_map. cbn [fst snd].
  fold (pre p src i (nblocks N mb)). unfold owned_blocks.
  change (filter (fun k : nat => (k + src) mod p =? i) (seq 0 (nblocks N mb))) with (pre p src i (nblocks N mb)).
  rewrite pre_expand by lia. rewrite Nat.min_l; auto. now apply nblocks_ge.
Qed.
