(** Lanczos start-up *)
From Coq Require Import List Arith ZArith Bool Lia Permutation.
Require Import Verif.Base Verif.AlgModel Verif.AlgSpec Verif.AlgProofs1 Verif.AlgProofs2 Verif.AlgProofs3 Verif.AlgProofs4.
Import ListNotations.

Section L.
Context {F St : Type} (fo : fops F) (K : kernel F St).

Section Search.
Context (sorted Theta Tau : list F) (nv : nat) (search : F).
(** cumulated weight at the i-th sorted value *)
Local Notation curr_at := (curr_at fo sorted Theta Tau nv).
Definition prev_at (i : nat) : F := match i with O => f_zero fo | S i' => curr_at i' end.

Lemma dos_search_gen : forall todo i, i + todo = length sorted ->
  (forall j, j < i -> f_lt fo search (curr_at j) <> true) ->
  match dos_search fo todo i sorted Theta Tau nv search (prev_at i) with
  | Ok (Some lb) => dos_bound fo sorted curr_at search lb
  | Ok None => forall j, j < length sorted -> f_lt fo search (curr_at j) <> true
  | UB => f_lt fo search (curr_at 0) = true /\
          f_lt fo (f_abs fo (f_sub fo (curr_at 0) search)) (f_abs fo (f_sub fo (f_zero fo) search)) = false
  | Fuel => False
  end.
Proof.
  induction todo; intros i Hi Hpre; cbn [dos_search].
  - intros j Hj. apply Hpre. lia.
  - destruct (nth_error_ex sorted i) as [x Ex]; [lia|]. unfold rd at 1. rewrite Ex. cbn [bind].
    assert (Ec : dos_curr fo x Theta Tau nv = curr_at i) by (unfold curr_at; now rewrite Ex).
    rewrite Ec. destruct (f_lt fo search (curr_at i)) eqn:El.
    + destruct (f_lt fo (f_abs fo (f_sub fo (curr_at i) search)) (f_abs fo (f_sub fo (prev_at i) search))) eqn:E2.
      * exists i. split; [repeat split; auto; lia|]. unfold prev_at in E2. cbv zeta. rewrite E2. auto.
      * unfold rdz. destruct i as [|i'].
        -- cbn. split; auto.
        -- replace (Z.of_nat (S i') - 1 <? 0)%Z with false by (symmetry; apply Z.ltb_ge; lia).
           replace (Z.to_nat (Z.of_nat (S i') - 1)) with i' by lia.
           destruct (nth_error_ex sorted i') as [y Ey]; [lia|]. unfold rd. rewrite Ey. cbn [bind].
           exists (S i'). split; [repeat split; auto; lia|]. cbv zeta. unfold prev_at in E2. rewrite E2.
           split; [lia|]. replace (S i' - 1) with i' by lia. auto.
    + replace (i + 1) with (S i) by lia. change (curr_at i) with (prev_at (S i)). apply IHtodo; [lia|].
      intros j Hj. destruct (Nat.eq_dec j i) as [->|]; [congruence|]. apply Hpre. lia.
Qed.

Lemma dos_search_spec :
  match dos_search fo (length sorted) 0 sorted Theta Tau nv search (f_zero fo) with
  | Ok (Some lb) => dos_bound fo sorted curr_at search lb
  | Ok None => forall j, j < length sorted -> f_lt fo search (curr_at j) <> true
  | UB => f_lt fo search (curr_at 0) = true /\
          f_lt fo (f_abs fo (f_sub fo (curr_at 0) search)) (f_abs fo (f_sub fo (f_zero fo) search)) = false
  | Fuel => False
  end.
Proof. apply (dos_search_gen (length sorted) 0); [lia|]. intros; lia. Qed.

Lemma dos_bound_unique lb lb' : dos_bound fo sorted curr_at search lb -> dos_bound fo sorted curr_at search lb' -> lb = lb'.
Proof.
  intros (k & (H1 & H2 & H3) & H) (k' & (H1' & H2' & H3') & H').
  assert (k = k').
  { destruct (lt_eq_lt_dec k k') as [[Hl|]|Hl]; auto; [destruct (H3' k Hl H2)|destruct (H3 k' Hl H2')]. }
  subst k'. cbv zeta in H, H'.
  match type of H with if ?c then _ else _ => destruct c end.
  - congruence.
  - destruct H, H'. congruence.
Qed.
End Search.

Lemma dos_idx_spec base Th lb : forall todo i, base + i + todo <= length Th ->
  exists z, dos_idx fo todo i base Th lb = Ok z /\
  ((exists k, i <= k < i + todo /\ z = (Z.of_nat k - 1)%Z /\
     (exists x, nth_error Th (base + k) = Some x /\ f_lt fo lb x = true) /\
     (forall j x, i <= j < k -> nth_error Th (base + j) = Some x -> f_lt fo lb x = false)) \/
   (z = 0%Z /\ forall j x, i <= j < i + todo -> nth_error Th (base + j) = Some x -> f_lt fo lb x = false)).
Proof.
  induction todo; intros i Hl; cbn [dos_idx].
  - exists 0%Z. split; auto. right. split; auto. intros; lia.
  - destruct (nth_error_ex Th (base + i)) as [x Ex]; [lia|]. unfold rd. rewrite Ex. cbn [bind].
    destruct (f_lt fo lb x) eqn:E.
    + eexists. split; eauto. left. exists i. split; [lia|]. split; auto. split; [eauto|]. intros; lia.
    + destruct (IHtodo (i + 1)) as (z & Hz & [(k & Hk & Ez & Hx & Hj)|(Ez & Hj)]); [lia| |]; exists z; split; auto.
      * left. exists k. split; [lia|]. split; auto. split; auto. intros j y Hjk Hy.
        destruct (Nat.eq_dec j i) as [->|]; [congruence|]. apply (Hj j y); auto. lia.
      * right. split; auto. intros j y Hjk Hy. destruct (Nat.eq_dec j i) as [->|]; [congruence|]. apply (Hj j y); auto. lia.
Qed.

Lemma wr_loop_const (v : F) : forall todo off r r',
  for_ todo 0 (fun t r => wrz r (Z.of_nat off + Z.of_nat t)%Z v) r = Ok r' -> off + todo <= length r ->
  length r' = length r /\ (forall i, off <= i < off + todo -> nth_error r' i = Some v) /\
  (forall i, i < off \/ off + todo <= i -> nth_error r' i = nth_error r i).
Proof.
  intros todo off r r' H Hl.
  apply (for_inv_ok (fun t q => length q = length r /\ (forall i, off <= i < off + t -> nth_error q i = Some v) /\
     (forall i, i < off \/ off + t <= i -> nth_error q i = nth_error r i))) in H; auto.
  - split; auto. split; auto. intros; lia.
  - clear H. intros t q q' Ht (H1 & H2 & H3) Hb. unfold wrz in Hb.
    replace (Z.of_nat off + Z.of_nat t <? 0)%Z with false in Hb by (symmetry; apply Z.ltb_ge; lia).
    replace (Z.to_nat (Z.of_nat off + Z.of_nat t)) with (off + t) in Hb by lia.
    apply wr_inv in Hb as [Hlt ->]. rewrite upd_length. split; auto. split.
    + intros i Hi. destruct (Nat.eq_dec i (off + t)) as [->|]; [now apply upd_same|]. rewrite upd_other by lia. apply H2. lia.
    + intros i Hi. rewrite upd_other by lia. apply H3. lia.
Qed.

Lemma lz_fill_ok idx nevex base (Th : list F) la lb (r : list F) : idx < nevex -> nevex <= length r -> base + idx <= length Th ->
  exists r', lz_fill (Z.of_nat idx) nevex base Th la lb r = Ok r' /\ filled idx nevex base Th la lb r r'.
Proof.
  intros Hi Hr Ht. unfold lz_fill. rewrite Nat2Z.id.
  destruct (for_inv (fun t q => length q = length r /\ (forall i, i < t -> nth_error q i = nth_error Th (base + i)) /\
      (forall i, t <= i -> nth_error q i = nth_error r i))
     (fun i r => let! x := rd Th (base + i) in wr r i x) idx 0 r) as (r1 & -> & (L1 & A1 & B1)).
  - split; auto. split; auto. intros; lia.
  - intros k q Hk (H1 & H2 & H3). destruct (nth_error_ex Th (base + k)) as [x Ex]; [lia|]. unfold rd. rewrite Ex. cbn [bind].
    rewrite wr_ok by lia. eexists. split; eauto. rewrite upd_length. split; auto. split.
    + intros i Hik. destruct (Nat.eq_dec i k) as [->|]; [rewrite upd_same by lia; auto|]. rewrite upd_other by lia. apply H2; lia.
    + intros i Hik. rewrite upd_other by lia. apply H3. lia.
  - cbn [bind plus]. set (todo := Z.to_nat (Z.of_nat nevex - 1 - Z.of_nat idx)).
    assert (Etodo : idx + todo = nevex - 1) by lia.
    destruct (for_inv (fun t q => length q = length r)
      (fun t r => wrz r (Z.of_nat idx + Z.of_nat t)%Z la) todo 0 r1 L1) as (r2 & E2 & L2).
    { intros k q Hk Hq. unfold wrz.
      replace (Z.of_nat idx + Z.of_nat k <? 0)%Z with false by (symmetry; apply Z.ltb_ge; lia).
      rewrite wr_ok by lia. eexists. split; eauto. now rewrite upd_length. }
    rewrite E2. cbn [bind]. apply wr_loop_const in E2 as (_ & A2 & B2); [|lia].
    unfold wrz. replace (Z.of_nat nevex - 1 <? 0)%Z with false by (symmetry; apply Z.ltb_ge; lia).
    replace (Z.to_nat (Z.of_nat nevex - 1)) with (nevex - 1) by lia.
    rewrite wr_ok by lia. eexists. split; [reflexivity|]. unfold filled. rewrite upd_length. split; [lia|].
    split; [|split; [|split]].
    + intros i Hii. rewrite upd_other by lia. rewrite B2 by lia. apply A1. lia.
    + intros i Hii. rewrite upd_other by lia. apply A2. lia.
    + apply upd_same. lia.
    + intros i Hii. rewrite upd_other by lia. rewrite B2 by lia. apply B1. lia.
Qed.

Lemma lz_fill_neg nevex base Th la lb (r : list F) : 1 <= nevex -> lz_fill (-1) nevex base Th la lb r = UB.
Proof.
  intros H. unfold lz_fill. cbn [Z.to_nat for_ bind].
  replace (Z.to_nat (Z.of_nat nevex - 1 - -1)) with (S (nevex - 1)) by lia. cbn [for_].
  unfold wrz at 1. cbn. reflexivity.
Qed.

(** the condition under which the start-up stays inside its arrays *)
Local Notation start_ok := (start_ok fo).

Context (nevex : nat) (I0 : St -> Prop) (I : nat -> St -> Prop) (KS : kernel_safe K nevex I0 I).

Lemma lz_intersperse_safe idx r k : idx <= nevex -> nevex <= length r -> I 0 k ->
  exists r' k', lz_intersperse K idx nevex r k = Ok (r', k') /\ I 0 k'.
Proof.
  intros Hi Hl HI. unfold lz_intersperse.
  match goal with |- exists r' k', for_ _ _ ?body _ = _ /\ _ =>
    destruct (for_inv (fun _ rk => length (fst rk) = length r /\ I 0 (snd rk)) body (idx - 1) 1 (r, k)) as ([r' k'] & E & _ & HI');
    [auto| |exists r', k'; auto] end.
  intros i [q s] Hik [Hq Hs]. cbn [fst snd] in *.
  assert (Hj : i * (nevex / idx) < nevex).
  { pose proof (Nat.mul_div_le nevex idx ltac:(lia)).
    assert (1 <= nevex / idx) by (apply Nat.div_le_lower_bound; lia). nia. }
  destruct (ks_swap _ _ _ _ KS 0 i (i * (nevex / idx)) s Hs) as (s' & -> & HI'); auto; [lia|]. cbn [bind].
  rewrite swap_ok by lia. cbn [bind]. eexists. split; [reflexivity|]. cbn. rewrite swp_length. auto.
Qed.

Lemma lanczos_iff fsort N nv m r k u Th Ta rv k1 :
  (forall l, length (fsort l) = length l) ->
  0 < m <= nevex -> 0 < nv <= nevex -> nevex <= length r -> I 0 k ->
  k_lanczos2 K m nv k = Ok (u, Th, Ta, rv, k1) ->
  (start_ok (fsort Th) Th Ta N nv m nevex <-> exists x, lanczos fo K fsort N nv m nevex true r k = Ok x).
Proof.
  intros Hfs Hm Hnv Hr HI HL.
  destruct (ks_lanczos2 _ _ _ _ KS m nv k HI Hm Hnv) as (u' & Th' & Ta' & rv' & k1' & E & LT & LA & LR & I1).
  rewrite HL in E. injection E as <- <- <- <- <-.
  unfold lanczos. replace (m =? 0) with false by (symmetry; apply Nat.eqb_neq; lia). cbn [negb].
  rewrite HL. cbn [bind].
  assert (Hbase : (nv - 1) * m + m <= length Th) by (rewrite LT; destruct nv; [lia|]; simpl; rewrite Nat.sub_0_r; lia).
  assert (Hsl : length (fsort Th) = nv * m) by (rewrite Hfs; auto).
  destruct (nth_error_ex (fsort Th) 0) as [la Ela]; [rewrite Hsl; nia|]. unfold rd at 1. rewrite Ela. cbn [bind].
  rewrite <- Hsl.
  pose proof (dos_search_spec (fsort Th) Th Ta nv (f_div fo (f_of_nat fo nevex) (f_of_nat fo N))) as HS.
  unfold start_ok.
  destruct (dos_search fo (length (fsort Th)) 0 (fsort Th) Th Ta nv (f_div fo (f_of_nat fo nevex) (f_of_nat fo N)) (f_zero fo))
    as [[lb|]| |] eqn:ES; cbn [bind].
  - destruct (dos_idx_spec ((nv - 1) * m) Th lb m 0) as (z & -> & HZ); [lia|]. cbn [bind].
    destruct (nth_error_ex Th ((nv - 1) * m)) as [x0 Ex0]; [lia|].
    split.
    + intros (lb' & x & Hb & Hx & Hlt). pose proof (dos_bound_unique _ _ _ _ _ _ _ HS Hb) as <-.
      rewrite Ex0 in Hx. injection Hx as <-.
      assert (Hz : exists idx, z = Z.of_nat idx /\ idx < m /\ (0 < idx -> idx + 1 < m)).
      { destruct HZ as [(kk & Hk & Ez & (y & Hy & Hlty) & _)|(Ez & _)].
        - destruct kk as [|kk].
          + rewrite Nat.add_0_r, Ex0 in Hy. injection Hy as <-. congruence.
          + exists kk. lia.
        - exists 0. lia. }
      destruct Hz as (idx & -> & Hidx & Hidx2).
      assert (HD : exists k2, (if (0 <? Z.of_nat idx)%Z then k_dos K (Z.to_nat (Z.of_nat idx)) m rv k1 else Ok k1) = Ok k2 /\ I 0 k2).
      { destruct (0 <? Z.of_nat idx)%Z eqn:E0; [|eauto]. apply Z.ltb_lt in E0.
        apply (ks_dos _ _ _ _ KS); auto; lia. }
      destruct HD as (k2 & -> & I2). cbn [bind].
      destruct (lz_fill_ok idx nevex ((nv - 1) * m) Th la lb r) as (r1 & -> & HF); try lia. cbn [bind].
      rewrite Nat2Z.id.
      destruct (lz_intersperse_safe idx r1 k2) as (r2 & k3 & -> & _); auto; [lia|destruct HF; lia|]. cbn [bind]. eauto.
    + intros (out & H). exists lb, x0. split; auto. split; auto.
      destruct (f_lt fo lb x0) eqn:E; auto. exfalso.
      assert (z = (-1)%Z) as ->.
      { destruct HZ as [(kk & Hk & Ez & (y & Hy & Hlty) & Hj)|(Ez & Hj)].
        - destruct kk as [|kk]; [lia|]. specialize (Hj 0 x0 ltac:(lia)). rewrite Nat.add_0_r in Hj. specialize (Hj Ex0). congruence.
        - specialize (Hj 0 x0 ltac:(lia)). rewrite Nat.add_0_r in Hj. specialize (Hj Ex0). congruence. }
      replace (0 <? -1)%Z with false in H by reflexivity. cbn [bind] in H.
      rewrite lz_fill_neg in H by lia. discriminate.
  - split; [|intros (x & H); discriminate].
    intros (lb & x & (kk & (H1 & H2 & _) & _) & _). exfalso. eapply HS; eauto.
  - split; [|intros (x & H); discriminate].
    intros (lb & x & (kk & (H1 & H2 & H3) & H4) & _). exfalso. destruct HS as [S1 S2].
    destruct kk as [|kk]; [|eapply (H3 0); eauto; lia].
    cbv zeta in H4. rewrite S2 in H4. lia.
  - easy.
Qed.

(** what a defined start-up returns *)
Lemma lanczos_out fsort N nv m r k idx ub r' k' :
  (forall l, length (fsort l) = length l) ->
  0 < m <= nevex -> 0 < nv <= nevex -> nevex <= length r -> I 0 k ->
  lanczos fo K fsort N nv m nevex true r k = Ok (idx, ub, r', k') ->
  exists Th Ta rv k1 k2 la lb fill sw,
    k_lanczos2 K m nv k = Ok (ub, Th, Ta, rv, k1) /\
    nth_error (fsort Th) 0 = Some la /\
    dos_bound fo (fsort Th) (curr_at fo (fsort Th) Th Ta nv) (f_div fo (f_of_nat fo nevex) (f_of_nat fo N)) lb /\
    (0 <= idx < Z.of_nat m)%Z /\
    filled (Z.to_nat idx) nevex ((nv - 1) * m) Th la lb r fill /\
    (if (0 <? idx)%Z then k_dos K (Z.to_nat idx) m rv k1 else Ok k1) = Ok k2 /\
    in_range nevex sw /\ r' = swps sw fill /\ kswaps K 0 sw k2 = Ok k'.
Proof.
  intros Hfs Hm Hnv Hr HI H.
  destruct (ks_lanczos2 _ _ _ _ KS m nv k HI Hm Hnv) as (u' & Th & Ta & rv & k1 & HL & LT & LA & LR & I1).
  unfold lanczos in H. replace (m =? 0) with false in H by (symmetry; apply Nat.eqb_neq; lia). cbn [negb] in H.
  rewrite HL in H. cbn [bind] in H.
  assert (Hbase : (nv - 1) * m + m <= length Th) by (rewrite LT; destruct nv; [lia|]; simpl; rewrite Nat.sub_0_r; lia).
  assert (Hsl : length (fsort Th) = nv * m) by (rewrite Hfs; auto).
  apply bind_ok in H as (la & Hla & H). apply rd_ok in Hla.
  apply bind_ok in H as (lbo & Hlb & H). destruct lbo as [lb|]; [|discriminate].
  rewrite <- Hsl in Hlb.
  pose proof (dos_search_spec (fsort Th) Th Ta nv (f_div fo (f_of_nat fo nevex) (f_of_nat fo N))) as HS. rewrite Hlb in HS.
  apply bind_ok in H as (z & Hz & H). apply bind_ok in H as (k2 & Hk2 & H). apply bind_ok in H as (fill & Hfill & H).
  apply bind_ok in H as ([r2 k3] & Hint & H). injection H as -> -> -> ->.
  destruct (dos_idx_spec ((nv - 1) * m) Th lb m 0) as (z' & Ez & HZ); [lia|]. rewrite Hz in Ez. injection Ez as <-.
  assert (Hidx : (-1 <= idx < Z.of_nat m)%Z).
  { destruct HZ as [(kk & Hk & -> & _)|(-> & _)]; lia. }
  assert (Hn1 : idx <> (-1)%Z) by (intros ->; rewrite lz_fill_neg in Hfill by lia; discriminate).
  assert (HF : filled (Z.to_nat idx) nevex ((nv - 1) * m) Th la lb r fill).
  { destruct (lz_fill_ok (Z.to_nat idx) nevex ((nv - 1) * m) Th la lb r) as (q & Hq & HF); try lia.
    rewrite Z2Nat.id in Hq by lia. rewrite Hfill in Hq. injection Hq as <-. auto. }
  assert (HSW : exists sw, in_range nevex sw /\ fs_by K sw (fill, k2) (r', k')).
  { unfold lz_intersperse in Hint.
    apply (for_inv_ok (fun _ a => exists sw, in_range nevex sw /\ fs_by K sw (fill, k2) a)) in Hint; auto.
    - exists []. split; [constructor|]. split; auto.
    - clear Hint. intros i [r1 k4] a' Hi (sw & Hsw & Hby) Hb. apply bind_ok in Hb as (k5 & Hk & Hb). apply bind_ok in Hb as (r3 & Hr3 & Hb).
      injection Hb as <-. apply swap_inv in Hr3 as (_ & _ & ->).
      assert (Hj : i * (nevex / Z.to_nat idx) < nevex).
      { pose proof (Nat.mul_div_le nevex (Z.to_nat idx) ltac:(lia)).
        assert (1 <= nevex / Z.to_nat idx) by (apply Nat.div_le_lower_bound; lia). nia. }
      exists (sw ++ [(i, i * (nevex / Z.to_nat idx))]). split.
      + apply Forall_app. split; auto. constructor; auto. simpl. lia.
      + eapply fs_by_trans; eauto. split; auto. simpl kswaps. rewrite !Nat.add_0_r. cbn [fst snd]. rewrite Hk. reflexivity. }
  destruct HSW as (sw & Hsw & E1 & E2). cbn [fst snd] in *.
  exists Th, Ta, rv, k1, k2, la, lb, fill, sw. split; auto. split; auto. split; auto. split; [lia|]. auto.
Qed.
End L.
