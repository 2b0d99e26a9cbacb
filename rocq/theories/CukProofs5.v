(** lacpy over all super blocks; the tables of the multi-GPU shift. *)
From Coq Require Import List Arith ZArith Bool Lia.
Require Import Verif.Base Verif.DistModel Verif.DistSpec Verif.FlatSpec Verif.FlatModel Verif.FlatProofs.
Require Import Verif.CukModel Verif.CukTabs Verif.CukSpec Verif.CukProofs1 Verif.CukProofs2 Verif.CukProofs3 Verif.CukProofs4.
Import ListNotations.

Section A.
Context {V : Type} (zero : V) (add : V -> V -> V).

(** launches that each copy a rectangle *)
Section Seq.
Context {A : Type} (kn : A -> kernel V) (reg : A -> nat -> nat -> bool) (m n lda ldb : nat) (mem0 : mem V).
Context (Hm : m <= ldb).
Context (Hreg : forall p i j, reg p i j = true -> i < m /\ j < n).
Definition same (m1 : mem V) : Prop := (forall z, m1 (Glob 0 z) = mem0 (Glob 0 z)) /\ forall x, mem0 x <> None -> m1 x <> None.
Definition bat (i j : nat) : addr := Glob 1 (Zn i + Zn j * Zn ldb)%Z.
Definition aat (i j : nat) : addr := Glob 0 (Zn i + Zn j * Zn lda)%Z.
Context (Hmem : forall i j, i < m -> j < n -> mem0 (aat i j) <> None).
Lemma bat_inj i j i' j' : i < m -> i' < m -> bat i j = bat i' j' -> i = i' /\ j = j'.
Proof. unfold bat, Zn. intros Hi Hi' E. injection E as E. assert (j = j') by nia. subst. split; auto. lia. Qed.
Lemma seq_launches L : (forall p m1, In p L -> same m1 -> exists m2, yields add (kn p) m1 m2 /\
    (forall i j, reg p i j = true -> m2 (bat i j) = m1 (aat i j)) /\
    (forall x, (forall i j, reg p i j = true -> x <> bat i j) -> m2 x = m1 x)) ->
  forall m1, same m1 -> exists m2, yields_all add (map kn L) m1 m2 /\
    (forall i j, i < m -> existsb (fun p => reg p i j) L = true -> m2 (bat i j) = mem0 (aat i j)) /\
    (forall i j, i < m -> existsb (fun p => reg p i j) L = false -> m2 (bat i j) = m1 (bat i j)) /\
    (forall x, (forall i j, i < m -> j < n -> x <> bat i j) -> m2 x = m1 x).
Proof.
  induction L as [|p L IH]; intros HL m1 S1.
  - exists m1. cbn. repeat split; auto. discriminate.
  - destruct (HL p m1 (or_introl eq_refl) S1) as (m2 & Y & C & F).
    assert (FF : forall i j, i < m -> reg p i j = false -> m2 (bat i j) = m1 (bat i j)).
    { intros i j Hi E. apply F. intros i' j' E' Q. destruct (Hreg _ _ _ E'). apply bat_inj in Q; auto. destruct Q as [-> ->]. congruence. }
    assert (S2 : same m2).
    { split.
      - intros z. rewrite F; [apply S1|]. intros. unfold bat. discriminate.
      - intros x Hx. destruct x as [[|[|a]] z|b z]; try (rewrite F; [now apply S1|intros; unfold bat; congruence]).
        (* an element of array 1: copied or kept *)
        destruct (existsb (fun i => existsb (fun j => reg p i j && (Z.eqb z (Zn i + Zn j * Zn ldb)%Z)) (seq 0 n)) (seq 0 m)) eqn:E.
        + apply existsb_exists in E. destruct E as (i & Ii & E). apply existsb_exists in E. destruct E as (j & Ij & E). apply andb_true_iff in E. destruct E as [E1 E2].
          apply Z.eqb_eq in E2. subst z. change (m2 (bat i j) <> None). rewrite C by auto. destruct S1 as [S1 _]. unfold aat. rewrite S1. apply in_seq in Ii, Ij. apply Hmem; lia.
        + rewrite F; [now apply S1|]. intros i j E' Q. apply not_true_iff_false in E. apply E. destruct (Hreg _ _ _ E').
          apply existsb_exists. exists i. split; [apply in_seq; lia|]. apply existsb_exists. exists j. split; [apply in_seq; lia|]. rewrite E'. cbn.
          apply Z.eqb_eq. unfold bat in Q. now injection Q. }
    destruct (IH (fun q m3 Hq => HL q m3 (or_intror Hq)) m2 S2) as (m3 & Y3 & C3 & N3 & F3).
    exists m3. split; [exists m2; auto|]. split; [|split].
    + intros i j Hi E. cbn in E. destruct (existsb (fun p => reg p i j) L) eqn:E3; [auto|]. rewrite orb_false_r in E. rewrite N3, C by auto. apply S1.
    + intros i j Hi E. cbn in E. apply orb_false_iff in E. destruct E. rewrite N3, FF by auto. reflexivity.
    + intros x Hx. rewrite F3 by auto. apply F. intros i j E. destruct (Hreg _ _ _ E). auto.
Qed.
End Seq.

Lemma S_val : Zn super_NB = 4194240%Z.
Proof. unfold Zn, super_NB. now rewrite Z2Nat.id. Qed.
Lemma map_flat {A B C} (f : A -> B -> C) l1 l2 : flat_map (fun i => map (f i) l2) l1 = map (fun p => f (fst p) (snd p)) (list_prod l1 l2).
Proof. induction l1; cbn; auto. rewrite map_app, map_map, IHl1. reflexivity. Qed.
Lemma existsb_prod (f g : nat -> bool) l1 l2 : existsb (fun p : nat * nat => f (fst p) && g (snd p)) (list_prod l1 l2) = existsb f l1 && existsb g l2.
Proof.
  induction l1 as [|a l1 IH]; cbn; auto. rewrite existsb_app, IH. assert (E : existsb (fun p => f (fst p) && g (snd p)) (map (fun y => (a, y)) l2) = f a && existsb g l2).
  { clear. induction l2 as [|b l2 IH]; cbn; [now rewrite andb_false_r|]. rewrite IH. destruct (f a), (g b); auto. }
  rewrite E. destruct (f a), (existsb f l1), (existsb g l2); auto.
Qed.

(** rows of super block i *)
Section Dim.
Context (m : nat).
Let SN := super_NB.
Definition sb := (m + SN - 1) / SN.
Definition sb_len (i : nat) := if i =? sb - 1 then m mod SN else SN.
Definition sb_in (i r : nat) : bool := (i * SN <=? r) && (r <? i * SN + sb_len i).
Lemma SN_pos : 0 < SN. Proof. pose proof S_val. unfold SN, Zn in *. lia. Qed.
Lemma sb_cases : (m mod SN = 0 /\ m = sb * SN) \/ (0 < m mod SN /\ m = (sb - 1) * SN + m mod SN /\ 0 < sb).
Proof.
  pose proof SN_pos. pose proof (Nat.div_mod m SN ltac:(lia)) as D. pose proof (Nat.mod_upper_bound m SN ltac:(lia)) as U. unfold sb.
  destruct (Nat.eq_dec (m mod SN) 0) as [E|E].
  - left. split; auto. replace (m + SN - 1) with ((SN - 1) + m / SN * SN) by lia. rewrite Nat.div_add by lia. rewrite Nat.div_small by lia. lia.
  - right. replace (m + SN - 1) with ((m mod SN - 1) + (m / SN + 1) * SN) by lia. rewrite Nat.div_add by lia. rewrite Nat.div_small by lia. split; [lia|]. split; lia.
Qed.
Lemma sb_len_le i : i < sb -> i * SN + sb_len i <= m.
Proof.
  pose proof SN_pos as P. unfold sb_len. intros Hi. pose proof sb_cases as C. remember (sb) as q eqn:Eq. clear Eq. clearbody SN.
  assert (M : (i =? q - 1) = false -> (i + 1) * SN <= (q - 1) * SN) by (intros E; apply Nat.eqb_neq in E; apply Nat.mul_le_mono_r; lia).
  destruct (i =? q - 1) eqn:E.
  - apply Nat.eqb_eq in E. destruct C as [[C1 C2]|(C1 & C2 & C3)]; [|subst i; lia]. rewrite C1. rewrite C2. assert (i * SN <= q * SN) by (apply Nat.mul_le_mono_r; lia). lia.
  - specialize (M eq_refl). destruct C as [[C1 C2]|(C1 & C2 & C3)]; [assert ((q - 1) * SN <= q * SN) by (apply Nat.mul_le_mono_r; lia)|]; lia.
Qed.
Lemma sb_in_lt i r : i < sb -> sb_in i r = true -> r < m.
Proof. unfold sb_in. intros Hi H1. apply sb_len_le in Hi. apply andb_true_iff in H1. destruct H1 as [H1 H2]. apply Nat.ltb_lt in H2. lia. Qed.
Lemma sb_cover r : r < m -> m mod SN <> 0 -> existsb (fun i => sb_in i r) (seq 0 sb) = true.
Proof.
  intros Hr Hm. pose proof SN_pos as SP. destruct sb_cases as [[C1 C2]|(C1 & C2 & C3)]; [congruence|]. apply existsb_exists. exists (r / SN).
  pose proof (Nat.div_mod r SN ltac:(lia)) as D. pose proof (Nat.mod_upper_bound r SN ltac:(lia)) as U. assert (L : r / SN < sb).
  { apply Nat.div_lt_upper_bound; [lia|]. pose proof (Nat.mod_upper_bound m SN ltac:(lia)). clearbody SN. replace (SN * sb) with ((sb - 1) * SN + SN) by (replace sb with (sb - 1 + 1) at 2 by lia; ring). lia. }
  split; [apply in_seq; lia|]. unfold sb_in, sb_len. apply andb_true_iff. split; [apply Nat.leb_le; lia|apply Nat.ltb_lt].
  destruct (r / SN =? sb - 1) eqn:E; [apply Nat.eqb_eq in E; rewrite E in *; lia|lia].
Qed.
Lemma sb_last r : m mod SN = 0 -> m - SN <= r -> existsb (fun i => sb_in i r) (seq 0 sb) = false.
Proof.
  intros Hm Hr. pose proof SN_pos. destruct sb_cases as [[C1 C2]|(C1 & C2 & C3)]; [|lia]. apply not_true_iff_false. intros E. apply existsb_exists in E.
  destruct E as (i & Ii & E). apply in_seq in Ii. unfold sb_in, sb_len in E. apply andb_true_iff in E. destruct E as [E1 E2]. apply Nat.leb_le in E1. apply Nat.ltb_lt in E2.
  destruct (i =? sb - 1) eqn:Q; [apply Nat.eqb_eq in Q|apply Nat.eqb_neq in Q]; subst; nia.
Qed.
End Dim.

Lemma u32_small z : (0 <= z < 4294967296)%Z -> u32 z = z.
Proof. intros. now apply Z.mod_small. Qed.

Section Lacpy.
Context (m n lda ldb : nat) (mem0 : mem V).
Context (Ha : m <= lda) (Hb : m <= ldb) (Hna : (Zn n * Zn lda < 2147483648)%Z) (Hnb : (Zn n * Zn ldb < 2147483648)%Z).
Context (HM : forall i j, i < m -> j < n -> mem0 (aat lda i j) <> None /\ mem0 (bat ldb i j) <> None).
Let reg (p : nat * nat) (i j : nat) : bool := sb_in m (fst p) i && sb_in n (snd p) j.
Let L := list_prod (seq 0 (sb m)) (seq 0 (sb n)).

Lemma lacpy_all_gen : exists m2, yields_all add (lacpy_launches zero All m n lda ldb) mem0 m2 /\
    (forall i j, i < m -> existsb (fun p => reg p i j) L = true -> m2 (bat ldb i j) = mem0 (aat lda i j)) /\
    (forall i j, i < m -> existsb (fun p => reg p i j) L = false -> m2 (bat ldb i j) = mem0 (bat ldb i j)) /\
    (forall x, (forall i j, i < m -> j < n -> x <> bat ldb i j) -> m2 x = mem0 x).
Proof.
  unfold lacpy_launches. rewrite (map_flat (lacpy_launch zero All m n lda ldb)). fold (sb m) (sb n). fold L.
  set (reg' p i j := (fst p <? sb m) && (snd p <? sb n) && reg p i j).
  assert (RR : forall i j, existsb (fun p => reg' p i j) L = existsb (fun p => reg p i j) L).
  { intros i j. apply eq_iff_eq_true. rewrite !existsb_exists. split; intros (p & Ip & E); exists p; split; auto; unfold reg' in *.
    - apply andb_true_iff in E. tauto.
    - rewrite E, andb_true_r. destruct p as [a b]. apply in_prod_iff in Ip. rewrite !in_seq in Ip. apply andb_true_iff. split; apply Nat.ltb_lt; cbn; lia. }
  destruct (seq_launches (fun p => lacpy_launch zero All m n lda ldb (fst p) (snd p)) reg' m n lda ldb mem0 Hb) with (L := L) (m1 := mem0) as (m2 & Y & C & N & F).
  - intros p i j E. unfold reg' in E. apply andb_true_iff in E. destruct E as [E1 E]. apply andb_true_iff in E, E1. destruct E as [E2 E3], E1 as [E4 E5].
    apply Nat.ltb_lt in E4, E5. split; eapply sb_in_lt; eauto.
  - intros i j Hi Hj. apply HM; auto.
  - intros [a b] m1 Ip [S1 S2]. apply in_prod_iff in Ip. rewrite !in_seq in Ip. cbn [fst snd].
    pose proof (sb_len_le m a ltac:(lia)) as La. pose proof (sb_len_le n b ltac:(lia)) as Lb. pose proof S_val as SV. set (SN := super_NB) in *.
    unfold lacpy_launch. cbv zeta. fold SN. change ((m + SN - 1) / SN) with (sb m). change ((n + SN - 1) / SN) with (sb n).
    change (if a =? sb m - 1 then m mod SN else SN) with (sb_len m a). change (if b =? sb n - 1 then n mod SN else SN) with (sb_len n b).
    destruct (Nat.eq_dec (sb_len n b) 0) as [Z0|NZ].
    + (* empty grid *)
      exists m1. assert (R0 : forall i j, reg' (a, b) i j = true -> False).
      { intros i j E. unfold reg', reg in E. rewrite !andb_true_iff in E. destruct E as [_ [_ E]]. unfold sb_in in E. cbn [snd] in E. rewrite Z0, andb_true_iff in E.
        destruct E as [E1 E2]. apply Nat.leb_le in E1. apply Nat.ltb_lt in E2. lia. }
      split; [|split; [intros i j E; destruct (R0 _ _ E)|auto]].
      destruct (lacpy_one zero add keep_full (sb_len m a) (sb_len n b) (u32 (Zn a * Zn SN) + u32 (u32 (Zn b * Zn SN) * Zn lda)) (Zn lda) (u32 (Zn a * Zn SN) + u32 (u32 (Zn b * Zn SN) * Zn ldb)) (Zn ldb)) with (m := m1) as (m2 & Y & _ & F);
        [unfold Zn in *; lia|unfold Zn in *; lia|rewrite Z0; change (Zn 0) with 0%Z; lia|rewrite Z0; change (Zn 0) with 0%Z; lia|rewrite Z0; intros; lia|].
      destruct Y as (B & HB). exists B. intros q c Q. destruct (HB q c Q) as (B1 & B2 & B3 & B4). repeat split; auto. intros f x. rewrite B3 by auto. apply F. rewrite Z0. intros; lia.
    + assert (Hn0 : (Zn b * Zn SN * Zn lda < 2147483648 /\ Zn b * Zn SN * Zn ldb < 2147483648)%Z).
      { assert (Zn b * Zn SN <= Zn n)%Z by (unfold Zn in *; lia). split; unfold Zn in *; nia. }
      assert (Ea : u32 (Zn a * Zn SN) = Zn (a * SN)).
      { rewrite u32_small; [unfold Zn; lia|]. assert (Zn a * Zn SN <= Zn m)%Z by (unfold Zn in *; lia).
        assert (Zn m < 2147483648)%Z. { assert (0 < n) by lia. unfold Zn in *. nia. } unfold Zn in *. lia. }
      assert (Eb : u32 (Zn b * Zn SN) = Zn (b * SN)).
      { rewrite u32_small; [unfold Zn; lia|]. assert (Zn b * Zn SN <= Zn n)%Z by (unfold Zn in *; lia).
        destruct (Nat.eq_dec lda 0) as [->|]; [assert (m = 0) by lia; subst m; unfold sb in Ip; exfalso; pose proof (SN_pos); rewrite Nat.div_small in Ip by (fold SN; lia); lia|].
        assert (Zn n < 2147483648)%Z. { unfold Zn in *. nia. } unfold Zn in *. lia. }
      assert (Eca : u32 (u32 (Zn b * Zn SN) * Zn lda) = (Zn (b * SN) * Zn lda)%Z) by (rewrite Eb, u32_small; auto; unfold Zn in *; nia).
      assert (Ecb : u32 (u32 (Zn b * Zn SN) * Zn ldb) = (Zn (b * SN) * Zn ldb)%Z) by (rewrite Eb, u32_small; auto; unfold Zn in *; nia).
      rewrite Eca, Ecb, Ea.
      destruct (lacpy_one zero add keep_full (sb_len m a) (sb_len n b) (Zn (a * SN) + Zn (b * SN) * Zn lda)%Z (Zn lda) (Zn (a * SN) + Zn (b * SN) * Zn ldb)%Z (Zn ldb)) with (m := m1) as (m2 & Y & C & F).
      * unfold Zn in *. lia.
      * unfold Zn in *. lia.
      * unfold Zn in *. nia.
      * unfold Zn in *. nia.
      * intros i j Hi Hj. destruct (HM (a * SN + i) (b * SN + j) ltac:(lia) ltac:(lia)) as [M1 M2]. unfold aat in M1. unfold bat in M2.
        replace (Zn (a * SN) + Zn (b * SN) * Zn lda + Zn i + Zn j * Zn lda)%Z with (Zn (a * SN + i) + Zn (b * SN + j) * Zn lda)%Z by (unfold Zn; rewrite !Nat2Z.inj_add; ring).
        replace (Zn (a * SN) + Zn (b * SN) * Zn ldb + Zn i + Zn j * Zn ldb)%Z with (Zn (a * SN + i) + Zn (b * SN + j) * Zn ldb)%Z by (unfold Zn; rewrite !Nat2Z.inj_add; ring).
        rewrite S1. auto.
      * exists m2. split; [exact Y|]. split.
        -- intros i j E. unfold reg', reg, sb_in in E. cbn [fst snd] in E. fold SN in E. rewrite !andb_true_iff, !Nat.leb_le, !Nat.ltb_lt in E. destruct E as [_ [[E1 E2] [E3 E4]]].
           specialize (C (i - a * SN) (j - b * SN) ltac:(lia) ltac:(lia)). cbv beta iota delta [keep_full] in C. unfold bat, aat.
           replace (Zn i + Zn j * Zn ldb)%Z with (Zn (a * SN) + Zn (b * SN) * Zn ldb + Zn (i - a * SN) + Zn (j - b * SN) * Zn ldb)%Z
             by (unfold Zn; rewrite !Nat2Z.inj_sub by auto; ring).
           rewrite C. do 2 f_equal. unfold Zn. rewrite !Nat2Z.inj_sub by auto. ring.
        -- intros x Hx. apply F. intros i j Hi Hj E. apply (Hx (a * SN + i) (b * SN + j)).
           ++ unfold reg', reg, sb_in. cbn [fst snd]. fold SN. rewrite !andb_true_iff, !Nat.leb_le, !Nat.ltb_lt. repeat split; lia.
           ++ rewrite E. unfold bat. f_equal. unfold Zn. rewrite !Nat2Z.inj_add. ring.
  - split; auto.
  - exists m2. split; [exact Y|]. split; [|split; [|exact F]].
    + intros i j Hi E. apply C; auto. now rewrite RR.
    + intros i j Hi E. apply N; auto. now rewrite RR.
Qed.

Lemma reg_L i j : existsb (fun p => reg p i j) L = existsb (fun a => sb_in m a i) (seq 0 (sb m)) && existsb (fun b => sb_in n b j) (seq 0 (sb n)).
Proof. apply (existsb_prod (fun a => sb_in m a i) (fun b => sb_in n b j)). Qed.

Lemma lacpy_all_ok : (Zn m mod 4194240 <> 0)%Z -> (Zn n mod 4194240 <> 0)%Z -> exists m2, yields_all add (lacpy_launches zero All m n lda ldb) mem0 m2 /\
    (forall i j, i < m -> j < n -> m2 (bat ldb i j) = mem0 (aat lda i j)) /\
    (forall x, (forall i j, i < m -> j < n -> x <> bat ldb i j) -> m2 x = mem0 x).
Proof.
  intros Hm Hn. destruct lacpy_all_gen as (m2 & Y & C & _ & F). exists m2. split; auto. split; auto. intros i j Hi Hj. apply C; auto. rewrite reg_L.
  rewrite <- S_val in Hm, Hn. unfold Zn in Hm, Hn. rewrite <- Nat2Z.inj_mod in Hm, Hn. rewrite !sb_cover; auto; lia.
Qed.
Lemma lacpy_all_bad : 0 < m -> (Zn m mod 4194240 = 0)%Z -> exists m2, yields_all add (lacpy_launches zero All m n lda ldb) mem0 m2 /\
    (forall j, m2 (bat ldb (m - 1) j) = mem0 (bat ldb (m - 1) j)).
Proof.
  intros H0 Hm. destruct lacpy_all_gen as (m2 & Y & _ & N & F). exists m2. split; auto. intros j. apply N; [lia|]. rewrite reg_L.
  rewrite <- S_val in Hm. unfold Zn in Hm. rewrite <- Nat2Z.inj_mod in Hm. rewrite sb_last; auto; [lia|]. pose proof SN_pos. lia.
Qed.
End Lacpy.

(** *** 'U' and 'L' within one super block *)
Lemma lacpy_tri u (m n lda ldb : nat) (mem0 : mem V) : u <> All -> 0 < m -> 0 < n -> (Zn m < 4194240)%Z -> (Zn n < 4194240)%Z ->
  m <= lda -> m <= ldb -> (Zn n * Zn lda < 2147483648)%Z -> (Zn n * Zn ldb < 2147483648)%Z ->
  (forall i j, i < m -> j < n -> mem0 (aat lda i j) <> None /\ mem0 (bat ldb i j) <> None) ->
  exists m2, yields_all add (lacpy_launches zero u m n lda ldb) mem0 m2 /\
    (forall i j, i < m -> j < n -> m2 (bat ldb i j) = if match u with Upper => j <=? i | _ => i <=? j end then mem0 (aat lda i j) else Some zero).
Proof.
  intros Hu H0 H1 Sm Sn Ha Hb Hna Hnb HM. pose proof S_val as SV. unfold lacpy_launches.
  assert (Q : forall k, 0 < k -> (Zn k < 4194240)%Z -> (k + super_NB - 1) / super_NB = 1 /\ k mod super_NB = k).
  { intros k K0 K1. assert (k < super_NB) by (unfold Zn in *; lia). split; [|now apply Nat.mod_small]. replace (k + super_NB - 1) with ((k - 1) + 1 * super_NB) by lia. rewrite Nat.div_add, Nat.div_small by lia. reflexivity. }
  destruct (Q m H0 Sm) as [Q1 Q2], (Q n H1 Sn) as [Q3 Q4]. rewrite Q1, Q3. cbn [seq flat_map map app].
  unfold lacpy_launch. cbv zeta. rewrite Q1, Q2, Q3, Q4. cbn [Nat.sub Nat.eqb].
  set (keep := match u with Upper => keep_upper | Lower => keep_lower | All => keep_full end).
  replace (match u with All => keep_full | Upper => keep_upper | Lower => keep_lower end) with keep by (now destruct u).
  change (u32 (Zn 0 * Zn super_NB)) with 0%Z. change (u32 (0 * Zn lda)) with 0%Z. change (u32 (0 * Zn ldb)) with 0%Z.
  destruct (lacpy_one zero add keep m n (0 + 0)%Z (Zn lda) (0 + 0)%Z (Zn ldb)) with (m := mem0) as (m2 & Y & C & F); try (unfold Zn in *; lia).
  - exact HM.
  - exists m2. split; [exists m2; split; [exact Y|intros x; reflexivity]|]. intros i j Hi Hj. specialize (C i j Hi Hj). unfold bat, aat. cbn [Z.add] in C.
    change (0 + 0 + Zn i + Zn j * Zn ldb)%Z with (Zn i + Zn j * Zn ldb)%Z in C. rewrite C.
    pose proof (Nat.div_mod j 64 ltac:(lia)) as D. pose proof (Nat.mod_upper_bound j 64 ltac:(lia)) as U.
    assert (E : keep (Zn i - Zn (j / 64 * 64))%Z (Zn (j mod 64)) = match u with Upper => j <=? i | _ => i <=? j end).
    { unfold keep. destruct u; [| |congruence]; apply eq_iff_eq_true.
      - unfold keep_upper. rewrite Z.ltb_lt, Nat.leb_le. unfold Zn. lia.
      - unfold keep_lower. rewrite Z.leb_le, Nat.leb_le. unfold Zn. lia. }
    rewrite E. reflexivity.
Qed.
End A.

(** *** tables of the multi-GPU shift *)
Section Tabs.
Context (R C : dim) (rows cols : list nat) (HR : describes rows R) (HC : describes cols C).
(** the pairs pushed so far are the diagonal pairs of the part D of the local matrix *)
Definition tab (D : nat -> nat -> Prop) (o : list nat * list nat) : Prop :=
  length (fst o) = length (snd o) /\ NoDup (combine (fst o) (snd o)) /\
  forall a b, In (a, b) (combine (fst o) (snd o)) <-> D a b /\ exists g, nth_error rows a = Some g /\ nth_error cols b = Some g.
Lemma tab_ext D D' o : (forall a b, D a b <-> D' a b) -> tab D o -> tab D' o.
Proof. intros E (L & N & P). split; auto. split; auto. intros a b. rewrite P, E. tauto. Qed.
Lemma combine_snoc {A B} (l1 : list A) (l2 : list B) a b : length l1 = length l2 -> combine (l1 ++ [a]) (l2 ++ [b]) = combine l1 l2 ++ [(a, b)].
Proof. revert l2. induction l1; intros [|y l2]; cbn; intros; try lia; auto. f_equal. apply IHl1. lia. Qed.
Lemma NoDup_snoc {A} (l : list A) x : NoDup l -> ~ In x l -> NoDup (l ++ [x]).
Proof. intros N H. rewrite <- (rev_involutive (l ++ [x])). apply NoDup_rev. rewrite rev_app_distr. cbn. constructor; [now rewrite <- in_rev|now apply NoDup_rev]. Qed.
Lemma tab_entry D o a b g h : nth_error rows a = Some g -> nth_error cols b = Some h -> ~ D a b -> tab D o ->
  tab (fun x y => D x y \/ (x = a /\ y = b)) (if h =? g then (fst o ++ [a], snd o ++ [b]) else o).
Proof.
  intros Ea Eb Hn (L & N & P). destruct (h =? g) eqn:E.
  - apply Nat.eqb_eq in E. subst h. split; [cbn; rewrite !app_length; cbn; lia|]. cbn [fst snd]. rewrite combine_snoc by auto. split.
    + apply NoDup_snoc; auto. rewrite P. tauto.
    + intros x y. rewrite in_app_iff, P. cbn. split.
      * intros [[H1 H2]|[H|[]]]; [auto|]. injection H as <- <-. split; eauto.
      * intros [[H|[-> ->]] H2]; auto.
  - apply Nat.eqb_neq in E. split; auto. split; auto. intros x y. rewrite P. split; [tauto|]. intros [[H|[-> ->]] (g' & H1 & H2)]; [eauto|congruence].
Qed.
Lemma diag_tables_spec : exists o, diag_tables R C = Ok o /\ tab (fun a b => a < length rows /\ b < length cols) o.
Proof.
  unfold diag_tables.
  apply (for_run (fun j o => tab (fun x y => y < list_sum (firstn j (d_lens C)) /\ x < length rows) o)).
  { split; auto. split; [constructor|]. intros a b. cbn. split; [tauto|lia]. }
  - intros j o [_ Lj] P.
    destruct (describes_rd _ _ j HC Lj) as (clen & coff & C1 & C2 & C3 & C4 & C5). pose proof (describes_mono _ _ _ HC Lj) as Mj.
    rewrite C4 in *. set (B := list_sum (firstn j (d_lens C))) in *.
    apply (for_run (fun i o => tab (fun x y => (y < B /\ x < length rows) \/ (B <= y < B + clen /\ x < list_sum (firstn i (d_lens R)))) o)).
    { eapply tab_ext; [|exact P]. intros a b. simpl. lia. }
    + intros i o1 [_ Li] Pi.
      destruct (describes_rd _ _ i HR Li) as (rlen & roff & R1 & R2 & R3 & R4 & R5). pose proof (describes_mono _ _ _ HR Li) as Mi.
      rewrite R4 in *. set (A := list_sum (firstn i (d_lens R))) in *.
      rewrite C1, C2, C3, R1, R2, R3. cbn [bind]. clear C1 C2 C3 R1 R2 R3.
      apply (for_run (fun q o => tab (fun x y => (y < B /\ x < length rows) \/ (B <= y < B + clen /\ x < A) \/ (B <= y < B + q /\ A <= x < A + rlen)) o)).
      { eapply tab_ext; [|exact Pi]. intros a b. simpl. lia. }
      * intros q o2 [_ Lq] Pq.
        apply (for_run (fun p o => tab (fun x y => (y < B /\ x < length rows) \/ (B <= y < B + clen /\ x < A) \/ (B <= y < B + q /\ A <= x < A + rlen) \/ (y = B + q /\ A <= x < A + p)) o)).
        { eapply tab_ext; [|exact Pq]. intros a b. simpl. lia. }
        -- intros p o3 [_ Lp] Pp. eexists. split; [reflexivity|].
           replace (p + A) with (A + p) by lia. replace (q + B) with (B + q) by lia. replace (p + roff) with (roff + p) by lia. replace (q + coff) with (coff + q) by lia.
           refine (tab_ext _ _ _ _ (tab_entry _ o3 (A + p) (B + q) (roff + p) (coff + q) (R5 p ltac:(lia)) (C5 q ltac:(lia)) _ Pp)); [intros a b|]; cbv beta; lia.
        -- intros o3 P3. eapply tab_ext; [|exact P3]. intros a b. cbv beta. lia.
      * intros o2 P2. eapply tab_ext; [|exact P2]. intros a b. cbv beta. lia.
    + intros o1 P1. eapply tab_ext; [|exact P1]. intros a b. cbv beta. rewrite (describes_total rows R HR : list_sum (firstn (0 + d_blocks R) (d_lens R)) = _). lia.
  - intros o P. eapply tab_ext; [|exact P]. intros a b. cbv beta. rewrite (describes_total cols C HC : list_sum (firstn (0 + d_blocks C) (d_lens C)) = _). lia.
Qed.

(** the array A of the kernel holds the list H *)
Lemma combine_nth_error {A B} (l1 : list A) (l2 : list B) k a b : nth_error (combine l1 l2) k = Some (a, b) <-> nth_error l1 k = Some a /\ nth_error l2 k = Some b.
Proof.
  revert l2 k. induction l1 as [|x l1 IH]; intros [|y l2] [|k]; cbn; try (split; [discriminate|intros [? ?]; discriminate]).
  - split; [intros E; now injection E as <- <-|intros [E1 E2]; congruence].
  - apply IH.
Qed.
Lemma mgpu_shift_stores {V} (zero : V) add plus ld G (H : list V) m o : length rows <= ld -> stores rows cols ld G H -> holds 0 H m -> diag_tables R C = Ok o ->
  exists m', yields add (shift_mgpu_kernel zero plus (fst o) (snd o) ld) m m' /\
    (forall a b g h, nth_error rows a = Some g -> nth_error cols b = Some h -> m' (Glob 0 (Zn (a + b * ld))) = Some (if g =? h then plus (G g h) else G g h)) /\
    (forall k, padding (length rows) (length cols) ld k -> m' (Glob 0 (Zn k)) = m (Glob 0 (Zn k))) /\
    (forall x, (forall k, x <> Glob 0 (Zn k)) -> m' x = m x).
Proof.
  intros Hld HS HH E. destruct diag_tables_spec as (o' & E' & L & N & P). rewrite E in E'. injection E' as <-.
  assert (PN : forall k i j, nth_error (fst o) k = Some i -> nth_error (snd o) k = Some j -> i < length rows /\ j < length cols /\ exists g, nth_error rows i = Some g /\ nth_error cols j = Some g).
  { intros k i j Ei Ej. assert (I : In (i, j) (combine (fst o) (snd o))) by (apply nth_error_In with k; now apply combine_nth_error). apply P in I. tauto. }
  destruct (shift_mgpu_ok zero add plus (fst o) (snd o) ld m L) as (m' & Y & A & F).
  - intros k k' i j i' j' Ei Ej Ei' Ej' Q. destruct (PN _ _ _ Ei Ej) as (Q1 & _), (PN _ _ _ Ei' Ej') as (Q2 & _).
    assert (j = j') by nia. subst j'. assert (i = i') by lia. subst i'.
    eapply (proj1 (NoDup_nth_error _) N); [apply nth_error_Some|]; rewrite (proj2 (combine_nth_error _ _ k i j)) by auto; [discriminate|]. symmetry. now apply combine_nth_error.
  - intros k i j Ei Ej. destruct (PN _ _ _ Ei Ej) as (_ & _ & g & G1 & G2). rewrite HH, Nat.add_comm, (HS i j g g G1 G2). discriminate.
  - exists m'. split; auto. split; [|split].
    + intros a b g h Ga Gb. assert (La : a < length rows) by (apply nth_error_Some; congruence). assert (Lb : b < length cols) by (apply nth_error_Some; congruence).
      destruct (g =? h) eqn:Eg.
      * apply Nat.eqb_eq in Eg. subst h. assert (I : In (a, b) (combine (fst o) (snd o))) by (apply P; eauto). apply In_nth_error in I. destruct I as (k & Ik). apply combine_nth_error in Ik. destruct Ik as [I1 I2].
        specialize (A k a b I1 I2). rewrite (Nat.add_comm a). rewrite A, HH, (Nat.add_comm _ a), (HS a b g g Ga Gb). reflexivity.
      * rewrite F, HH; [now apply HS|]. intros k i j Ei Ej Q. injection Q as Q. destruct (PN _ _ _ Ei Ej) as (Q1 & _ & g' & G1 & G2).
        assert (Q' : a + b * ld = j * ld + i) by (unfold Zn in Q; lia). assert (b = j) by nia. subst j. assert (a = i) by lia. subst i. apply Nat.eqb_neq in Eg. congruence.
    + intros k Hk. apply F. intros q i j Ei Ej Q. injection Q as Q. destruct (PN _ _ _ Ei Ej) as (Q1 & Q2 & _). assert (k = i + j * ld) by (unfold Zn in Q; lia). subst k.
      unfold padding in Hk. rewrite pos_mod, pos_div in Hk by lia. lia.
    + intros x Hx. apply F. intros k i j _ _. apply Hx.
Qed.
End Tabs.
