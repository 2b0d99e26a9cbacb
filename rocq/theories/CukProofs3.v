(** The shift and random-number kernels. *)
From Coq Require Import List Arith ZArith Bool Lia.
Require Import Verif.CukModel Verif.CukSpec Verif.CukProofs1 Verif.CukProofs2.
Import ListNotations.

Lemma in_int_true z : in_int z = true <-> (-2147483648 <= z <= 2147483647)%Z.
Proof. unfold in_int, int_max. rewrite andb_true_iff, !Z.leb_le. tauto. Qed.
Lemma block_thread n i : i < n -> i / 256 < (n + 255) / 256 /\ i mod 256 < 256 /\ i / 256 * 256 + i mod 256 = i.
Proof.
  intros H. pose proof (Nat.div_mod i 256 ltac:(lia)). split; [|split]; [|apply Nat.mod_upper_bound; lia|lia].
  apply Nat.div_lt_upper_bound; [lia|]. pose proof (Nat.div_mod (n + 255) 256 ltac:(lia)). pose proof (Nat.mod_upper_bound (n + 255) 256 ltac:(lia)). lia.
Qed.
Lemma thread_unique b t b' t' : t < 256 -> t' < 256 -> b * 256 + t = b' * 256 + t' -> (b, t) = (b', t').
Proof. intros. assert (b = b') by nia. subst. f_equal. nia. Qed.
Lemma normal_count n tid k : k < Z.to_nat ((Zn n - Zn tid + 8191) / 8192) <-> (Zn tid + Zn k * 8192 < Zn n)%Z.
Proof.
  unfold Zn. split.
  - intros H. assert (Z.of_nat k < (Z.of_nat n - Z.of_nat tid + 8191) / 8192)%Z by lia. pose proof (Z.mul_div_le (Z.of_nat n - Z.of_nat tid + 8191) 8192 ltac:(lia)). lia.
  - intros H. assert (Z.of_nat k + 1 <= (Z.of_nat n - Z.of_nat tid + 8191) / 8192)%Z by (apply Z.div_le_lower_bound; lia). lia.
Qed.

Section U.
Context {V : Type} (zero : V) (add : V -> V -> V).
Local Notation act := (action V (list V)).
Local Notation tmem := (thread_mem add (@nil V)).
Local Notation seqa := (seqa (R := list V) add).

Definition upd_thread (plus : V -> V) (z : Z) : list act := [Ld (Glob 0 z) push; St (Glob 0 z) (fun r => plus (top zero r))].
Lemma upd_thread_mem plus z m v : m (Glob 0 z) = Some v -> tmem (upd_thread plus z) m (Glob 0 z) = Some (plus v).
Proof. intros E. unfold thread_mem, upd_thread, seqa. cbn. unfold act'. cbn. rewrite E. cbn. rewrite E. cbn. apply upd_eq. Qed.

(** every thread updates at most one entry, and no two the same *)
Lemma upd_kernel plus (k : kernel V) (ad : nat -> nat -> option Z) m : 0 < kn_threads k ->
  (forall b t, length (kn_prog k b t) = 1) ->
  (forall b t, b < kn_blocks k -> t < kn_threads k -> kn_prog k b t = [match ad b t with Some z => upd_thread plus z | None => [] end]) ->
  (forall b t b' t' z, b < kn_blocks k -> t < kn_threads k -> b' < kn_blocks k -> t' < kn_threads k -> ad b t = Some z -> ad b' t' = Some z -> (b, t) = (b', t')) ->
  (forall b t z, b < kn_blocks k -> t < kn_threads k -> ad b t = Some z -> m (Glob 0 z) <> None) ->
  exists m', yields add k m m' /\
    (forall b t z, b < kn_blocks k -> t < kn_threads k -> ad b t = Some z -> m' (Glob 0 z) = option_map plus (m (Glob 0 z))) /\
    (forall x, (forall b t z, b < kn_blocks k -> t < kn_threads k -> ad b t = Some z -> x <> Glob 0 z) -> m' x = m x).
Proof.
  intros HT HL HK HI HM. set (P b t := nth 0 (kn_prog k b t) []).
  assert (HP : forall b t, kn_prog k b t = [P b t]).
  { intros b t. unfold P. pose proof (HL b t). destruct (kn_prog k b t) as [|p [|]]; cbn in *; try discriminate; auto. }
  assert (HP' : forall b t, b < kn_blocks k -> t < kn_threads k -> P b t = match ad b t with Some z => upd_thread plus z | None => [] end).
  { intros. unfold P. now rewrite HK. }
  assert (HA : forall b t a, b < kn_blocks k -> t < kn_threads k -> In a (P b t) -> exists z, ad b t = Some z /\ target a = Some (Glob 0 z)).
  { intros b t a Hb Ht I. rewrite HP' in I by auto. destruct (ad b t) as [z|]; [|destruct I]. exists z. split; auto. destruct I as [<-|[<-|[]]]; auto. }
  destruct (single_yields add k P HT HP) with (m := m) as (m' & Y & F & W).
  - intros b b' t t' a a' Hb Hb' Ht Ht' N I I' x E E'. exfalso. apply N.
    destruct (HA _ _ _ Hb Ht I) as (z & A1 & A2), (HA _ _ _ Hb' Ht' I') as (z' & A1' & A2'). rewrite A2 in E. rewrite A2' in E'.
    apply (HI b t b' t' z); auto. congruence.
  - intros b t a Hb Ht I. destruct (HA _ _ _ Hb Ht I) as (z & A1 & A2). exists (Glob 0 z). split; auto. eapply HM; eauto.
  - exists m'. split; auto. split.
    + intros b t z Hb Ht E. rewrite (W b t); auto.
      * rewrite HP', E by auto. specialize (HM b t z Hb Ht E). destruct (m (Glob 0 z)) eqn:Em; [|congruence]. now apply upd_thread_mem.
      * rewrite HP', E by auto. exists (St (Glob 0 z) (fun r => plus (top zero r))). unfold upd_thread. cbn. auto.
    + intros x Hx. apply F. intros b t Hb Ht (a & I & E & _). destruct (HA _ _ _ Hb Ht I) as (z & A1 & A2). apply (Hx b t z); auto. congruence.
Qed.


(** *** single-GPU shift *)
Lemma shift_kernel_ok plus n m : (Zn n <= 46340)%Z -> (forall i, i < n -> m (Glob 0 (Zn (i * n + i))) <> None) ->
  exists m', yields add (shift_kernel zero plus n) m m' /\
    (forall i, i < n -> m' (Glob 0 (Zn (i * n + i))) = option_map plus (m (Glob 0 (Zn (i * n + i))))) /\
    (forall x, (forall i, i < n -> x <> Glob 0 (Zn (i * n + i))) -> m' x = m x).
Proof.
  intros Hn HM. unfold Zn in *.
  set (ad := fun b t => if b * 256 + t <? n then Some (Z.of_nat ((b * 256 + t) * n + (b * 256 + t))) else None).
  destruct (upd_kernel plus (shift_kernel zero plus n) ad m) as (m' & Y & A & B).
  - cbn. lia.
  - reflexivity.
  - intros b t Hb Ht. cbn [kn_prog shift_kernel]. unfold shift_thread, ad, Zn. f_equal. cbv zeta.
    destruct (b * 256 + t <? n) eqn:E.
    + apply Nat.ltb_lt in E. rewrite (proj2 (Z.ltb_lt _ _)) by lia.
      rewrite (proj2 (in_int_true _)), (proj2 (in_int_true _)) by nia. cbn [andb]. unfold upd_thread.
      replace (Z.of_nat ((b * 256 + t) * n + (b * 256 + t))) with ((Z.of_nat b * 256 + Z.of_nat t) * Z.of_nat n + (Z.of_nat b * 256 + Z.of_nat t))%Z by lia. reflexivity.
    + apply Nat.ltb_ge in E. rewrite (proj2 (Z.ltb_ge _ _)) by lia. reflexivity.
  - cbn. intros b t b' t' z Hb Ht Hb' Ht' E E'. unfold ad in *.
    destruct (b * 256 + t <? n); [|discriminate]. destruct (b' * 256 + t' <? n); [|discriminate]. injection E as <-. injection E' as E'.
    apply thread_unique; auto. apply Nat2Z.inj in E'. nia.
  - intros b t z Hb Ht E. unfold ad in E. destruct (b * 256 + t <? n) eqn:L; [|discriminate]. injection E as <-. apply HM. now apply Nat.ltb_lt.
  - exists m'. split; auto. split.
    + intros i Hi. destruct (block_thread n i Hi) as (B1 & B2 & B3). apply (A (i / 256) (i mod 256)); auto. unfold ad. rewrite B3. now rewrite (proj2 (Nat.ltb_lt _ _)).
    + intros x Hx. apply B. intros b t z Hb Ht E. unfold ad in E. destruct (b * 256 + t <? n) eqn:L; [|discriminate]. injection E as <-. apply Hx. now apply Nat.ltb_lt.
Qed.

(** a first operation that is undefined *)
Lemma fault_now (k : kernel V) m b t l ls : b < kn_blocks k -> t < kn_threads k -> kn_prog k b t = (Bad :: l) :: ls -> may_fault add k m.
Proof. intros Hb Ht E. exists 0, (launch k m). split; [reflexivity|]. exists b, t, Bad, l. cbn. rewrite E. auto. Qed.
Lemma shift_kernel_bad plus n m : (46341 <= Zn n)%Z -> may_fault add (shift_kernel zero plus n) m.
Proof.
  intros Hn. unfold Zn in *. destruct (block_thread n (n - 1) ltac:(lia)) as (B1 & B2 & B3).
  apply (fault_now _ m ((n - 1) / 256) ((n - 1) mod 256) [] []); auto. cbn [kn_prog shift_kernel]. unfold shift_thread, Zn. cbv zeta.
  replace (Z.of_nat ((n - 1) / 256) * 256 + Z.of_nat ((n - 1) mod 256))%Z with (Z.of_nat (n - 1)) by lia.
  rewrite (proj2 (Z.ltb_lt _ _)) by lia.
  assert (X : in_int (Z.of_nat (n - 1) * Z.of_nat n + Z.of_nat (n - 1)) = false).
  { apply not_true_is_false. rewrite in_int_true. nia. }
  rewrite X, andb_false_r. reflexivity.
Qed.

(** *** multi-GPU shift *)
Lemma shift_mgpu_ok plus off_m off_n ldH m : length off_m = length off_n ->
  (forall k k' i j i' j', nth_error off_m k = Some i -> nth_error off_n k = Some j -> nth_error off_m k' = Some i' -> nth_error off_n k' = Some j' ->
     j * ldH + i = j' * ldH + i' -> k = k') ->
  (forall k i j, nth_error off_m k = Some i -> nth_error off_n k = Some j -> m (Glob 0 (Zn (j * ldH + i))) <> None) ->
  exists m', yields add (shift_mgpu_kernel zero plus off_m off_n ldH) m m' /\
    (forall k i j, nth_error off_m k = Some i -> nth_error off_n k = Some j -> m' (Glob 0 (Zn (j * ldH + i))) = option_map plus (m (Glob 0 (Zn (j * ldH + i))))) /\
    (forall x, (forall k i j, nth_error off_m k = Some i -> nth_error off_n k = Some j -> x <> Glob 0 (Zn (j * ldH + i))) -> m' x = m x).
Proof.
  intros HL HI HM. unfold Zn in *.
  set (ad := fun b t => match nth_error off_m (b * 256 + t), nth_error off_n (b * 256 + t) with Some i, Some j => Some (Z.of_nat (j * ldH + i)) | _, _ => None end).
  assert (HA : forall b t z, ad b t = Some z -> exists i j, nth_error off_m (b * 256 + t) = Some i /\ nth_error off_n (b * 256 + t) = Some j /\ z = Z.of_nat (j * ldH + i)).
  { intros b t z E. unfold ad in E. destruct (nth_error off_m _) as [i|], (nth_error off_n _) as [j|]; try discriminate. injection E as <-. eauto. }
  destruct (upd_kernel plus (shift_mgpu_kernel zero plus off_m off_n ldH) ad m) as (m' & Y & A & B).
  - cbn. lia.
  - reflexivity.
  - intros b t Hb Ht. cbn [kn_prog shift_mgpu_kernel]. unfold shift_mgpu_thread, ad, Zn, upd_thread. f_equal.
    destruct (nth_error off_m (b * 256 + t)) as [i|], (nth_error off_n (b * 256 + t)) as [j|]; auto.
    replace (Z.of_nat (j * ldH + i)) with (Z.of_nat j * Z.of_nat ldH + Z.of_nat i)%Z by lia. reflexivity.
  - cbn. intros b t b' t' z Hb Ht Hb' Ht' E E'. apply HA in E, E'. destruct E as (i & j & E1 & E2 & ->), E' as (i' & j' & E1' & E2' & E').
    apply thread_unique; auto. apply Nat2Z.inj in E'. eapply HI; eauto.
  - intros b t z Hb Ht E. apply HA in E. destruct E as (i & j & E1 & E2 & ->). eapply HM; eauto.
  - exists m'. split; auto. split.
    + intros q i j Ei Ej. assert (Hq : q < length off_m) by (apply nth_error_Some; congruence).
      destruct (block_thread (length off_m) q Hq) as (B1 & B2 & B3). apply (A (q / 256) (q mod 256)); auto; [|unfold ad; now rewrite B3, Ei, Ej].
      cbn [kn_blocks shift_mgpu_kernel]. eapply Nat.lt_le_trans; [exact B1|]. apply Nat.le_max_r.
    + intros x Hx. apply B. intros b t z Hb Ht E. apply HA in E. destruct E as (i & j & E1 & E2 & ->). eapply Hx; eauto.
Qed.

(** *** independent pieces of a thread *)
Lemma seqa_piece (l1 l l2 : list act) r m x : ~ wri l2 x -> (forall y, acc l y -> ~ wri l1 y) -> ~ wri l1 x ->
  snd (seqa (l1 ++ l ++ l2) r m) x = snd (seqa l (fst (seqa l1 r m)) m) x.
Proof.
  intros H2 H1 Hx. rewrite seqa_app. cbv zeta. rewrite seqa_app. cbv zeta. rewrite seqa_frame by auto.
  apply seqa_ext; [intros y Hy|]; apply seqa_frame; auto.
Qed.
(** pieces indexed by a loop counter *)
Lemma seqa_loop (f : nat -> list act) n k r m x : k < n ->
  (forall i y, i < n -> i <> k -> (acc (f k) y \/ y = x) -> ~ wri (f i) y) ->
  exists r', snd (seqa (flat_map f (seq 0 n)) r m) x = snd (seqa (f k) r' m) x.
Proof.
  intros Hk H. assert (E : seq 0 n = seq 0 k ++ k :: seq (S k) (n - S k)).
  { replace n with (k + (1 + (n - S k))) at 1 by lia. rewrite seq_app. cbn. reflexivity. }
  rewrite E, flat_map_app. cbn [flat_map].
  assert (X : forall y s c, (acc (f k) y \/ y = x) -> (forall i, In i (seq s c) -> i < n /\ i <> k) -> ~ wri (flat_map f (seq s c)) y).
  { intros y s c Hy Hi (a & I & Ha). apply in_flat_map in I. destruct I as (i & Ii & Ia). destruct (Hi i Ii). apply (H i y); auto. exists a. auto. }
  eexists. apply seqa_piece.
  - apply X; auto. intros i Hi. apply in_seq in Hi. lia.
  - intros y Hy. apply X; auto. intros i Hi. apply in_seq in Hi. lia.
  - apply X; auto. intros i Hi. apply in_seq in Hi. lia.
Qed.

(** *** random numbers *)
Definition normal_piece (draw : nat -> nat -> V) (tid k : nat) : list act :=
  let i := (Zn tid + Zn k * 8192)%Z in St (Glob 0 i) (fun _ => draw tid k) :: (if in_int (i + 8192)%Z then [] else [Bad]).
Lemma normal_kernel_ok draw n m : (Zn n <= 2147475456)%Z -> (forall i, (0 <= i < Zn n)%Z -> m (Glob 0 i) <> None) ->
  exists m', yields add (normal_kernel draw n) m m' /\
    (forall i, (0 <= i < Zn n)%Z -> m' (Glob 0 i) = Some (draw (Z.to_nat (i mod 8192)) (Z.to_nat (i / 8192)))) /\
    (forall x, (forall i, (0 <= i < Zn n)%Z -> x <> Glob 0 i) -> m' x = m x).
Proof.
  intros Hn HM. set (P b t := normal_thread draw n b t).
  assert (HA : forall b t a, In a (P b t) -> exists k, (Zn (b * 256 + t) + Zn k * 8192 < Zn n)%Z /\
            a = St (Glob 0 (Zn (b * 256 + t) + Zn k * 8192)%Z) (fun _ => draw (b * 256 + t) k)).
  { intros b t a I. unfold P, normal_thread in I. apply in_flat_map in I. destruct I as (k & Ik & I). apply in_seq in Ik.
    assert (Hk : (Zn (b * 256 + t) + Zn k * 8192 < Zn n)%Z) by (apply normal_count; lia). cbv zeta in I.
    rewrite (proj2 (in_int_true _)) in I by (unfold Zn in *; lia). exists k. split; auto. destruct I as [<-|[]]. reflexivity. }
  assert (UN : forall b t b' t' k k', t < 256 -> t' < 256 -> b < 32 -> b' < 32 -> (Zn (b * 256 + t) + Zn k * 8192 = Zn (b' * 256 + t') + Zn k' * 8192)%Z -> (b, t) = (b', t') /\ k = k').
  { unfold Zn. intros b t b' t' k k' Ht Ht' Hb Hb' E. assert (k = k') by nia. subst. split; auto. apply thread_unique; auto. lia. }
  destruct (single_yields add (normal_kernel draw n) P) with (m := m) as (m' & Y & F & W); try (cbn; lia); try reflexivity.
  - cbn. intros b b' t t' a a' Hb Hb' Ht Ht' N I I' x E E'. exfalso. apply N. apply HA in I, I'. destruct I as (k & Hk & ->), I' as (k' & Hk' & ->).
    cbn in E, E'. rewrite <- E in E'. injection E' as E'. symmetry. apply (UN b' t' b t k' k); auto.
  - intros b t a Hb Ht I. apply HA in I. destruct I as (k & Hk & ->). eexists. split; [reflexivity|]. apply HM. unfold Zn in *. lia.
  - exists m'. split; auto. split.
    + intros i Hi. set (s := Z.to_nat (i mod 8192)). set (k := Z.to_nat (i / 8192)).
      assert (Hs : (0 <= i mod 8192 < 8192)%Z) by (apply Z.mod_pos_bound; lia). assert (0 <= i / 8192)%Z by (apply Z.div_pos; lia).
      pose proof (Z.div_mod i 8192 ltac:(lia)) as DM. assert (Es : s < 32 * 256) by (unfold s; lia).
      assert (S1 : s / 256 < 32) by (apply Nat.div_lt_upper_bound; lia). assert (S2 : s mod 256 < 256) by (apply Nat.mod_upper_bound; lia).
      pose proof (Nat.div_mod s 256 ltac:(lia)) as SM.
      assert (Ei : i = (Zn (s / 256 * 256 + s mod 256) + Zn k * 8192)%Z) by (unfold Zn, s, k in *; lia).
      assert (Hk : k < Z.to_nat ((Zn n - Zn (s / 256 * 256 + s mod 256) + 8191) / 8192)) by (apply normal_count; lia).
      assert (IN : In (St (Glob 0 i) (fun _ => draw s k)) (P (s / 256) (s mod 256))).
      { unfold P, normal_thread. apply in_flat_map. exists k. split; [apply in_seq; lia|]. cbv zeta. left. rewrite <- Ei.
        replace (s / 256 * 256 + s mod 256) with s by lia. reflexivity. }
      rewrite (W (s / 256) (s mod 256)); auto; [|eexists; split; [exact IN|auto]].
      unfold thread_mem, P, normal_thread. cbv zeta.
      destruct (seqa_loop (normal_piece draw (s / 256 * 256 + s mod 256)) (Z.to_nat ((Zn n - Zn (s / 256 * 256 + s mod 256) + 8191) / 8192)) k [] m (Glob 0 i) Hk) as (r' & E).
      * intros j y Hj Nj Hy (a & Ia & Ta & La). apply normal_count in Hk, Hj. unfold normal_piece in *. cbv zeta in *.
        rewrite (proj2 (in_int_true _)) in Ia by (unfold Zn in *; lia). destruct Ia as [<-|[]]. cbn in Ta. injection Ta as <-.
        assert (Q : (Zn (s / 256 * 256 + s mod 256) + Zn j * 8192)%Z = i).
        { destruct Hy as [(a & Ia & Ta)|Q]; [|now injection Q]. rewrite (proj2 (in_int_true _)) in Ia by (unfold Zn in *; lia). destruct Ia as [<-|[]]. cbn in Ta. injection Ta as Ta. lia. }
        unfold Zn in *. lia.
      * unfold normal_piece in E. cbv zeta in E. rewrite E. clear E. rewrite (proj2 (in_int_true _)) by (apply normal_count in Hk; unfold Zn in *; lia).
        unfold seqa. cbn [fold_left]. unfold act'. cbn [fst snd CukModel.act]. rewrite <- Ei. specialize (HM i Hi). destruct (m (Glob 0 i)); [|congruence].
        cbn [snd]. rewrite upd_eq. replace (s / 256 * 256 + s mod 256) with s by lia. reflexivity.
    + intros x Hx. apply F. cbn. intros b t Hb Ht (a & I & E & _). apply HA in I. destruct I as (k & Hk & ->). cbn in E. injection E as E.
      apply (Hx (Zn (b * 256 + t) + Zn k * 8192)%Z); [unfold Zn in *; lia|auto].
Qed.
End U.
