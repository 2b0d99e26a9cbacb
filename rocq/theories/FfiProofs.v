From Coq Require Import List ZArith NArith Bool String Lia.
Require Import Verif.Base Verif.ConfigModel Verif.GridModel Verif.FfiModel Verif.FfiSpec.
Import ListNotations.
Local Open Scope string_scope.
Local Open Scope list_scope.
Local Open Scope Z_scope.
Set Implicit Arguments.

Lemma pow256_S n : 256 ^ Z.of_nat (S n) = 256 * 256 ^ Z.of_nat n.
Proof. rewrite Nat2Z.inj_succ, Z.pow_succ_r by lia. reflexivity. Qed.
Lemma pow256_pos n : 0 < 256 ^ Z.of_nat n.
Proof. apply Z.pow_pos_nonneg; lia. Qed.

Lemma bytes_at_S n m a w : bytes_at (S n) m a w <-> m a = Some (w mod 256) /\ bytes_at n m (a + 1) (w / 256).
Proof.
  unfold bytes_at. split.
  - intros H. split.
    + specialize (H 0 ltac:(lia)). rewrite Z.add_0_r, Z.pow_0_r, Z.div_1_r in H. exact H.
    + intros k Hk. specialize (H (k + 1) ltac:(lia)). rewrite Z.pow_add_r, Z.pow_1_r, Z.mul_comm, <- Z.div_div in H by (try apply Z.pow_nonneg; lia || (apply Z.pow_pos_nonneg; lia)).
      replace (a + 1 + k) with (a + (k + 1)) by lia. exact H.
  - intros [H0 H] k Hk. destruct (Z.eq_dec k 0) as [->|].
    + now rewrite Z.add_0_r, Z.pow_0_r, Z.div_1_r.
    + specialize (H (k - 1) ltac:(lia)). replace (a + 1 + (k - 1)) with (a + k) in H by lia. rewrite H. f_equal. f_equal.
      rewrite Z.div_div by (try lia; apply Z.pow_pos_nonneg; lia). f_equal.
      replace k with (1 + (k - 1)) at 2 by lia. rewrite Z.pow_add_r by lia. reflexivity.
Qed.

Lemma mod_split n w : w mod (256 * 256 ^ Z.of_nat n) = w mod 256 + 256 * ((w / 256) mod 256 ^ Z.of_nat n).
Proof. pose proof (pow256_pos n). rewrite Z.rem_mul_r by lia. reflexivity. Qed.

Lemma ldn_bytes n : forall m a w, bytes_at n m a w -> ldn n m a = Ok (w mod 256 ^ Z.of_nat n).
Proof.
  induction n as [|n IH]; intros m a w H; cbn [ldn].
  - now rewrite Z.mod_1_r.
  - apply bytes_at_S in H as [H0 H]. unfold ld1. rewrite H0. cbn [bind]. rewrite (IH _ _ _ H). cbn [bind].
    now rewrite pow256_S, mod_split.
Qed.
Lemma ld_int_at m a z : int_at m a z -> ld_int m a = Ok z.
Proof.
  intros [R H]. unfold ld_int. rewrite (ldn_bytes H). cbn [bind]. f_equal. unfold sgn32.
  change (256 ^ Z.of_nat 4) with (2 ^ 32). destruct (Z_lt_le_dec z 0).
  - rewrite <- (Z_mod_plus_full z 1 (2 ^ 32)), Z.mod_small by lia. replace (z + 1 * 2 ^ 32 <? 2 ^ 31) with false by (symmetry; apply Z.ltb_ge; lia). lia.
  - rewrite Z.mod_small by lia. replace (z <? 2 ^ 31) with true by (symmetry; apply Z.ltb_lt; lia). reflexivity.
Qed.
Lemma ld_size_at m a z : size_at m a z -> ld_int m a = Ok z /\ to_size z = Z.to_N z.
Proof. intros [P [R H]]. split; [now apply ld_int_at|]. unfold to_size. rewrite Z.mod_small; [reflexivity|lia]. Qed.
Lemma ld_word_at n m a w : word_at n m a w -> ldn n m a = Ok w.
Proof. intros [R H]. rewrite (ldn_bytes H), Z.mod_small; auto. Qed.

Lemma stn_ok n : forall m a w, room n m a -> exists m', stn n m a w = Ok m' /\ bytes_at n m' a w /\ same_outside n a m m' /\
  (forall x, m x <> None -> m' x <> None).
Proof.
  induction n as [|n IH]; intros m a w R; cbn [stn].
  - exists m. repeat split; auto; intros; try lia. intros k Hk. lia.
  - unfold st1. assert (Ra : m a <> None) by (specialize (R 0 ltac:(lia)); now rewrite Z.add_0_r in R).
    destruct (m a) as [b|] eqn:E; [|congruence]. cbn [bind].
    set (m1 := fun x => if x =? a then Some (w mod 256) else m x).
    assert (R1 : room n m1 (a + 1)).
    { intros k Hk. unfold m1. destruct (Z.eqb_spec (a + 1 + k) a); [congruence|]. replace (a + 1 + k) with (a + (k + 1)) by lia. apply R. lia. }
    destruct (IH m1 (a + 1) (w / 256) R1) as (m' & S & B & O & K). exists m'. split; [exact S|]. split; [|split].
    + apply bytes_at_S. split; [|exact B]. rewrite O by lia. unfold m1. now rewrite Z.eqb_refl.
    + intros x Hx. rewrite O by lia. unfold m1. destruct (Z.eqb_spec x a); [lia|reflexivity].
    + intros x Hx. apply K. unfold m1. destruct (x =? a); [congruence|exact Hx].
Qed.
Lemma bytes_mod n m a w : bytes_at n m a (w mod 256 ^ Z.of_nat n) -> bytes_at n m a w.
Proof.
  intros H k Hk. rewrite (H k Hk). f_equal. replace (Z.of_nat n) with (k + (1 + (Z.of_nat n - k - 1))) by lia.
  rewrite !Z.pow_add_r by lia. pose proof (Z.pow_pos_nonneg 256 k ltac:(lia) ltac:(lia)). pose proof (Z.pow_pos_nonneg 256 (Z.of_nat n - k - 1) ltac:(lia) ltac:(lia)).
  rewrite Z.rem_mul_r, (Z.mul_comm (256 ^ k)), Z.div_add, Z.div_small by (try lia; try apply Z.mod_pos_bound; lia).
  cbn [Z.add]. rewrite Z.pow_1_r, Z.rem_mul_r by lia. rewrite Z.mul_comm, Z_mod_plus_full. now rewrite Z.mod_mod by lia.
Qed.
Lemma st_int_ok m a z : - 2 ^ 31 <= z < 2 ^ 31 -> room 4 m a -> exists m', st_int m a z = Ok m' /\ flagged z a m m'.
Proof.
  intros Hz R. unfold st_int. destruct (stn_ok (z mod 2 ^ 32) R) as (m' & S & B & O & _). exists m'. split; [exact S|]. split; [split; [exact Hz|]|exact O].
  apply bytes_mod. exact B.
Qed.

(** ** arguments arrive *)
Lemma seq_init fuel t adr m n nev nex ldh : size_at m (adr "n") n -> size_at m (adr "nev") nev -> size_at m (adr "nex") nex -> size_at m (adr "ldh") ldh ->
  room 4 m (adr "init") -> exists m', flagged 1 (adr "init") m m' /\
  f_call fuel t RInit adr m = Ok (New_seq (Z.to_N n) (Z.to_N nev) (Z.to_N nex) (adr "h") (Z.to_N ldh) (adr "v") (adr "ritzv"), m').
Proof.
  intros H1 H2 H3 H4 R. destruct (@st_int_ok m _ 1 ltac:(lia) R) as (m' & S & Fl). exists m'. split; [exact Fl|].
  apply ld_size_at in H1 as [E1 T1], H2 as [E2 T2], H3 as [E3 T3], H4 as [E4 T4].
  unfold f_call. cbn [f_decl map fst c_call]. rewrite E1. cbn [bind]. rewrite E2. cbn [bind]. rewrite E3. cbn [bind]. rewrite E4. cbn [bind].
  rewrite S. cbn [bind]. now rewrite T1, T2, T3, T4.
Qed.
Lemma block_init fuel t adr m n nev nex ml nl ldh d0 d1 comm cm : size_at m (adr "nn") n -> size_at m (adr "nev") nev -> size_at m (adr "nex") nex ->
  size_at m (adr "m") ml -> size_at m (adr "n") nl -> size_at m (adr "ldh") ldh -> int_at m (adr "dim0") d0 -> int_at m (adr "dim1") d1 -> int_at m (adr "fcomm") comm ->
  is_col_major m (adr "grid_major") = Ok cm -> room 4 m (adr "init") -> exists m', flagged 1 (adr "init") m m' /\
  f_call fuel t PInit adr m = Ok (New_block (Z.to_N n) (Z.to_N nev) (Z.to_N nex) (Z.to_N ml) (Z.to_N nl) d0 d1 cm comm (adr "h") (Z.to_N ldh) (adr "v") (adr "ritzv"), m').
Proof.
  intros H1 H2 H3 H4 H5 H6 H7 H8 H9 HC R. destruct (@st_int_ok m _ 1 ltac:(lia) R) as (m' & S & Fl). exists m'. split; [exact Fl|].
  apply ld_size_at in H1 as [E1 T1], H2 as [E2 T2], H3 as [E3 T3], H4 as [E4 T4], H5 as [E5 T5], H6 as [E6 T6]. apply ld_int_at in H7, H8, H9.
  unfold f_call. cbn [f_decl map fst c_call]. rewrite H9. cbn [bind]. rewrite E1. cbn [bind]. rewrite E2. cbn [bind]. rewrite E3. cbn [bind]. rewrite E4. cbn [bind].
  rewrite E5. cbn [bind]. rewrite E6. cbn [bind]. rewrite H7. cbn [bind]. rewrite H8. cbn [bind]. rewrite HC. cbn [bind].
  rewrite S. cbn [bind]. now rewrite T1, T2, T3, T4, T5, T6.
Qed.
Lemma cyclic_init fuel t adr m n nev nex mb nb ldh d0 d1 rs cs comm cm : size_at m (adr "nn") n -> size_at m (adr "nev") nev -> size_at m (adr "nex") nex ->
  size_at m (adr "mbsize") mb -> size_at m (adr "nbsize") nb -> size_at m (adr "ldh") ldh -> int_at m (adr "dim0") d0 -> int_at m (adr "dim1") d1 ->
  int_at m (adr "irsrc") rs -> int_at m (adr "icsrc") cs -> int_at m (adr "fcomm") comm ->
  is_col_major m (adr "grid_major") = Ok cm -> room 4 m (adr "init") -> exists m', flagged 1 (adr "init") m m' /\
  f_call fuel t PInitBC adr m = Ok (New_cyclic (Z.to_N n) (Z.to_N mb) (Z.to_N nb) (Z.to_N nev) (Z.to_N nex) d0 d1 cm rs cs comm (adr "h") (Z.to_N ldh) (adr "v") (adr "ritzv"), m').
Proof.
  intros H1 H2 H3 H4 H5 H6 H7 H8 H9 H10 H11 HC R. destruct (@st_int_ok m _ 1 ltac:(lia) R) as (m' & S & Fl). exists m'. split; [exact Fl|].
  apply ld_size_at in H1 as [E1 T1], H2 as [E2 T2], H3 as [E3 T3], H4 as [E4 T4], H5 as [E5 T5], H6 as [E6 T6]. apply ld_int_at in H7, H8, H9, H10, H11.
  unfold f_call. cbn [f_decl map fst c_call]. rewrite H11. cbn [bind]. rewrite E1. cbn [bind]. rewrite E2. cbn [bind]. rewrite E3. cbn [bind]. rewrite E4. cbn [bind].
  rewrite E5. cbn [bind]. rewrite E6. cbn [bind]. rewrite H7. cbn [bind]. rewrite H8. cbn [bind]. rewrite H9. cbn [bind]. rewrite H10. cbn [bind]. rewrite HC. cbn [bind].
  rewrite S. cbn [bind]. now rewrite T1, T2, T3, T4, T5, T6.
Qed.
Lemma solve_args fuel t r adr m deg tol mode opt qr : r = RSolve \/ r = PSolve -> int_at m (adr "deg") deg -> word_at (esize (base_of t)) m (adr "tol") tol ->
  char_at m (adr "mode") mode -> char_at m (adr "opt") opt -> char_at m (adr "qr") qr ->
  exists o a c, f_call fuel t r adr m = Ok (Do_solve deg tol o a c, m) /\ (o = true <-> opt = byte_S) /\ (a = true <-> mode = byte_A) /\ (c = true <-> qr = byte_C).
Proof.
  intros Hr H1 H2 H3 H4 H5. apply ld_int_at in H1. apply ld_word_at in H2. unfold char_at in *.
  exists (opt =? byte_S), (mode =? byte_A), (qr =? byte_C). split; [|rewrite !Z.eqb_eq; tauto].
  destruct Hr as [-> | ->]; unfold f_call; cbn [f_decl map fst c_call]; rewrite H2; cbn [bind]; rewrite H1; cbn [bind]; unfold ld1; rewrite H3, H4, H5; reflexivity.
Qed.
Lemma final_args fuel t r adr m : r = RFinal \/ r = PFinal -> room 4 m (adr "flag") -> exists m', flagged 0 (adr "flag") m m' /\ f_call fuel t r adr m = Ok (Do_delete, m').
Proof.
  intros Hr R. destruct (@st_int_ok m _ 0 ltac:(lia) R) as (m' & S & Fl). exists m'. split; [exact Fl|].
  destruct Hr as [-> | ->]; unfold f_call; cbn [f_decl map fst c_call]; rewrite S; reflexivity.
Qed.

(** ** values are read back *)
Lemma room_stn n m a w m' : stn n m a w = Ok m' -> room n m a.
Proof.
  revert m a w. induction n as [|n IH]; cbn [stn]; intros m a w H k Hk; [lia|].
  unfold st1 in H. destruct (m a) as [b|] eqn:E; [|discriminate]. cbn [bind] in H. destruct (Z.eq_dec k 0) as [->|]; [rewrite Z.add_0_r; congruence|].
  specialize (IH _ _ _ H (k - 1) ltac:(lia)). cbn beta in IH. destruct (Z.eqb_spec (a + 1 + (k - 1)) a); [lia|]. now replace (a + 1 + (k - 1)) with (a + k) in IH by lia.
Qed.
Lemma stn_spec n m a w m' : stn n m a w = Ok m' -> bytes_at n m' a w /\ same_outside n a m m'.
Proof. intros H. destruct (stn_ok w (@room_stn _ _ _ _ _ H)) as (m1 & S & B & O & _). rewrite H in S. injection S as <-. auto. Qed.

Lemma st_words_spec sz : forall ws m a m', st_words sz m a ws = Ok m' ->
  (forall i w, nth_error ws i = Some w -> bytes_at sz m' (a + Z.of_nat sz * Z.of_nat i) w) /\ (forall x, x < a -> m' x = m x).
Proof.
  induction ws as [|w ws IH]; cbn [st_words]; intros m a m' H.
  - injection H as <-. split; [|auto]. intros [|i] x Hx; discriminate.
  - destruct (stn sz m a w) as [m1| |] eqn:E; cbn [bind] in H; try discriminate.
    apply stn_spec in E as [B O]. destruct (IH _ _ _ H) as [IB IO]. split.
    + intros [|i] x Hx; cbn [nth_error] in Hx.
      * injection Hx as <-. intros k Hk. replace (a + Z.of_nat sz * Z.of_nat 0 + k) with (a + k) by lia. rewrite IO by lia. apply B. exact Hk.
      * specialize (IB i x Hx). replace (a + Z.of_nat sz * Z.of_nat (S i)) with (a + Z.of_nat sz + Z.of_nat sz * Z.of_nat i) by lia. exact IB.
    + intros x Hx. rewrite IO by lia. apply O. lia.
Qed.

Lemma reads_same e m a ws m' : st_words (esize e) m a ws = Ok m' -> (forall w, In w ws -> 0 <= w < 256 ^ Z.of_nat (esize e)) ->
  forall i w, nth_error ws i = Some w -> f_reads e m' a i = Ok w.
Proof.
  intros H F i w Hi. apply st_words_spec in H as [B _]. unfold f_reads. rewrite (ldn_bytes (B i w Hi)). f_equal. apply Z.mod_small, F. eapply nth_error_In, Hi.
Qed.

Lemma ldn_app n1 n2 : forall m a w1 w2, ldn n1 m a = Ok w1 -> ldn n2 m (a + Z.of_nat n1) = Ok w2 -> ldn (n1 + n2) m a = Ok (w1 + 256 ^ Z.of_nat n1 * w2).
Proof.
  induction n1 as [|n1 IH]; intros m a w1 w2 H1 H2.
  - cbn [ldn Nat.add] in *. injection H1 as <-. change (Z.of_nat 0) with 0 in *. rewrite Z.add_0_r in H2. rewrite H2, Z.pow_0_r. f_equal. lia.
  - cbn [ldn Nat.add] in *. destruct (ld1 m a) as [b| |]; cbn [bind] in *; try discriminate.
    destruct (ldn n1 m (a + 1)) as [r| |] eqn:E; cbn [bind] in *; try discriminate. assert (w1 = b + 256 * r) as -> by congruence.
    rewrite (IH m (a + 1) r w2 E) by (replace (a + 1 + Z.of_nat n1) with (a + Z.of_nat (S n1)) by lia; exact H2). cbn [bind]. f_equal. rewrite pow256_S. generalize (256 ^ Z.of_nat n1). intros P. nia.
Qed.
(** two 4-byte values seen as one 8-byte value *)
Lemma reads_pairs m a ws m' : st_words 4 m a ws = Ok m' -> (forall w, In w ws -> 0 <= w < 2 ^ 32) ->
  forall i w1 w2, nth_error ws (2 * i) = Some w1 -> nth_error ws (2 * i + 1) = Some w2 -> f_reads R8 m' a i = Ok (w1 + 2 ^ 32 * w2).
Proof.
  intros H F i w1 w2 H1 H2. apply st_words_spec in H as [B _]. unfold f_reads. change (esize R8) with (4 + 4)%nat.
  change (2 ^ 32) with (256 ^ Z.of_nat 4). apply ldn_app.
  - pose proof (B _ _ H1) as B1. replace (a + Z.of_nat 4 * Z.of_nat (2 * i)) with (a + Z.of_nat (4 + 4) * Z.of_nat i) in B1 by lia.
    rewrite (ldn_bytes B1). f_equal. apply Z.mod_small, F. eapply nth_error_In, H1.
  - pose proof (B _ _ H2) as B2. replace (a + Z.of_nat 4 * Z.of_nat (2 * i + 1)) with (a + Z.of_nat (4 + 4) * Z.of_nat i + Z.of_nat 4) in B2 by lia.
    rewrite (ldn_bytes B2). f_equal. apply Z.mod_small, F. eapply nth_error_In, H2.
Qed.

Definition tmem : mem := fun x => if (0 <=? x) && (x <? 64) then Some 0 else None.
Definition bits_1f : Z := 1065353216. (* 0x3F800000 *)
Definition bits_2f : Z := 1073741824. (* 0x40000000 *)

Lemma read_back_iff t r e : r = RInit \/ r = PInit \/ r = PInitBC -> declared t r "ritzv" = Some e ->
  ((forall m a ws m', (forall w, In w ws -> 0 <= w < 256 ^ Z.of_nat (esize (base_of t))) -> lib_stores t m a ws = Ok m' ->
     forall i w, nth_error ws i = Some w -> f_reads e m' a i = Ok w) <-> ~ (t = SCFloat /\ r <> RInit)).
Proof.
  intros Hr He. assert (D : e = base_of t \/ (t = SCFloat /\ r <> RInit /\ e = R8)).
  { destruct t, Hr as [-> | [-> | ->]]; cbn in He; injection He as <-; auto; right; repeat split; congruence. }
  split.
  - intros H [-> Hn]. destruct D as [-> | (_ & _ & ->)].
    + destruct Hr as [-> | [-> | ->]]; cbn in He; congruence.
    + destruct (lib_stores SCFloat tmem 0 [bits_1f; bits_2f]) as [m'| |] eqn:E; [|vm_compute in E; discriminate..].
      assert (G : forall w, In w [bits_1f; bits_2f] -> 0 <= w < 256 ^ Z.of_nat (esize (base_of SCFloat))) by (intros w [<- | [<- | []]]; vm_compute; split; congruence).
      pose proof (H _ _ _ _ G E 0%nat bits_1f eq_refl) as H0. rewrite (@reads_pairs _ _ [bits_1f; bits_2f] _ E G 0%nat bits_1f bits_2f eq_refl eq_refl) in H0. vm_compute in H0. discriminate.
  - intros Hn m a ws m' F S. destruct D as [-> | (A & B & _)]; [|tauto]. exact (@reads_same _ _ _ _ _ S F).
Qed.

(** ** characters *)
Lemma col_major_cases m p c : m p = Some c ->
  (is_col_major m p = Ok true <-> c = byte_C /\ m (p + 1) = Some 0) /\
  (is_col_major m p = UB <-> c = byte_C /\ m (p + 1) = None) /\
  (is_col_major m p = Ok false <-> c <> byte_C \/ exists b, m (p + 1) = Some b /\ b <> 0).
Proof.
  intros H. unfold is_col_major, streq, ld1. rewrite H. cbn [bind]. destruct (Z.eqb_spec c byte_C) as [->|Hc].
  - destruct (m (p + 1)) as [b|] eqn:E; cbn [bind].
    + destruct (Z.eqb_spec b 0) as [->|Hb].
      * split; [tauto|]. split; [split; [discriminate|intros [_ ?]; discriminate]|]. split; [discriminate|]. intros [?|(b & G & ?)]; congruence.
      * split; [split; [discriminate|intros [_ G]; congruence]|]. split; [split; [discriminate|intros [_ ?]; discriminate]|]. split; [eauto|reflexivity].
    + split; [split; [discriminate|intros [_ ?]; discriminate]|]. split; [tauto|]. split; [discriminate|]. intros [?|(b & G & ?)]; congruence.
  - split; [split; [discriminate|tauto]|]. split; [split; [discriminate|tauto]|]. split; auto.
Qed.

(** two processes, the character C followed by a 0 on the first and by another character on the second *)
Definition cmem (b : Z) : mem := fun x => if x =? 0 then Some byte_C else if x =? 1 then Some b else None.
Lemma ranks_collide : ~ (forall (mems : nat -> mem) p, (forall r, (r < 4)%nat -> mems r p = Some byte_C /\ mems r (p + 1) <> None) ->
  forall r s c, (r < 4)%nat -> (s < 4)%nat -> coords_from (mems r) p 2 2 r = Ok c -> coords_from (mems s) p 2 2 s = Ok c -> r = s).
Proof.
  intros H. specialize (H (fun r => cmem (if (r =? 1)%nat then 0 else byte_S)) 0).
  specialize (H ltac:(intros r _; cbn; split; [reflexivity|discriminate]) 1%nat 2%nat (1, 0)%nat ltac:(lia) ltac:(lia)).
  discriminate H; vm_compute; reflexivity.
Qed.
Lemma one_C_not_enough : ~ (forall m p q r c, m p = Some byte_C -> m (p + 1) <> None -> coords_from m p q q r = Ok c -> c = grid_coord true q q r).
Proof. intros H. specialize (H (cmem byte_S) 0 2%nat 1%nat (0, 1)%nat eq_refl ltac:(discriminate) eq_refl). vm_compute in H. discriminate. Qed.
Lemma coords_ok m p c row_dim col_dim r : m p = Some c -> (c = byte_C -> m (p + 1) = Some 0) ->
  coords_from m p row_dim col_dim r = Ok (grid_coord (c =? byte_C) row_dim col_dim r).
Proof.
  intros H Hc. unfold coords_from. destruct (Z.eqb_spec c byte_C) as [->|Hn].
  - destruct (col_major_cases _ _ H) as [[_ G] _]. rewrite G by auto. reflexivity.
  - destruct (col_major_cases _ _ H) as (_ & _ & [_ G]). rewrite G by auto. reflexivity.
Qed.

Lemma cstring_app s : forall m p fuel l, text_at m p s -> cstring fuel m p = Ok l -> exists l', l = s ++ l' /\ cstring (fuel - List.length s) m (p + Z.of_nat (List.length s)) = Ok l'.
Proof.
  induction s as [|c s IH]; intros m p fuel l T H.
  - exists l. cbn. now rewrite Nat.sub_0_r, Z.add_0_r.
  - destruct fuel as [|fuel]; [discriminate|]. cbn [cstring] in H. destruct (T 0%nat c eq_refl) as [Hc Hm]. rewrite Z.add_0_r in Hm.
    unfold ld1 in H. rewrite Hm in H. cbn [bind] in H. destruct (Z.eqb_spec c 0); [congruence|].
    destruct (cstring fuel m (p + 1)) as [l1| |] eqn:E; cbn [bind] in H; try discriminate. injection H as <-.
    destruct (IH m (p + 1) fuel l1) as (l' & -> & G); [|exact E|].
    { intros i d Hd. specialize (T (S i) d Hd). now replace (p + Z.of_nat (S i)) with (p + 1 + Z.of_nat i) in T by lia. }
    exists l'. split; [reflexivity|]. cbn [List.length Nat.sub]. now replace (p + Z.of_nat (S (List.length s))) with (p + 1 + Z.of_nat (List.length s)) by lia.
Qed.
Lemma cstring_text s : forall m p, text_at m p s -> m (p + Z.of_nat (List.length s)) = Some 0 -> cstring (S (List.length s)) m p = Ok s.
Proof.
  induction s as [|c s IH]; intros m p T H.
  - cbn in *. rewrite Z.add_0_r in H. unfold ld1. rewrite H. reflexivity.
  - cbn [List.length]. assert (E : cstring (S (List.length s)) m (p + 1) = Ok s).
    { apply IH.
      + intros i d Hd. specialize (T (S i) d Hd). now replace (p + Z.of_nat (S i)) with (p + 1 + Z.of_nat i) in T by lia.
      + now replace (p + 1 + Z.of_nat (List.length s)) with (p + Z.of_nat (List.length (c :: s))) by (cbn [List.length]; lia). }
    remember (S (List.length s)) as f. cbn [cstring]. destruct (T 0%nat c eq_refl) as [Hc Hm]. rewrite Z.add_0_r in Hm. unfold ld1. rewrite Hm. cbn [bind].
    destruct (Z.eqb_spec c 0); [congruence|]. now rewrite E.
Qed.
Lemma cstring_iff m p s : text_at m p s -> ((exists fuel, cstring fuel m p = Ok s) <-> m (p + Z.of_nat (List.length s)) = Some 0).
Proof.
  intros T. split.
  - intros [fuel H]. destruct (cstring_app fuel T H) as (l' & E & G). assert (l' = []) as ->.
    { apply (f_equal (@List.length Z)) in E. rewrite app_length in E. destruct l'; [reflexivity|cbn in E; lia]. }
    destruct (fuel - List.length s)%nat; [discriminate|]. cbn [cstring] in G. unfold ld1 in G.
    destruct (m (p + Z.of_nat (List.length s))) as [b|]; [|discriminate]. cbn [bind] in G. destruct (Z.eqb_spec b 0); [congruence|].
    destruct (cstring n m (p + Z.of_nat (List.length s) + 1)); discriminate.
  - intros H. exists (S (List.length s)). now apply cstring_text.
Qed.
Lemma file_name t adr m s : text_at m (adr "filename") s ->
  ((exists fuel, f_call fuel t PWrite adr m = Ok (Do_write s (adr "h"), m)) <-> m (adr "filename" + Z.of_nat (List.length s)) = Some 0) /\
  ((exists fuel, f_call fuel t PRead adr m = Ok (Do_read s (adr "h"), m)) <-> m (adr "filename" + Z.of_nat (List.length s)) = Some 0).
Proof.
  intros T. rewrite <- (cstring_iff T). unfold f_call. cbn [f_decl map fst c_call].
  split; split; intros [fuel H]; exists fuel; (destruct (cstring fuel m (adr "filename"%string)) as [l| |]; cbn [bind] in *; congruence).
Qed.
Lemma decls_iff t r : map snd (f_decl t r) = c_proto t r <->
  ~ (t = SCFloat /\ (r = PInit \/ r = PInitBC)) /\ ~ ((t = SCFloat \/ t = SCDouble) /\ (r = PWrite \/ r = PRead)).
Proof. destruct t, r; cbn; intuition congruence. Qed.
