(** Element-level loops over the stored matrix. *)
From Coq Require Import List Arith Bool Lia.
Require Import Verif.Base Verif.DistModel Verif.DistSpec Verif.DistProofs Verif.DistProofs2 Verif.FlatModel Verif.FlatSpec.
Import ListNotations.

Lemma pos_mod a b ld : a < ld -> (a + b * ld) mod ld = a.
Proof. intros. rewrite Nat.mod_add by lia. now apply Nat.mod_small. Qed.
Lemma pos_div a b ld : a < ld -> (a + b * ld) / ld = b.
Proof. intros. rewrite Nat.div_add by lia. rewrite Nat.div_small by lia. lia. Qed.
Lemma pos_split k ld : 0 < ld -> k = k mod ld + (k / ld) * ld.
Proof. intros. pose proof (Nat.div_mod k ld ltac:(lia)). lia. Qed.

Lemma nth_error_seq s n a g : nth_error (seq s n) a = Some g <-> a < n /\ g = s + a.
Proof.
  revert s a; induction n; intros s [|a]; simpl.
  - split; [discriminate|lia].
  - split; [discriminate|lia].
  - split; [intros E; inversion E; lia|intros [_ ->]; f_equal; lia].
  - rewrite IHn. lia.
Qed.

Lemma nth_error_upd {A} (l : list A) k0 v k : k0 < length l ->
  nth_error (upd l k0 v) k = if k =? k0 then Some v else nth_error l k.
Proof.
  intros. destruct (k =? k0) eqn:E.
  - apply Nat.eqb_eq in E. subst k. apply upd_same. assumption.
  - apply Nat.eqb_neq in E. apply upd_other. congruence.
Qed.

Lemma for_run {A} (P : nat -> A -> Prop) (Q : A -> Prop) (body : nat -> A -> res A) todo i s :
  P i s -> (forall k s, i <= k < i + todo -> P k s -> exists s', body k s = Ok s' /\ P (S k) s') ->
  (forall s', P (i + todo) s' -> Q s') -> exists s', for_ todo i body s = Ok s' /\ Q s'.
Proof. intros H1 H2 H3. destruct (for_inv P body todo i s H1 H2) as (s' & E & H). eauto. Qed.

(** Partial progress of a loop that replaces entry k of the array by [tgt k]; [D] tells, in terms of local row and
    column, what has been done. *)
Definition prog {T} (ld : nat) (H : list T) (tgt : nat -> option T) (D : nat -> nat -> Prop) (H' : list T) : Prop :=
  length H' = length H /\
  forall k, (D (k mod ld) (k / ld) -> nth_error H' k = tgt k) /\ (~ D (k mod ld) (k / ld) -> nth_error H' k = nth_error H k).

Lemma prog_ext {T} ld (H : list T) tgt D D' H' : (forall a b, D a b <-> D' a b) -> prog ld H tgt D H' -> prog ld H tgt D' H'.
Proof. intros E [L P]. split; auto. intros k. specialize (P k). rewrite <- (E (k mod ld) (k / ld)). exact P. Qed.

Lemma prog_upd {T} ld (H : list T) tgt D H' a b v : a < ld -> a + b * ld < length H ->
  tgt (a + b * ld) = Some v -> prog ld H tgt D H' ->
  prog ld H tgt (fun x y => D x y \/ (x = a /\ y = b)) (upd H' (a + b * ld) v).
Proof.
  intros Ha Hb Hv [L P]. split; [now rewrite upd_length|]. intros k. rewrite nth_error_upd by lia.
  destruct (k =? a + b * ld) eqn:E.
  - apply Nat.eqb_eq in E. subst k. rewrite pos_mod, pos_div by auto. split; [intros; congruence|tauto].
  - apply Nat.eqb_neq in E. destruct (P k) as [P1 P2]. split.
    + intros [Q|[Q1 Q2]]; [auto|]. exfalso. apply E. rewrite (pos_split k ld) by lia. congruence.
    + intros Q. apply P2. tauto.
Qed.

Lemma prog_skip {T} ld (H : list T) tgt D H' a b : a < ld ->
  tgt (a + b * ld) = nth_error H (a + b * ld) -> ~ D a b -> prog ld H tgt D H' ->
  prog ld H tgt (fun x y => D x y \/ (x = a /\ y = b)) H'.
Proof.
  intros Ha Hv Hn [L P]. split; auto. intros k. destruct (P k) as [P1 P2]. split.
  - intros [Q|[Q1 Q2]]; auto. assert (k = a + b * ld) as -> by (rewrite (pos_split k ld) by lia; congruence).
    rewrite pos_mod, pos_div in P2 by auto. rewrite Hv. auto.
  - intros Q. apply P2. tauto.
Qed.

(** The tile loop. *)
Lemma describes_rd own D b : describes own D -> b < d_blocks D -> exists len off,
  rd (d_lens D) b = Ok len /\ rd (d_offs D) b = Ok off /\ rd (d_offs_l D) b = Ok (list_sum (firstn b (d_lens D))) /\
  list_sum (firstn (S b) (d_lens D)) = list_sum (firstn b (d_lens D)) + len /\
  (forall t, t < len -> nth_error own (list_sum (firstn b (d_lens D)) + t) = Some (off + t)).
Proof.
  intros (E & Em & L1 & L2 & L3 & Hp) Hb. destruct (rd_in (d_lens D) b ltac:(lia)) as [len E1]. destruct (rd_in (d_offs D) b ltac:(lia)) as [off E2].
  destruct (rd_in (d_offs_l D) b ltac:(lia)) as [ol E3]. exists len, off. pose proof (proj1 (rd_ok _ _ _) E1) as N1.
  pose proof (proj1 (rd_ok _ _ _) E2) as N2. pose proof (proj1 (rd_ok _ _ _) E3) as N3. rewrite (Hp _ _ N3) in E3.
  split; [auto|]. split; [auto|]. split; [auto|]. split.
  - rewrite (firstn_S_nth _ _ _ N1), list_sum_app. simpl. lia.
  - intros t Ht. rewrite <- E. now apply flat_map_seq_nth with (len := len).
Qed.

Lemma describes_total own D : describes own D -> list_sum (firstn (d_blocks D) (d_lens D)) = length own.
Proof.
  intros (E & Em & L1 & L2 & L3 & Hp). rewrite firstn_all2 by lia. rewrite <- E. unfold expand.
  assert (L : length (d_offs D) = length (d_lens D)) by lia. revert L. generalize (d_offs D) (d_lens D).
  induction l; intros [|y l']; simpl; intros; try lia; auto. rewrite app_length, seq_length. f_equal. apply IHl. lia.
Qed.

Lemma describes_mono own D b : describes own D -> b < d_blocks D -> list_sum (firstn (S b) (d_lens D)) <= length own.
Proof.
  intros HD Hb. rewrite <- (describes_total own D HD).
  assert (G : forall l j k, j <= k -> list_sum (firstn j l) <= list_sum (firstn k l)).
  { induction l; intros [|j] [|k] Hjk; simpl; try lia. specialize (IHl j k ltac:(lia)). lia. }
  apply G. lia.
Qed.

Section Tiles.
Context {T : Type} (R C : dim) (rows cols : list nat) (ld : nat) (act : nat -> nat -> option (T -> T)) (H : list T).
Hypothesis (HR : describes rows R) (HC : describes cols C) (Hld : length rows <= ld).
Hypothesis (Hlen : forall a b, a < length rows -> b < length cols -> a + b * ld < length H).

(** what the loop stores at position k *)
Definition tile_tgt (k : nat) : option T :=
  match nth_error rows (k mod ld), nth_error cols (k / ld) with
  | Some g, Some h => match act g h with Some f => option_map f (nth_error H k) | None => nth_error H k end
  | _, _ => nth_error H k
  end.

Lemma tile_tgt_at a b g h : nth_error rows a = Some g -> nth_error cols b = Some h ->
  tile_tgt (a + b * ld) = match act g h with Some f => option_map f (nth_error H (a + b * ld)) | None => nth_error H (a + b * ld) end.
Proof.
  intros Ha Hb. assert (a < length rows) by (apply nth_error_Some; congruence).
  unfold tile_tgt. now rewrite pos_mod, pos_div, Ha, Hb by lia.
Qed.

Lemma tile_entry a b g h D H' : nth_error rows a = Some g -> nth_error cols b = Some h -> ~ D a b ->
  prog ld H tile_tgt D H' ->
  exists H'', match act g h with
              | None => Ok H'
              | Some f => let! x := rd H' (a + b * ld) in wr H' (a + b * ld) (f x)
              end = Ok H'' /\ prog ld H tile_tgt (fun x y => D x y \/ (x = a /\ y = b)) H''.
Proof.
  intros Ha Hb Hn P. assert (La : a < length rows) by (apply nth_error_Some; congruence).
  assert (Lb : b < length cols) by (apply nth_error_Some; congruence). pose proof (Hlen a b La Lb) as Lk.
  destruct (act g h) as [f|] eqn:E.
  - pose proof P as [L Q]. destruct (Q (a + b * ld)) as [_ Q2]. rewrite pos_mod, pos_div in Q2 by lia.
    destruct (nth_error H (a + b * ld)) as [x|] eqn:Ex; [|apply nth_error_None in Ex; lia].
    unfold rd. rewrite (Q2 Hn). cbn [bind]. rewrite wr_ok by lia. eexists. split; [reflexivity|].
    apply prog_upd; auto; [lia|]. erewrite tile_tgt_at by eauto. now rewrite E, Ex.
  - eexists. split; [reflexivity|]. apply prog_skip; auto; [lia|]. erewrite tile_tgt_at by eauto. now rewrite E.
Qed.

Theorem tiles_spec : exists H', tiles R C ld act H = Ok H' /\ (length H' = length H /\ forall k, nth_error H' k = tile_tgt k).
Proof.
  unfold tiles.
  apply (for_run (fun j H' => prog ld H tile_tgt (fun x y => y < list_sum (firstn j (d_lens C)) /\ x < length rows) H')).
  { split; auto. intros k. simpl. split; [lia|auto]. }
  - intros j Hj [_ Lj] P.
    destruct (describes_rd _ _ j HC Lj) as (clen & coff & C1 & C2 & C3 & C4 & C5). pose proof (describes_mono _ _ _ HC Lj) as Mj.
    rewrite C4 in *. set (B := list_sum (firstn j (d_lens C))) in *.
    apply (for_run (fun i H' => prog ld H tile_tgt (fun x y => (y < B /\ x < length rows) \/ (B <= y < B + clen /\ x < list_sum (firstn i (d_lens R)))) H')).
    { eapply prog_ext; [|exact P]. intros a b. simpl. lia. }
    + intros i Hi [_ Li] Pi.
      destruct (describes_rd _ _ i HR Li) as (rlen & roff & R1 & R2 & R3 & R4 & R5). pose proof (describes_mono _ _ _ HR Li) as Mi.
      rewrite R4 in *. set (A := list_sum (firstn i (d_lens R))) in *.
      rewrite C1, C2, C3, R1, R2, R3. cbn [bind]. clear C1 C2 C3 R1 R2 R3.
      apply (for_run (fun q H' => prog ld H tile_tgt (fun x y => (y < B /\ x < length rows) \/ (B <= y < B + clen /\ x < A) \/ (B <= y < B + q /\ A <= x < A + rlen)) H')).
      { eapply prog_ext; [|exact Pi]. intros a b. simpl. lia. }
      * intros q Hq [_ Lq] Pq.
        apply (for_run (fun p H' => prog ld H tile_tgt (fun x y => (y < B /\ x < length rows) \/ (B <= y < B + clen /\ x < A) \/ (B <= y < B + q /\ A <= x < A + rlen) \/ (y = B + q /\ A <= x < A + p)) H')).
        { eapply prog_ext; [|exact Pq]. intros a b. simpl. lia. }
        -- intros p Hp [_ Lp] Pp.
           replace ((q + B) * ld + p + A) with ((A + p) + (B + q) * ld) by lia.
           replace (p + roff) with (roff + p) by lia. replace (q + coff) with (coff + q) by lia.
           edestruct (tile_entry (A + p) (B + q) (roff + p) (coff + q)) as (H4 & E4 & P4); [apply R5; lia|apply C5; lia| |exact Pp|].
           { cbv beta. lia. }
           exists H4. split; [exact E4|]. eapply prog_ext; [|exact P4]. intros a b. cbv beta. lia.
        -- intros H3 P3. eapply prog_ext; [|exact P3]. intros a b. cbv beta. lia.
      * intros H2 P2. eapply prog_ext; [|exact P2]. intros a b. cbv beta. lia.
    + intros H1 P1. eapply prog_ext; [|exact P1]. intros a b. cbv beta. rewrite (describes_total rows R HR : list_sum (firstn (0 + d_blocks R) (d_lens R)) = _). lia.
  - intros H' [L P]. split; auto. intros k. destruct (P k) as [P1 P2]. cbv beta in P1, P2.
    rewrite (describes_total cols C HC : list_sum (firstn (0 + d_blocks C) (d_lens C)) = _) in P1, P2.
    destruct (Nat.lt_ge_cases (k / ld) (length cols)); destruct (Nat.lt_ge_cases (k mod ld) (length rows)); try (apply P1; lia);
      rewrite P2 by lia; unfold tile_tgt.
    + rewrite (proj2 (nth_error_None rows (k mod ld))) by lia. reflexivity.
    + rewrite (proj2 (nth_error_None cols (k / ld))) by lia. destruct (nth_error rows _); reflexivity.
    + rewrite (proj2 (nth_error_None cols (k / ld))) by lia. destruct (nth_error rows _); reflexivity.
Qed.
End Tiles.

(** ** the constructors' tables *)
Lemma bc_describes N mb p src i d : 0 < mb -> src < p -> i < p -> bc_ctor N mb p src i = Ok d -> describes (owned N mb p src i) d.
Proof.
  intros Hmb Hs Hi H. destruct (bc_tables _ _ _ _ _ _ Hmb Hs Hi H) as (E & Em & L1 & L2 & L3 & _).
  destruct (bc_ctor_inv _ _ _ _ _ _ Hmb Hs Hi H) as (_ & _ & _ & _ & E5).
  repeat (split; [assumption|]). intros b ol Hb.
  assert (b < length (d_lens d)) by (rewrite L2, <- L3; apply nth_error_Some; congruence).
  rewrite E5, psums_nth in Hb by auto. congruence.
Qed.
Lemma blk_describes N len d i : describes (seq (blk_off len i) (blk_size N len d i)) (blk_ctor N len d i).
Proof.
  unfold blk_ctor. split; [|split; [|split; [|split; [|split]]]]; simpl; auto.
  - unfold expand. simpl. apply app_nil_r.
  - now rewrite seq_length.
  - intros [|[|b]] ol Hb; simpl in Hb; try discriminate. inversion Hb; auto.
Qed.

(** ** shift *)
Lemma dist_shift_spec {T} (addc : T -> T) R C rows cols ld (H : list T) : describes rows R -> describes cols C -> length rows <= ld ->
  (forall a b, a < length rows -> b < length cols -> a + b * ld < length H) ->
  exists H', dist_shift addc R C ld H = Ok H' /\ length H' = length H /\
    (forall a b g h, nth_error rows a = Some g -> nth_error cols b = Some h ->
       nth_error H' (a + b * ld) = if g =? h then option_map addc (nth_error H (a + b * ld)) else nth_error H (a + b * ld)) /\
    (forall k, padding (length rows) (length cols) ld k -> nth_error H' k = nth_error H k).
Proof.
  intros HR HC Hld Hlen. destruct (tiles_spec R C rows cols ld (fun g h => if h =? g then Some addc else None) H HR HC Hld Hlen) as (H' & E & L & P).
  exists H'. split; [exact E|]. split; [exact L|]. split.
  - intros a b g h Ha Hb. rewrite P. erewrite tile_tgt_at by eauto. rewrite (Nat.eqb_sym h g). destruct (g =? h); reflexivity.
  - intros k Hk. rewrite P. unfold tile_tgt. destruct Hk as [Hk|Hk].
    + rewrite (proj2 (nth_error_None rows (k mod ld))) by lia. reflexivity.
    + rewrite (proj2 (nth_error_None cols (k / ld))) by lia. destruct (nth_error rows _); reflexivity.
Qed.

Lemma dist_shift_stores {T} (addc : T -> T) R C rows cols ld G (H : list T) : describes rows R -> describes cols C -> length rows <= ld ->
  stores rows cols ld G H ->
  exists H', dist_shift addc R C ld H = Ok H' /\ length H' = length H /\
    stores rows cols ld (fun g h => if g =? h then addc (G g h) else G g h) H' /\
    (forall k, padding (length rows) (length cols) ld k -> nth_error H' k = nth_error H k).
Proof.
  intros HR HC Hld HS. destruct (dist_shift_spec addc R C rows cols ld H HR HC Hld) as (H' & E & L & P & Q).
  - intros a b Ha Hb. destruct (nth_error rows a) as [g|] eqn:Eg; [|apply nth_error_None in Eg; lia].
    destruct (nth_error cols b) as [h|] eqn:Eh; [|apply nth_error_None in Eh; lia].
    apply nth_error_Some. rewrite (HS a b g h Eg Eh). discriminate.
  - exists H'. split; [exact E|]. split; [exact L|]. split; [|exact Q].
    intros a b g h Ha Hb. rewrite (P a b g h Ha Hb), (HS a b g h Ha Hb). destruct (g =? h); reflexivity.
Qed.

Lemma seq_shift_spec {T} (addc : T -> T) N ld G (H : list T) : N <= ld -> stores (seq 0 N) (seq 0 N) ld G H ->
  exists H', seq_shift addc N ld H = Ok H' /\ (length H' = length H /\
    stores (seq 0 N) (seq 0 N) ld (fun g h => if g =? h then addc (G g h) else G g h) H' /\
    (forall k, padding N N ld k -> nth_error H' k = nth_error H k)).
Proof.
  intros Hld HS. unfold seq_shift.
  assert (HE : forall a b, a < N -> b < N -> nth_error H (a + b * ld) = Some (G a b)).
  { intros a b Ha Hb. apply HS; apply nth_error_seq; lia. }
  set (tgt := fun k => if (k mod ld =? k / ld) && (k mod ld <? N) then option_map addc (nth_error H k) else nth_error H k).
  apply (for_run (fun i H' => prog ld H tgt (fun x y => x = y /\ x < i) H')).
  - split; auto. intros k. split; [lia|auto].
  - intros i H' [_ Hi] P. pose proof P as [L Q]. destruct (Q (i + i * ld)) as [_ Q2]. rewrite pos_mod, pos_div in Q2 by lia.
    unfold rd. rewrite Q2 by lia. rewrite HE by lia. cbn [bind].
    assert (i + i * ld < length H) by (apply nth_error_Some; rewrite HE by lia; discriminate).
    rewrite wr_ok by lia. eexists. split; [reflexivity|]. eapply prog_ext; [|apply prog_upd; [| | |exact P]]; cbv beta; try lia.
    unfold tgt. rewrite pos_mod, pos_div, Nat.eqb_refl, HE by lia. replace (i <? N) with true by (symmetry; apply Nat.ltb_lt; lia). reflexivity.
  - intros H' [L P]. split; auto.
    assert (PK : forall k, nth_error H' k = tgt k).
    { intros k. destruct (P k) as [P1 P2]. destruct (Nat.eq_dec (k mod ld) (k / ld)) as [e|e]; destruct (Nat.lt_ge_cases (k mod ld) N); try (apply P1; lia);
        rewrite P2 by lia; unfold tgt.
      - replace (k mod ld <? N) with false by (symmetry; apply Nat.ltb_ge; lia). now rewrite andb_false_r.
      - apply Nat.eqb_neq in e. now rewrite e.
      - apply Nat.eqb_neq in e. now rewrite e. }
    split.
    + intros a b g h Ha Hb. apply nth_error_seq in Ha, Hb. destruct Ha as [Ha ->], Hb as [Hb ->]. cbn [Nat.add].
      rewrite PK. unfold tgt. rewrite pos_mod, pos_div by lia. rewrite HE by auto. destruct (a =? b) eqn:E; cbn [andb]; auto.
      replace (a <? N) with true by (symmetry; apply Nat.ltb_lt; lia). reflexivity.
    + intros k Hk. rewrite PK. unfold tgt. destruct (k mod ld =? k / ld) eqn:E; cbn [andb]; auto. apply Nat.eqb_eq in E.
      unfold padding in Hk. replace (k mod ld <? N) with false by (symmetry; apply Nat.ltb_ge; lia). reflexivity.
Qed.
