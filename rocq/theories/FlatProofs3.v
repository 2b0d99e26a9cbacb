(** Element-level loops: the distributed symOrHermMatrix. *)
From Coq Require Import List Arith Bool Lia.
Require Import Verif.Base Verif.DistModel Verif.DistSpec Verif.DistProofs Verif.DistProofs2 Verif.FlatModel Verif.FlatSpec.
Require Import Verif.FlatProofs Verif.FlatProofs2.
Import ListNotations.

(** A double loop that replaces every entry (a, b), a < m, b < n, by [v a b]. *)
Section Fill.
Context {T : Type} (m n ld : nat) (v : nat -> nat -> T) (H : list T).
Hypothesis Hld : m <= ld.
Hypothesis Hlen : forall a b, a < m -> b < n -> a + b * ld < length H.
Let tgt k := if (k mod ld <? m) && (k / ld <? n) then Some (v (k mod ld) (k / ld)) else nth_error H k.
Variable body : nat -> nat -> list T -> res (list T).
Hypothesis Hbody : forall a b H', a < m -> b < n -> length H' = length H -> nth_error H' (a + b * ld) = nth_error H (a + b * ld) ->
  body a b H' = wr H' (a + b * ld) (v a b).
Definition filled (H' : list T) : Prop := length H' = length H /\
    (forall a b, a < m -> b < n -> nth_error H' (a + b * ld) = Some (v a b)) /\
    (forall k, padding m n ld k -> nth_error H' k = nth_error H k).
Lemma fill_tgt a b : a < m -> b < n -> tgt (a + b * ld) = Some (v a b).
Proof.
  intros Ha Hb. unfold tgt. rewrite pos_mod, pos_div by lia.
  now rewrite (proj2 (Nat.ltb_lt a m) Ha), (proj2 (Nat.ltb_lt b n) Hb).
Qed.
Lemma fill_end H' : prog ld H tgt (fun x y => x < m /\ y < n) H' -> filled H'.
Proof.
  intros [L P]. split; auto. split.
  - intros a b Ha Hb. destruct (P (a + b * ld)) as [P1 _]. rewrite pos_mod, pos_div in P1 by lia. rewrite P1 by auto. now apply fill_tgt.
  - intros k Hk. apply P. unfold padding in Hk. lia.
Qed.
Lemma fill_step D H' a b : prog ld H tgt D H' -> a < m -> b < n -> ~ D a b ->
  exists H'', body a b H' = Ok H'' /\ prog ld H tgt (fun x y => D x y \/ (x = a /\ y = b)) H''.
Proof.
  intros P Ha Hb Hn. pose proof P as [L Q]. destruct (Q (a + b * ld)) as [_ Q2]. rewrite pos_mod, pos_div in Q2 by lia.
  rewrite Hbody by auto. pose proof (Hlen a b Ha Hb). rewrite wr_ok by lia. eexists. split; [reflexivity|].
  apply prog_upd; auto; [lia|]. now apply fill_tgt.
Qed.
Lemma fill_cols : exists H', for_ n 0 (fun b H => for_ m 0 (fun a H => body a b H) H) H = Ok H' /\ filled H'.
Proof.
  apply (for_run (fun b H' => prog ld H tgt (fun x y => x < m /\ y < b) H')).
  - split; auto. intros k. split; [lia|auto].
  - intros b Hb [_ Lb] P. apply (for_run (fun a H' => prog ld H tgt (fun x y => (x < m /\ y < b) \/ (y = b /\ x < a)) H')).
    + eapply prog_ext; [|exact P]. intros; cbv beta; lia.
    + intros a Ha [_ La] Pa. edestruct (fill_step _ _ a b Pa) as (H2 & E2 & P2); [lia|lia|cbv beta; lia|].
      exists H2. split; auto. eapply prog_ext; [|exact P2]. intros; cbv beta; lia.
    + intros H1 P1. eapply prog_ext; [|exact P1]. intros; cbv beta; lia.
  - intros H' P. apply fill_end. eapply prog_ext; [|exact P]. intros; cbv beta; lia.
Qed.
Lemma fill_rows : exists H', for_ m 0 (fun a H => for_ n 0 (fun b H => body a b H) H) H = Ok H' /\ filled H'.
Proof.
  apply (for_run (fun a H' => prog ld H tgt (fun x y => y < n /\ x < a) H')).
  - split; auto. intros k. split; [lia|auto].
  - intros a Ha [_ La] P. apply (for_run (fun b H' => prog ld H tgt (fun x y => (y < n /\ x < a) \/ (x = a /\ y < b)) H')).
    + eapply prog_ext; [|exact P]. intros; cbv beta; lia.
    + intros b Hb [_ Lb] Pb. edestruct (fill_step _ _ a b Pb) as (H2 & E2 & P2); [lia|lia|cbv beta; lia|].
      exists H2. split; auto. eapply prog_ext; [|exact P2]. intros; cbv beta; lia.
    + intros H1 P1. eapply prog_ext; [|exact P1]. intros; cbv beta; lia.
  - intros H' P. apply fill_end. eapply prog_ext; [|exact P]. intros; cbv beta; lia.
Qed.
End Fill.

Section DSym.
Context {T : Type} (half cj : T -> T) (add : T -> T -> T) (zero : T).
Variables (N mb nb p q : nat).
Hypotheses (Hmb : 0 < mb) (Hnb : 0 < nb) (Hp : 0 < p) (Hq : 0 < q).
Let rows i := owned N mb p 0 i.
Let cols j := owned N nb q 0 j.

Lemma pblas_entry_ok ldh G (H : nat -> nat -> list T) g h : stores_grid p q rows cols ldh G H -> g < N -> h < N ->
  pblas_entry mb nb p q ldh H g h = Ok (G g h).
Proof.
  intros HS Hg Hh. unfold pblas_entry, rd.
  pose proof (lpos_owned N mb p 0 g Hmb Hp Hg) as E1. pose proof (lpos_owned N nb q 0 h Hnb Hq Hh) as E2.
  unfold owner in E1, E2. rewrite Nat.add_0_r in E1, E2.
  erewrite HS; [reflexivity| | |exact E1|exact E2]; apply Nat.mod_upper_bound; lia.
Qed.

Lemma ptranc_ok G (H : nat -> nat -> list T) i j : i < p -> j < q ->
  stores_grid p q rows cols (fun i _ => length (rows i)) G H ->
  exists tmp, ptranc cj zero mb nb p q (fun i _ => length (rows i)) H (rows i) (cols j) i j (length (rows i)) (length (cols j)) = Ok tmp /\
    stores (rows i) (cols j) (length (rows i)) (fun g h => cj (G h g)) tmp.
Proof.
  intros Hi Hj HS. unfold ptranc. set (m := length (rows i)). set (n := length (cols j)).
  edestruct (fill_cols m n m (fun a b => cj (G (nth b (cols j) 0) (nth a (rows i) 0))) (repeat zero (m * (n + 2 * nb)))) as (tmp & E & L & F & _); [| | |exists tmp; split; [exact E|]].
  - lia.
  - intros a b Ha Hb. rewrite repeat_length. nia.
  - intros a b H' Ha Hb _ _. cbv beta.
    destruct (nth_error (rows i) a) as [g|] eqn:Eg; [|apply nth_error_None in Eg; unfold m in Ha; lia].
    destruct (nth_error (cols j) b) as [h|] eqn:Eh; [|apply nth_error_None in Eh; unfold n in Hb; lia].
    rewrite (proj2 (rd_ok _ _ _) Eg), (proj2 (rd_ok _ _ _) Eh). cbn [bind].
    rewrite (pblas_entry_ok _ G) ; [|exact HS| |].
    + cbn [bind]. now rewrite (nth_error_nth _ _ _ Eg), (nth_error_nth _ _ _ Eh).
    + apply nth_error_In, in_owned in Eh. tauto.
    + apply nth_error_In, in_owned in Eg. tauto.
  - intros a b g h Ea Eb. rewrite F, (nth_error_nth _ _ _ Ea), (nth_error_nth _ _ _ Eb); auto; apply nth_error_Some; congruence.
Qed.

Lemma addtmp_ok rs cs ld G1 G2 (H tmp : list T) : length rs <= ld -> stores rs cs ld G1 H -> stores rs cs (length rs) G2 tmp ->
  exists H', dist_addtmp add (length rs) (length cs) ld tmp H = Ok H' /\ length H' = length H /\
    stores rs cs ld (fun g h => add (G1 g h) (G2 g h)) H' /\ (forall k, padding (length rs) (length cs) ld k -> nth_error H' k = nth_error H k).
Proof.
  intros Hld HS HT. unfold dist_addtmp.
  assert (X : forall (l : list nat) a, a < length l -> nth_error l a = Some (nth a l 0)) by (intros; now apply nth_error_nth').
  edestruct (fill_rows (length rs) (length cs) ld (fun a b => add (G1 (nth a rs 0) (nth b cs 0)) (G2 (nth a rs 0) (nth b cs 0))) H Hld)
    as (H' & E & L & F & Pd); [| |exists H'; split; [exact E|]].
  - intros a b Ha Hb. apply nth_error_Some. rewrite (HS a b _ _ (X _ _ Ha) (X _ _ Hb)). discriminate.
  - intros a b H' Ha Hb L E. cbv beta. unfold rd. rewrite E, (HS a b _ _ (X _ _ Ha) (X _ _ Hb)). cbn [bind].
    rewrite (HT a b _ _ (X _ _ Ha) (X _ _ Hb)). reflexivity.
  - split; [auto|]. split; [|auto]. intros a b g h Ea Eb. rewrite F by (apply nth_error_Some; congruence).
    now rewrite (nth_error_nth _ _ _ Ea), (nth_error_nth _ _ _ Eb).
Qed.

Lemma triangle_ok upper R C rs cs ld G (H : list T) : describes rs R -> describes cs C -> length rs <= ld -> stores rs cs ld G H ->
  exists H', dist_triangle half zero upper R C ld H = Ok H' /\ length H' = length H /\
    stores rs cs ld (fun g h => if g =? h then half (G g h) else if (if upper then h <? g else g <? h) then zero else G g h) H' /\
    (forall k, padding (length rs) (length cs) ld k -> nth_error H' k = nth_error H k).
Proof.
  intros HR HC Hld HS.
  assert (X : forall (l : list nat) a, a < length l -> nth_error l a = Some (nth a l 0)) by (intros; now apply nth_error_nth').
  assert (Hlen : forall a b, a < length rs -> b < length cs -> a + b * ld < length H).
  { intros a b Ha Hb. apply nth_error_Some. rewrite (HS a b _ _ (X _ _ Ha) (X _ _ Hb)). discriminate. }
  destruct (tiles_spec R C rs cs ld (fun g h => if h =? g then Some half else if (if upper then h <? g else g <? h) then Some (fun _ => zero) else None) H HR HC Hld Hlen) as (H' & E & L & P).
  exists H'. split; [exact E|]. split; [exact L|]. split.
  - intros a b g h Ha Hb. rewrite P. erewrite tile_tgt_at by eauto. rewrite (HS a b g h Ha Hb), (Nat.eqb_sym h g).
    destruct (g =? h); [reflexivity|]. destruct (if upper then h <? g else g <? h); reflexivity.
  - intros k Hk. rewrite P. unfold tile_tgt. destruct Hk as [Hk|Hk].
    + rewrite (proj2 (nth_error_None rs (k mod ld))) by lia. reflexivity.
    + rewrite (proj2 (nth_error_None cs (k / ld))) by lia. destruct (nth_error rs _); reflexivity.
Qed.

(** The whole operation, on all processes of the grid. *)
Lemma dist_symherm_ok upper (R C : nat -> dim) G (H : nat -> nat -> list T) :
  (forall x, add x (cj zero) = x) -> (forall x, add zero x = x) ->
  (forall i, i < p -> bc_ctor N mb p 0 i = Ok (R i)) -> (forall j, j < q -> bc_ctor N nb q 0 j = Ok (C j)) ->
  stores_grid p q rows cols (fun i _ => length (rows i)) G H ->
  exists H1 H2, (forall i j, i < p -> j < q -> dist_triangle half zero upper (R i) (C j) (length (rows i)) (H i j) = Ok (H1 i j)) /\
    (forall i j, i < p -> j < q ->
       dist_symherm_finish cj add zero mb nb p q (fun i _ => length (rows i)) H1 (rows i) (cols j) i j (length (rows i)) (length (cols j)) = Ok (H2 i j)) /\
    stores_grid p q rows cols (fun i _ => length (rows i))
      (fun g h => if g =? h then add (half (G g g)) (cj (half (G g g))) else if (if upper then h <? g else g <? h) then cj (G h g) else G g h) H2.
Proof.
  intros A1 A2 HR HC HS.
  set (H1 := fun i j => match dist_triangle half zero upper (R i) (C j) (length (rows i)) (H i j) with Ok x => x | _ => [] end).
  set (G1 := fun g h => if g =? h then half (G g h) else if (if upper then h <? g else g <? h) then zero else G g h).
  assert (E1 : forall i j, i < p -> j < q -> dist_triangle half zero upper (R i) (C j) (length (rows i)) (H i j) = Ok (H1 i j) /\
    stores (rows i) (cols j) (length (rows i)) G1 (H1 i j)).
  { intros i j Hi Hj. destruct (triangle_ok upper (R i) (C j) (rows i) (cols j) (length (rows i)) G (H i j)) as (x & E & _ & S & _).
    - apply (bc_describes N mb p 0 i); auto. - apply (bc_describes N nb q 0 j); auto. - lia. - now apply HS.
    - unfold H1. rewrite E. auto. }
  assert (S1 : stores_grid p q rows cols (fun i _ => length (rows i)) G1 H1) by (intros i j Hi Hj; now apply E1).
  set (H2 := fun i j => match dist_symherm_finish cj add zero mb nb p q (fun i _ => length (rows i)) H1 (rows i) (cols j) i j (length (rows i)) (length (cols j)) with Ok x => x | _ => [] end).
  assert (E2 : forall i j, i < p -> j < q ->
    dist_symherm_finish cj add zero mb nb p q (fun i _ => length (rows i)) H1 (rows i) (cols j) i j (length (rows i)) (length (cols j)) = Ok (H2 i j) /\
    stores (rows i) (cols j) (length (rows i)) (fun g h => add (G1 g h) (cj (G1 h g))) (H2 i j)).
  { intros i j Hi Hj. destruct (ptranc_ok G1 H1 i j Hi Hj S1) as (tmp & E & St).
    destruct (addtmp_ok (rows i) (cols j) (length (rows i)) _ _ (H1 i j) tmp ltac:(lia) (S1 i j Hi Hj) St) as (x & E' & _ & S & _).
    unfold H2, dist_symherm_finish. rewrite E. cbn [bind]. rewrite E'. auto. }
  exists H1, H2. split; [intros; now apply E1|]. split; [intros; now apply E2|].
  intros i j Hi Hj a b g h Ha Hb. rewrite (proj2 (E2 i j Hi Hj) a b g h Ha Hb). f_equal. unfold G1. rewrite (Nat.eqb_sym h g).
  destruct (Nat.eqb_spec g h) as [->|Ne]; [reflexivity|].
  destruct upper; destruct (Nat.ltb_spec h g), (Nat.ltb_spec g h); try lia; rewrite ?A1, ?A2; reflexivity.
Qed.
End DSym.
