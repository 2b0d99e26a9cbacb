(** Orthonormality of the vector block on the in-place backend and on the device of the single-GPU backend. *)
From Coq Require Import List Arith ZArith Bool Lia Permutation.
Require Import Verif.Base Verif.AlgModel Verif.AlgSpec Verif.AlgProofs1 Verif.AlgProofs4 Verif.AlgKeep Verif.AlgLast Verif.DlaModel Verif.ColModel Verif.ColSpec
  Verif.ColProofs1 Verif.ColProofs2 Verif.ColProofs3 Verif.InplProofs Verif.ColOrth Verif.GpuModel Verif.GpuSpec Verif.GpuProofs1 Verif.GpuProofs2
  Verif.AlgSim Verif.AlgSim2 Verif.DlaSim Verif.BackSpec.
Import ListNotations.

Section Orth.
Context {F V M G T : Type} (fo : fops F) (bl : blas F V M G T) (qe : qr_env F) (td : tridiag F) (nev nex : nat) (H0 : M).
Local Notation n := (nev + nex).
Context (on : list V -> Prop) (tri : list V -> list V -> Prop) (Ray : F -> V -> Prop).
Hypothesis RU : on_rules fo (gram_swapped bl) H0 n on tri Ray.
Local Notation ist := (ist (V := V) (M := M)).
Local Notation st := (cm (D := ist)).
Local Notation iJ0 := (iJ0 fo bl nev nex H0).
Local Notation iJ := (iJ fo bl nev nex H0).
Local Notation iJr := (iJr fo bl nev nex H0).

(** one orthonormalisation attempt *)
Definition iattempt (l : nat) (s d : ist) (i : Z) : Prop := ilen n d /\ is_H d = is_H s /\ is_sw d = is_sw s /\ l <= n /\
  firstn l (is_V2 d) = firstn l (is_V1 s) /\ tri (is_V1 s) (is_V1 d) /\ (i = 0%Z -> on (is_V1 d)) /\ (i <> 0%Z -> is_V1 d = is_V1 s).

Ltac neqb H := match type of H with context [negb (?i =? 0)%Z] => let E := fresh "E" in destruct (i =? 0)%Z eqn:E; cbn [negb] in H; [apply Z.eqb_eq in E|apply Z.eqb_neq in E] end.
Ltac sv H s0 := apply bind_ok in H as (s0 & ?H & H); match goal with X : i_save _ _ = Ok s0 |- _ => apply (i_save_inv nev nex) in X as (?A & ?A & ?A & ?A & ?A & ?A); auto end.

Lemma hh_attempt l s d : ilen n s -> i_hhqr bl n l s = Ok d -> iattempt l s d 0.
Proof.
  intros HL H. unfold i_hhqr in H. apply bind_ok in H as (s0 & H1 & H). apply (i_save_inv nev nex) in H1 as (A1 & A2 & A3 & A4 & A5 & A6); auto.
  apply (i_set_inv nev nex) in H as (B1 & B2 & B3 & B4 & B5); auto.
  destruct (r_hh _ _ _ _ _ _ _ RU (is_V1 s)) as (T1 & O1); [apply HL|]. rewrite A3 in B5.
  unfold iattempt. rewrite B3, B2, B4, B5. repeat split; auto; try congruence; try apply B1; try easy.
Qed.
Lemma c1_attempt l s d i : ilen n s -> i_chol1 bl n l s = Ok (i, d) -> iattempt l s d i.
Proof.
  intros HL H. unfold i_chol1 in H. apply bind_ok in H as (s0 & H1 & H). apply (i_save_inv nev nex) in H1 as (A1 & A2 & A3 & A4 & A5 & A6); auto.
  apply bind_ok in H as ([i1 R] & H2 & H). apply (i_factor_inv bl nev nex) in H2; auto. cbn in H2. rewrite A3 in H2. neqb H.
  - subst i1. apply bind_ok in H as (s1 & H3 & H). injection H as <- <-. apply (i_set_inv nev nex) in H3 as (B1 & B2 & B3 & B4 & B5); auto.
    destruct (r_fac _ _ _ _ _ _ _ RU (is_V1 s) R) as (T1 & O1); [apply HL|exact H2|]. rewrite A3 in B5.
    unfold iattempt. rewrite B3, B2, B4, B5. repeat split; auto; try congruence; try apply B1; try easy.
  - injection H as <- <-. unfold iattempt. rewrite A3. repeat split; auto; try apply A1; try apply (tri_refl _ _ _ _ _ _ _ RU); try easy.
Qed.

(** both double steps: [ret] picks the value that is returned *)
Lemma second_step (s1 s2 : ist) R2 i2 : ilen n s1 -> on (is_V1 s1) -> i_factor bl n false s1 = Ok (i2, R2) -> i_set n s1 (b_trsm bl R2) = Ok s2 ->
  i2 = 0%Z /\ ilen n s2 /\ is_H s2 = is_H s1 /\ is_V2 s2 = is_V2 s1 /\ is_sw s2 = is_sw s1 /\ tri (is_V1 s1) (is_V1 s2) /\ on (is_V1 s2).
Proof.
  intros HL Ho HF HS. apply (i_factor_inv bl nev nex) in HF; auto. cbn in HF.
  apply (i_set_inv nev nex) in HS as (B1 & B2 & B3 & B4 & B5); auto.
  pose proof (r_again _ _ _ _ _ _ _ RU (is_V1 s1) ltac:(apply HL) Ho) as Z2. cbn in Z2. rewrite HF in Z2. cbn in Z2. subst i2.
  destruct (r_fac _ _ _ _ _ _ _ RU (is_V1 s1) R2) as (T1 & O1); [apply HL|exact HF|]. rewrite B5. repeat split; auto; apply B1.
Qed.
Lemma c2_first l s s0 s1 R : ilen n s -> i_save l s = Ok s0 -> i_factor bl n false s0 = Ok (0%Z, R) -> i_set n s0 (b_trsm bl R) = Ok s1 -> iattempt l s s1 0.
Proof.
  intros HL H1 H2 H3. apply (c1_attempt l); auto. unfold i_chol1. rewrite H1. cbn [bind]. rewrite H2. cbn [bind]. cbn. rewrite H3. reflexivity.
Qed.
Lemma join_attempt l s s1 s2 : iattempt l s s1 0 -> ilen n s2 -> is_H s2 = is_H s1 -> is_V2 s2 = is_V2 s1 -> is_sw s2 = is_sw s1 ->
  tri (is_V1 s1) (is_V1 s2) -> on (is_V1 s2) -> iattempt l s s2 0.
Proof.
  intros (A1 & A2 & A3 & A4 & A5 & A6 & A7 & A8) B1 B2 B3 B4 B5 B6. unfold iattempt. rewrite B2, B3, B4. repeat split; auto; try apply B1; try easy.
  eapply (tri_trans _ _ _ _ _ _ _ RU); eauto.
Qed.
Lemma fail_attempt l s s0 i : ilen n s -> i_save l s = Ok s0 -> i <> 0%Z -> iattempt l s s0 i.
Proof.
  intros HL H1 E. apply (i_save_inv nev nex) in H1 as (A1 & A2 & A3 & A4 & A5 & A6); auto.
  unfold iattempt. rewrite A3. repeat split; auto; try apply A1; try apply (tri_refl _ _ _ _ _ _ _ RU); try easy.
Qed.
Lemma save_len l (s s0 : ist) : ilen n s -> i_save l s = Ok s0 -> ilen n s0 /\ is_V1 s0 = is_V1 s.
Proof. intros HL H. apply (i_save_inv nev nex) in H as (A1 & A2 & A3 & _); auto. Qed.

Lemma c2_attempt l s d i : ilen n s -> i_chol2 bl n l s = Ok (i, d) -> iattempt l s d i.
Proof.
  intros HL H. unfold i_chol2 in H. apply bind_ok in H as (s0 & H1 & H). apply bind_ok in H as ([i1 R] & H2 & H). neqb H.
  - subst i1. apply bind_ok in H as (s1 & H3 & H). pose proof (c2_first l s s0 s1 R HL H1 H2 H3) as AT.
    apply bind_ok in H as ([i2 R2] & H4 & H). apply bind_ok in H as (s2 & H5 & H). injection H as <- <-.
    destruct (second_step s1 s2 R2 i2) as (-> & B1 & B2 & B3 & B4 & B5 & B6); auto; try apply AT; auto. eapply join_attempt; eauto.
  - injection H as <- <-. now apply fail_attempt.
Qed.
Lemma dc2_attempt l s d i : ilen n s -> dv_chol2 bl n l s = Ok (i, d) -> iattempt l s d i.
Proof.
  intros HL H. unfold dv_chol2 in H. apply bind_ok in H as (s0 & H1 & H). apply bind_ok in H as ([i1 R] & H2 & H). neqb H.
  - subst i1. apply bind_ok in H as (s1 & H3 & H). pose proof (c2_first l s s0 s1 R HL H1 H2 H3) as AT.
    apply bind_ok in H as ([i2 R2] & H4 & H). apply bind_ok in H as (s2 & H5 & H). injection H as <- <-.
    destruct (second_step s1 s2 R2 i2) as (_ & B1 & B2 & B3 & B4 & B5 & B6); auto; try apply AT; auto. eapply join_attempt; eauto.
  - injection H as <- <-. now apply fail_attempt.
Qed.

(** the first two steps of the shifted variant when the second factorisation does not fail *)
Lemma sc2_first l s s0 s1 s2 R i2 R2 : ilen n s -> late_ist bl n s = false -> i_save l s = Ok s0 -> i_factor bl n true s0 = Ok (0%Z, R) -> i_set n s0 (b_trsm bl R) = Ok s1 ->
  i_factor bl n false s1 = Ok (i2, R2) -> i2 = 0%Z /\ (i_set n s1 (b_trsm bl R2) = Ok s2 -> iattempt l s s2 0).
Proof.
  intros HL LT H1 H2 H3 H4. apply (i_save_inv nev nex) in H1 as (A1 & A2 & A3 & A4 & A5 & A6); auto.
  apply (i_factor_inv bl nev nex) in H2; auto. cbn in H2. rewrite A3 in H2.
  apply (i_set_inv nev nex) in H3 as (B1 & B2 & B3 & B4 & B5); auto. apply (i_factor_inv bl nev nex) in H4; auto. cbn in H4. rewrite A3 in B5.
  assert (i2 = 0%Z).
  { unfold late_ist, late_block in LT. rewrite H2 in LT. cbn [Z.eqb andb] in LT. rewrite <- B5, H4 in LT. cbn [fst] in LT. apply negb_false_iff, Z.eqb_eq in LT. exact LT. }
  subst i2. split; auto. intros H5. apply (i_set_inv nev nex) in H5 as (C1 & C2 & C3 & C4 & C5); auto.
  pose proof (r_shift _ _ _ _ _ _ _ RU (is_V1 s) R ltac:(apply HL) H2) as T1. cbn in T1. rewrite <- B5 in T1.
  destruct (r_fac _ _ _ _ _ _ _ RU (is_V1 s1) R2) as (T2 & O2); [apply B1|exact H4|]. cbn in T2, O2. rewrite <- C5 in T2, O2.
  unfold iattempt. rewrite C2, C3, C4, B2, B3, B4. repeat split; auto; try apply C1; try easy. eapply (tri_trans _ _ _ _ _ _ _ RU); eauto.
Qed.
Lemma sc2_attempt l s d i : ilen n s -> late_ist bl n s = false -> i_schol2 bl n l s = Ok (i, d) -> iattempt l s d i.
Proof.
  intros HL LT H. unfold i_schol2 in H. apply bind_ok in H as (s0 & H1 & H). apply bind_ok in H as ([i1 R] & H2 & H). neqb H.
  - subst i1. apply bind_ok in H as (s1 & H3 & H). apply bind_ok in H as ([i2 R2] & H4 & H).
    destruct (sc2_first l s s0 s1 s1 R i2 R2 HL LT H1 H2 H3 H4) as (-> & _). cbn in H. apply bind_ok in H as (s2 & H5 & H).
    pose proof (proj2 (sc2_first l s s0 s1 s2 R 0%Z R2 HL LT H1 H2 H3 H4) H5) as AT.
    apply bind_ok in H as ([i3 R3] & H6 & H). apply bind_ok in H as (s3 & H7 & H). injection H as <- <-.
    destruct (second_step s2 s3 R3 i3) as (-> & B1 & B2 & B3 & B4 & B5 & B6); auto; try apply AT; auto. eapply join_attempt; eauto.
  - injection H as <- <-. now apply fail_attempt.
Qed.
Lemma dsc2_attempt l s d i : ilen n s -> late_ist bl n s = false -> dv_schol2 bl n l s = Ok (i, d) -> iattempt l s d i.
Proof.
  intros HL LT H. unfold dv_schol2 in H. apply bind_ok in H as (s0 & H1 & H). apply bind_ok in H as ([i1 R] & H2 & H). neqb H.
  - subst i1. apply bind_ok in H as (s1 & H3 & H). apply bind_ok in H as ([i2 R2] & H4 & H).
    destruct (sc2_first l s s0 s1 s1 R i2 R2 HL LT H1 H2 H3 H4) as (-> & _). cbn in H. apply bind_ok in H as (s2 & H5 & H).
    pose proof (proj2 (sc2_first l s s0 s1 s2 R 0%Z R2 HL LT H1 H2 H3 H4) H5) as AT.
    apply bind_ok in H as ([i3 R3] & H6 & H). apply bind_ok in H as (s3 & H7 & H). injection H as <- <-.
    destruct (second_step s2 s3 R3 i3) as (_ & B1 & B2 & B3 & B4 & B5 & B6); auto; try apply AT; auto. eapply join_attempt; eauto.
  - injection H as <- <-. now apply fail_attempt.
Qed.

(** whichever variant runs, the result is orthonormal and continues the locked columns *)
Record ist_rules (L : dla F ist) : Prop := {
  il_hh : forall l s d, ilen n s -> d_hhqr L l s = Ok d -> iattempt l s d 0;
  il_c1 : forall l s d i, ilen n s -> d_chol1 L l s = Ok (i, d) -> iattempt l s d i;
  il_c2 : forall l s d i, ilen n s -> d_chol2 L l s = Ok (i, d) -> iattempt l s d i;
  il_s2 : forall l s d i, ilen n s -> d_schol2 L l s = Ok (i, d) -> iattempt l s d i;
  il_lock : d_lockcopy L = i_lockcopy; il_rr : d_rr L = i_rr bl; il_swap : d_swap L = i_swap; il_end : d_end L = fun s => Ok s
}.
Lemma ist_qr L f c (s s' : st) : ist_rules L -> ilen n (cm_dla s) -> cm_qr fo qe L f c s = Ok s' ->
  exists d, iattempt (cm_locked s) (cm_dla s) d 0 /\ cm_locked s' = cm_locked s /\
    cm_dla s' = mk_ist (is_H (cm_dla s)) (firstn (cm_locked s) (is_V1 (cm_dla s)) ++ skipn (cm_locked s) (is_V1 d)) (is_V2 d) (is_sw (cm_dla s)).
Proof.
  intros IL HL H. unfold cm_qr in H. cbv zeta in H. set (l := cm_locked s) in *. apply bind_ok in H as ([hh d] & Hd & H). exists d.
  assert (AT : iattempt l (cm_dla s) d 0).
  { match type of Hd with (if ?c then _ else _) = _ => destruct c end.
    - apply bind_ok in Hd as (d1 & H1 & Hd). injection Hd as _ <-. eapply il_hh; eauto.
    - apply bind_ok in Hd as ([i d1] & H1 & Hd).
      assert (X : iattempt l (cm_dla s) d1 i).
      { match type of H1 with (if ?c then _ else _) = _ => destruct c; [eapply il_s2; eauto|] end.
        match type of H1 with (if ?c then _ else _) = _ => destruct c; [eapply il_c1; eauto|eapply il_c2; eauto] end. }
      destruct (i =? 0)%Z eqn:E; [apply Z.eqb_eq in E; subst i; injection Hd as _ <-; auto|]. apply Z.eqb_neq in E.
      destruct X as (A1 & A2 & A3 & A4 & A5 & A6 & A7 & A8). specialize (A8 E).
      apply bind_ok in Hd as (d2 & H2 & Hd). injection Hd as _ <-.
      apply (il_hh L IL) in H2 as (B1 & B2 & B3 & B4 & B5 & B6 & B7 & B8); auto. rewrite A8 in *.
      unfold iattempt. rewrite B2, B3. repeat split; auto; try apply B1; easy. }
  split; auto. destruct AT as ((A1 & A1') & A2 & A3 & A4 & A5 & A6 & A7 & A8). apply lift_inv in H as (d' & H & ->). cbn [cm_locked cm_dla]. split; auto.
  rewrite (il_lock L IL) in H. unfold i_lockcopy in H. apply bind_ok in H as (x & Hx & H). pose proof (get_range_len _ _ _ _ Hx) as Lx.
  apply get_range_inv in Hx as [_ ->]. apply bind_ok in H as (v & Hv & H). injection H as <-. apply put_range_inv in Hv as [_ ->].
  cbn [firstn skipn app] in *. rewrite Lx, A2, A3. cbn [Nat.add]. now rewrite A5.
Qed.
Lemma ist_keeps L : ist_rules L -> qr_keeps_cols fo qe nev nex L.
Proof.
  intros IL f c s s' HL H. destruct (ist_qr L f c s s' IL HL H) as (d & ((A1 & A1') & A2 & A3 & A4 & A5 & A6 & A7 & A8) & E & ->).
  cbn. rewrite E. destruct HL as (L1 & L2). unfold ilen. cbn. repeat split; auto.
  - rewrite app_length, firstn_length, skipn_length. lia.
  - rewrite firstn_app, firstn_firstn, firstn_length. replace (_ - _) with 0 by lia. cbn [firstn]. rewrite app_nil_r, Nat.min_id. auto.
Qed.
Lemma ist_on L f c (s s' : st) : ist_rules L -> ilen n (cm_dla s) -> on (firstn (cm_locked s) (is_V1 (cm_dla s))) -> cm_qr fo qe L f c s = Ok s' -> on (is_V1 (cm_dla s')).
Proof.
  intros IL HL Ho H. destruct (ist_qr L f c s s' IL HL H) as (d & ((A1 & A1') & A2 & A3 & A4 & A5 & A6 & A7 & A8) & E & ->).
  cbn. apply (on_join _ _ _ _ _ _ _ RU); auto. apply HL.
Qed.

Definition pJ l (s : st) : Prop := iJ l s /\ (l = 0 \/ on (is_V1 (cm_dla s))).
Definition pJf l (s : st) : Prop := iJ l s /\ on (firstn l (is_V1 (cm_dla s))).
Definition pJr l (s : st) : Prop := iJr l s /\ on (is_V1 (cm_dla s)).

Lemma drift_swapped h : drift fo bl H0 h -> drift fo (gram_swapped bl) H0 h.
Proof. induction 1; [constructor|]. now apply (drift_S fo (gram_swapped bl) H0 h c). Qed.
Lemma ist_rr_on L l (s : st) v s' : ist_rules L -> pJr l s -> l <= n -> k_rr (cmK fo qe td L nev nex) (n - l) s = Ok (v, s') ->
  on (is_V1 (cm_dla s')) /\ Forall2 Ray v (skipn l (is_V1 (cm_dla s'))).
Proof.
  intros IL (((A & (L1 & L2) & C) & Hl' & D) & Hon) Hl H. cbn [cmK k_rr] in H. rewrite A, (il_rr L IL) in H. apply lift_v_inv in H as (d & E & ->).
  unfold i_rr in E. apply bind_ok in E as (c & Hc & E). pose proof (get_range_len _ _ _ _ Hc) as Lc. apply get_range_inv in Hc as [_ ->]. cbv zeta in E.
  apply bind_ok in E as (v2 & Hv & E). injection E as <- <-. pose proof (put_range_length _ _ _ _ Hv) as Lv.
  apply put_range_upto in Hv as UV. rewrite map_length, seq_length in UV. replace (l + (n - l)) with n in UV by lia. rewrite (firstn_all2 v2) in UV by lia.
  assert (CC : firstn (n - l) (skipn l (is_V1 (cm_dla s))) = skipn l (is_V1 (cm_dla s))) by (apply firstn_all2; rewrite skipn_length; lia).
  rewrite CC in *. rewrite D in UV. cbn. destruct (r_rr _ _ _ _ _ _ _ RU (is_H (cm_dla s)) (is_V1 (cm_dla s)) l (drift_swapped _ C) L1 Hl Hon) as (R1 & R2). cbn in R1, R2.
  rewrite UV. split; [exact R1|]. rewrite skipn_pre by lia.
  assert (Z : forall q, (forall a, In a q -> a < n - l) -> Forall2 (fun a b => a = b /\ a < n - l) q q).
  { induction q; constructor; [split; auto; apply H; simpl; auto|apply IHq; intros; apply H; simpl; auto]. }
  assert (ZZ : Forall2 (fun a b => a = b /\ a < n - l) (seq 0 (n - l)) (seq 0 (n - l))) by (apply Z; intros a Ha; apply in_seq in Ha; lia).
  revert ZZ. generalize (seq 0 (n - l)) at 1 3. generalize (seq 0 (n - l)). intros q1 q2 HF. induction HF as [|a b q1 q2 [-> Ha]]; constructor; auto.
Qed.

Lemma ist_orth_cols L : ist_rules L ->
  kernel_cols fo (cmK fo qe td L nev nex) n (fun s => is_V1 (cm_dla s)) iJ0 iJ iJ iJr (ritz_pair_inpl fo bl H0) (ritz_resid fo bl H0) ->
  kernel_cols fo (cmK fo qe td L nev nex) n (fun s => is_V1 (cm_dla s)) iJ0 pJ pJf pJr (fun v x => ritz_pair_inpl fo bl H0 v x /\ Ray v x) (ritz_resid fo bl H0).
Proof.
  intros IL [A1 A2 A3 A4 A5 A6 A7 A8 A9 B1 B2 B3 B4 B5 B6 B7 B8].
  assert (ZR : forall s, iJ 0 s -> pJ 0 s) by (intros s X; split; auto).
  assert (SW : forall (s : st) l i j, iJ l s -> on (is_V1 (cm_dla s)) -> i < n -> j < n -> on (swp (is_V1 (cm_dla s)) i j)).
  { intros s l i j (_ & (X & _) & _) Y Hi Hj. apply (on_swp _ _ _ _ _ _ _ RU); auto; lia. }
  split.
  - intros l s (X & _). exact (A1 l s X).
  - intros l s (X & Y). split; auto.
  - intros l s (X & Y). split; auto. destruct Y as [->|Y]; [apply (on_nil _ _ _ _ _ _ _ RU)|apply (on_pre _ _ _ _ _ _ _ RU); auto].
  - exact A4.
  - intros s s' X H. apply ZR. eapply A5; eauto.
  - intros r s s' (X & _) H. apply ZR. eapply A6; eauto.
  - intros m s u s' (X & _) H. apply ZR. eapply A7; eauto.
  - intros m nv s u a b c s' (X & _) H. apply ZR. eapply A8; eauto.
  - intros idx m rv s s' (X & _) H. apply ZR. eapply A9; eauto.
  - intros l k deg degs la lo up s av s' (X & Y) FA H. destruct (B1 l k deg degs la lo up s av s' X FA H) as (P & Q).
    split; auto. split; auto. rewrite Q. destruct Y as [->|Y]; [apply (on_nil _ _ _ _ _ _ _ RU)|apply (on_pre _ _ _ _ _ _ _ RU); auto].
  - intros l c s s' (X & Y) H. destruct (B2 l c s s' X H) as (P & Q). split; auto. split; auto.
    destruct X as (X1 & X2 & X3). cbn [cmK k_qr] in H. eapply ist_on; [exact IL|exact X2|rewrite X1; exact Y|exact H].
  - intros l s v s' X Hl H. destruct (B3 l s v s' (proj1 X) Hl H) as (P & Q & R). destruct (ist_rr_on L l s v s' IL X Hl H) as (O1 & O2).
    split; [split; auto|]. split; auto. clear -R O2. induction R; inversion O2; subst; constructor; auto.
  - intros l v r s s' (X & Y) Hl H. destruct (B4 l v r s s' X Hl H) as (P & Q & R & S). split; [split; auto; rewrite Q; auto|auto].
  - intros l i j s s' (X & Y) Hi Hj H. destruct (B5 l i j s s' X Hi Hj H) as (P & Q). split; auto. split; auto.
    destruct Y as [Y|Y]; auto. right. rewrite Q. eapply SW; eauto.
  - intros l i j s s' (X & Y) Hi Hj H. destruct (B6 l i j s s' X Hi Hj H) as (P & Q). split; auto. split; auto.
    rewrite Q. eapply SW; eauto; lia.
  - intros l m s s' (X & Y) H. destruct (B7 l m s s' X H) as (P & Q). split; auto. split; auto. right. rewrite Q. auto.
  - intros l s s' (X & Y) H. destruct (B8 l s s' X H) as (P & Q). split; auto. split; auto. rewrite Q. auto.
Qed.

(** *** whole runs *)
Context (sort_idx : list F -> list nat) (Hperm : forall keys, Permutation (sort_idx keys) (seq 0 (length keys))).
Lemma ist_end_on L fsort cf k ritzv resid o s : nev = c_nev cf -> nex = c_nex cf -> ist_rules L ->
  kernel_cols fo (cmK fo qe td L nev nex) n (fun s => is_V1 (cm_dla s)) iJ0 iJ iJ iJr (ritz_pair_inpl fo bl H0) (ritz_resid fo bl H0) ->
  conf_ok cf -> iJ0 k -> 1 <= c_maxiter cf ->
  solve fo (cmK fo qe td L nev nex) fsort sort_idx cf k ritzv resid = Ok o -> o_exit o = Some s -> on (is_V1 (cm_dla (o_k o))) /\ length (is_V1 (cm_dla (o_k o))) = n.
Proof.
  intros En Ex IL KC HC HJ Hm H Hx. pose proof (ist_orth_cols L IL KC) as KO.
  destruct (solve_last fo _ sort_idx Hperm n _ _ _ _ _ (cols_keep _ _ _ _ _ _ _ _ _ _ KO) fsort cf k ritzv resid o s) as (l & k4 & m & sw & k' & J4 & L4 & Hr & Hs & He); auto.
  cbn [cmK k_end] in He. rewrite (il_end L IL) in He. apply lift_inv in He as (d & E & Eo). injection E as <-. rewrite Eo. cbn [cm_dla].
  cbn [cmK k_lock] in L4. injection L4 as L4. assert (X : on (is_V1 (cm_dla (ss_k s))) /\ length (is_V1 (cm_dla (ss_k s))) = n).
  { rewrite <- L4. cbn. destruct J4 as (((_ & (X & _) & _) & _) & O). auto. }
  rewrite <- En in Hr. clear J4 L4 Eo Hx. revert X Hs. generalize (ss_k s). clear -RU Hr IL. induction sw as [|[i j] sw IH]; intros t (X & Y) H; cbn in H.
  - injection H as <-. auto.
  - inversion Hr as [|? ? [Hi Hj] Hr']; subst. cbn in Hi, Hj. apply bind_ok in H as (t' & Ht & H). apply (IH Hr' t'); auto.
    rewrite (il_swap L IL) in Ht. apply lift_inv in Ht as (d & E & ->). unfold i_swap in E.
    apply bind_ok in E as (C' & HC & E). injection E as <-. apply AlgProofs1.swap_inv in HC as (_ & _ & ->). cbn. rewrite swp_length. split; auto.
    apply (on_swp _ _ _ _ _ _ _ RU); auto; lia.
Qed.

(** the two backends, stopped at late failures *)
Lemma inpl_ist_rules : ist_rules (stop_late (late_ist bl n) (inplD fo bl n)).
Proof.
  split; try reflexivity; cbn [stop_late inplD d_hhqr d_chol1 d_chol2 d_schol2]; intros.
  - now apply hh_attempt.
  - now apply c1_attempt.
  - now apply c2_attempt.
  - destruct (late_ist bl n s) eqn:LT; [discriminate|]. now apply sc2_attempt.
Qed.
Lemma dev_ist_rules : ist_rules (stop_late (late_ist bl n) (devD fo bl n)).
Proof.
  split; try reflexivity; cbn [stop_late devD d_hhqr d_chol1 d_chol2 d_schol2]; intros.
  - now apply hh_attempt.
  - now apply c1_attempt.
  - now apply dc2_attempt.
  - destruct (late_ist bl n s) eqn:LT; [discriminate|]. now apply dsc2_attempt.
Qed.
Lemma nl_late s : no_late_failure bl n -> ilen n s -> late_ist bl n s = false.
Proof.
  intros NL (HL & _). unfold late_ist, late_block. destruct (b_potrf bl (b_dshift bl (b_syherk bl (is_V1 s)))) as [i R] eqn:E.
  destruct (i =? 0)%Z eqn:Ei; auto. apply Z.eqb_eq in Ei. subst i. rewrite (NL (is_V1 s) true R HL E). reflexivity.
Qed.
Lemma inpl_nl_rules : no_late_failure bl n -> ist_rules (inplD fo bl n).
Proof.
  intros NL. split; try reflexivity; cbn [inplD d_hhqr d_chol1 d_chol2 d_schol2]; intros.
  - now apply hh_attempt.
  - now apply c1_attempt.
  - now apply c2_attempt.
  - apply sc2_attempt; auto. now apply nl_late.
Qed.
Lemma dev_nl_rules : no_late_failure bl n -> ist_rules (devD fo bl n).
Proof.
  intros NL. split; try reflexivity; cbn [devD d_hhqr d_chol1 d_chol2 d_schol2]; intros.
  - now apply hh_attempt.
  - now apply c1_attempt.
  - now apply dc2_attempt.
  - apply dsc2_attempt; auto. now apply nl_late.
Qed.
Lemma inpl_nl_cols : no_late_failure bl n -> kernel_cols fo (cmK fo qe td (inplD fo bl n) nev nex) n (fun s => is_V1 (cm_dla s)) iJ0 iJ iJ iJr (ritz_pair_inpl fo bl H0) (ritz_resid fo bl H0).
Proof. intros NL. exact (inpl_cols_gen fo bl qe td nev nex H0 _ _ _ _ (ist_keeps _ (inpl_nl_rules NL))). Qed.
Lemma dev_nl_cols : no_late_failure bl n -> kernel_cols fo (cmK fo qe td (devD fo bl n) nev nex) n (fun s => is_V1 (cm_dla s)) iJ0 iJ iJ iJr (ritz_pair_inpl fo bl H0) (ritz_resid fo bl H0).
Proof. intros NL. exact (dev_cols_gen fo bl qe td nev nex H0 _ _ _ _ (ist_keeps _ (dev_nl_rules NL))). Qed.
Lemma inpl_stop_cols : kernel_cols fo (cmK fo qe td (stop_late (late_ist bl n) (inplD fo bl n)) nev nex) n (fun s => is_V1 (cm_dla s)) iJ0 iJ iJ iJr (ritz_pair_inpl fo bl H0) (ritz_resid fo bl H0).
Proof.
  exact (inpl_cols_gen fo bl qe td nev nex H0 _ _ _ (fun l d => if late_ist bl n d then UB else i_schol2 bl n l d) (ist_keeps _ inpl_ist_rules)).
Qed.
Lemma dev_stop_cols : kernel_cols fo (cmK fo qe td (stop_late (late_ist bl n) (devD fo bl n)) nev nex) n (fun s => is_V1 (cm_dla s)) iJ0 iJ iJ iJr (ritz_pair_inpl fo bl H0) (ritz_resid fo bl H0).
Proof.
  exact (dev_cols_gen fo bl qe td nev nex H0 _ _ _ (fun l d => if late_ist bl n d then UB else dv_schol2 bl n l d) (ist_keeps _ dev_ist_rules)).
Qed.
End Orth.

(** the single-GPU backend, stopped at late failures, and its device part *)
Section Gpu.
Context {F V M G T : Type} (fo : fops F) (bl : blas F V M G T) (qe : qr_env F) (td : tridiag F) (cf : conf F).
Local Notation n := (c_nev cf + c_nex cf).
Local Notation gK := (cmK fo qe td (stop_late (late_gst bl (c_nev cf + c_nex cf)) (gpuD fo bl (c_nev cf + c_nex cf))) (c_nev cf) (c_nex cf)).
Local Notation dK := (cmK fo qe td (stop_late (late_ist bl (c_nev cf + c_nex cf)) (devD fo bl (c_nev cf + c_nex cf))) (c_nev cf) (c_nex cf)).
Context (sort_idx : list F -> list nat) (Hperm : forall keys, Permutation (sort_idx keys) (seq 0 (length keys))) (fsort : list F -> list F).
Context (g : cm (D := gst (F := F) (V := V) (M := M))) (HG : glen n (cm_dla g)).
Local Notation H0 := (g_H (cm_dla g)).
Definition bare : cm (D := ist (V := V) (M := M)) :=
  mk_cm (cm_locked g) (mk_ist H0 (is_V1 (g_dev (cm_dla g))) (is_V2 (g_dev (cm_dla g))) (is_sw (g_dev (cm_dla g)))).
Local Notation R0 := (cmR (dev0 (c_nev cf) (c_nex cf) H0)).
Local Notation R1 := (cmR (dev1 (c_nev cf) (c_nex cf) H0)).
Local Notation R2 := (cmR (dev2 (c_nev cf) (c_nex cf) H0)).

Lemma stop_run_rel : run_rel gK dK n R0 R1 R2.
Proof.
  destruct (gpu_run_rel fo bl qe td (c_nev cf) (c_nex cf) H0) as [A1 A2 A3 _ A5 A6].
  split; [exact A1|exact A2|exact A3| |exact A5|exact A6].
  apply cm_core_rel. destruct (dev_rel fo bl (c_nev cf) (c_nex cf) H0) as [B1 B2 B3 B4 B5 B6 B7 B8 B9 B10 B11].
  split; try assumption. intros l s t H. cbn [stop_late d_schol2]. unfold late_gst, late_ist. pose proof H as (_ & _ & E). rewrite E.
  destruct (late_block bl n (is_V1 t)); [exact I|]. exact (B6 l s t H).
Qed.
Lemma stop_to_bare ritzv resid o : solve fo gK fsort sort_idx cf g ritzv resid = Ok o ->
  exists o', solve fo dK fsort sort_idx cf bare ritzv resid = Ok o' /\ outR2 R0 R1 R2 o o'.
Proof.
  intros H. pose proof (solve_run fo gK dK cf R0 R1 R2 sort_idx Hperm stop_run_rel fsort g bare ritzv resid (bare_rel cf g HG)) as X.
  rewrite H in X. destruct (solve fo dK fsort sort_idx cf bare ritzv resid) as [o'| |]; try easy. exists o'. split; auto.
Qed.
End Gpu.
