(** Orthonormality of the vector block, for any notion of orthonormal list of columns that the oracles respect.  [tri old new]
    stands for: each old column is a combination of the new columns up to the same position. *)
From Coq Require Import List Arith ZArith Bool Lia Permutation.
Require Import Verif.Base Verif.AlgModel Verif.AlgSpec Verif.AlgProofs1 Verif.AlgProofs4 Verif.AlgKeep Verif.AlgLast Verif.AlgMono Verif.DlaModel Verif.ColModel Verif.ColSpec
  Verif.ColProofs1 Verif.ColProofs2 Verif.ColProofs3.
Import ListNotations.

Record on_rules {F V M G T : Type} (fo : fops F) (bl : blas F V M G T) (H0 : M) (n : nat) (on : list V -> Prop)
  (tri : list V -> list V -> Prop) (Ray : F -> V -> Prop) : Prop := {
  on_swp : forall cs i j, on cs -> i < length cs -> j < length cs -> on (swp cs i j);
  on_pre : forall cs l, on cs -> on (firstn l cs);
  on_nil : on [];
  tri_refl : forall cs, tri cs cs;
  tri_trans : forall a b c, tri a b -> tri b c -> tri a c;
  on_join : forall old new l, length old = n -> length new = n -> l <= n -> tri old new -> on new -> on (firstn l old) ->
            on (firstn l old ++ skipn l new);
  r_hh : forall cs, length cs = n -> tri cs (map (b_hh bl cs) (seq 0 n)) /\ on (map (b_hh bl cs) (seq 0 n));
  r_fac : forall cs R, length cs = n -> b_potrf bl (b_syherk bl cs) = (0%Z, R) ->
            tri cs (map (b_trsm bl R cs) (seq 0 n)) /\ on (map (b_trsm bl R cs) (seq 0 n));
  r_shift : forall cs R, length cs = n -> b_potrf bl (b_dshift bl (b_syherk bl cs)) = (0%Z, R) -> tri cs (map (b_trsm bl R cs) (seq 0 n));
  r_again : forall cs, length cs = n -> on cs -> fst (b_potrf bl (b_syherk bl cs)) = 0%Z;
  r_rr : forall h cs l, drift fo bl H0 h -> length cs = n -> l <= n -> on cs ->
            let A := b_gram bl (skipn l cs) (map (b_mulH bl h) (skipn l cs)) in
            on (firstn l cs ++ map (b_comb bl (skipn l cs) A) (seq 0 (n - l))) /\
            forall j, j < n - l -> Ray (b_eval bl A j) (b_comb bl (skipn l cs) A j)
}.

Section Orth.
Context {F V M G T : Type} (fo : fops F) (bl : blas F V M G T) (qe : qr_env F) (td : tridiag F) (nev nex : nat) (H0 : M).
Let n := nev + nex.
Context (w : nat) (Hw : n <= w) (on : list V -> Prop) (tri : list V -> list V -> Prop) (Ray : F -> V -> Prop).
Hypothesis RU : on_rules fo bl H0 n on tri Ray.
Local Notation seqK := (cmK fo qe td (stop_late (late_failure bl n) (colD fo bl false n)) nev nex).
Local Notation mpiK := (cmK fo qe td (colD fo bl true n) nev nex).
Local Notation plainK := (cmK fo qe td (colD fo bl false n) nev nex).

Lemma set_C_val f (s s' : cst (V := V) (M := M)) : length (cs_C s) = n -> set_C n s f = Ok s' -> cs_C s' = map (f (cs_C s)) (seq 0 n) /\ length (cs_C s') = n.
Proof.
  unfold set_C. intros L H. apply bind_ok in H as (c & Hc & H). apply bind_ok in H as (C & HC & H). injection H as <-. cbn.
  apply get_range_inv in Hc as [_ ->]. cbn [skipn] in *. rewrite (firstn_all2 (cs_C s)) in * by lia.
  pose proof (put_range_length _ _ _ _ HC) as LC. apply put_range_upto in HC. rewrite map_length, seq_length in HC.
  cbn [Nat.add firstn app] in HC. rewrite firstn_all2 in HC by lia. split; [exact HC|lia].
Qed.
Lemma c_factor_val sh (s : cst (V := V) (M := M)) i R : length (cs_C s) = n -> c_factor bl n sh s = Ok (i, R) ->
  b_potrf bl (if sh then b_dshift bl (b_syherk bl (cs_C s)) else b_syherk bl (cs_C s)) = (i, R).
Proof.
  unfold c_factor. intros L H. apply bind_ok in H as (c & Hc & H). injection H as H. apply get_range_inv in Hc as [_ ->].
  cbn [skipn] in H. rewrite (firstn_all2 (cs_C s)) in H by lia. auto.
Qed.

(** one orthonormalisation attempt *)
Definition attempt (s d : cst (V := V) (M := M)) (i : Z) : Prop :=
  length (cs_C d) = n /\ tri (cs_C s) (cs_C d) /\ (i = 0%Z -> on (cs_C d)).

Lemma hhqr_attempt mp l s d : length (cs_C s) = n -> c_hhqr bl mp n l s = Ok d -> attempt s d 0.
Proof.
  intros L H. unfold c_hhqr in H. apply bind_ok in H as (s1 & H1 & H). injection H as <-.
  apply set_C_val in H1 as (E & E'); auto. unfold attempt. cbn. rewrite E'. split; auto. rewrite E. destruct (r_hh _ _ _ _ _ _ _ RU (cs_C s) L); auto.
Qed.
Lemma chol1_attempt l s d i : length (cs_C s) = n -> c_chol1 bl n l s = Ok (i, d) -> attempt s d i.
Proof.
  intros L H. unfold c_chol1 in H. apply bind_ok in H as ([i1 R] & HF & H). apply c_factor_val in HF; auto. cbn in HF.
  destruct (negb (i1 =? 0)%Z) eqn:E.
  - injection H as -> ->. split; auto. split; [apply (tri_refl _ _ _ _ _ _ _ RU)|]. intros ->. discriminate.
  - apply negb_false_iff, Z.eqb_eq in E. subst i1. apply bind_ok in H as (s1 & H1 & H). injection H as <- <-.
    apply set_C_val in H1 as (E & E'); auto. split; auto. rewrite E. destruct (r_fac _ _ _ _ _ _ _ RU (cs_C s) R L HF); auto.
Qed.
Lemma chol2_attempt l s d i : length (cs_C s) = n -> c_chol2 bl n l s = Ok (i, d) -> attempt s d i.
Proof.
  intros L H. unfold c_chol2 in H. apply bind_ok in H as ([i1 R] & HF & H). apply c_factor_val in HF; auto. cbn in HF.
  destruct (negb (i1 =? 0)%Z) eqn:E.
  - injection H as -> ->. split; auto. split; [apply (tri_refl _ _ _ _ _ _ _ RU)|]. intros ->. discriminate.
  - apply negb_false_iff, Z.eqb_eq in E. subst i1. apply bind_ok in H as (s1 & H1 & H).
    apply set_C_val in H1 as (E & E'); auto. destruct (r_fac _ _ _ _ _ _ _ RU (cs_C s) R L HF) as (T1 & O1). rewrite <- E in T1, O1.
    apply bind_ok in H as ([i2 R2] & HF2 & H). apply c_factor_val in HF2; auto. cbn in HF2.
    pose proof (r_again _ _ _ _ _ _ _ RU _ E' O1) as Z2. rewrite HF2 in Z2. cbn in Z2. subst i2.
    apply bind_ok in H as (s2 & H2 & H). injection H as <- <-. apply set_C_val in H2 as (F2 & F2'); auto.
    destruct (r_fac _ _ _ _ _ _ _ RU (cs_C s1) R2 E' HF2) as (T2 & O2). split; auto. rewrite F2. split; auto.
    eapply (tri_trans _ _ _ _ _ _ _ RU); eauto.
Qed.
Lemma schol2_attempt mp l s d i : length (cs_C s) = n -> (mp = false -> late_failure bl n s = false) -> c_schol2 bl mp n l s = Ok (i, d) -> attempt s d i.
Proof.
  intros L LT H. unfold c_schol2 in H. apply bind_ok in H as ([i1 R] & HF & H). apply c_factor_val in HF; auto. cbn in HF.
  destruct (negb (i1 =? 0)%Z) eqn:E.
  - injection H as -> ->. split; auto. split; [apply (tri_refl _ _ _ _ _ _ _ RU)|]. intros ->. discriminate.
  - apply negb_false_iff, Z.eqb_eq in E. subst i1. apply bind_ok in H as (s1 & H1 & H).
    apply set_C_val in H1 as (E & E'); auto. pose proof (r_shift _ _ _ _ _ _ _ RU (cs_C s) R L HF) as T1. rewrite <- E in T1.
    apply bind_ok in H as ([i2 R2] & HF2 & H). apply c_factor_val in HF2; auto. cbn in HF2.
    assert (NL : mp = false -> i2 = 0%Z).
    { intros Em. specialize (LT Em). unfold late_failure in LT. rewrite HF in LT. cbn [Z.eqb andb] in LT. rewrite <- E, HF2 in LT. cbn [fst] in LT.
      apply negb_false_iff, Z.eqb_eq in LT. exact LT. }
    destruct (mp && negb (i2 =? 0)%Z) eqn:E2.
    + injection H as -> ->. split; auto. split; auto. intros ->. rewrite andb_false_r in E2. discriminate.
    + assert (Z2 : i2 = 0%Z) by (destruct mp; [now apply negb_false_iff, Z.eqb_eq in E2|auto]). subst i2. apply bind_ok in H as (s2 & H2 & H).
      apply set_C_val in H2 as (F2 & F2'); auto.
      destruct (r_fac _ _ _ _ _ _ _ RU (cs_C s1) R2 E' HF2) as (T2 & O2). rewrite <- F2 in T2, O2.
      apply bind_ok in H as ([i3 R3] & HF3 & H). apply c_factor_val in HF3; auto. cbn in HF3.
      pose proof (r_again _ _ _ _ _ _ _ RU _ F2' O2) as Z3. rewrite HF3 in Z3. cbn in Z3. subst i3.
      apply bind_ok in H as (s3 & H3 & H). injection H as Hi <-. apply set_C_val in H3 as (F3 & F3'); auto.
      destruct (r_fac _ _ _ _ _ _ _ RU (cs_C s2) R3 F2' HF3) as (T3 & O3). split; auto. rewrite F3. split; auto.
      eapply (tri_trans _ _ _ _ _ _ _ RU); [|exact T3]. eapply (tri_trans _ _ _ _ _ _ _ RU); eauto.
Qed.

(** whichever variant runs *)
Lemma qr_attempt (L : dla F (cst (V := V) (M := M))) f c s s' : length (cs_C (cm_dla s)) = n ->
  (forall l s d, length (cs_C s) = n -> d_hhqr L l s = Ok d -> attempt s d 0 /\ only_C s d) ->
  (forall l s d i, length (cs_C s) = n -> d_chol1 L l s = Ok (i, d) -> attempt s d i /\ only_C s d) ->
  (forall l s d i, length (cs_C s) = n -> d_chol2 L l s = Ok (i, d) -> attempt s d i /\ only_C s d) ->
  (forall l s d i, length (cs_C s) = n -> d_schol2 L l s = Ok (i, d) -> attempt s d i /\ only_C s d) ->
  d_lockcopy L = c_lockcopy n ->
  cm_qr fo qe L f c s = Ok s' ->
  exists d hh, attempt (cm_dla s) d 0 /\ only_C (cm_dla s) d /\ c_lockcopy n (cm_locked s) hh d = Ok (cm_dla s').
Proof.
  intros LC A1 A2 A3 A4 A5 H. unfold cm_qr in H. cbv zeta in H. apply bind_ok in H as ([hh d] & Hd & H).
  apply lift_inv in H as (d' & H & ->). cbn [cm_dla]. rewrite A5 in H. exists d, hh.
  cut (attempt (cm_dla s) d 0 /\ only_C (cm_dla s) d); [tauto|]. clear H A5 d'.
  match type of Hd with (if ?c then _ else _) = _ => destruct c end.
  - apply bind_ok in Hd as (d1 & H1 & Hd). injection Hd as _ <-. eauto.
  - apply bind_ok in Hd as ([i d1] & H1 & Hd).
    assert (O1 : attempt (cm_dla s) d1 i /\ only_C (cm_dla s) d1).
    { match type of H1 with (if ?c then _ else _) = _ => destruct c; [eauto|] end.
      match type of H1 with (if ?c then _ else _) = _ => destruct c; eauto end. }
    destruct O1 as (O1 & O2).
    destruct (i =? 0)%Z eqn:Ei; [injection Hd as _ <-; apply Z.eqb_eq in Ei; subst i; auto|].
    apply bind_ok in Hd as (d2 & H2 & Hd). injection Hd as _ <-. destruct O1 as (X1 & X2 & _).
    apply A1 in H2 as ((Y1 & Y2 & Y3) & O3); auto. split; [|eapply only_C_trans; eauto].
    split; auto. split; auto. eapply (tri_trans _ _ _ _ _ _ _ RU); eauto.
Qed.

Lemma lockcopy_on l hh (s d s' : cst (V := V) (M := M)) : length (cs_C s) = n -> l <= n -> attempt s d 0 -> only_C s d ->
  firstn l (cs_C2 s) = firstn l (cs_C s) -> on (firstn l (cs_C s)) -> c_lockcopy n l hh d = Ok s' -> on (cs_C s').
Proof.
  intros LC Hl (X1 & X2 & X3) (E1 & E2 & E3 & _) EF Hon H. unfold c_lockcopy in H. rewrite E3 in H.
  apply bind_ok in H as (a & Ha & H). pose proof (get_range_len _ _ _ _ Ha) as La. apply get_range_inv in Ha as [_ ->]. cbn [skipn] in *.
  apply bind_ok in H as (C & HC & H). apply bind_ok in H as (b & _ & H). apply bind_ok in H as (C2 & _ & H). injection H as <-. cbn.
  apply put_range_inv in HC as [_ ->]. cbn [firstn app]. rewrite EF in *. rewrite La. cbn [Nat.add].
  apply (on_join _ _ _ _ _ _ _ RU); auto.
Qed.

Definition oJ l (s : cm (D := cst (V := V) (M := M))) : Prop := sJ fo bl nev nex H0 w l s /\ (l = 0 \/ on (cs_C (cm_dla s))).
Definition oJf l (s : cm (D := cst (V := V) (M := M))) : Prop := sJf fo bl nev nex H0 w l s /\ on (firstn l (cs_C (cm_dla s))).
Definition oJr l (s : cm (D := cst (V := V) (M := M))) : Prop := sJr fo bl nev nex H0 w l s /\ on (cs_C (cm_dla s)).

Lemma oJ_zero s : sJ fo bl nev nex H0 w 0 s -> oJ 0 s.
Proof. intros H. split; auto. Qed.
Lemma on_swap (s : cst (V := V) (M := M)) i j : on (cs_C s) -> clen n w s -> i < n -> j < n -> on (swp (cs_C s) i j).
Proof. intros H (L & _) Hi Hj. apply (on_swp _ _ _ _ _ _ _ RU); auto; lia. Qed.

Lemma rr_on mp l (s : cm (D := cst (V := V) (M := M))) v s' : oJr l s -> l <= n ->
  k_rr (cmK fo qe td (colD fo bl mp n) nev nex) (n - l) s = Ok (v, s') ->
  on (cs_C (cm_dla s')) /\ Forall2 Ray v (skipn l (cs_C (cm_dla s'))).
Proof.
  intros ((A & B & C & D) & Hon) Hl H. fold n in B, D. cbn [cmK k_rr] in H. rewrite A in H. apply lift_v_inv in H as (d & E & ->). cbn [colD d_rr] in E. unfold c_rr in E.
  destruct (_ && _) in E; [discriminate|].
  apply bind_ok in E as (s1 & G1 & E). pose proof (gather_inv bl nev nex w Hw _ _ _ _ B G1) as ((L1 & L2 & L3 & L4) & E1 & E2 & E3 & E4 & _ & E5 & E6).
  rewrite E5, E6 in E. cbn [bind] in E. cbv zeta in E. apply bind_ok in E as (c2 & Hc2 & E). pose proof (get_range_len _ _ _ _ Hc2) as Lc2.
  apply get_range_inv in Hc2 as [_ ->]. apply bind_ok in E as (C' & HC & E). apply bind_ok in E as (C2' & HC2 & E). injection E as <- <-.
  pose proof (put_range_length _ _ _ _ HC) as LC'.
  apply put_range_upto in HC as UC. rewrite map_length, seq_length in UC. replace (l + (n - l)) with n in UC by lia.
  fold n in L1. rewrite (firstn_all2 C') in UC by lia. rewrite E2, E3 in *. destruct B as (LB & _). fold n in LB.
  assert (CC : firstn (n - l) (skipn l (cs_C2 (cm_dla s))) = skipn l (cs_C (cm_dla s))).
  { rewrite <- D. rewrite skipn_firstn_comm. reflexivity. }
  rewrite CC in UC |- *.
  rewrite (firstn_all2 (skipn l (cs_C (cm_dla s)))) in UC |- * by (rewrite skipn_length; lia). cbn [cm_dla cs_C].
  destruct (r_rr _ _ _ _ _ _ _ RU (cs_H (cm_dla s)) (cs_C (cm_dla s)) l C LB Hl Hon) as (R1 & R2).
  rewrite UC. split; auto. rewrite skipn_pre by lia.
  assert (Z : forall q, (forall a, In a q -> a < n - l) -> Forall2 (fun a b => a = b /\ a < n - l) q q).
  { induction q; constructor; [split; auto; apply H; simpl; auto|apply IHq; intros; apply H; simpl; auto]. }
  assert (ZZ : Forall2 (fun a b => a = b /\ a < n - l) (seq 0 (n - l)) (seq 0 (n - l))) by (apply Z; intros a Ha; apply in_seq in Ha; lia).
  revert ZZ. generalize (seq 0 (n - l)) at 1 3. generalize (seq 0 (n - l)). intros q1 q2 HF. induction HF as [|a b q1 q2 [-> Ha]]; constructor; auto.
Qed.

(** Seq without late failures *)
Lemma seq_orth_cols : kernel_cols fo seqK n (fun s => cs_C (cm_dla s)) (sJ0 fo bl nev nex H0 w) oJ oJf oJr
  (fun v x => ritz_pair fo bl H0 v x /\ Ray v x) (ritz_resid fo bl H0).
Proof.
  pose proof (seq_cols fo bl qe td nev nex H0 w Hw) as [A1 A2 A3 A4 A5 A6 A7 A8 A9 B1 B2 B3 B4 B5 B6 B7 B8].
  assert (LN : forall l s, oJ l s -> length (cs_C (cm_dla s)) = n) by (intros l s (X & _); exact (A1 l s X)).
  split.
  - exact LN.
  - intros l s (X & Y). split; auto.
  - intros l s (X & Y). split; auto. destruct Y as [->|Y]; [apply (on_nil _ _ _ _ _ _ _ RU)|apply (on_pre _ _ _ _ _ _ _ RU); auto].
  - exact A4.
  - intros s s' X H. apply oJ_zero. eapply A5; eauto.
  - intros r s s' (X & _) H. apply oJ_zero. eapply A6; eauto.
  - intros m s u s' (X & _) H. apply oJ_zero. eapply A7; eauto.
  - intros m nv s u a b c s' (X & _) H. apply oJ_zero. eapply A8; eauto.
  - intros idx m rv s s' (X & _) H. apply oJ_zero. eapply A9; eauto.
  - intros l k deg degs la lo up s av s' (X & Y) FA H. destruct (B1 l k deg degs la lo up s av s' X FA H) as (P & Q).
    split; auto. split; auto. rewrite Q. destruct Y as [->|Y]; [apply (on_nil _ _ _ _ _ _ _ RU)|apply (on_pre _ _ _ _ _ _ _ RU); auto].
  - intros l c s s' (X & Y) H.
    assert (H' : k_qr plainK l c s = Ok s').
    { revert H. cbn [cmK k_qr]. unfold cm_qr. cbn [stop_late d_hhqr d_chol1 d_chol2 d_schol2 d_lockcopy]. cbv zeta.
      destruct (_ =? 1)%Z; auto. destruct (f_lt fo (q_upper qe) c); auto. destruct (late_failure bl n (cm_dla s)); [cbn; discriminate|auto]. }
    destruct (B2 l c s s' X H') as (P & Q). split; auto. split; auto.
    assert (LC : length (cs_C (cm_dla s)) = n) by (destruct X as (_ & (E & _) & _); exact E).
    cbn [cmK k_qr] in H. destruct (qr_attempt (stop_late (late_failure bl n) (colD fo bl false n)) l c s s' LC) as (d & hh & AT & OC & HL); auto.
    { intros l1 s1 d1 E E1. split; [eapply (hhqr_attempt false l1); [exact E|exact E1]|eapply (hhqr_only fo bl nev nex false l1); exact E1]. }
    { intros l1 s1 d1 i E E1. split; [eapply (chol1_attempt l1); [exact E|exact E1]|eapply (chol1_only fo bl nev nex false l1); exact E1]. }
    { intros l1 s1 d1 i E E1. split; [eapply (chol2_attempt l1); [exact E|exact E1]|eapply (chol2_only fo bl nev nex false l1); exact E1]. }
    { intros l1 s1 d1 i E E1. cbn [stop_late d_schol2 colD] in E1. destruct (late_failure bl n s1) eqn:LF; [discriminate|].
      split; [eapply (schol2_attempt false l1); [exact E|intros _; exact LF|exact E1]|eapply (schol2_only fo bl nev nex false l1); exact E1]. }
    destruct X as (X1 & X2 & X3 & X4). rewrite X1 in HL. destruct P as (P1 & P2 & _).
    assert (Hl : l <= n).
    { cbn [cmK k_qr] in H'. pose proof (qr_keeps fo bl qe nev nex w Hw false l c s s' X2 H') as (_ & E & _). fold n in E. lia. }
    fold n in X4. replace (Nat.min l n) with l in X4 by lia.
    eapply lockcopy_on; [exact LC|exact Hl|exact AT|exact OC|exact X4|exact Y|exact HL].
  - intros l s v s' X Hl H. destruct (B3 l s v s' (proj1 X) Hl H) as (P & Q & R). destruct (rr_on false l s v s' X Hl H) as (O1 & O2).
    split; [split; auto|]. split; auto. clear -R O2. induction R; inversion O2; subst; constructor; auto.
  - intros l v r s s' (X & Y) Hl H. destruct (B4 l v r s s' X Hl H) as (P & Q & R & S). split; [split; auto; rewrite Q; auto|auto].
  - intros l i j s s' (X & Y) Hi Hj H. destruct (B5 l i j s s' X Hi Hj H) as (P & Q). split; auto. split; auto.
    destruct Y as [Y|Y]; auto. right. rewrite Q. apply on_swap; auto. destruct X as (_ & E & _). exact E.
  - intros l i j s s' (X & Y) Hi Hj H. destruct (B6 l i j s s' X Hi Hj H) as (P & Q). split; auto. split; auto.
    rewrite Q. apply on_swap; auto; try lia. destruct X as (_ & E & _). exact E.
  - intros l m s s' (X & Y) H. destruct (B7 l m s s' X H) as (P & Q). split; auto. split; auto. right. rewrite Q. auto.
  - intros l s s' (X & Y) H. destruct (B8 l s s' X H) as (P & Q). split; auto. split; auto. rewrite Q. auto.
Qed.

(** Mpi *)
Lemma mpi_orth_keep : kernel_keep fo mpiK n (fun s => cs_C (cm_dla s)) (sJ0 fo bl nev nex H0 w) oJ oJf oJr.
Proof.
  assert (KK : kernel_keep fo mpiK n (fun s => cs_C (cm_dla s)) (sJ0 fo bl nev nex H0 w) (sJ fo bl nev nex H0 w)
    (sJf fo bl nev nex H0 w) (sJr fo bl nev nex H0 w)).
  { exact (mpi_keep fo bl qe td (mk_conf F 0 nev nex (f_zero fo) 0 0 0 0 0 0 false false false) H0 w Hw). }
  destruct KK as [A2 A3 A4 A5 A6 A7 A8 A9 B1 B2 B3 B4 B5 B6 B7].
  assert (SW : forall (l : nat) i j (s s' : cm (D := cst (V := V) (M := M))), clen n w (cm_dla s) -> k_swap mpiK i j s = Ok s' -> s' = s).
  { intros l i j s s' (L & _) H. cbn [cmK k_swap] in H. apply lift_inv in H as (d & E & ->). cbn [colD d_swap] in E. unfold c_swap in E.
    apply bind_ok in E as (C1 & HC1 & E). apply bind_ok in E as (C2 & HC2 & E). injection E as <-.
    pose proof HC1 as (I1 & I2 & ->)%AlgProofs1.swap_inv. apply AlgProofs1.swap_inv in HC2 as (_ & _ & ->).
    rewrite swp_swp by auto. destruct s as [ls ds], ds. reflexivity. }
  split.
  - intros l s (X & Y). split; auto.
  - intros l s (X & Y). split; auto. destruct Y as [->|Y]; [apply (on_nil _ _ _ _ _ _ _ RU)|apply (on_pre _ _ _ _ _ _ _ RU); auto].
  - exact A4.
  - intros s s' X H. apply oJ_zero. eapply A5; eauto.
  - intros r s s' (X & _) H. apply oJ_zero. eapply A6; eauto.
  - intros m s u s' (X & _) H. apply oJ_zero. eapply A7; eauto.
  - intros m nv s u a b c s' (X & _) H. apply oJ_zero. eapply A8; eauto.
  - intros idx m rv s s' (X & _) H. apply oJ_zero. eapply A9; eauto.
  - intros l k deg degs la lo up s av s' (X & Y) FA H. destruct (B1 l k deg degs la lo up s av s' X FA H) as (P & Q).
    split; auto. split; auto. rewrite Q. destruct Y as [->|Y]; [apply (on_nil _ _ _ _ _ _ _ RU)|apply (on_pre _ _ _ _ _ _ _ RU); auto].
  - intros l c s s' (X & Y) H.
    destruct (B2 l c s s' X H) as (P & Q). split; auto. split; auto.
    assert (LC : length (cs_C (cm_dla s)) = n) by (destruct X as (_ & (E & _) & _); exact E).
    cbn [cmK k_qr] in H. pose proof H as H'. destruct (qr_attempt (colD fo bl true n) l c s s' LC) as (d & hh & AT & OC & HL); auto.
    { intros l1 s1 d1 E E1. split; [eapply (hhqr_attempt true l1); [exact E|exact E1]|eapply (hhqr_only fo bl nev nex true l1); exact E1]. }
    { intros l1 s1 d1 i E E1. split; [eapply (chol1_attempt l1); [exact E|exact E1]|eapply (chol1_only fo bl nev nex true l1); exact E1]. }
    { intros l1 s1 d1 i E E1. split; [eapply (chol2_attempt l1); [exact E|exact E1]|eapply (chol2_only fo bl nev nex true l1); exact E1]. }
    { intros l1 s1 d1 i E E1. split; [eapply (schol2_attempt true l1); [exact E|discriminate|exact E1]|eapply (schol2_only fo bl nev nex true l1); exact E1]. }
    destruct X as (X1 & X2 & X3 & X4). rewrite X1 in HL. destruct P as (P1 & P2 & _).
    assert (Hl : l <= n).
    { pose proof (qr_keeps fo bl qe nev nex w Hw true l c s s' X2 H') as (_ & E & _). fold n in E. lia. }
    fold n in X4. replace (Nat.min l n) with l in X4 by lia.
    eapply lockcopy_on; [exact LC|exact Hl|exact AT|exact OC|exact X4|exact Y|exact HL].
  - intros l s v s' X Hl H. destruct (B3 l s v s' (proj1 X) Hl H) as (P & Q). destruct (rr_on true l s v s' X Hl H) as (O1 & O2).
    split; [split; auto|]. auto.
  - intros l v r s s' (X & Y) Hl H. destruct (B4 l v r s s' X Hl H) as (P & Q). split; auto. split; auto.
    cbn [cmK k_resd] in H. apply lift_v_inv in H as (d & E & ->). cbn [colD d_resd] in E. unfold c_resd in E.
    apply bind_ok in E as (s1 & G1 & E). destruct X as (X1 & X2 & _). pose proof (gather_inv bl nev nex w Hw _ _ _ _ X2 G1) as (_ & _ & E2 & _).
    apply bind_ok in E as (? & _ & E). apply bind_ok in E as (? & _ & E). apply bind_ok in E as (? & _ & E). apply bind_ok in E as (? & _ & E).
    injection E as _ <-. cbn. now rewrite E2.
  - intros l i j s s' X Hi Hj H. apply (SW l) in H; [subst; auto|]. destruct X as ((_ & E & _) & _). exact E.
  - intros l i j s s' X Hi Hj H. apply (SW l) in H; [subst; auto|]. destruct X as ((_ & E & _) & _). exact E.
  - intros l m s s' (X & Y) H. destruct (B7 l m s s' X H) as (P & Q). split; auto. split; auto. right. rewrite Q. auto.
Qed.

(** *** whole runs *)
Context (sort_idx : list F -> list nat) (Hperm : forall keys, Permutation (sort_idx keys) (seq 0 (length keys))).

Lemma kswaps_on (K : kernel F (cm (D := cst (V := V) (M := M)))) :
  (forall i j s s', clen n w (cm_dla s) -> on (cs_C (cm_dla s)) -> i < n -> j < n -> k_swap K i j s = Ok s' ->
     clen n w (cm_dla s') /\ on (cs_C (cm_dla s'))) ->
  forall sw s s', in_range nev sw -> clen n w (cm_dla s) -> on (cs_C (cm_dla s)) -> kswaps K 0 sw s = Ok s' -> on (cs_C (cm_dla s')) /\ length (cs_C (cm_dla s')) = n.
Proof.
  intros HS. induction sw as [|[i j] sw IH]; intros s s' Hr Hc Ho H; cbn in H.
  - injection H as <-. destruct Hc. auto.
  - inversion Hr as [|? ? [Hi Hj] Hr']; subst. cbn in Hi, Hj. apply bind_ok in H as (t & Ht & H).
    apply HS in Ht as (Hc' & Ho'); auto; try (unfold n; lia). eapply IH; eauto.
Qed.

Lemma seq_swap_on i j (s s' : cm (D := cst (V := V) (M := M))) : clen n w (cm_dla s) -> on (cs_C (cm_dla s)) -> i < n -> j < n -> k_swap seqK i j s = Ok s' ->
  clen n w (cm_dla s') /\ on (cs_C (cm_dla s')).
Proof.
  intros Hc Ho Hi Hj H. cbn [cmK k_swap] in H. apply lift_inv in H as (d & E & ->). cbn [stop_late colD d_swap] in E. unfold c_swap in E.
  apply bind_ok in E as (C' & HC & E). apply bind_ok in E as (C2' & HC2 & E). injection E as <-.
  apply AlgProofs1.swap_inv in HC as (_ & _ & ->), HC2 as (_ & _ & ->). cbn. split; [|apply on_swap; auto].
  destruct Hc as (L1 & L2 & L3 & L4). unfold clen. cbn. rewrite !swp_length. auto.
Qed.
Lemma mpi_swap_on i j (s s' : cm (D := cst (V := V) (M := M))) : clen n w (cm_dla s) -> on (cs_C (cm_dla s)) -> i < n -> j < n -> k_swap mpiK i j s = Ok s' ->
  clen n w (cm_dla s') /\ on (cs_C (cm_dla s')).
Proof.
  intros Hc Ho Hi Hj H. cbn [cmK k_swap] in H. apply lift_inv in H as (d & E & ->). cbn [colD d_swap] in E.
  rewrite mpi_swap_spec in E by (destruct Hc as (L & _); lia). injection E as <-. auto.
Qed.

Lemma end_on (K : kernel F (cm (D := cst (V := V) (M := M)))) fsort cf k ritzv resid o s : nev = c_nev cf -> nex = c_nex cf ->
  kernel_keep fo K n (fun s => cs_C (cm_dla s)) (sJ0 fo bl nev nex H0 w) oJ oJf oJr ->
  (forall i j s s', clen n w (cm_dla s) -> on (cs_C (cm_dla s)) -> i < n -> j < n -> k_swap K i j s = Ok s' ->
     clen n w (cm_dla s') /\ on (cs_C (cm_dla s'))) ->
  (forall m s s', k_lock K m s = Ok s' -> cm_dla s' = cm_dla s) -> (forall s s', k_end K s = Ok s' -> cm_dla s' = cm_dla s) ->
  conf_ok cf -> sJ0 fo bl nev nex H0 w k -> 1 <= c_maxiter cf ->
  solve fo K fsort sort_idx cf k ritzv resid = Ok o -> o_exit o = Some s -> on (cs_C (cm_dla (o_k o))) /\ length (cs_C (cm_dla (o_k o))) = n.
Proof.
  intros En Ex KK HS HL HE HC HJ Hm H Hx.
  destruct (solve_last fo K sort_idx Hperm n _ _ _ _ _ KK fsort cf k ritzv resid o s) as (l & k4 & m & sw & k' & J4 & L4 & Hr & Hs & He); auto.
  { unfold n. lia. }
  rewrite (HE _ _ He). rewrite <- En in Hr. destruct J4 as ((_ & Lc & _) & O4). apply HL in L4.
  refine (kswaps_on K HS sw _ _ Hr _ _ Hs); rewrite L4; auto.
Qed.

Lemma seq_end_on fsort cf k ritzv resid o s : nev = c_nev cf -> nex = c_nex cf -> conf_ok cf -> sJ0 fo bl nev nex H0 w k -> 1 <= c_maxiter cf ->
  solve fo seqK fsort sort_idx cf k ritzv resid = Ok o -> o_exit o = Some s -> on (cs_C (cm_dla (o_k o))) /\ length (cs_C (cm_dla (o_k o))) = n.
Proof.
  intros En Ex HC HJ Hm H Hx. eapply end_on; eauto using seq_swap_on.
  - exact (cols_keep _ _ _ _ _ _ _ _ _ _ seq_orth_cols).
  - intros m s0 s1 E. injection E as <-. reflexivity.
  - intros s0 s1 E. cbn [cmK k_end] in E. apply lift_inv in E as (d & E & ->). injection E as <-. reflexivity.
Qed.
Lemma mpi_end_on fsort cf k ritzv resid o s : nev = c_nev cf -> nex = c_nex cf -> conf_ok cf -> sJ0 fo bl nev nex H0 w k -> 1 <= c_maxiter cf ->
  solve fo mpiK fsort sort_idx cf k ritzv resid = Ok o -> o_exit o = Some s -> on (cs_C (cm_dla (o_k o))) /\ length (cs_C (cm_dla (o_k o))) = n.
Proof.
  intros En Ex HC HJ Hm H Hx. eapply end_on; eauto using mpi_swap_on.
  - exact mpi_orth_keep.
  - intros m s0 s1 E. injection E as <-. reflexivity.
  - intros s0 s1 E. cbn [cmK k_end] in E. apply lift_inv in E as (d & E & ->). injection E as <-. reflexivity.
Qed.
End Orth.

(** a run that returns without a late failure is a run of the backend itself *)
Lemma le_refl_eq {A} (x y : res A) : x = y -> le_res eq x y.
Proof. intros ->. apply rel_eq. Qed.
Lemma le_refl_v {X S} (x y : res (X * S)) : x = y -> le_res (vrel eq) x y.
Proof. intros ->. destruct y as [[v s]| |]; cbn; auto. exists (v, s). repeat split. Qed.
Lemma stop_late_run {F D} (late : D -> bool) (fo : fops F) (qe : qr_env F) (td : tridiag F) (L : dla F D) nev nex fsort si cf k ritzv resid o :
  solve fo (cmK fo qe td (stop_late late L) nev nex) fsort si cf k ritzv resid = Ok o ->
  solve fo (cmK fo qe td L nev nex) fsort si cf k ritzv resid = Ok o.
Proof.
  apply solve_le_eq. split; intros; subst; try (apply le_refl_eq; reflexivity); try (apply le_refl_v; reflexivity).
  cbn [cmK k_qr]. unfold cm_qr. cbn [stop_late d_hhqr d_chol1 d_chol2 d_schol2 d_lockcopy]. cbv zeta.
  destruct (_ =? 1)%Z; [apply rel_eq|]. destruct (f_lt fo (q_upper qe) c); [|apply rel_eq].
  destruct (late _); [exact I|apply rel_eq].
Qed.

(** with Cholesky QR disabled every run is one without the shifted variant *)
Lemma disabled_run {F D} (late : D -> bool) (fo : fops F) (qe : qr_env F) (td : tridiag F) (L : dla F D) nev nex fsort si cf k ritzv resid o : chol_disabled qe ->
  solve fo (cmK fo qe td L nev nex) fsort si cf k ritzv resid = Ok o ->
  solve fo (cmK fo qe td (stop_late late L) nev nex) fsort si cf k ritzv resid = Ok o.
Proof.
  intros Hd. apply solve_le_eq. split; intros; subst; try (apply le_refl_eq; reflexivity); try (apply le_refl_v; reflexivity).
  cbn [cmK k_qr]. unfold cm_qr. cbn [stop_late d_hhqr d_chol1 d_chol2 d_schol2 d_lockcopy]. cbv zeta.
  assert (E : (match q_disable qe with Some z => z | None => if q_chol qe then 0%Z else 1%Z end =? 1)%Z = true).
  { unfold chol_disabled in Hd. destruct (q_disable qe) as [z|]; [subst z|rewrite Hd]; reflexivity. }
  rewrite E. apply rel_eq.
Qed.
