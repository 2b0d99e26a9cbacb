(** The Seq backend satisfies the column contract: locked columns, pairing of values, columns and residuals. *)
From Coq Require Import List Arith ZArith Bool Lia Permutation.
Require Import Verif.Base Verif.AlgModel Verif.AlgSpec Verif.AlgProofs1 Verif.AlgProofs3 Verif.AlgProofs4 Verif.DlaModel Verif.ColModel Verif.ColSpec Verif.ColProofs1.
Import ListNotations.

Lemma put_range_firstn {A} (l l' : list A) off xs k : put_range l off xs = Ok l' -> k <= off -> firstn k l' = firstn k l.
Proof.
  intros H Hk. apply put_range_inv in H as [H ->]. rewrite firstn_app, firstn_length.
  replace (k - Nat.min off (length l)) with 0 by lia. rewrite firstn_O, app_nil_r, firstn_firstn. f_equal. lia.
Qed.
Lemma put_range_split {A} (l l' : list A) off xs : put_range l off xs = Ok l' ->
  firstn off l' = firstn off l /\ firstn (length xs) (skipn off l') = xs /\ skipn (off + length xs) l' = skipn (off + length xs) l.
Proof.
  intros H. split; [eapply put_range_firstn; eauto|]. apply put_range_inv in H as [H ->]. split.
  - rewrite skipn_app, firstn_length. rewrite skipn_all2 by (rewrite firstn_length; lia).
    replace (off - Nat.min off (length l)) with 0 by lia. cbn [skipn app]. rewrite firstn_app, Nat.sub_diag, firstn_O, app_nil_r. apply firstn_all.
  - rewrite app_assoc, skipn_app. rewrite skipn_all2 by (rewrite app_length, firstn_length; lia).
    rewrite app_length, firstn_length. replace (off + length xs - (Nat.min off (length l) + length xs)) with 0 by lia. reflexivity.
Qed.
Lemma firstn_plus {A} (l : list A) a b : firstn (a + b) l = firstn a l ++ firstn b (skipn a l).
Proof. revert l; induction a; intros [|x l]; simpl; auto; [now rewrite firstn_nil|]. now rewrite IHa. Qed.
Lemma put_range_upto {A} (l l' : list A) off xs : put_range l off xs = Ok l' -> firstn (off + length xs) l' = firstn off l ++ xs.
Proof. intros H. apply put_range_split in H as (H1 & H2 & _). rewrite firstn_plus. congruence. Qed.
Lemma firstn_pre {A} (l x : list A) k : k <= length l -> firstn k (firstn k l ++ x) = firstn k l.
Proof. intros H. rewrite firstn_app, firstn_firstn, Nat.min_id, firstn_length. replace (k - Nat.min k (length l)) with 0 by lia. now rewrite firstn_O, app_nil_r. Qed.
Lemma skipn_pre {A} (l x : list A) k : k <= length l -> skipn k (firstn k l ++ x) = x.
Proof. intros H. rewrite skipn_app, firstn_length. rewrite skipn_all2 by (rewrite firstn_length; lia). now replace (k - Nat.min k (length l)) with 0 by lia. Qed.
Lemma swp_firstn {A} (l : list A) n i j : i < n -> j < n -> n <= length l -> firstn n (swp l i j) = swp (firstn n l) i j.
Proof.
  intros Hi Hj Hn. apply nth_error_ext. intros q. destruct (lt_dec q n).
  - rewrite nth_firstn by auto. rewrite !swp_nth by (rewrite ?firstn_length; lia). rewrite nth_firstn; auto. apply tr_lt; auto.
  - replace (nth_error (firstn n (swp l i j)) q) with (@None A) by (symmetry; apply nth_error_None; rewrite firstn_length; lia).
    symmetry. apply nth_error_None. rewrite swp_length, firstn_length. lia.
Qed.

Ltac unk H := cbn [cmK k_sym k_start k_end k_init k_shift k_hemm k_qr k_rr k_resd k_swap k_lock k_lanczos1 k_lanczos2 k_dos
  colD d_sym d_start d_end d_initrnd d_init d_shift d_apply d_hhqr d_chol1 d_chol2 d_schol2 d_lockcopy d_rr d_resd d_swap d_mlanczos d_dos] in H.

Section Seq.
Context {F V M G T : Type} (fo : fops F) (bl : blas F V M G T) (qe : qr_env F) (td : tridiag F) (nev nex : nat) (H0 : M).
Let n := nev + nex.
Context (w : nat) (Hw : n <= w).
Local Notation L := (colD fo bl false n).
Local Notation K := (cmK fo qe td L nev nex).
Local Notation drift := (drift fo bl H0).

Definition sJ0 (s : cm (D := cst (V := V) (M := M))) : Prop := clen n w (cm_dla s) /\ drift (cs_H (cm_dla s)).
Definition sJ (l : nat) (s : cm (D := cst (V := V) (M := M))) : Prop :=
  cm_locked s = l /\ clen n w (cm_dla s) /\ drift (cs_H (cm_dla s)) /\ (l = 0 \/ firstn n (cs_C2 (cm_dla s)) = cs_C (cm_dla s)).
Definition sJf (l : nat) (s : cm (D := cst (V := V) (M := M))) : Prop :=
  cm_locked s = l /\ clen n w (cm_dla s) /\ drift (cs_H (cm_dla s)) /\
  firstn (Nat.min l n) (cs_C2 (cm_dla s)) = firstn (Nat.min l n) (cs_C (cm_dla s)).
Definition sJr (l : nat) (s : cm (D := cst (V := V) (M := M))) : Prop :=
  cm_locked s = l /\ clen n w (cm_dla s) /\ drift (cs_H (cm_dla s)) /\ firstn n (cs_C2 (cm_dla s)) = cs_C (cm_dla s).

Lemma lift_inv {D} s (x : res D) s' : lift s x = Ok s' -> exists d, x = Ok d /\ s' = mk_cm (cm_locked s) d.
Proof. unfold lift. intros H. apply bind_ok in H as (d & E & H). injection H as <-. eauto. Qed.
Lemma lift_v_inv {D X} s (x : res (X * D)) v s' : lift_v s x = Ok (v, s') -> exists d, x = Ok (v, d) /\ s' = mk_cm (cm_locked s) d.
Proof. unfold lift_v. intros H. apply bind_ok in H as ([v' d] & E & H). injection H as <- <-. eauto. Qed.

(** what the QR variants may change *)
Definition only_C (s s' : cst (V := V) (M := M)) : Prop :=
  cs_H s' = cs_H s /\ cs_B s' = cs_B s /\ cs_C2 s' = cs_C2 s /\ cs_B2 s' = cs_B2 s /\ (cs_bAc s = true -> cs_bAc s' = true) /\ length (cs_C s') = length (cs_C s).
Lemma only_C_refl s : only_C s s. Proof. unfold only_C. auto 10. Qed.
Lemma only_C_trans s t u : only_C s t -> only_C t u -> only_C s u.
Proof. unfold only_C. intros (?&?&?&?&?&?) (?&?&?&?&?&?). repeat split; try congruence. auto. Qed.
Lemma set_C_only f s s' : set_C n s f = Ok s' -> only_C s s'.
Proof. unfold set_C. intros H. apply bind_ok in H as (c & _ & H). apply bind_ok in H as (C & HC & H). injection H as <-. apply put_range_length in HC. unfold only_C. cbn. auto 10. Qed.
Lemma hhqr_only mp l s s' : d_hhqr (colD fo bl mp n) l s = Ok s' -> only_C s s'.
Proof.
  cbn. unfold c_hhqr. intros H. apply bind_ok in H as (s1 & H1 & H). injection H as <-. apply set_C_only in H1. destruct H1 as (?&?&?&?&E&?).
  unfold only_C. cbn. repeat split; auto. intros Hb. rewrite E by auto. apply orb_true_r.
Qed.
Lemma chol1_only mp l s i s' : d_chol1 (colD fo bl mp n) l s = Ok (i, s') -> only_C s s'.
Proof.
  cbn. unfold c_chol1. intros H. apply bind_ok in H as ([i1 R] & _ & H). destruct (negb _); [injection H as _ <-; apply only_C_refl|].
  apply bind_ok in H as (s1 & H1 & H). injection H as _ <-. now apply set_C_only in H1.
Qed.
Lemma chol2_only mp l s i s' : d_chol2 (colD fo bl mp n) l s = Ok (i, s') -> only_C s s'.
Proof.
  cbn. unfold c_chol2. intros H. apply bind_ok in H as ([i1 R] & _ & H). destruct (negb _); [injection H as _ <-; apply only_C_refl|].
  apply bind_ok in H as (s1 & H1 & H). apply bind_ok in H as ([i2 R2] & _ & H). apply bind_ok in H as (s2 & H2 & H).
  injection H as _ <-. apply set_C_only in H1, H2. eapply only_C_trans; eauto.
Qed.
Lemma schol2_only mp l s i s' : d_schol2 (colD fo bl mp n) l s = Ok (i, s') -> only_C s s'.
Proof.
  cbn. unfold c_schol2. intros H. apply bind_ok in H as ([i1 R] & _ & H). destruct (negb _); [injection H as _ <-; apply only_C_refl|].
  apply bind_ok in H as (s1 & H1 & H). apply set_C_only in H1. apply bind_ok in H as ([i2 R2] & _ & H).
  destruct (_ && _); [injection H as _ <-; auto|].
  apply bind_ok in H as (s2 & H2 & H). apply set_C_only in H2. apply bind_ok in H as ([i3 R3] & _ & H).
  apply bind_ok in H as (s3 & H3 & H). apply set_C_only in H3. injection H as _ <-.
  eapply only_C_trans; [eapply only_C_trans|]; eauto.
Qed.

(** QR: whatever variant runs, the locked columns come back from the second buffer, and both buffers agree *)
Lemma qr_keeps mp f c s s' : let l := cm_locked s in
  clen n w (cm_dla s) -> cm_qr fo qe (colD fo bl mp n) f c s = Ok s' ->
  cm_locked s' = l /\ l <= n /\ clen n w (cm_dla s') /\ cs_H (cm_dla s') = cs_H (cm_dla s) /\
  firstn l (cs_C (cm_dla s')) = firstn l (cs_C2 (cm_dla s)) /\ firstn n (cs_C2 (cm_dla s')) = cs_C (cm_dla s') /\
  (cs_bAc (cm_dla s) = true -> cs_bAc (cm_dla s') = true).
Proof.
  intros l (LC & LB & LC2 & LB2) H. unfold cm_qr in H. cbv zeta in H. fold l in H. apply bind_ok in H as ([hh d] & Hd & H).
  assert (OC : only_C (cm_dla s) d).
  { match type of Hd with (if ?c then _ else _) = _ => destruct c end.
    - apply bind_ok in Hd as (d1 & H1 & Hd). injection Hd as _ <-. now apply hhqr_only in H1.
    - apply bind_ok in Hd as ([i d1] & H1 & Hd).
      assert (O1 : only_C (cm_dla s) d1).
      { match type of H1 with (if ?c then _ else _) = _ => destruct c; [eapply schol2_only; eauto|] end.
        match type of H1 with (if ?c then _ else _) = _ => destruct c; [eapply chol1_only; eauto|eapply chol2_only; eauto] end. }
      destruct (i =? 0)%Z; [injection Hd as _ <-; auto|]. apply bind_ok in Hd as (d2 & H2 & Hd). injection Hd as _ <-.
      apply hhqr_only in H2. eapply only_C_trans; eauto. }
  destruct OC as (E1 & E2 & E3 & E4 & E5 & E6). apply lift_inv in H as (d' & H & ->). cbn [cm_locked cm_dla].
  cbn [colD d_lockcopy] in H. unfold c_lockcopy in H. rewrite E3 in H. apply bind_ok in H as (a & Ha & H).
  pose proof (get_range_len _ _ _ _ Ha) as La. apply get_range_inv in Ha as [Ha0 Ha]. cbn [skipn] in Ha.
  apply bind_ok in H as (C & HC & H). pose proof (put_range_length _ _ _ _ HC) as LC'. pose proof (put_range_upto _ _ _ _ HC) as UC.
  assert (Hl : l <= n) by (apply put_range_inv in HC as [HC _]; lia).
  apply bind_ok in H as (b & Hb & H). pose proof (get_range_len _ _ _ _ Hb) as Lb. apply get_range_inv in Hb as [Hb0 Hb].
  apply bind_ok in H as (C2 & HC2 & H). pose proof (put_range_length _ _ _ _ HC2) as LC2'. pose proof (put_range_upto _ _ _ _ HC2) as UC2.
  injection H as <-. cbn. split; auto. split; auto. split; [unfold clen; cbn; repeat split; congruence|]. split; auto.
  cbn [firstn app Nat.add] in UC. rewrite La in UC. split; [congruence|]. split; [|auto].
  rewrite Lb in UC2. replace (l + (n - l)) with n in UC2 by lia. rewrite UC2, <- Ha, <- UC, Hb.
  rewrite <- firstn_plus. replace (l + (n - l)) with n by lia. apply firstn_all2. lia.
Qed.

Lemma gather_inv l blk s s' : clen n w s -> c_gather bl l blk s = Ok s' ->
  clen n w s' /\ cs_H s' = cs_H s /\ cs_C s' = cs_C s /\ cs_C2 s' = cs_C2 s /\ cs_bAc s' = cs_bAc s /\ l + blk <= n /\
  get_range (cs_B s') l blk = Ok (map (b_mulH bl (cs_H s)) (firstn blk (skipn l (cs_C s)))) /\
  get_range (cs_B2 s') l blk = Ok (firstn blk (skipn l (cs_C2 s))).
Proof.
  intros (LC & LB & LC2 & LB2) H. unfold c_gather in H. apply bind_ok in H as (c & Hc & H). pose proof (get_range_len _ _ _ _ Hc) as Lc. apply get_range_inv in Hc as [H1 ->].
  apply bind_ok in H as (B & HB & H). apply bind_ok in H as (c2 & Hc2 & H). pose proof (get_range_len _ _ _ _ Hc2) as Lc2. apply get_range_inv in Hc2 as [H2 ->].
  apply bind_ok in H as (B2 & HB2 & H). injection H as <-. cbn.
  pose proof (put_range_length _ _ _ _ HB) as L1. pose proof (put_range_length _ _ _ _ HB2) as L2.
  apply put_range_split in HB as (_ & HB & _), HB2 as (_ & HB2 & _). rewrite map_length, Lc in HB. rewrite Lc2 in HB2.
  rewrite !get_range_ok by lia. rewrite HB, HB2. unfold clen. cbn. repeat split; auto; try congruence; lia.
Qed.

Lemma sJr_sub l s : sJr l s -> sJ l s.
Proof. intros (A & B & C & D). unfold sJ. auto. Qed.
Lemma sJ_weak l s : sJ l s -> sJf l s.
Proof.
  intros (A & B & C & D). unfold sJf. repeat split; auto; try apply B. destruct D as [->|D]; [reflexivity|]. rewrite <- D.
  rewrite firstn_firstn. f_equal. lia.
Qed.

Lemma seq_filter l k deg degs la lo up s av s' : sJ l s -> filter_ fo K k deg degs la lo up s = Ok (av, s') ->
  sJf l s' /\ firstn l (cs_C (cm_dla s')) = firstn l (cs_C (cm_dla s)).
Proof.
  intros HJ H. pose proof (sJ_weak _ _ HJ) as (A & B & C & D).
  set (P0 := fun (t : cm (D := cst (V := V) (M := M))) => cm_locked t = l /\ clen n w (cm_dla t) /\ cs_C2 (cm_dla t) = cs_C2 (cm_dla s) /\
     firstn l (cs_C (cm_dla t)) = firstn l (cs_C (cm_dla s))).
  assert (X : P0 s' /\ drift (cs_H (cm_dla s'))).
  { eapply (filter_ops fo K (fun t => P0 t /\ drift (cs_H (cm_dla t)))
      (fun c t => P0 t /\ exists h, drift h /\ cs_H (cm_dla t) = b_shift bl h (f_neg fo c))); [| | | |exact H].
    - intros c t t' [(P1 & P2 & P3 & P4) Hd] Ht. unk Ht. apply lift_inv in Ht as (d & Ed & ->). injection Ed as <-.
      split; [unfold P0; cbn; auto|]. eexists. split; eauto.
    - intros c m a b off t t' [(P1 & P2 & P3 & P4) Hd] Ht. unk Ht. apply lift_inv in Ht as (d & Ed & ->).
      unfold c_apply in Ed. apply bind_ok in Ed as (x & _ & Ed). apply bind_ok in Ed as (y & _ & Ed).
      destruct P2 as (L1 & L2 & L3 & L4). rewrite P1 in *. destruct (cs_bAc (cm_dla t)); apply bind_ok in Ed as (B' & HB & Ed); injection Ed as <-;
        pose proof (put_range_length _ _ _ _ HB); (split; [|exact Hd]); unfold P0, clen; cbn; repeat split; auto; try congruence.
      rewrite <- P4. eapply put_range_firstn; [exact HB|lia].
    - intros c t t' [(P1 & P2 & P3 & P4) (h & Hh & Eh)] Ht. unk Ht. apply lift_inv in Ht as (d & Ed & ->). injection Ed as <-.
      split; [unfold P0; cbn; auto|]. cbn. rewrite Eh. now constructor.
    - split; [unfold P0; auto|exact C]. }
  destruct X as ((P1 & P2 & P3 & P4) & Hd). split; auto. unfold sJf. repeat split; auto; try apply P2. rewrite P3, D.
  assert (Y : forall k a b, firstn l a = firstn l b -> k <= l -> @firstn V k a = firstn k b).
  { intros k0 a b E Hk. rewrite <- (firstn_firstn a k0 l), <- (firstn_firstn b k0 l) || idtac.
    replace k0 with (Nat.min k0 l) by lia. rewrite <- !firstn_firstn. now rewrite E. }
  symmetry. apply Y; auto. lia.
Qed.

Lemma seq_cols : kernel_cols fo K n (fun s => cs_C (cm_dla s)) sJ0 sJ sJf sJr (ritz_pair fo bl H0) (ritz_resid fo bl H0).
Proof.
  split; cbn [cmK k_sym k_start k_end k_init k_shift k_hemm k_qr k_rr k_resd k_swap k_lock k_lanczos1 k_lanczos2 k_dos].
  - intros l s (_ & (HL & _) & _). exact HL.
  - apply sJr_sub.
  - apply sJ_weak.
  - intros s b s' (A & B) H. apply lift_v_inv in H as (d & E & ->). unk E. injection E as _ <-. split; auto.
  - intros s s' (A & B) H. unk H. injection H as <-. unfold sJ. cbn. auto.
  - intros r s s' (A & B & C & D) H. unfold cm_init in H. apply lift_inv in H as (d & E & ->). apply bind_ok in E as (d1 & E1 & E).
    assert (X : clen n w d1 /\ drift (cs_H d1)).
    { destruct r; [|injection E1 as <-; auto]. unk E1. unfold c_initrnd in E1. apply bind_ok in E1 as (x & Hx & E1). injection E1 as <-.
      apply put_range_length in Hx. destruct B as (L1 & L2 & L3 & L4). unfold clen. cbn. repeat split; auto; congruence. }
    destruct X as ((L1 & L2 & L3 & L4) & X). unk E. unfold c_init in E. apply bind_ok in E as (x & _ & E). apply bind_ok in E as (y & Hy & E). injection E as <-.
    apply put_range_length in Hy. unfold sJ, clen. cbn. repeat split; auto; congruence.
  - intros m s u s' (A & B & C & D) H. unfold cm_lanczos1 in H. apply bind_ok in H as ([[[x y] z] d] & E & H). cbv zeta in H.
    apply bind_ok in H as (? & _ & H). apply bind_ok in H as (? & _ & H). apply bind_ok in H as (? & _ & H). injection H as _ <-.
    unk E. unfold c_mlanczos in E. apply bind_ok in E as ([[[? ?] ?] C'] & E & H). injection H as _ _ _ <-. apply mlanczos_len in E.
    destruct B as (L1 & L2 & L3 & L4). unfold sJ, clen. cbn. repeat split; auto; congruence.
  - intros m nv s u a b c s' (A & B & C & D) H. unfold cm_lanczos2 in H. apply bind_ok in H as ([[[x y] z] d] & E & H).
    apply bind_ok in H as ([[? ?] ?] & _ & H). apply bind_ok in H as (? & _ & H). apply bind_ok in H as (? & _ & H). apply bind_ok in H as (? & _ & H).
    apply bind_ok in H as (? & _ & H). injection H as _ _ _ _ <-.
    unk E. unfold c_mlanczos in E. apply bind_ok in E as ([[[? ?] ?] C'] & E & H). injection H as _ _ _ <-. apply mlanczos_len in E.
    destruct B as (L1 & L2 & L3 & L4). unfold sJ, clen. cbn. repeat split; auto; congruence.
  - intros idx m rv s s' (A & B & C & D) H. apply lift_inv in H as (d & E & ->). unk E. unfold c_dos in E.
    apply bind_ok in E as (rv' & _ & E). apply bind_ok in E as (x & _ & E). apply bind_ok in E as (C2 & HC2 & E). apply bind_ok in E as (y & _ & E). apply bind_ok in E as (C' & HC & E).
    injection E as <-. apply put_range_length in HC, HC2. destruct B as (L1 & L2 & L3 & L4). unfold sJ, clen. cbn. repeat split; auto; congruence.
  - intros. eapply seq_filter; eauto.
  - intros l c s s' (A & B & C & D) H. pose proof (qr_keeps false l c s s' B H) as (Q1 & Q2 & Q3 & Q4 & Q5 & Q6 & _). rewrite A in *.
    replace (Nat.min l n) with l in D by lia. split; [|congruence]. unfold sJr. repeat split; auto; try apply Q3; congruence.
  - intros l s v s' (A & B & C & D) Hl H. rewrite A in H. apply lift_v_inv in H as (d & E & ->). cbn [colD d_rr] in E. unfold c_rr in E.
    apply bind_ok in E as (s1 & G1 & E). pose proof (gather_inv _ _ _ _ B G1) as ((L1 & L2 & L3 & L4) & E1 & E2 & E3 & E4 & _ & E5 & E6).
    rewrite E5, E6 in E. cbn [bind] in E. cbv zeta in E. apply bind_ok in E as (c2 & Hc2 & E). pose proof (get_range_len _ _ _ _ Hc2) as Lc2.
    apply get_range_inv in Hc2 as [_ ->]. apply bind_ok in E as (C' & HC & E). apply bind_ok in E as (C2' & HC2 & E). injection E as <- <-.
    pose proof (put_range_length _ _ _ _ HC) as LC'. pose proof (put_range_length _ _ _ _ HC2) as LC2'.
    apply put_range_upto in HC as UC, HC2 as UC2. rewrite map_length, seq_length in UC, UC2. replace (l + (n - l)) with n in UC, UC2 by lia.
    rewrite (firstn_all2 C') in UC by lia. rewrite E2 in UC. rewrite E3 in UC2.
    assert (FL : firstn l (cs_C2 (cm_dla s)) = firstn l (cs_C (cm_dla s))).
    { rewrite <- D. rewrite firstn_firstn. f_equal. lia. }
    cbn. split; [|split].
    + unfold sJr, clen. cbn. repeat split; auto; try congruence.
    + rewrite UC. destruct B as (LB & _). apply firstn_pre. lia.
    + rewrite UC. destruct B as (LB & _). rewrite skipn_pre by lia.
      rewrite E3 in *.
      assert (CC : firstn (n - l) (skipn l (cs_C2 (cm_dla s))) = skipn l (cs_C (cm_dla s))).
      { rewrite <- D. rewrite skipn_firstn_comm. reflexivity. }
      rewrite CC in *. rewrite (firstn_all2 (skipn l (cs_C (cm_dla s)))) by (rewrite skipn_length; lia).
      assert (Forall2 (fun a b => a = b /\ a < n - l) (seq 0 (n - l)) (seq 0 (n - l))).
      { assert (Z : forall q, (forall a, In a q -> a < n - l) -> Forall2 (fun a b => a = b /\ a < n - l) q q).
        { induction q; constructor; [split; auto; apply H; simpl; auto|apply IHq; intros; apply H; simpl; auto]. }
        apply Z. intros a Ha. apply in_seq in Ha. lia. }
      revert H. generalize (seq 0 (n - l)) at 1 3. generalize (seq 0 (n - l)). intros q1 q2 HF. induction HF as [|a b q1 q2 [-> Ha]]; constructor; auto.
      exists (cs_H (cm_dla s)), (skipn l (cs_C (cm_dla s))), b. repeat split; auto. rewrite skipn_length. lia.
  - intros l v r s s' (A & B & C & D) Hl H. rewrite A in H. apply lift_v_inv in H as (d & E & ->). cbn [colD d_resd] in E. unfold c_resd in E.
    apply bind_ok in E as (s1 & G1 & E). pose proof (gather_inv _ _ _ _ B G1) as ((L1 & L2 & L3 & L4) & E1 & E2 & E3 & E4 & _ & E5 & E6).
    apply bind_ok in E as (v1 & Hv & E). pose proof (get_range_len _ _ _ _ Hv) as Lv. apply get_range_inv in Hv as [Hv0 ->]. fold n in E5, E6, E.
    rewrite E5, E6 in E. cbn [bind] in E. cbv zeta in E. apply bind_ok in E as (B' & HB & E). injection E as <- <-.
    pose proof (put_range_length _ _ _ _ HB) as LB'. destruct B as (LB & LB1 & LB2 & LB3).
    assert (CC : firstn (n - l) (skipn l (cs_C2 (cm_dla s))) = skipn l (cs_C (cm_dla s))).
    { rewrite <- D. rewrite skipn_firstn_comm. reflexivity. }
    assert (CD : firstn (n - l) (skipn l (cs_C (cm_dla s))) = skipn l (cs_C (cm_dla s))) by (apply firstn_all2; rewrite skipn_length; lia).
    fold n in Lv. rewrite CC, CD in *. cbn. split; [|split; [auto|split]].
    + unfold sJr, clen. cbn. repeat split; auto; try congruence.
    + rewrite map_length, zip_length, combine_length, map_length, skipn_length. fold n. cbn [skipn]. cbn [skipn] in Lv. lia.
    + intros i x y z Hx Hy Hz. exists (cs_H (cm_dla s)). split; auto. cbn [skipn] in *.
      unfold zip in Hz. rewrite !nth_error_map in Hz.
      assert (Hi : i < n - l). { pose proof (nth_error_lt _ _ _ Hy). rewrite skipn_length in H. lia. }
      assert (NC : forall X Y (a : list X) (b : list Y) q u t, nth_error a q = Some u -> nth_error b q = Some t -> nth_error (combine a b) q = Some (u, t)).
      { clear. intros X Y. induction a as [|a0 a IH]; intros [|b0 b] [|q] u t; cbn; intros Ha Hb; try discriminate; [congruence|auto]. }
      erewrite NC in Hz; [|apply NC; [rewrite nth_firstn by (fold n; lia); exact Hx|exact Hy]|rewrite nth_error_map, Hy; reflexivity].
      cbn in Hz. injection Hz as <-. reflexivity.
  - intros l i j s s' (A & B & C & D) Hi Hj H. apply lift_inv in H as (d & E & ->). unk E. unfold c_swap in E.
    apply bind_ok in E as (C' & HC & E). apply bind_ok in E as (C2' & HC2 & E). injection E as <-. apply AlgProofs1.swap_inv in HC as (_ & _ & ->), HC2 as (_ & _ & ->).
    destruct B as (L1 & L2 & L3 & L4). cbn. split; auto. unfold sJ, clen. cbn. rewrite !swp_length. repeat split; auto.
    destruct D as [D|D]; auto. right. rewrite swp_firstn by lia. now rewrite D.
  - intros l i j s s' (A & B & C & D) Hi Hj H. apply lift_inv in H as (d & E & ->). unk E. unfold c_swap in E.
    apply bind_ok in E as (C' & HC & E). apply bind_ok in E as (C2' & HC2 & E). injection E as <-. apply AlgProofs1.swap_inv in HC as (_ & _ & ->), HC2 as (_ & _ & ->).
    destruct B as (L1 & L2 & L3 & L4). cbn. split; auto. unfold sJr, clen. cbn. rewrite !swp_length. repeat split; auto.
    rewrite swp_firstn by lia. now rewrite D.
  - intros l m s s' (A & B & C & D) H. injection H as <-. cbn. split; auto. unfold sJ. cbn. repeat split; auto; try apply B.
  - intros l s s' HJ H. apply lift_inv in H as (d & E & ->). injection E as <-. destruct s. cbn. auto.
Qed.
End Seq.
