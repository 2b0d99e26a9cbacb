(** The single-GPU backend: column contract of the device part, and comparison of whole runs. *)
From Coq Require Import List Arith ZArith Bool Lia Permutation.
Require Import Verif.Base Verif.AlgModel Verif.AlgSpec Verif.AlgProofs1 Verif.AlgProofs3 Verif.AlgProofs4 Verif.AlgKeep Verif.AlgProofs2 Verif.AlgSim Verif.AlgSim2 Verif.DlaSim
  Verif.DlaModel Verif.ColModel Verif.ColSpec Verif.ColProofs1 Verif.ColProofs2 Verif.InplProofs Verif.ColProofs3 Verif.GpuModel Verif.GpuSpec Verif.GpuProofs1.
Import ListNotations.

(** the device part with the values of Resd passed as an argument and the matrix present from the start *)
Definition devD {F V M G T} (fo : fops F) (bl : blas F V M G T) (n : nat) : dla F (ist (V := V) (M := M)) := {|
  d_sym := i_sym bl; d_start := fun s => Ok s; d_end := fun s => Ok s; d_initrnd := i_initrnd bl n; d_init := i_init n;
  d_shift := i_shift bl; d_apply := i_apply bl; d_hhqr := i_hhqr bl n; d_chol1 := i_chol1 bl n; d_chol2 := dv_chol2 bl n;
  d_schol2 := dv_schol2 bl n; d_lockcopy := i_lockcopy; d_rr := i_rr bl; d_resd := dv_resd fo bl; d_swap := i_swap;
  d_mlanczos := dv_mlanczos fo bl; d_dos := i_dos bl |}.

Section Dev.
Context {F V M G T : Type} (fo : fops F) (bl : blas F V M G T) (qe : qr_env F) (td : tridiag F) (nev nex : nat) (H0 : M).
Let n := nev + nex.
Local Notation L := (devD fo bl n).
Local Notation K := (cmK fo qe td L nev nex).
Local Notation drift := (drift fo bl H0).
Local Notation st := (cm (D := ist (V := V) (M := M))).
Local Notation iJ0 := (iJ0 fo bl nev nex H0).
Local Notation iJ := (iJ fo bl nev nex H0).
Local Notation iJr := (iJr fo bl nev nex H0).
Local Notation qr_good := (qr_good nev nex).

Ltac unk H := cbn [cmK k_sym k_start k_end k_init k_shift k_hemm k_qr k_rr k_resd k_swap k_lock k_lanczos1 k_lanczos2 k_dos
  with_qr devD d_sym d_start d_end d_initrnd d_init d_shift d_apply d_hhqr d_chol1 d_chol2 d_schol2 d_lockcopy d_rr d_resd d_swap d_mlanczos d_dos] in H.
Ltac neqb H := match type of H with context [negb (?i =? 0)%Z] => let E := fresh "E" in destruct (i =? 0)%Z eqn:E; cbn [negb] in H; [apply Z.eqb_eq in E|apply Z.eqb_neq in E] end.

Lemma dv_chol2_inv l s i s' : ilen n s -> dv_chol2 bl n l s = Ok (i, s') -> qr_good l s s' /\ (i <> 0%Z -> is_V1 s' = is_V1 s).
Proof.
  intros HL H. unfold dv_chol2 in H. apply bind_ok in H as (s0 & H1 & H). apply (i_save_inv nev nex) in H1 as (A1 & A2 & A3 & A4 & A5 & A6); auto.
  apply bind_ok in H as ([i1 R] & H2 & H). neqb H.
  - subst i1. apply bind_ok in H as (s1 & H3 & H). apply (i_set_inv nev nex) in H3 as (B1 & B2 & B3 & B4 & B5); auto.
    apply bind_ok in H as ([i2 R2] & H4 & H). apply bind_ok in H as (s2 & H5 & H). apply (i_set_inv nev nex) in H5 as (C1 & C2 & C3 & C4 & C5); auto.
    injection H as <- <-. split; [|easy]. unfold qr_good. rewrite C3, B3. repeat split; auto; try congruence; apply C1.
  - injection H as <- <-. split; [|auto]. unfold qr_good. repeat split; auto; apply A1.
Qed.
Lemma dv_schol2_inv l s i s' : no_late_shift bl n -> ilen n s -> dv_schol2 bl n l s = Ok (i, s') -> qr_good l s s' /\ (i <> 0%Z -> is_V1 s' = is_V1 s).
Proof.
  intros NL HL H. unfold dv_schol2 in H. apply bind_ok in H as (s0 & H1 & H). apply (i_save_inv nev nex) in H1 as (A1 & A2 & A3 & A4 & A5 & A6); auto.
  apply bind_ok in H as ([i1 R] & H2 & H). neqb H.
  - subst i1. apply bind_ok in H as (s1 & H3 & H). apply (i_set_inv nev nex) in H3 as (B1 & B2 & B3 & B4 & B5); auto.
    apply bind_ok in H as ([i2 R2] & H4 & H). apply (i_factor_inv bl nev nex) in H2, H4; auto. pose proof (NL (is_V1 s0) R ltac:(apply A1) H2) as E2.
    fold n in B5. rewrite <- B5, H4 in E2. cbn in E2. subst i2. cbn in H. apply bind_ok in H as (s2 & H5 & H). apply (i_set_inv nev nex) in H5 as (C1 & C2 & C3 & C4 & C5); auto.
    apply bind_ok in H as ([i3 R3] & H6 & H). apply bind_ok in H as (s3 & H7 & H). apply (i_set_inv nev nex) in H7 as (D1 & D2 & D3 & D4 & D5); auto.
    injection H as <- <-. split; [|easy]. unfold qr_good. rewrite D3, C3, B3. repeat split; auto; try congruence; apply D1.
  - injection H as <- <-. split; [|auto]. unfold qr_good. repeat split; auto; apply A1.
Qed.

Lemma dev_qr_keeps f c (s s' : st) : no_late_shift bl n -> ilen n (cm_dla s) -> cm_qr fo qe L f c s = Ok s' ->
  cm_locked s' = cm_locked s /\ ilen n (cm_dla s') /\ is_H (cm_dla s') = is_H (cm_dla s) /\ is_sw (cm_dla s') = is_sw (cm_dla s) /\
  firstn (cm_locked s) (is_V1 (cm_dla s')) = firstn (cm_locked s) (is_V1 (cm_dla s)) /\
  firstn (cm_locked s) (is_V2 (cm_dla s')) = firstn (cm_locked s) (is_V1 (cm_dla s)) /\ cm_locked s <= n.
Proof.
  intros NL HL H. unfold cm_qr in H. cbv zeta in H. set (l := cm_locked s) in *. apply bind_ok in H as ([hh d] & Hd & H).
  assert (QG : qr_good l (cm_dla s) d).
  { match type of Hd with (if ?c then _ else _) = _ => destruct c end.
    - apply bind_ok in Hd as (d1 & H1 & Hd). injection Hd as _ <-. eapply (i_hhqr_inv fo bl); [exact HL|exact H1].
    - apply bind_ok in Hd as ([i d1] & H1 & Hd).
      assert (X : qr_good l (cm_dla s) d1 /\ (i <> 0%Z -> is_V1 d1 = is_V1 (cm_dla s))).
      { match type of H1 with (if ?c then _ else _) = _ => destruct c; [eapply dv_schol2_inv; eauto|] end.
        match type of H1 with (if ?c then _ else _) = _ => destruct c; [eapply (i_chol1_inv fo bl); [exact HL|exact H1]|eapply dv_chol2_inv; eauto] end. }
      destruct X as [X1 X2]. destruct (i =? 0)%Z eqn:E; [injection Hd as _ <-; auto|]. apply Z.eqb_neq in E. specialize (X2 E).
      destruct X1 as (Q1 & Q2 & Q3 & Q4 & Q5). apply bind_ok in Hd as (d2 & H2 & Hd). injection Hd as _ <-.
      apply (i_hhqr_inv fo bl nev nex) in H2 as (P1 & P2 & P3 & P4 & P5); auto. unfold qr_good. rewrite X2 in P5. repeat split; auto; try congruence; apply P1. }
  destruct QG as ((Q0 & Q1) & Q2 & Q3 & Q4 & Q5). fold n in Q0, Q1, Q4. apply lift_inv in H as (d' & H & ->). cbn [cm_locked cm_dla]. split; auto. unk H. unfold i_lockcopy in H.
  apply bind_ok in H as (x & Hx & H). pose proof (get_range_len _ _ _ _ Hx) as Lx. apply get_range_inv in Hx as [_ ->].
  apply bind_ok in H as (v & Hv & H). injection H as <-. pose proof (put_range_length _ _ _ _ Hv) as Lv. apply put_range_upto in Hv.
  cbn [firstn skipn app] in *. rewrite Lx in Hv. cbn in Hv. unfold ilen. cbn. repeat split; auto; congruence.
Qed.

Lemma dev_cols_gen hh c1 c2 c3 : qr_keeps_cols fo qe nev nex (with_qr L hh c1 c2 c3) ->
  kernel_cols fo (cmK fo qe td (with_qr L hh c1 c2 c3) nev nex) n (fun s => is_V1 (cm_dla s)) iJ0 iJ iJ iJr (ritz_pair_inpl fo bl H0) (ritz_resid fo bl H0).
Proof.
  intros QK. split; cbn [cmK k_sym k_start k_end k_init k_shift k_hemm k_qr k_rr k_resd k_swap k_lock k_lanczos1 k_lanczos2 k_dos].
  - intros l s (_ & (HL & _) & _). exact HL.
  - intros l s (X & _). exact X.
  - auto.
  - intros s b s' (A & B) H. apply lift_v_inv in H as (d & E & ->). unk E. injection E as _ <-. split; auto.
  - intros s s' (A & B) H. unk H. injection H as <-. unfold InplProofs.iJ. cbn. auto.
  - intros r s s' (A & B & C) H. unfold cm_init in H. apply lift_inv in H as (d & E & ->). apply bind_ok in E as (d1 & E1 & E).
    assert (X : ilen n d1 /\ drift (is_H d1)).
    { destruct r; [|injection E1 as <-; auto]. unk E1. unfold i_initrnd in E1. apply bind_ok in E1 as (x & Hx & E1). injection E1 as <-.
      apply put_range_length in Hx. destruct B as (L1 & L2). unfold ilen. cbn. repeat split; auto; unfold n in *; congruence. }
    destruct X as ((L1 & L2) & X). unk E. unfold i_init in E. apply bind_ok in E as (x & _ & E). apply bind_ok in E as (y & Hy & E). injection E as <-.
    apply put_range_length in Hy. unfold InplProofs.iJ, ilen. cbn. repeat split; auto; unfold n in *; congruence.
  - intros m s u s' (A & B & C) H. unfold cm_lanczos1 in H. apply bind_ok in H as ([[[x y] z] d] & E & H). cbv zeta in H.
    apply bind_ok in H as (? & _ & H). apply bind_ok in H as (? & _ & H). apply bind_ok in H as (? & _ & H). injection H as _ <-.
    unk E. unfold dv_mlanczos in E. apply bind_ok in E as ([[[? ?] ?] C'] & E & H). injection H as _ _ _ <-. apply g_lanczos_len in E.
    destruct B as (L1 & L2). unfold InplProofs.iJ, ilen. cbn. repeat split; auto; unfold n in *; congruence.
  - intros m nv s u a b c s' (A & B & C) H. unfold cm_lanczos2 in H. apply bind_ok in H as ([[[x y] z] d] & E & H).
    apply bind_ok in H as ([[? ?] ?] & _ & H). apply bind_ok in H as (? & _ & H). apply bind_ok in H as (? & _ & H). apply bind_ok in H as (? & _ & H).
    apply bind_ok in H as (? & _ & H). injection H as _ _ _ _ <-.
    unk E. unfold dv_mlanczos in E. apply bind_ok in E as ([[[? ?] ?] C'] & E & H). injection H as _ _ _ <-. apply g_lanczos_len in E.
    destruct B as (L1 & L2). unfold InplProofs.iJ, ilen. cbn. repeat split; auto; unfold n in *; congruence.
  - intros idx m rv s s' (A & B & C) H. apply lift_inv in H as (d & E & ->). unk E. unfold i_dos in E.
    apply bind_ok in E as (rv' & _ & E). apply bind_ok in E as (x & _ & E). apply bind_ok in E as (C2 & HC2 & E). apply bind_ok in E as (y & _ & E). apply bind_ok in E as (C' & HC & E).
    injection E as <-. apply put_range_length in HC, HC2. destruct B as (L1 & L2). unfold InplProofs.iJ, ilen. cbn. repeat split; auto; unfold n in *; congruence.
  - intros l k deg degs la lo up s av s' HJ (F1 & F2 & F3 & F4 & F5) H.
    rewrite Forall_forall in F4. destruct (F4 deg F5) as (G1 & G2 & _).
    change (filter_ fo (cmK fo qe td (inplD fo bl n) nev nex) k deg degs la lo up s = Ok (av, s')) in H.
    apply (inpl_filter fo bl qe td nev nex H0 l) in H as (X1 & X2 & _); auto. lia.
  - intros l c s s' (A & B & C) H. apply QK in H as (Q1 & Q2 & Q3 & Q4 & Q5 & Q6 & Q7); auto. rewrite A in *. split; auto. unfold InplProofs.iJr, InplProofs.iJ.
    repeat split; auto; try apply Q2; congruence.
  - intros l s v s' ((A & (L1 & L2) & C) & Hl' & D) Hl H. fold n in L1, L2, Hl'. rewrite A in H. apply lift_v_inv in H as (d & E & ->). unk E. unfold i_rr in E.
    apply bind_ok in E as (c & Hc & E). pose proof (get_range_len _ _ _ _ Hc) as Lc. apply get_range_inv in Hc as [_ ->]. cbv zeta in E.
    apply bind_ok in E as (v2 & Hv & E). injection E as <- <-. pose proof (put_range_length _ _ _ _ Hv) as Lv.
    apply put_range_upto in Hv as UV. rewrite map_length, seq_length in UV. replace (l + (n - l)) with n in UV by lia. rewrite (firstn_all2 v2) in UV by lia.
    assert (CC : firstn (n - l) (skipn l (is_V1 (cm_dla s))) = skipn l (is_V1 (cm_dla s))) by (apply firstn_all2; rewrite skipn_length; lia).
    rewrite CC in *. rewrite D in UV. cbn.
    assert (FV : firstn l v2 = firstn l (is_V1 (cm_dla s))) by (rewrite UV; apply firstn_pre; lia).
    split; [|split].
    + unfold InplProofs.iJr, InplProofs.iJ, ilen. cbn. fold n. repeat split; auto; unfold n in *; congruence.
    + auto.
    + rewrite UV. rewrite skipn_pre by lia.
      assert (Forall2 (fun a b => a = b /\ a < n - l) (seq 0 (n - l)) (seq 0 (n - l))).
      { assert (Z : forall q, (forall a, In a q -> a < n - l) -> Forall2 (fun a b => a = b /\ a < n - l) q q).
        { induction q; constructor; [split; auto; apply H; simpl; auto|apply IHq; intros; apply H; simpl; auto]. }
        apply Z. intros a Ha. apply in_seq in Ha. lia. }
      revert H. generalize (seq 0 (n - l)) at 1 3. generalize (seq 0 (n - l)). intros q1 q2 HF. induction HF as [|a b q1 q2 [-> Ha]]; constructor; auto.
      exists (is_H (cm_dla s)), (skipn l (is_V1 (cm_dla s))), b. repeat split; auto. rewrite skipn_length. lia.
  - intros l v r s s' ((A & (L1 & L2) & C) & Hl' & D) Hl H. fold n in L1, L2, Hl'. rewrite A in H. apply lift_v_inv in H as (d & E & ->). unk E. unfold dv_resd in E.
    apply bind_ok in E as (c & Hc & E). apply get_range_inv in Hc as [_ ->].
    apply bind_ok in E as (v1 & Hv & E). pose proof (get_range_len _ _ _ _ Hv) as Lv. apply get_range_inv in Hv as [Hv0 ->]. cbv zeta in E.
    apply bind_ok in E as (B' & HB & E). injection E as <- <-. pose proof (put_range_length _ _ _ _ HB) as LB'.
    fold n in HB, Lv |- *.
    assert (CC : firstn (n - l) (skipn l (is_V1 (cm_dla s))) = skipn l (is_V1 (cm_dla s))) by (apply firstn_all2; rewrite skipn_length; lia).
    rewrite CC in *. apply (put_range_firstn _ _ _ _ l) in HB as FB; [|lia]. cbn. split; [|split; [auto|split]].
    + unfold InplProofs.iJr, InplProofs.iJ, ilen. cbn. fold n. repeat split; auto; unfold n in *; congruence.
    + rewrite map_length, zip_length, combine_length, map_length, skipn_length. cbn [skipn] in *. lia.
    + intros i x y z Hx Hy Hz. exists (is_H (cm_dla s)). split; auto. cbn [skipn] in *.
      unfold zip in Hz. rewrite !nth_error_map in Hz.
      assert (Hi : i < n - l). { pose proof (nth_error_lt _ _ _ Hy). rewrite skipn_length in H. lia. }
      assert (NC : forall X Y (a : list X) (b : list Y) q u t, nth_error a q = Some u -> nth_error b q = Some t -> nth_error (combine a b) q = Some (u, t)).
      { clear. intros X Y. induction a as [|a0 a IH]; intros [|b0 b] [|q] u t; cbn; intros Ha Hb; try discriminate; [congruence|auto]. }
      erewrite NC in Hz; [|apply NC; [rewrite nth_firstn by lia; exact Hx|exact Hy]|rewrite nth_error_map, Hy; reflexivity].
      cbn in Hz. injection Hz as <-. reflexivity.
  - intros l i j s s' (A & (L1 & L2) & C) Hi Hj H. apply lift_inv in H as (d & E & ->). unk E. unfold i_swap in E.
    apply bind_ok in E as (C' & HC & E). injection E as <-. apply AlgProofs1.swap_inv in HC as (_ & _ & ->).
    cbn. split; auto. unfold InplProofs.iJ, ilen. cbn. rewrite !swp_length. repeat split; auto.
  - intros l i j s s' ((A & (L1 & L2) & C) & Hl & D) Hi Hj H. fold n in L1, L2, Hl. apply lift_inv in H as (d & E & ->). unk E. unfold i_swap in E.
    apply bind_ok in E as (C' & HC & E). injection E as <-. apply AlgProofs1.swap_inv in HC as (_ & _ & ->).
    cbn. split; auto. unfold InplProofs.iJr, InplProofs.iJ, ilen. cbn. rewrite !swp_length. fold n. repeat split; auto. rewrite D.
    symmetry. apply nth_error_ext. intros k. destruct (Nat.lt_ge_cases k l).
    + rewrite !nth_firstn by lia. rewrite swp_nth by lia.
      replace (tr i j k) with k; auto. unfold tr. destruct (Nat.eqb_spec k i); [lia|]. destruct (Nat.eqb_spec k j); [lia|]. auto.
    + rewrite !(proj2 (nth_error_None _ _)); auto; rewrite firstn_length, ?swp_length; lia.
  - intros l m s s' ((A & B & C) & _) H. injection H as <-. cbn. split; auto. unfold InplProofs.iJ. cbn. repeat split; auto; try apply B.
  - intros l s s' HJ H. apply lift_inv in H as (d & E & ->). injection E as <-. destruct s. cbn. auto.
Qed.
Lemma dev_cols : no_late_shift bl n ->
  kernel_cols fo K n (fun s => is_V1 (cm_dla s)) iJ0 iJ iJ iJr (ritz_pair_inpl fo bl H0) (ritz_resid fo bl H0).
Proof.
  intros NL. apply (dev_cols_gen (d_hhqr L) (d_chol1 L) (d_chol2 L) (d_schol2 L)). intros f c s s' HL H. now apply (dev_qr_keeps f c).
Qed.
End Dev.

(** ** lengths *)
Section Len.
Context {F V M G T : Type} (fo : fops F) (bl : blas F V M G T) (n : nat).
Local Notation ist := (ist (V := V) (M := M)).
Ltac go H := repeat (let x := fresh in let E := fresh in apply bind_ok in H as (x & E & H)).
Ltac fin := repeat match goal with E : put_range _ _ _ = Ok _ |- _ => apply put_range_length in E | E : swap_ _ _ _ = Ok _ |- _ => apply AlgProofs1.swap_inv in E as (_ & _ & ->) end;
  unfold ilen in *; cbn in *; rewrite ?swp_length; intuition (try congruence).
Lemma len_initrnd (s s' : ist) : ilen n s -> i_initrnd bl n s = Ok s' -> ilen n s'.
Proof. intros L H. unfold i_initrnd in H. go H. injection H as <-. fin. Qed.
Lemma len_init (s s' : ist) : ilen n s -> i_init n s = Ok s' -> ilen n s'.
Proof. intros L H. unfold i_init in H. go H. injection H as <-. fin. Qed.
Lemma len_apply a b off blk l (s s' : ist) : ilen n s -> i_apply bl a b off blk l s = Ok s' -> ilen n s'.
Proof. intros L H. unfold i_apply in H. go H. injection H as <-. fin. Qed.
Lemma len_save l (s s' : ist) : ilen n s -> i_save l s = Ok s' -> ilen n s'.
Proof. intros L H. unfold i_save in H. go H. injection H as <-. fin. Qed.
Lemma len_set f (s s' : ist) : ilen n s -> i_set n s f = Ok s' -> ilen n s'.
Proof. intros L H. unfold i_set in H. go H. injection H as <-. fin. Qed.
Lemma len_hhqr l (s s' : ist) : ilen n s -> i_hhqr bl n l s = Ok s' -> ilen n s'.
Proof. intros L H. unfold i_hhqr in H. apply bind_ok in H as (s0 & H0 & H). eapply len_set; [|eauto]. eapply len_save; eauto. Qed.
Lemma len_chol1 l (s : ist) i s' : ilen n s -> i_chol1 bl n l s = Ok (i, s') -> ilen n s'.
Proof.
  intros L H. unfold i_chol1 in H. apply bind_ok in H as (s0 & H0 & H). apply len_save in H0; auto. apply bind_ok in H as ([j R] & _ & H).
  destruct (negb _); [injection H as _ <-; auto|]. apply bind_ok in H as (s1 & H1 & H). apply len_set in H1; auto. now injection H as _ <-.
Qed.
Lemma len_chol2 l (s : ist) i s' : ilen n s -> dv_chol2 bl n l s = Ok (i, s') -> ilen n s'.
Proof.
  intros L H. unfold dv_chol2 in H. apply bind_ok in H as (s0 & H0 & H). apply len_save in H0; auto. apply bind_ok in H as ([j R] & _ & H).
  destruct (negb _); [injection H as _ <-; auto|]. apply bind_ok in H as (s1 & H1 & H). apply len_set in H1; auto.
  apply bind_ok in H as ([j2 R2] & _ & H). apply bind_ok in H as (s2 & H2 & H). apply len_set in H2; auto. now injection H as _ <-.
Qed.
Lemma len_schol2 l (s : ist) i s' : ilen n s -> dv_schol2 bl n l s = Ok (i, s') -> ilen n s'.
Proof.
  intros L H. unfold dv_schol2 in H. apply bind_ok in H as (s0 & H0 & H). apply len_save in H0; auto. apply bind_ok in H as ([j R] & _ & H).
  destruct (negb _); [injection H as _ <-; auto|]. apply bind_ok in H as (s1 & H1 & H). apply len_set in H1; auto.
  apply bind_ok in H as ([j2 R2] & _ & H). destruct (negb _); [injection H as _ <-; auto|]. apply bind_ok in H as (s2 & H2 & H). apply len_set in H2; auto.
  apply bind_ok in H as ([j3 R3] & _ & H). apply bind_ok in H as (s3 & H3 & H). apply len_set in H3; auto. now injection H as _ <-.
Qed.
Lemma len_lockcopy l b (s s' : ist) : ilen n s -> i_lockcopy l b s = Ok s' -> ilen n s'.
Proof. intros L H. unfold i_lockcopy in H. go H. injection H as <-. fin. Qed.
Lemma len_rr blk l (s : ist) v s' : ilen n s -> i_rr bl blk l s = Ok (v, s') -> ilen n s' /\ length v = blk /\ blk <= n.
Proof.
  intros L H. unfold i_rr in H. apply bind_ok in H as (c & Hc & H). apply get_range_inv in Hc as [Hc _]. cbv zeta in H. go H. injection H as <- <-.
  split; [fin|]. rewrite map_length, seq_length. split; auto. destruct L. lia.
Qed.
Lemma len_resd v l u (s : ist) r s' : ilen n s -> dv_resd fo bl v l u s = Ok (r, s') -> ilen n s'.
Proof.
  intros L H. unfold dv_resd in H. apply bind_ok in H as (c & Hc & H). apply bind_ok in H as (v' & Hv & H). cbv zeta in H. go H. injection H as <- <-. fin.
Qed.
Lemma len_swap i j (s s' : ist) : ilen n s -> i_swap i j s = Ok s' -> ilen n s'.
Proof. intros L H. unfold i_swap in H. go H. injection H as <-. fin. Qed.
Lemma len_dos i m rv (s s' : ist) : ilen n s -> i_dos bl i m rv s = Ok s' -> ilen n s'.
Proof. intros L H. unfold i_dos in H. go H. injection H as <-. fin. Qed.
Lemma len_mlanczos m nv (s : ist) d e b s' : ilen n s -> dv_mlanczos fo bl m nv s = Ok (d, e, b, s') -> ilen n s'.
Proof.
  intros L H. unfold dv_mlanczos in H. apply bind_ok in H as ([[[? ?] ?] C'] & E & H). injection H as _ _ _ <-. apply g_lanczos_len in E.
  unfold ilen in *. cbn. intuition congruence.
Qed.
End Len.

(** ** the device with its host copies against the bare device *)
Section Run.
Context {F V M G T : Type} (fo : fops F) (bl : blas F V M G T) (qe : qr_env F) (td : tridiag F) (nev nex : nat) (H0 : M).
Let n := nev + nex.
Local Notation gK := (cmK fo qe td (gpuD fo bl n) nev nex).
Local Notation dK := (cmK fo qe td (devD fo bl n) nev nex).
Local Notation gst := (gst (F := F) (V := V) (M := M)).
Local Notation ist := (ist (V := V) (M := M)).

(** before the upload the two matrices on the device need not agree; the values left on the device and the caller's vectors
    play no role *)
Definition dev0 (s : gst) (t : ist) : Prop := glen n s /\ g_H s = H0 /\ is_H t = H0 /\
  is_V1 (g_dev s) = is_V1 t /\ is_V2 (g_dev s) = is_V2 t /\ is_sw (g_dev s) = is_sw t.
Definition dev1 (s : gst) (t : ist) : Prop := glen n s /\ g_H s = H0 /\ g_dev s = t.
Definition dev2 (s : gst) (t : ist) : Prop := dev1 s t /\ g_V1 s = is_V1 t.

Lemma on_dev_rel (s : gst) t x : dev1 s t -> (forall d, x = Ok d -> ilen n d) -> rel_res dev1 (on_dev s x) x.
Proof. intros ((A & B & C) & E & _) HI. unfold on_dev. destruct x as [d| |]; cbn; auto. unfold dev1, glen. cbn. specialize (HI d eq_refl). auto. Qed.
Lemma on_dev_v_rel {X} (s : gst) t (x : res (X * ist)) : dev1 s t -> (forall v d, x = Ok (v, d) -> ilen n d) -> rel_res (vrel dev1) (on_dev_v s x) x.
Proof. intros ((A & B & C) & E & _) HI. unfold on_dev_v. destruct x as [[v d]| |]; cbn; auto. split; auto. unfold dev1, glen. cbn. specialize (HI v d eq_refl). auto. Qed.

Lemma dev_rr_rel blk l s t : dev1 s t -> rel_res (fun a b => fst a = fst b /\ dev1 (snd a) (snd b) /\ length (fst a) = blk /\ firstn blk (g_ritz (snd a)) = fst a)
  (g_rr bl blk l s) (i_rr bl blk l t).
Proof.
  intros H. pose proof H as ((A & B & C) & E & Et). subst t. unfold g_rr. destruct (i_rr bl blk l (g_dev s)) as [[v d]| |] eqn:ER; cbn [bind]; cbn; auto.
  apply (len_rr bl n) in ER as (Ld & Lv & Hb); auto. destruct (put_ok (g_ritz s) 0 v) as (r & Er & Lr); [lia|]. rewrite Er. cbn.
  repeat split; cbn; auto; try apply Ld; try congruence. apply put_range_upto in Er. rewrite Lv in Er. exact Er.
Qed.

Lemma dev_rel : dla_rel (gpuD fo bl n) (devD fo bl n) dev1.
Proof.
  split; cbn [gpuD devD d_sym d_start d_end d_initrnd d_init d_shift d_apply d_hhqr d_chol1 d_chol2 d_schol2 d_lockcopy d_rr d_resd d_swap d_mlanczos d_dos].
  - intros c u s t H. pose proof H as ((A & _) & _ & Et). subst t. eapply on_dev_rel; eauto. intros d E. injection E as <-. exact A.
  - intros a b off blk l s t H. pose proof H as ((A & _) & _ & Et). subst t. eapply on_dev_rel; eauto. intros d E. eapply len_apply; eauto.
  - intros l s t H. pose proof H as ((A & _) & _ & Et). subst t. eapply on_dev_rel; eauto. intros d E. eapply len_hhqr; eauto.
  - intros l s t H. pose proof H as ((A & _) & _ & Et). subst t. eapply on_dev_v_rel; eauto. intros v d E. eapply len_chol1; eauto.
  - intros l s t H. pose proof H as ((A & _) & _ & Et). subst t. eapply on_dev_v_rel; eauto. intros v d E. eapply len_chol2; eauto.
  - intros l s t H. pose proof H as ((A & _) & _ & Et). subst t. eapply on_dev_v_rel; eauto. intros v d E. eapply len_schol2; eauto.
  - intros l b s t H. pose proof H as ((A & _) & _ & Et). subst t. eapply on_dev_rel; eauto. intros d E. eapply len_lockcopy; eauto.
  - intros blk l s t H. eapply rel_mono; [|eapply dev_rr_rel; eauto]. intros a b (X & Y & _). split; auto.
  - intros i j s t H. pose proof H as ((A & _) & _ & Et). subst t. eapply on_dev_rel; eauto. intros d E. eapply len_swap; eauto.
  - intros m nv s t H. pose proof H as ((A & B & C) & E & Et). subst t. unfold g_mlanczos.
    destruct (dv_mlanczos fo bl m nv (g_dev s)) as [[[[x e] b] d]| |] eqn:EL; cbn; auto. apply (len_mlanczos fo bl n) in EL; auto.
    split; auto. unfold dev1, glen. cbn. auto.
  - intros i m rv s t H. pose proof H as ((A & _) & _ & Et). subst t. eapply on_dev_rel; eauto. intros d E. eapply len_dos; eauto.
Qed.

Lemma get_range_same (a b : list F) k m : m <= length a -> firstn m a = firstn m b -> k <= m -> get_range a 0 k = get_range b 0 k.
Proof.
  intros La E Hk. assert (Lb : m <= length b). { apply (f_equal (@length F)) in E. rewrite !firstn_length in E. lia. }
  rewrite !get_range_ok by lia. cbn [skipn]. f_equal. rewrite <- (firstn_firstn a k m) || idtac.
  replace k with (Nat.min k m) by lia. rewrite <- !firstn_firstn. now rewrite E.
Qed.

Lemma gpu_run_rel : run_rel gK dK n (cmR dev0) (cmR dev1) (cmR dev2).
Proof.
  split; cbn [cmK k_sym k_start k_end k_init k_rr k_resd].
  - intros s t [E H]. apply lift_v_rel; auto. destruct H as (A & B & C & D1 & D2 & D3). cbn. split; cbn.
    + now rewrite B, C.
    + unfold dev0. tauto.
  - intros s t [E H]. cbn. split; cbn; auto.
  - intros r s t [E H]. unfold cm_init. apply lift_rel; auto. cbn [gpuD devD d_initrnd d_init]. destruct s as [ls s], t as [lt t]. cbn [cm_dla cm_locked] in *.
    eapply rel_bind with (R := dev0).
    + destruct r; [|exact H]. destruct H as (A & B & C & D1 & D2 & D3). unfold g_initrnd, on_dev, i_initrnd. rewrite D1.
      destruct (put_range (is_V1 t) 0 (map (b_rnd bl) (seq 0 n))) as [v| |] eqn:Ev; cbn; auto. apply put_range_length in Ev.
      destruct A as ((A1 & A2) & A3 & A4). unfold dev0, glen, ilen. cbn. repeat split; auto; congruence.
    + clear. intros s t (A & B & C & D1 & D2 & D3). unfold g_init, i_init. rewrite D1, D2.
      destruct (get_range (is_V1 t) 0 n) as [c| |]; cbn; auto. destruct (put_range (is_V2 t) 0 c) as [v| |] eqn:Ev; cbn; auto. apply put_range_length in Ev.
      destruct A as ((A1 & A2) & A3 & A4). unfold dev1, glen, ilen. cbn. rewrite ?B, ?C, ?D1, ?D3. repeat split; auto; congruence.
  - apply cm_core_rel. apply dev_rel.
  - intros m s t [E H]. rewrite E. unfold lift_v. eapply rel_bind; [eapply dev_rr_rel; eauto|].
    intros [v s1] [v' t1] (X1 & X2 & X3 & X4). cbn [fst snd] in *. subst v'. cbn. split; auto. split; [split; auto|].
    intros w l Hw Hm. cbn [cm_locked cm_dla]. rewrite E. fold n. rewrite <- Hm.
    pose proof X2 as ((A & B & C) & EH & Et). subst t1. unfold g_resd.
    assert (ED : dv_resd fo bl (g_ritz s1) (cm_locked t) m (g_dev s1) = dv_resd fo bl w (cm_locked t) m (g_dev s1)).
    { unfold dv_resd. destruct (get_range (is_V1 (g_dev s1)) (cm_locked t) m); cbn [bind]; auto.
      rewrite (get_range_same (g_ritz s1) w m m); auto; [|congruence].
      apply (f_equal (@length F)) in X4. rewrite firstn_length in X4. lia. }
    rewrite ED. unfold on_dev_v. destruct (dv_resd fo bl w (cm_locked t) m (g_dev s1)) as [[r d]| |] eqn:ER; cbn; auto.
    apply (len_resd fo bl n) in ER; auto. split; auto. split; auto. unfold dev1, glen. cbn. auto.
  - intros s t [E H]. apply lift_rel; auto. cbn [gpuD devD d_end]. pose proof H as (((A1 & A2) & B & C) & EH & Et). destruct t as [lt t]. cbn [cm_dla] in *. subst t.
    unfold g_end. rewrite get_range_ok by lia. cbn [bind skipn].
    rewrite (firstn_all2 (is_V1 (g_dev (cm_dla s)))) by lia. rewrite put_range_ok by lia. cbn.
    assert (EQ : is_V1 (g_dev (cm_dla s)) ++ skipn (length (is_V1 (g_dev (cm_dla s)))) (g_V1 (cm_dla s)) = is_V1 (g_dev (cm_dla s))).
    { rewrite (skipn_all2 (g_V1 (cm_dla s))) by lia. apply app_nil_r. }
    rewrite EQ. unfold dev2, dev1, glen, ilen. cbn. repeat split; auto.
Qed.
End Run.

(** ** whole runs *)
Section Solve.
Context {F V M G T : Type} (fo : fops F) (bl : blas F V M G T) (qe : qr_env F) (td : tridiag F) (cf : conf F).
Local Notation n := (c_nev cf + c_nex cf).
Local Notation gK := (cmK fo qe td (gpuD fo bl (c_nev cf + c_nex cf)) (c_nev cf) (c_nex cf)).
Local Notation dK := (cmK fo qe td (devD fo bl (c_nev cf + c_nex cf)) (c_nev cf) (c_nex cf)).
Context (sort_idx : list F -> list nat) (Hperm : forall keys, Permutation (sort_idx keys) (seq 0 (length keys))) (fsort : list F -> list F).
Context (g : cm (D := gst (F := F) (V := V) (M := M))) (HG : glen n (cm_dla g)).
Let H0 := g_H (cm_dla g).
Let bare : cm (D := ist (V := V) (M := M)) :=
  mk_cm (cm_locked g) (mk_ist H0 (is_V1 (g_dev (cm_dla g))) (is_V2 (g_dev (cm_dla g))) (is_sw (g_dev (cm_dla g)))).
Local Notation R0 := (cmR (dev0 (c_nev cf) (c_nex cf) H0)).
Local Notation R1 := (cmR (dev1 (c_nev cf) (c_nex cf) H0)).
Local Notation R2 := (cmR (dev2 (c_nev cf) (c_nex cf) H0)).

Lemma bare_rel : R0 g bare.
Proof. split; auto. unfold dev0. cbn. repeat split; auto; apply HG. Qed.
Lemma bare_J0 : iJ0 fo bl (c_nev cf) (c_nex cf) H0 bare.
Proof. split; [apply HG|constructor]. Qed.
Let RR := gpu_run_rel fo bl qe td (c_nev cf) (c_nex cf) H0.

Lemma gpu_to_bare ritzv resid o : solve fo gK fsort sort_idx cf g ritzv resid = Ok o ->
  exists o', solve fo dK fsort sort_idx cf bare ritzv resid = Ok o' /\ outR2 R0 R1 R2 o o'.
Proof.
  intros H. pose proof (solve_run fo gK dK cf R0 R1 R2 sort_idx Hperm RR fsort g bare ritzv resid bare_rel) as X.
  rewrite H in X. destruct (solve fo dK fsort sort_idx cf bare ritzv resid) as [o'| |]; try easy. exists o'. split; auto.
Qed.

Lemma gpu_sorted (P : F -> Prop) : order_on fo P -> conf_ok cf -> 1 <= c_maxiter cf -> no_late_shift bl n -> forall ritzv resid o s,
  solve fo gK fsort sort_idx cf g ritzv resid = Ok o -> o_exit o = Some s -> Forall P (o_ritz o) ->
  let V1 := g_V1 (cm_dla (o_k o)) in
  fsorted_upto fo (c_nev cf) (c_nev cf) (o_ritz o) /\ c_nev cf <= length (o_ritz o) /\ length V1 = n /\
  forall i v x, i < c_nev cf -> nth_error (o_ritz o) i = Some v -> nth_error V1 i = Some x -> ritz_pair_inpl fo bl H0 v x.
Proof.
  intros HO HC HM NL ritzv resid o s H He HP. destruct (gpu_to_bare ritzv resid o H) as (o' & H' & E1 & E2 & EX).
  rewrite He in EX. destruct (o_exit o') as [s'|] eqn:He'; try easy. destruct EX as (_ & _ & _ & EV). rewrite EV, E1. rewrite E1 in HP.
  exact (gen_sorted fo dK sort_idx Hperm cf _ _ _ _ _ _ _ (dev_cols fo bl qe td _ _ H0 NL) HC HM P fsort _ ritzv resid o' s' HO bare_J0 H' He' HP).
Qed.

Lemma gpu_residuals : conf_ok cf -> 1 <= c_maxiter cf -> no_late_shift bl n -> forall ritzv resid o s,
  solve fo gK fsort sort_idx cf g ritzv resid = Ok o -> o_exit o = Some s ->
  fsorted_upto fo (c_nev cf) (c_nev cf) (whole (ss_ritz s)) ->
  forall i v x r, i < c_nev cf -> nth_error (o_ritz o) i = Some v -> nth_error (g_V1 (cm_dla (o_k o))) i = Some x ->
  nth_error (o_res o) i = Some r -> ritz_pair_inpl fo bl H0 v x /\ ritz_resid fo bl H0 v x r.
Proof.
  intros HC HM NL ritzv resid o s H He HS. destruct (gpu_to_bare ritzv resid o H) as (o' & H' & E1 & E2 & EX).
  rewrite He in EX. destruct (o_exit o') as [s'|] eqn:He'; try easy. destruct EX as (ES & _ & _ & EV). rewrite EV, E1, E2.
  destruct ES as (_ & ES & _). rewrite ES in HS.
  exact (gen_residuals fo dK sort_idx Hperm cf _ _ _ _ _ _ _ (dev_cols fo bl qe td _ _ H0 NL) HC HM fsort _ ritzv resid o' s' bare_J0 H' He' HS).
Qed.

Lemma gpu_matrix ritzv resid o : solve fo gK fsort sort_idx cf g ritzv resid = Ok o -> g_H (cm_dla (o_k o)) = g_H (cm_dla g).
Proof.
  intros H. destruct (gpu_to_bare ritzv resid o H) as (o' & H' & E1 & E2 & EX).
  destruct (o_exit o), (o_exit o'); try easy.
  - destruct EX as (_ & _ & (X & _)). apply X.
  - destruct EX as (_ & X). apply X.
Qed.

Lemma gpu_locked : conf_ok cf -> no_late_shift bl n -> forall k0 ritzv resid ub s0 s t,
  (if c_symcheck cf then k_sym gK g else Ok (true, g)) = Ok (true, k0) ->
  solve_init fo gK fsort cf k0 ritzv resid = Ok (ub, s0) ->
  reach fo gK sort_idx cf ub s0 s -> reach fo gK sort_idx cf ub s t ->
  let dV := fun x : @sstate F _ => is_V1 (g_dev (cm_dla (ss_k x))) in
  length (fst (ss_ritz s)) = ss_locked s /\ length (fst (ss_res s)) = ss_locked s /\ ss_locked s <= ss_locked t /\
  firstn (ss_locked s) (fst (ss_ritz t)) = fst (ss_ritz s) /\
  firstn (ss_locked s) (fst (ss_res t)) = fst (ss_res s) /\
  firstn (ss_locked s) (dV t) = firstn (ss_locked s) (dV s).
Proof.
  intros HC NL k0 ritzv resid ub s0 s t Hs Hi W1 W2 dV.
  assert (X : exists k0', (if c_symcheck cf then k_sym dK bare else Ok (true, bare)) = Ok (true, k0') /\ R0 k0 k0').
  { destruct (c_symcheck cf).
    - pose proof (rl_sym _ _ _ _ _ _ RR g bare bare_rel) as X. rewrite Hs in X. destruct (k_sym dK bare) as [[b k']| |]; try easy.
      destruct X as [Eb X]. cbn in Eb. subst b. exists k'. auto.
    - injection Hs as <-. exists bare. split; auto. apply bare_rel. }
  destruct X as (k0' & Hs' & HR0).
  pose proof (solve_init_run fo gK dK cf R0 R1 R2 RR fsort k0 k0' ritzv resid HR0) as X. rewrite Hi in X.
  destruct (solve_init fo dK fsort cf k0' ritzv resid) as [[ub' s0']| |] eqn:Hi'; try easy. destruct X as [Eu HS0]. cbn in Eu, HS0. subst ub'.
  pose proof (solve_init_book fo gK fsort cf k0 ritzv resid ub s0 Hi) as (HB & Hit & _).
  destruct (reach_run fo gK dK cf R0 R1 R2 sort_idx Hperm RR _ _ ub s0 s0' s HB ltac:(lia) HS0 W1) as (s' & W1' & HSs).
  pose proof (reach_book fo gK sort_idx Hperm cf _ _ ub s0 s HB ltac:(lia) W1) as (HBs & _ & Hits & _).
  destruct (reach_run fo gK dK cf R0 R1 R2 sort_idx Hperm RR _ _ ub s s' t HBs ltac:(lia) HSs W2) as (t' & W2' & HSt).
  pose proof (run_keep fo dK sort_idx Hperm _ _ _ _ _ _ (cols_keep _ _ _ _ _ _ _ _ _ _ (dev_cols fo bl qe td (c_nev cf) (c_nex cf) H0 NL))
    fsort cf _ _ _ _ _ _ _ _ eq_refl HC bare_J0 Hs' Hi' W1' W2') as X. cbn beta in X.
  destruct HSs as ((_ & Ds) & A1 & A2 & _ & _ & A5 & _). destruct HSt as ((_ & Dt) & B1 & B2 & _ & _ & B5 & _).
  destruct Ds as (_ & _ & Ds). destruct Dt as (_ & _ & Dt). unfold dV. rewrite Ds, Dt, A1, A2, A5, B1, B2, B5. exact X.
Qed.
End Solve.

(** the caller's vectors, the values and the matrix left on the device do not influence a solve *)
Section Ignore.
Context {F V M G T : Type} (fo : fops F) (bl : blas F V M G T) (qe : qr_env F) (td : tridiag F) (cf : conf F).
Local Notation gK := (cmK fo qe td (gpuD fo bl (c_nev cf + c_nex cf)) (c_nev cf) (c_nex cf)).
Lemma gpu_ignores sort_idx (Hperm : forall keys, Permutation (sort_idx keys) (seq 0 (length keys))) fsort l (H h h' : M) (U U' W W' : list V) sw r r' ritzv resid o :
  let n := c_nev cf + c_nex cf in let g := mk_cm l (mk_gst H U (mk_ist h W W' sw) r) in let g' := mk_cm l (mk_gst H U' (mk_ist h' W W' sw) r') in
  glen n (cm_dla g) -> glen n (cm_dla g') ->
  solve fo gK fsort sort_idx cf g ritzv resid = Ok o ->
  exists o', solve fo gK fsort sort_idx cf g' ritzv resid = Ok o' /\ o_ritz o' = o_ritz o /\ o_res o' = o_res o /\
    (o_exit o <> None -> g_V1 (cm_dla (o_k o')) = g_V1 (cm_dla (o_k o))).
Proof.
  intros n g g' Hg Hg' Hs. destruct (gpu_to_bare fo bl qe td cf sort_idx Hperm fsort g Hg ritzv resid o Hs) as (o1 & H1 & E1 & E2 & EX).
  pose proof (solve_run fo gK _ cf _ _ _ sort_idx Hperm (gpu_run_rel fo bl qe td (c_nev cf) (c_nex cf) H) fsort g' _ ritzv resid (bare_rel cf g' Hg')) as X.
  cbn in H1, X. rewrite H1 in X. destruct (solve fo gK fsort sort_idx cf g' ritzv resid) as [o'| |] eqn:Ho'; try easy.
  destruct X as (F1 & F2 & FX). exists o'. repeat split; try congruence. intros NE. destruct (o_exit o) as [s|]; try congruence.
  destruct (o_exit o1); try easy. destruct (o_exit o'); try easy. destruct EX as (_ & _ & _ & EV). destruct FX as (_ & _ & _ & FV). cbn in *. congruence.
Qed.
End Ignore.
