(** The in-place backend: bounds, column contract, buffer parity. *)
From Coq Require Import List Arith ZArith Bool Lia Permutation.
Require Import Verif.Base Verif.AlgModel Verif.AlgSpec Verif.AlgProofs1 Verif.AlgProofs3 Verif.AlgProofs4 Verif.AlgTrace Verif.AlgObs
  Verif.DlaModel Verif.ColModel Verif.ColSpec Verif.ColProofs1 Verif.ColProofs2.
Import ListNotations.

Section Safe.
Context {F V M G T : Type} (fo : fops F) (bl : blas F V M G T) (n : nat).
Definition ilen (s : ist (V := V) (M := M)) : Prop := length (is_V1 s) = n /\ length (is_V2 s) = n.
Ltac done_ := cbn [bind]; eexists; split; [reflexivity | unfold ilen; cbn; repeat split; lens].
Ltac start s := let L1 := fresh "L1" in let L2 := fresh "L2" in
  intros (L1 & L2); destruct s as [H V1 V2 sw]; cbn [is_V1 is_V2 is_H is_sw] in *.
Lemma i_initrnd_ok s : ilen s -> exists s', i_initrnd bl n s = Ok s' /\ ilen s'.
Proof. start s. unfold i_initrnd. cbn. acc. done_. Qed.
Lemma i_init_ok s : ilen s -> exists s', i_init n s = Ok s' /\ ilen s'.
Proof. start s. unfold i_init. cbn. acc. acc. done_. Qed.
Lemma i_apply_ok al be off blk locked s : ilen s -> locked + off + blk <= n -> exists s', i_apply bl al be off blk locked s = Ok s' /\ ilen s'.
Proof. start s. intros Hr. unfold i_apply. cbn. acc. acc. acc. done_. Qed.
Lemma i_rr_ok blk locked s : ilen s -> locked + blk <= n -> exists v s', i_rr bl blk locked s = Ok (v, s') /\ length v = blk /\ ilen s'.
Proof.
  start s. intros Hr. unfold i_rr. cbn [is_V1 is_V2 is_H is_sw]. acc. cbv zeta. acc. do 2 eexists. split; [reflexivity|]. split; [lens|]. unfold ilen; cbn; lens.
Qed.
Lemma i_resd_ok v locked unc s : ilen s -> locked + unc <= n -> unc <= length v ->
  exists r s', i_resd fo bl v locked unc s = Ok (r, s') /\ length r = unc /\ ilen s'.
Proof.
  start s. intros Hr Hv. unfold i_resd. cbn [is_V1 is_V2 is_H is_sw]. acc. acc. cbv zeta. acc. do 2 eexists. split; [reflexivity|]. split; [lens|]. unfold ilen; cbn; lens.
Qed.
Lemma i_save_ok l s : ilen s -> l <= n -> exists s', i_save l s = Ok s' /\ ilen s'.
Proof. start s. intros Hl. unfold i_save. cbn. acc. acc. done_. Qed.
Lemma i_set_ok f s : ilen s -> exists s', i_set n s f = Ok s' /\ ilen s'.
Proof. start s. unfold i_set. cbn. acc. acc. done_. Qed.
Lemma i_factor_ok b s : ilen s -> exists i R, i_factor bl n b s = Ok (i, R).
Proof. start s. unfold i_factor. cbn. acc. cbv zeta. destruct (b_potrf _ _) as [i R]. eauto. Qed.
Ltac sv := match goal with H : ilen ?s |- context [bind (i_save ?l ?s) _] => let s0 := fresh "s0" in let H0 := fresh "H0" in
    destruct (i_save_ok l s) as (s0 & -> & H0); [auto|auto|cbn [bind]] end.
Ltac fc := match goal with H : ilen ?s |- context [bind (i_factor bl n ?b ?s) _] => let i := fresh "i" in let R := fresh "R" in
    destruct (i_factor_ok b s H) as (i & R & ->); cbn [bind] end.
Ltac st := match goal with H : ilen ?s |- context [bind (i_set n ?s ?f) _] => let s0 := fresh "s0" in let H0 := fresh "H0" in
    destruct (i_set_ok f s H) as (s0 & -> & H0); cbn [bind] end.
Lemma i_hhqr_ok l s : ilen s -> l <= n -> exists s', i_hhqr bl n l s = Ok s' /\ ilen s'.
Proof. intros Hs Hl. unfold i_hhqr. sv. now apply i_set_ok. Qed.
Lemma i_chol1_ok l s : ilen s -> l <= n -> exists i s', i_chol1 bl n l s = Ok (i, s') /\ ilen s'.
Proof. intros Hs Hl. unfold i_chol1. sv. fc. destruct (negb _); [eauto|]. st. eauto. Qed.
Lemma i_chol2_ok l s : ilen s -> l <= n -> exists i s', i_chol2 bl n l s = Ok (i, s') /\ ilen s'.
Proof. intros Hs Hl. unfold i_chol2. sv. fc. destruct (negb _); [eauto|]. st. fc. st. eauto. Qed.
Lemma i_schol2_ok l s : ilen s -> l <= n -> exists i s', i_schol2 bl n l s = Ok (i, s') /\ ilen s'.
Proof. intros Hs Hl. unfold i_schol2. sv. fc. destruct (negb _); [eauto|]. st. fc. destruct (negb _); [eauto|]. st. fc. st. eauto. Qed.
Lemma i_lockcopy_ok l b s : ilen s -> l <= n -> exists s', i_lockcopy l b s = Ok s' /\ ilen s'.
Proof. start s. intros Hl. unfold i_lockcopy. cbn. acc. acc. done_. Qed.
Lemma i_swap_ok i j s : ilen s -> i < n -> j < n -> exists s', i_swap i j s = Ok s' /\ ilen s'.
Proof. start s. intros Hi Hj. unfold i_swap. cbn. acc. done_. Qed.
Lemma i_dos_ok idx m rv s : ilen s -> idx <= m -> m <= n -> idx * m <= length rv -> exists s', i_dos bl idx m rv s = Ok s' /\ ilen s'.
Proof. start s. intros Hi Hj Hr. unfold i_dos. cbn. acc. acc. acc. acc. acc. done_. Qed.
Lemma i_mlanczos_ok Mn nv s : ilen s -> nv_of nv <= n -> Mn <= n ->
  exists d e b s', i_mlanczos fo bl Mn nv s = Ok (d, e, b, s') /\ length d = Mn * nv_of nv /\ length e = Mn * nv_of nv /\ length b = nv_of nv /\ ilen s'.
Proof.
  start s. intros Hv Hm. unfold i_mlanczos. cbn.
  destruct (mlanczos_ok fo bl H Mn nv V1) as (d & e & b & C' & -> & X1 & X2 & X3 & X4); [lia|lia|]. cbn [bind].
  do 4 eexists. split; [reflexivity|]. unfold ilen; cbn; repeat split; lens.
Qed.
Lemma inpl_dla_safe : dla_safe (inplD fo bl n) n ilen.
Proof.
  split; cbn [inplD d_sym d_start d_end d_initrnd d_init d_shift d_apply d_hhqr d_chol1 d_chol2 d_schol2 d_lockcopy d_rr d_resd d_swap d_mlanczos d_dos];
    intros; eauto.
  - unfold i_sym. eauto.
  - now apply i_initrnd_ok.
  - now apply i_init_ok.
  - unfold i_shift. eexists. split; eauto.
  - now apply i_apply_ok.
  - now apply i_hhqr_ok.
  - now apply i_chol1_ok.
  - now apply i_chol2_ok.
  - now apply i_schol2_ok.
  - now apply i_lockcopy_ok.
  - apply i_rr_ok; auto; lia.
  - now apply i_resd_ok.
  - now apply i_swap_ok.
  - apply i_mlanczos_ok; auto; lia.
  - now apply i_dos_ok.
Qed.
End Safe.

(** filter with the number of products counted *)
Lemma filter_count {F St} (fo : fops F) (K : kernel F St) (P : St -> Prop) (Q : F -> nat -> St -> Prop) (P' : St -> Prop) n deg degs la lo up s av s' :
  (forall c k k', P k -> k_shift K (f_neg fo c) false k = Ok k' -> Q c 0 k') ->
  (forall c i m a b off k k', Q c i k -> k_hemm K m a b off k = Ok k' -> Q c (S i) k') ->
  (forall c k k', Q c deg k -> k_shift K c true k = Ok k' -> P' k') -> 1 <= deg ->
  P s -> filter_ fo K n deg degs la lo up s = Ok (av, s') -> P' s'.
Proof.
  intros HA HB HC Hd HP H. unfold filter_ in H. apply bind_ok in H as (k1 & H1 & H). apply bind_ok in H as (k2 & H2 & H).
  apply bind_ok in H as ([[dg un] off] & _ & H). apply bind_ok in H as (st & H3 & H). apply bind_ok in H as (k3 & H4 & H).
  injection H as _ E. subst k3. eapply HC; [|exact H4]. apply HA in H1; auto. eapply HB in H2; eauto.
  apply (for_inv_ok (fun i st => Q (center fo up lo) (i - 1) (fs_k st))) in H3; cbn; auto.
  { replace (2 + (deg - 1) - 1) with deg in H3 by lia. exact H3. }
  clear H3. intros i t t' Hi Qt Ht. unfold filter_step in Ht. apply bind_ok in Ht as (k4 & H5 & Ht).
  apply bind_ok in Ht as ([[dg' un'] off'] & _ & Ht). injection Ht as <-. cbn [fs_k].
  replace (i - 0) with (S (i - 1)) by lia. eapply HB; eauto.
Qed.

(** the same backend with other QR functions *)
Definition with_qr {F D} (L : dla F D) hh c1 c2 c3 : dla F D := {|
  d_sym := d_sym L; d_start := d_start L; d_end := d_end L; d_initrnd := d_initrnd L; d_init := d_init L; d_shift := d_shift L;
  d_apply := d_apply L; d_hhqr := hh; d_chol1 := c1; d_chol2 := c2; d_schol2 := c3;
  d_lockcopy := d_lockcopy L; d_rr := d_rr L; d_resd := d_resd L; d_swap := d_swap L; d_mlanczos := d_mlanczos L; d_dos := d_dos L |}.

Section Inpl.
Context {F V M G T : Type} (fo : fops F) (bl : blas F V M G T) (qe : qr_env F) (td : tridiag F) (nev nex : nat) (H0 : M).
Let n := nev + nex.
Local Notation L := (inplD fo bl n).
Local Notation K := (cmK fo qe td L nev nex).
Local Notation drift := (drift fo bl H0).
Local Notation st := (cm (D := ist (V := V) (M := M))).

Ltac unk H := cbn [cmK k_sym k_start k_end k_init k_shift k_hemm k_qr k_rr k_resd k_swap k_lock k_lanczos1 k_lanczos2 k_dos
  with_qr inplD d_sym d_start d_end d_initrnd d_init d_shift d_apply d_hhqr d_chol1 d_chol2 d_schol2 d_lockcopy d_rr d_resd d_swap d_mlanczos d_dos] in H.

Definition iJ0 (s : st) : Prop := ilen n (cm_dla s) /\ drift (is_H (cm_dla s)).
Definition iJ (l : nat) (s : st) : Prop := cm_locked s = l /\ ilen n (cm_dla s) /\ drift (is_H (cm_dla s)).

Definition iJr (l : nat) (s : st) : Prop := iJ l s /\ l <= n /\ firstn l (is_V2 (cm_dla s)) = firstn l (is_V1 (cm_dla s)).

Lemma even_odd_S i : Nat.even (S i) = negb (Nat.even i).
Proof. rewrite Nat.even_succ, <- Nat.negb_even. auto. Qed.

Lemma inpl_filter l k deg degs la lo up s av s' : iJ l s -> 1 <= deg -> Nat.even deg = true -> filter_ fo K k deg degs la lo up s = Ok (av, s') ->
  iJ l s' /\ firstn l (is_V1 (cm_dla s')) = firstn l (is_V1 (cm_dla s)) /\ is_sw (cm_dla s') = is_sw (cm_dla s).
Proof.
  intros (A & B & C) Hd He H.
  set (P0 := fun (i : nat) (t : st) => cm_locked t = l /\ ilen n (cm_dla t) /\
     is_sw (cm_dla t) = (if Nat.even i then is_sw (cm_dla s) else negb (is_sw (cm_dla s))) /\
     firstn l (if Nat.even i then is_V1 (cm_dla t) else is_V2 (cm_dla t)) = firstn l (is_V1 (cm_dla s)) /\
     firstn l (if Nat.even i then is_V2 (cm_dla t) else is_V1 (cm_dla t)) = firstn l (is_V2 (cm_dla s))).
  assert (X : P0 deg s' /\ drift (is_H (cm_dla s'))).
  { eapply (filter_count fo K (fun t => P0 0 t /\ drift (is_H (cm_dla t)))
      (fun c i t => P0 i t /\ exists h, drift h /\ is_H (cm_dla t) = b_shift bl h (f_neg fo c)) (fun t => P0 deg t /\ drift (is_H (cm_dla t)))); [| | |exact Hd| |exact H].
    - intros c t t' [(P1 & P2 & P3 & P4 & P5) Hd'] Ht. unk Ht. apply lift_inv in Ht as (d & Ed & ->). injection Ed as <-.
      split; [unfold P0; cbn; auto|]. eexists. split; eauto.
    - intros c i m a b off t t' [(P1 & P2 & P3 & P4 & P5) Hd'] Ht. unk Ht. apply lift_inv in Ht as (d & Ed & ->).
      unfold i_apply in Ed. apply bind_ok in Ed as (x & _ & Ed). apply bind_ok in Ed as (y & _ & Ed). apply bind_ok in Ed as (v & Hv & Ed).
      injection Ed as <-. rewrite P1 in Hv. pose proof (put_range_length _ _ _ _ Hv) as Lv. apply (put_range_firstn _ _ _ _ l) in Hv; [|lia].
      destruct P2 as [L1 L2]. split; [|exact Hd']. unfold P0, ilen. cbn [cm_locked cm_dla is_V1 is_V2 is_sw]. rewrite even_odd_S.
      destruct (Nat.even i); cbn [negb] in *; repeat split; auto; try congruence. rewrite P3. apply negb_involutive.
    - intros c t t' [(P1 & P2 & P3 & P4 & P5) (h & Hh & Eh)] Ht. unk Ht. apply lift_inv in Ht as (d & Ed & ->). injection Ed as <-.
      split; [unfold P0; cbn; auto|]. cbn. rewrite Eh. now constructor.
    - split; [unfold P0; cbn; auto|exact C]. }
  destruct X as ((P1 & P2 & P3 & P4 & P5) & Hd'). rewrite He in *. split; [unfold iJ; auto|]. auto.
Qed.

Lemma i_save_inv l (s s' : ist (V := V) (M := M)) : ilen n s -> i_save l s = Ok s' ->
  ilen n s' /\ is_H s' = is_H s /\ is_V1 s' = is_V1 s /\ is_sw s' = is_sw s /\ l <= n /\ firstn l (is_V2 s') = firstn l (is_V1 s).
Proof.
  intros (L1 & L2) H. unfold i_save in H. apply bind_ok in H as (c & Hc & H). pose proof (get_range_len _ _ _ _ Hc) as Lc.
  apply get_range_inv in Hc as [Hr ->]. apply bind_ok in H as (v & Hv & H). injection H as <-.
  pose proof (put_range_length _ _ _ _ Hv) as Lv. apply put_range_upto in Hv. cbn [skipn firstn app] in *. rewrite Lc in Hv.
  unfold ilen. cbn in *. repeat split; auto; try congruence; lia.
Qed.
Lemma i_set_inv f (s s' : ist (V := V) (M := M)) : ilen n s -> i_set n s f = Ok s' ->
  ilen n s' /\ is_H s' = is_H s /\ is_V2 s' = is_V2 s /\ is_sw s' = is_sw s /\ is_V1 s' = map (f (is_V1 s)) (seq 0 n).
Proof.
  intros (L1 & L2) H. unfold i_set in H. apply bind_ok in H as (c & Hc & H). apply get_range_inv in Hc as [Hr ->].
  apply bind_ok in H as (v & Hv & H). injection H as <-.
  pose proof (put_range_length _ _ _ _ Hv) as Lv. apply put_range_upto in Hv. cbn [skipn firstn app] in *.
  rewrite map_length, seq_length in Hv. cbn in Hv. rewrite (firstn_all2 v), (firstn_all2 (is_V1 s)) in Hv by lia.
  unfold ilen. cbn. repeat split; auto; try congruence; lia.
Qed.
Lemma i_factor_inv b (s : ist (V := V) (M := M)) i R : ilen n s -> i_factor bl n b s = Ok (i, R) ->
  b_potrf bl (if b then b_dshift bl (b_syherk bl (is_V1 s)) else b_syherk bl (is_V1 s)) = (i, R).
Proof.
  intros (L1 & L2) H. unfold i_factor in H. apply bind_ok in H as (c & Hc & H). apply get_range_inv in Hc as [Hr ->]. cbv zeta in H. cbn [skipn] in H.
  rewrite firstn_all2 in H by lia. now injection H as ->.
Qed.

(** what a QR variant leaves when it reports success, and when it reports failure without a late one *)
Definition qr_good (l : nat) (s s' : ist (V := V) (M := M)) : Prop :=
  ilen n s' /\ is_H s' = is_H s /\ is_sw s' = is_sw s /\ l <= n /\ firstn l (is_V2 s') = firstn l (is_V1 s).

Ltac neqb H := match type of H with context [negb (?i =? 0)%Z] => let E := fresh "E" in destruct (i =? 0)%Z eqn:E; cbn [negb] in H; [apply Z.eqb_eq in E|apply Z.eqb_neq in E] end.

Lemma i_hhqr_inv l s s' : ilen n s -> d_hhqr L l s = Ok s' -> qr_good l s s'.
Proof.
  intros HL H. unk H. unfold i_hhqr in H. apply bind_ok in H as (s0 & H1 & H). apply i_save_inv in H1 as (A1 & A2 & A3 & A4 & A5 & A6); auto.
  apply i_set_inv in H as (B1 & B2 & B3 & B4 & B5); auto. unfold qr_good. rewrite B3. repeat split; auto; try congruence; apply B1.
Qed.
Lemma i_chol1_inv l s i s' : ilen n s -> d_chol1 L l s = Ok (i, s') -> qr_good l s s' /\ (i <> 0%Z -> is_V1 s' = is_V1 s).
Proof.
  intros HL H. unk H. unfold i_chol1 in H. apply bind_ok in H as (s0 & H1 & H). apply i_save_inv in H1 as (A1 & A2 & A3 & A4 & A5 & A6); auto.
  apply bind_ok in H as ([i1 R] & H2 & H). neqb H.
  - apply bind_ok in H as (s1 & H3 & H). injection H as <- <-. apply i_set_inv in H3 as (B1 & B2 & B3 & B4 & B5); auto.
    split; [|easy]. unfold qr_good. rewrite B3. repeat split; auto; try congruence; apply B1.
  - injection H as <- <-. split; [|auto]. unfold qr_good. repeat split; auto; apply A1.
Qed.
Lemma i_chol2_inv l s i s' : no_late_failure bl n -> ilen n s -> d_chol2 L l s = Ok (i, s') -> qr_good l s s' /\ (i <> 0%Z -> is_V1 s' = is_V1 s).
Proof.
  intros NL HL H. unk H. unfold i_chol2 in H. apply bind_ok in H as (s0 & H1 & H). apply i_save_inv in H1 as (A1 & A2 & A3 & A4 & A5 & A6); auto.
  apply bind_ok in H as ([i1 R] & H2 & H). neqb H.
  - subst i1. apply bind_ok in H as (s1 & H3 & H). apply i_set_inv in H3 as (B1 & B2 & B3 & B4 & B5); auto.
    apply bind_ok in H as ([i2 R2] & H4 & H). apply i_factor_inv in H2, H4; auto. pose proof (NL (is_V1 s0) false R ltac:(apply A1) H2) as E2.
    rewrite <- B5, H4 in E2. cbn in E2. apply bind_ok in H as (s2 & H5 & H). apply i_set_inv in H5 as (C1 & C2 & C3 & C4 & C5); auto.
    injection H as <- <-. split; [|easy]. unfold qr_good. rewrite C3, B3. repeat split; auto; try congruence; apply C1.
  - injection H as <- <-. split; [|auto]. unfold qr_good. repeat split; auto; apply A1.
Qed.
Lemma i_schol2_inv l s i s' : no_late_failure bl n -> ilen n s -> d_schol2 L l s = Ok (i, s') -> qr_good l s s' /\ (i <> 0%Z -> is_V1 s' = is_V1 s).
Proof.
  intros NL HL H. unk H. unfold i_schol2 in H. apply bind_ok in H as (s0 & H1 & H). apply i_save_inv in H1 as (A1 & A2 & A3 & A4 & A5 & A6); auto.
  apply bind_ok in H as ([i1 R] & H2 & H). neqb H.
  - subst i1. apply bind_ok in H as (s1 & H3 & H). apply i_set_inv in H3 as (B1 & B2 & B3 & B4 & B5); auto.
    apply bind_ok in H as ([i2 R2] & H4 & H). apply i_factor_inv in H2, H4; auto. pose proof (NL (is_V1 s0) true R ltac:(apply A1) H2) as E2.
    rewrite <- B5, H4 in E2. cbn in E2. subst i2. cbn in H. apply bind_ok in H as (s2 & H5 & H). apply i_set_inv in H5 as (C1 & C2 & C3 & C4 & C5); auto.
    apply bind_ok in H as ([i3 R3] & H6 & H). apply i_factor_inv in H6; auto. pose proof (NL (is_V1 s1) false R2 ltac:(apply B1) H4) as E3.
    rewrite <- C5, H6 in E3. cbn in E3. apply bind_ok in H as (s3 & H7 & H). apply i_set_inv in H7 as (D1 & D2 & D3 & D4 & D5); auto.
    injection H as <- <-. split; [|easy]. unfold qr_good. rewrite D3, C3, B3. repeat split; auto; try congruence; apply D1.
  - injection H as <- <-. split; [|auto]. unfold qr_good. repeat split; auto; apply A1.
Qed.

Lemma inpl_qr_keeps f c (s s' : st) : no_late_failure bl n -> ilen n (cm_dla s) -> cm_qr fo qe L f c s = Ok s' ->
  cm_locked s' = cm_locked s /\ ilen n (cm_dla s') /\ is_H (cm_dla s') = is_H (cm_dla s) /\ is_sw (cm_dla s') = is_sw (cm_dla s) /\
  firstn (cm_locked s) (is_V1 (cm_dla s')) = firstn (cm_locked s) (is_V1 (cm_dla s)) /\
  firstn (cm_locked s) (is_V2 (cm_dla s')) = firstn (cm_locked s) (is_V1 (cm_dla s)) /\ cm_locked s <= n.
Proof.
  intros NL HL H. unfold cm_qr in H. cbv zeta in H. set (l := cm_locked s) in *. apply bind_ok in H as ([hh d] & Hd & H).
  assert (QG : qr_good l (cm_dla s) d).
  { match type of Hd with (if ?c then _ else _) = _ => destruct c end.
    - apply bind_ok in Hd as (d1 & H1 & Hd). injection Hd as _ <-. now apply i_hhqr_inv.
    - apply bind_ok in Hd as ([i d1] & H1 & Hd).
      assert (X : qr_good l (cm_dla s) d1 /\ (i <> 0%Z -> is_V1 d1 = is_V1 (cm_dla s))).
      { match type of H1 with (if ?c then _ else _) = _ => destruct c; [eapply i_schol2_inv; eauto|] end.
        match type of H1 with (if ?c then _ else _) = _ => destruct c; [eapply i_chol1_inv; eauto|eapply i_chol2_inv; eauto] end. }
      destruct X as [X1 X2]. destruct (i =? 0)%Z eqn:E; [injection Hd as _ <-; auto|]. apply Z.eqb_neq in E. specialize (X2 E).
      destruct X1 as (Q1 & Q2 & Q3 & Q4 & Q5). apply bind_ok in Hd as (d2 & H2 & Hd). injection Hd as _ <-.
      apply i_hhqr_inv in H2 as (P1 & P2 & P3 & P4 & P5); auto. unfold qr_good. rewrite X2 in P5. repeat split; auto; try congruence; apply P1. }
  destruct QG as ((Q0 & Q1) & Q2 & Q3 & Q4 & Q5). apply lift_inv in H as (d' & H & ->). cbn [cm_locked cm_dla]. split; auto. unk H. unfold i_lockcopy in H.
  apply bind_ok in H as (x & Hx & H). pose proof (get_range_len _ _ _ _ Hx) as Lx. apply get_range_inv in Hx as [_ ->].
  apply bind_ok in H as (v & Hv & H). injection H as <-. pose proof (put_range_length _ _ _ _ Hv) as Lv. apply put_range_upto in Hv.
  cbn [firstn skipn app] in *. rewrite Lx in Hv. cbn in Hv. unfold ilen. cbn. repeat split; auto; congruence.
Qed.

(** QR keeps the locked columns in both blocks *)
Definition qr_keeps_cols (L' : dla F (ist (V := V) (M := M))) : Prop := forall f c (s s' : st), ilen n (cm_dla s) -> cm_qr fo qe L' f c s = Ok s' ->
  cm_locked s' = cm_locked s /\ ilen n (cm_dla s') /\ is_H (cm_dla s') = is_H (cm_dla s) /\ is_sw (cm_dla s') = is_sw (cm_dla s) /\
  firstn (cm_locked s) (is_V1 (cm_dla s')) = firstn (cm_locked s) (is_V1 (cm_dla s)) /\
  firstn (cm_locked s) (is_V2 (cm_dla s')) = firstn (cm_locked s) (is_V1 (cm_dla s)) /\ cm_locked s <= n.

Lemma inpl_cols_gen hh c1 c2 c3 : qr_keeps_cols (with_qr L hh c1 c2 c3) ->
  kernel_cols fo (cmK fo qe td (with_qr L hh c1 c2 c3) nev nex) n (fun s => is_V1 (cm_dla s)) iJ0 iJ iJ iJr (ritz_pair_inpl fo bl H0) (ritz_resid fo bl H0).
Proof.
  intros QK. split; cbn [cmK k_sym k_start k_end k_init k_shift k_hemm k_qr k_rr k_resd k_swap k_lock k_lanczos1 k_lanczos2 k_dos].
  - intros l s (_ & (HL & _) & _). exact HL.
  - intros l s (X & _). exact X.
  - auto.
  - intros s b s' (A & B) H. apply lift_v_inv in H as (d & E & ->). unk E. injection E as _ <-. split; auto.
  - intros s s' (A & B) H. unk H. injection H as <-. unfold iJ. cbn. auto.
  - intros r s s' (A & B & C) H. unfold cm_init in H. apply lift_inv in H as (d & E & ->). apply bind_ok in E as (d1 & E1 & E).
    assert (X : ilen n d1 /\ drift (is_H d1)).
    { destruct r; [|injection E1 as <-; auto]. unk E1. unfold i_initrnd in E1. apply bind_ok in E1 as (x & Hx & E1). injection E1 as <-.
      apply put_range_length in Hx. destruct B as (L1 & L2). unfold ilen. cbn. repeat split; auto; congruence. }
    destruct X as ((L1 & L2) & X). unk E. unfold i_init in E. apply bind_ok in E as (x & _ & E). apply bind_ok in E as (y & Hy & E). injection E as <-.
    apply put_range_length in Hy. unfold iJ, ilen. cbn. repeat split; auto; congruence.
  - intros m s u s' (A & B & C) H. unfold cm_lanczos1 in H. apply bind_ok in H as ([[[x y] z] d] & E & H). cbv zeta in H.
    apply bind_ok in H as (? & _ & H). apply bind_ok in H as (? & _ & H). apply bind_ok in H as (? & _ & H). injection H as _ <-.
    unk E. unfold i_mlanczos in E. apply bind_ok in E as ([[[? ?] ?] C'] & E & H). injection H as _ _ _ <-. apply mlanczos_len in E.
    destruct B as (L1 & L2). unfold iJ, ilen. cbn. repeat split; auto; congruence.
  - intros m nv s u a b c s' (A & B & C) H. unfold cm_lanczos2 in H. apply bind_ok in H as ([[[x y] z] d] & E & H).
    apply bind_ok in H as ([[? ?] ?] & _ & H). apply bind_ok in H as (? & _ & H). apply bind_ok in H as (? & _ & H). apply bind_ok in H as (? & _ & H).
    apply bind_ok in H as (? & _ & H). injection H as _ _ _ _ <-.
    unk E. unfold i_mlanczos in E. apply bind_ok in E as ([[[? ?] ?] C'] & E & H). injection H as _ _ _ <-. apply mlanczos_len in E.
    destruct B as (L1 & L2). unfold iJ, ilen. cbn. repeat split; auto; congruence.
  - intros idx m rv s s' (A & B & C) H. apply lift_inv in H as (d & E & ->). unk E. unfold i_dos in E.
    apply bind_ok in E as (rv' & _ & E). apply bind_ok in E as (x & _ & E). apply bind_ok in E as (C2 & HC2 & E). apply bind_ok in E as (y & _ & E). apply bind_ok in E as (C' & HC & E).
    injection E as <-. apply put_range_length in HC, HC2. destruct B as (L1 & L2). unfold iJ, ilen. cbn. repeat split; auto; congruence.
  - intros l k deg degs la lo up s av s' HJ (F1 & F2 & F3 & F4 & F5) H.
    rewrite Forall_forall in F4. destruct (F4 deg F5) as (G1 & G2 & _). change (filter_ fo K k deg degs la lo up s = Ok (av, s')) in H. apply (inpl_filter l) in H as (X1 & X2 & _); auto. lia.
  - intros l c s s' (A & B & C) H. apply QK in H as (Q1 & Q2 & Q3 & Q4 & Q5 & Q6 & Q7); auto. rewrite A in *. split; auto. unfold iJr, iJ.
    repeat split; auto; try apply Q2; congruence.
  - intros l s v s' ((A & (L1 & L2) & C) & Hl' & D) Hl H. rewrite A in H. apply lift_v_inv in H as (d & E & ->). unk E. unfold i_rr in E.
    apply bind_ok in E as (c & Hc & E). pose proof (get_range_len _ _ _ _ Hc) as Lc. apply get_range_inv in Hc as [_ ->]. cbv zeta in E.
    apply bind_ok in E as (v2 & Hv & E). injection E as <- <-. pose proof (put_range_length _ _ _ _ Hv) as Lv.
    apply put_range_upto in Hv as UV. rewrite map_length, seq_length in UV. replace (l + (n - l)) with n in UV by lia. rewrite (firstn_all2 v2) in UV by lia.
    assert (CC : firstn (n - l) (skipn l (is_V1 (cm_dla s))) = skipn l (is_V1 (cm_dla s))) by (apply firstn_all2; rewrite skipn_length; lia).
    rewrite CC in *. rewrite D in UV. cbn.
    assert (FV : firstn l v2 = firstn l (is_V1 (cm_dla s))) by (rewrite UV; apply firstn_pre; lia).
    split; [|split].
    + unfold iJr, iJ, ilen. cbn. repeat split; auto; congruence.
    + auto.
    + rewrite UV. rewrite skipn_pre by lia.
      assert (Forall2 (fun a b => a = b /\ a < n - l) (seq 0 (n - l)) (seq 0 (n - l))).
      { assert (Z : forall q, (forall a, In a q -> a < n - l) -> Forall2 (fun a b => a = b /\ a < n - l) q q).
        { induction q; constructor; [split; auto; apply H; simpl; auto|apply IHq; intros; apply H; simpl; auto]. }
        apply Z. intros a Ha. apply in_seq in Ha. lia. }
      revert H. generalize (seq 0 (n - l)) at 1 3. generalize (seq 0 (n - l)). intros q1 q2 HF. induction HF as [|a b q1 q2 [-> Ha]]; constructor; auto.
      exists (is_H (cm_dla s)), (skipn l (is_V1 (cm_dla s))), b. repeat split; auto. rewrite skipn_length. lia.
  - intros l v r s s' ((A & (L1 & L2) & C) & Hl' & D) Hl H. rewrite A in H. apply lift_v_inv in H as (d & E & ->). unk E. unfold i_resd in E.
    apply bind_ok in E as (c & Hc & E). apply get_range_inv in Hc as [_ ->].
    apply bind_ok in E as (v1 & Hv & E). pose proof (get_range_len _ _ _ _ Hv) as Lv. apply get_range_inv in Hv as [Hv0 ->]. cbv zeta in E.
    apply bind_ok in E as (B' & HB & E). injection E as <- <-. pose proof (put_range_length _ _ _ _ HB) as LB'.
    fold n in HB, Lv |- *.
    assert (CC : firstn (n - l) (skipn l (is_V1 (cm_dla s))) = skipn l (is_V1 (cm_dla s))) by (apply firstn_all2; rewrite skipn_length; lia).
    rewrite CC in *. apply (put_range_firstn _ _ _ _ l) in HB as FB; [|lia]. cbn. split; [|split; [auto|split]].
    + unfold iJr, iJ, ilen. cbn. repeat split; auto; congruence.
    + rewrite map_length, zip_length, combine_length, map_length, skipn_length. cbn [skipn] in *. lia.
    + intros i x y z Hx Hy Hz. exists (is_H (cm_dla s)). split; auto. cbn [skipn] in *.
      unfold zip in Hz. rewrite !nth_error_map in Hz.
      assert (Hi : i < n - l). { pose proof (nth_error_lt _ _ _ Hy). rewrite skipn_length in H. lia. }
      assert (NC : forall X Y (a : list X) (b : list Y) q u t, nth_error a q = Some u -> nth_error b q = Some t -> nth_error (combine a b) q = Some (u, t)).
      { clear. intros X Y. induction a as [|a0 a IH]; intros [|b0 b] [|q] u t; cbn; intros Ha Hb; try discriminate; [congruence|auto]. }
      erewrite NC in Hz; [|apply NC; [rewrite nth_firstn by lia; exact Hx|exact Hy]|rewrite nth_error_map, Hy; reflexivity].
      cbn in Hz. injection Hz as <-. reflexivity.
  - intros l i j s s' (A & (L1 & L2) & C) Hi Hj H. apply lift_inv in H as (d & E & ->). unk E. unfold i_swap in E.
    apply bind_ok in E as (C' & HC & E). injection E as <-. apply AlgProofs1.swap_inv in HC as (_ & _ & ->).
    cbn. split; auto. unfold iJ, ilen. cbn. rewrite !swp_length. repeat split; auto.
  - intros l i j s s' ((A & (L1 & L2) & C) & Hl & D) Hi Hj H. apply lift_inv in H as (d & E & ->). unk E. unfold i_swap in E.
    apply bind_ok in E as (C' & HC & E). injection E as <-. apply AlgProofs1.swap_inv in HC as (_ & _ & ->).
    cbn. split; auto. unfold iJr, iJ, ilen. cbn. rewrite !swp_length. repeat split; auto. rewrite D.
    symmetry. apply nth_error_ext. intros k. destruct (Nat.lt_ge_cases k l).
    + rewrite !nth_firstn by lia. rewrite swp_nth by lia.
      replace (tr i j k) with k; auto. unfold tr. destruct (Nat.eqb_spec k i); [lia|]. destruct (Nat.eqb_spec k j); [lia|]. auto.
    + rewrite !(proj2 (nth_error_None _ _)); auto; rewrite firstn_length, ?swp_length; lia.
  - intros l m s s' ((A & B & C) & _) H. injection H as <-. cbn. split; auto. unfold iJ. cbn. repeat split; auto; try apply B.
  - intros l s s' HJ H. apply lift_inv in H as (d & E & ->). injection E as <-. destruct s. cbn. auto.
Qed.
Lemma inpl_cols : no_late_failure bl n ->
  kernel_cols fo K n (fun s => is_V1 (cm_dla s)) iJ0 iJ iJ iJr (ritz_pair_inpl fo bl H0) (ritz_resid fo bl H0).
Proof.
  intros NL. apply (inpl_cols_gen (d_hhqr L) (d_chol1 L) (d_chol2 L) (d_schol2 L)). intros f c s s' HL H. now apply (inpl_qr_keeps f c).
Qed.
End Inpl.
