(** With approximate vectors the two-block backends (in place, one GPU) and Seq compute the same. *)
From Coq Require Import List Arith ZArith Bool Lia Permutation.
Require Import Verif.Base Verif.AlgModel Verif.AlgSpec Verif.AlgProofs1 Verif.AlgProofs2 Verif.AlgSim Verif.AlgSim2 Verif.AlgSim4 Verif.DlaSim
  Verif.DlaModel Verif.ColModel Verif.ColSpec Verif.ColProofs1 Verif.ColProofs2 Verif.MgpuSpec Verif.MgpuProofs1 Verif.GpuModel Verif.GpuProofs1 Verif.GpuProofs2
  Verif.ReuseBase Verif.ReuseSpec Verif.ReuseInpl.
Import ListNotations.

Section Eq.
Context {F V M G T : Type} (fo : fops F) (bl : blas F V M G T) (qe : qr_env F) (td : tridiag F) (dev : bool) (nev nex : nat) (BZ : beta_zero fo bl).
Context (Hm : M -> Prop) (SA : self_adjoint bl Hm) (NL : no_late_failure bl (nev + nex)) (N1 : 1 <= nev + nex).
Local Notation n := (nev + nex).
Local Notation L1 := (istD fo bl dev (nev + nex)).
Local Notation L2 := (colD fo bl false (nev + nex)).
Local Notation K1 := (cmK fo qe td (istD fo bl dev (nev + nex)) nev nex).
Local Notation K2 := (cmK fo qe td (colD fo bl false (nev + nex)) nev nex).
Local Notation istT := (ist (V := V) (M := M)).
Local Notation cstT := (cst (V := V) (M := M)).

Definition gB (s : istT) (t : cstT) : Prop := is_H s = cs_H t /\ Hm (cs_H t) /\
  length (is_V1 s) = n /\ length (is_V2 s) = n /\ length (cs_C t) = n /\ length (cs_B t) = n /\ n <= length (cs_C2 t) /\ n <= length (cs_B2 t).
(** the same first l columns *)
Definition pfx (l : nat) (a b : list V) : Prop := forall i, i < l -> nth_error a i = nth_error b i.
Definition gP (l : nat) (s : istT) (t : cstT) : Prop := gB s t /\ is_V1 s = cs_C t /\ pfx l (cs_C2 t) (cs_C t) /\ cs_bAc t = true /\ l <= n.
Definition gF (p : bool) (l lo hi : nat) (s : istT) (t : cstT) : Prop := gB s t /\ pfx l (cs_C2 t) (cs_C t) /\ cs_bAc t = negb p /\ l <= lo /\ hi <= n /\
  if p then is_V2 s = cs_C t /\ agree lo hi (is_V1 s) (cs_B t) else is_V1 s = cs_C t /\ agree lo hi (is_V2 s) (cs_B t).
Definition gQ0 (l : nat) (s : istT) (t : cstT) : Prop := gB s t /\ is_V1 s = cs_C t /\ pfx l (is_V2 s) (cs_C2 t) /\ cs_bAc t = true /\ l <= n.
Definition gQ (l : nat) (s : istT) (t : cstT) : Prop := gP n s t /\ pfx l (is_V2 s) (cs_C t) /\ l <= n.

Lemma pfx_sub l m a b : l <= m -> pfx m a b -> pfx l a b.
Proof. intros H X i Hi. apply X. lia. Qed.
Lemma pfx_sym l a b : pfx l a b -> pfx l b a.
Proof. intros H i Hi. symmetry. auto. Qed.
Lemma pfx_trans l a b c : pfx l a b -> pfx l b c -> pfx l a c.
Proof. intros H X i Hi. rewrite H by auto. auto. Qed.
Lemma pfx_get l a b off k : off + k <= l -> off + k <= length a -> off + k <= length b -> pfx l a b -> get_range a off k = get_range b off k.
Proof.
  intros H1 H2 H3 E. rewrite !get_range_ok by lia. f_equal. apply nth_ext_some; [rewrite !firstn_length, !skipn_length; lia|].
  intros i. rewrite firstn_length, skipn_length. intros Hi. rewrite !nth_firstn_lt, !nth_skipn_add by lia. apply E. lia.
Qed.
Lemma pfx_all a b : length a = n -> length b = n -> pfx n a b -> a = b.
Proof. intros LA LB H. apply nth_ext_some; [lia|]. intros i Hi. apply H. lia. Qed.
(** writing the same columns at off <= l *)
Lemma pfx_put l a b off x a' b' : pfx l a b -> off <= l -> put_range a off x = Ok a' -> put_range b off x = Ok b' -> pfx (Nat.max l (off + length x)) a' b'.
Proof.
  intros H HO EA EB i Hi. rewrite (put_nth _ _ _ _ _ EA), (put_nth _ _ _ _ _ EB).
  destruct (Nat.leb_spec off i); cbn [andb]; [destruct (Nat.ltb_spec i (off + length x)); auto|]; apply H; lia.
Qed.
Lemma pfx_put_r l a b off x b' : pfx l a b -> l <= off -> put_range b off x = Ok b' -> pfx l a b'.
Proof. intros H HO EB i Hi. rewrite (put_nth _ _ _ _ _ EB). destruct (Nat.leb_spec off i); [lia|]. cbn. auto. Qed.
Lemma put_here (a : list V) off x a' : put_range a off x = Ok a' -> forall i, i < length x -> nth_error a' (off + i) = nth_error x i.
Proof.
  intros EA i Hi. rewrite (put_nth _ _ _ _ _ EA). destruct (Nat.leb_spec off (off + i)); [|lia]. destruct (Nat.ltb_spec (off + i) (off + length x)); [|lia].
  cbn. f_equal. lia.
Qed.
Lemma put_ok (a : list V) off x : off + length x <= length a -> exists a', put_range a off x = Ok a' /\ length a' = length a.
Proof. intros H. rewrite put_range_ok by auto. eexists. split; [reflexivity|]. rewrite !app_length, firstn_length, skipn_length. lia. Qed.
Lemma get_ok' (a : list V) off k : off + k <= length a -> exists x, get_range a off k = Ok x /\ length x = k.
Proof. intros H. rewrite get_range_ok by auto. eexists. split; [reflexivity|]. rewrite firstn_length, skipn_length. lia. Qed.

Ltac gb H := destruct H as (EH & HM & LV1 & LV2 & LC & LB & LC2 & LB2).
Ltac gdone := unfold gB; cbn [fst snd is_H is_V1 is_V2 cs_H cs_C cs_B cs_C2 cs_B2 cs_bAc]; repeat match goal with |- _ /\ _ => split end; try assumption; try lia; auto.

Lemma g_apply_two p a b off k l lo hi s t : l + off + k <= n ->
  (gF p l lo hi s t /\ lo <= l + off /\ l + off + k <= hi) \/ (gP n s t /\ b = f_zero fo /\ p = false) ->
  rel_res (gF (negb p) l (l + off) (l + off + k)) (i_apply bl a b off k l s) (c_apply bl a b off k l t).
Proof.
  intros HK HH. unfold i_apply, c_apply.
  assert (X : gB s t /\ pfx l (cs_C2 t) (cs_C t) /\ cs_bAc t = negb p).
  { destruct HH as [((X1 & X2 & X3 & _) & _)|((X1 & X2 & X3 & X4 & _) & -> & ->)]; auto. split; auto. split; auto. eapply pfx_sub; [|exact X3]. lia. }
  destruct X as (X0 & X2 & X3). pose proof X0 as X1. gb X1. rewrite X3.
  destruct (get_ok' (is_V1 s) (l + off) k) as (x & Ex & Lx); [lia|]. destruct (get_ok' (is_V2 s) (l + off) k) as (y & Ey & Ly); [lia|].
  destruct (get_ok' (cs_C t) (l + off) k) as (c & Ec & Lc); [lia|]. destruct (get_ok' (cs_B t) (l + off) k) as (d & Ed & Ld); [lia|].
  rewrite Ex, Ey, Ec, Ed. cbn [bind]. destruct p; cbn [negb].
  - destruct HH as [((_ & _ & _ & Hl & Hh & E2 & A) & Hlo & Hhi)|(_ & _ & X)]; [|discriminate].
    rewrite (agree_get lo hi _ _ (l + off) k Hlo Hhi A), Ed in Ex. injection Ex as <-. rewrite E2, Ec in Ey. injection Ey as <-. rewrite E2, EH.
    destruct (put_ok (cs_C t) (l + off) (zip (b_gemmN bl (cs_H t) a b) d c)) as (C' & EP & LP); [rewrite zip_length; lia|]. rewrite EP. cbn.
    split; [gdone|]. split; [cbn; eapply pfx_put_r; [exact X2| |exact EP]; lia|]. cbn. repeat split; auto; try lia. eapply agree_sub; [| |exact A]; lia.
  - assert (Y : is_V1 s = cs_C t /\ zip (b_gemmN bl (is_H s) a b) x y = zip (b_gemmH bl (cs_H t) a b) c d).
    { rewrite EH. destruct HH as [((_ & _ & _ & Hl & Hh & E1 & A) & Hlo & Hhi)|((_ & E1 & _) & -> & _)].
      - split; auto. rewrite E1, Ec in Ex. injection Ex as <-. rewrite (agree_get lo hi _ _ (l + off) k Hlo Hhi A), Ed in Ey. injection Ey as <-.
        apply zip_ext. intros. now apply (sa_gemm _ _ SA).
      - split; auto. rewrite E1, Ec in Ex. injection Ex as <-. rewrite (zip_ext _ (b_gemmH bl (cs_H t) a (f_zero fo))) by (intros; now apply (sa_gemm _ _ SA)).
        apply zip_ext_r; [lia|]. intros. apply BZ. }
    destruct Y as [E1 Y]. rewrite Y. set (z := zip _ c d). assert (Lz : length z = k) by (unfold z; rewrite zip_length; lia).
    pose proof (agree_put_win (is_V2 s) (cs_B t) (l + off) z ltac:(lia)) as HP. rewrite Lz in HP.
    destruct (put_ok (is_V2 s) (l + off) z) as (v & EP & LP); [lia|]. destruct (put_ok (cs_B t) (l + off) z) as (B & EP' & LP'); [lia|].
    rewrite EP, EP' in HP |- *. cbn in HP |- *. split; [gdone|]. split; [exact X2|]. cbn. repeat split; auto; try lia; apply HP.
Qed.

Lemma g_rr_two l s t : gQ l s t -> rel_res (vrel (gP n)) (i_rr bl (n - l) l s) (c_rr bl false n (n - l) l t).
Proof.
  intros ((X0 & E1 & P2 & Eb & _) & PV & HL). pose proof X0 as X. gb X. unfold i_rr, c_rr, c_gather. cbn [andb].
  rewrite E1. destruct (get_ok' (cs_C t) l (n - l)) as (c & Ec & Lc); [lia|]. rewrite Ec. cbn [bind].
  destruct (put_ok (cs_B t) l (map (b_mulH bl (cs_H t)) c)) as (B & EB & LB'); [rewrite map_length; lia|]. rewrite EB. cbn [bind].
  rewrite (pfx_get n (cs_C2 t) (cs_C t) l (n - l) ltac:(lia) ltac:(lia) ltac:(lia) P2), Ec. cbn [bind].
  destruct (put_ok (cs_B2 t) l c) as (B2 & EB2 & LB2'); [lia|]. rewrite EB2. cbn [bind cs_B cs_B2 cs_C2 cs_C cs_H cs_bAc].
  pose proof (put_get _ _ _ _ EB) as GB. rewrite map_length, Lc in GB. pose proof (put_get _ _ _ _ EB2) as GB2. rewrite Lc in GB2. rewrite GB, GB2. cbn [bind].
  rewrite (pfx_get n (cs_C2 t) (cs_C t) l (n - l) ltac:(lia) ltac:(lia) ltac:(lia) P2), Ec. cbn [bind]. cbv zeta.
  rewrite EH, (sa_gram _ _ SA) by exact HM. set (z := map _ (seq 0 (n - l))). assert (Lz : length z = n - l) by (unfold z; now rewrite map_length, seq_length).
  destruct (put_ok (is_V2 s) l z) as (v & Ev & Lv); [lia|]. destruct (put_ok (cs_C t) l z) as (C' & EC' & LC'); [lia|].
  destruct (put_ok (cs_C2 t) l z) as (C2' & EC2' & LC2'); [lia|]. rewrite Ev, EC', EC2'. cbn. split; [reflexivity|].
  split; [gdone|]. cbn. split.
  - apply pfx_all; try lia. pose proof (pfx_put l _ _ l z _ _ PV (le_n _) Ev EC') as Y. eapply pfx_sub; [|exact Y]. lia.
  - split; [|auto]. pose proof (pfx_put n _ _ l z _ _ P2 HL EC2' EC') as Y. eapply pfx_sub; [|exact Y]. lia.
Qed.

(** the residual computation of both two-block backends *)
Lemma g_resd_two v l k s t : gP n s t ->
  rel_res (vrel (gP n)) (i_resd fo bl v l k s) (c_resd fo bl v l k t) /\ rel_res (vrel (gP n)) (dv_resd fo bl v l k s) (c_resd fo bl v l k t).
Proof.
  intros (X0 & E1 & P2 & Eb & _). pose proof X0 as X. gb X. unfold i_resd, dv_resd, c_resd, c_gather. rewrite E1.
  destruct (Nat.le_gt_cases (l + k) n) as [HL|HL]; [|rewrite !get_bad by lia; cbn; auto].
  destruct (get_ok' (cs_C t) l k) as (c & Ec & Lc); [lia|]. rewrite Ec. cbn [bind].
  destruct (put_ok (cs_B t) l (map (b_mulH bl (cs_H t)) c)) as (B & EB & LB'); [rewrite map_length; lia|]. rewrite EB. cbn [bind].
  rewrite (pfx_get n (cs_C2 t) (cs_C t) l k ltac:(lia) ltac:(lia) ltac:(lia) P2), Ec. cbn [bind].
  destruct (put_ok (cs_B2 t) l c) as (B2 & EB2 & LB2'); [lia|]. rewrite EB2. cbn [bind cs_B cs_B2 cs_C2 cs_C cs_H cs_bAc].
  destruct (get_range v 0 k) as [w| |] eqn:Ew; cbn [bind]; try (split; exact I). apply get_len in Ew as [Lw _].
  pose proof (put_get _ _ _ _ EB) as GB. rewrite map_length, Lc in GB. pose proof (put_get _ _ _ _ EB2) as GB2. rewrite Lc in GB2. rewrite GB, GB2. cbn [bind].
  cbv zeta. rewrite EH. set (z := zip _ (combine w c) _). assert (Lz : length z = k) by (unfold z; rewrite zip_length, combine_length, map_length; lia).
  destruct (put_ok (is_V2 s) l z) as (y & Ey & Ly); [lia|]. destruct (put_ok B l z) as (B' & EB' & LB''); [lia|].
  destruct (put_ok (is_V2 s) l (map (b_mulH bl (cs_H t)) c)) as (y' & Ey' & Ly'); [rewrite map_length; lia|].
  rewrite Ey, Ey', EB'. cbn. split; (split; [reflexivity|]; split; [gdone|]; cbn; auto).
Qed.

Lemma g_swap_two i j s t : gP n s t -> rel_res (gP n) (i_swap i j s) (c_swap false i j t).
Proof.
  intros (X0 & E1 & P2 & Eb & _). pose proof X0 as X. gb X. unfold i_swap, c_swap. rewrite E1.
  rewrite !swap_case. destruct (_ && _) eqn:EB; cbn [bind]; [|exact I]. apply andb_true_iff in EB as [B1 B2]. apply Nat.ltb_lt in B1, B2.
  replace (i <? length (cs_C2 t)) with true by (symmetry; apply Nat.ltb_lt; lia). replace (j <? length (cs_C2 t)) with true by (symmetry; apply Nat.ltb_lt; lia). cbn.
  split; [gdone; rewrite ?swp_length; auto|]. cbn. split; auto. split; [|auto].
  intros k Hk. rewrite !swp_nth by lia. apply P2. unfold tr. repeat destruct (_ =? _); lia.
Qed.

Lemma g_save_two l s t : gP l s t -> exists s0, i_save l s = Ok s0 /\ gB s0 t /\ is_V1 s0 = cs_C t /\ pfx l (is_V2 s0) (cs_C2 t) /\ pfx l (cs_C2 t) (cs_C t).
Proof.
  intros (X0 & E1 & P2 & Eb & HL). pose proof X0 as X. gb X. unfold i_save. rewrite E1.
  destruct (get_ok' (cs_C t) 0 l) as (c & Ec & Lc); [lia|]. rewrite Ec. cbn [bind].
  destruct (put_ok (is_V2 s) 0 c) as (v & Ev & Lv); [lia|]. rewrite Ev. cbn [bind]. eexists. split; [reflexivity|]. split; [gdone; congruence|]. split; [auto|]. split; [|auto].
  cbn. eapply pfx_trans; [|apply pfx_sym; exact P2]. intros i Hi. change (nth_error v i) with (nth_error v (0 + i)). rewrite (put_here _ 0 _ _ Ev i) by lia.
  apply get_range_inv in Ec as [_ ->]. cbn. now apply nth_firstn_lt.
Qed.
Lemma g_set_two l f s t : gQ0 l s t -> exists s' t', i_set n s f = Ok s' /\ set_C n t f = Ok t' /\ gQ0 l s' t' /\
  cs_C t' = map (f (cs_C t)) (seq 0 n) /\ cs_C2 t' = cs_C2 t.
Proof.
  intros (X0 & E1 & P2 & Eb & HL). pose proof X0 as X. gb X. unfold i_set, set_C. rewrite E1, (get_full (cs_C t) n LC). cbn [bind].
  rewrite put_full by (rewrite map_length, seq_length; auto). cbn [bind]. do 2 eexists. split; [reflexivity|]. split; [reflexivity|].
  split; [|cbn; auto]. split; [gdone; now rewrite map_length, seq_length|]. cbn. auto.
Qed.
Lemma g_factor_two sh s t : is_V1 s = cs_C t -> i_factor bl n sh s = c_factor bl n sh t.
Proof. intros E. unfold i_factor, c_factor. now rewrite E. Qed.
Lemma g_hhqr_two l s t : gP l s t -> rel_res (gQ0 l) (i_hhqr bl n l s) (c_hhqr bl false n l t).
Proof.
  intros H. destruct (g_save_two l s t H) as (s0 & ES & B0 & E0 & P0 & P1). destruct H as (_ & _ & _ & Eb & HL).
  unfold i_hhqr, c_hhqr. rewrite ES. cbn [bind]. destruct (g_set_two l (b_hh bl) s0 t) as (s' & t' & E1 & E2 & X & _); [split; auto|].
  rewrite E1, E2. cbn. destruct X as (X & X1 & X2 & X3 & X4). split; [exact X|]. cbn. auto.
Qed.

Ltac fac2 E := rewrite (g_factor_two _ _ _ E).
(** the factor of the same columns *)
Lemma c_factor_val sh (t : cstT) : length (cs_C t) = n -> c_factor bl n sh t = Ok (b_potrf bl (if sh then b_dshift bl (b_syherk bl (cs_C t)) else b_syherk bl (cs_C t))).
Proof. intros L. unfold c_factor. now rewrite (get_full _ _ L). Qed.
Local Notation att l := (attempt (gP l) (gQ0 l)).
Lemma att_ok l s t : gQ0 l s t -> att l (0%Z, s) (0%Z, t).
Proof. intros H. split; [reflexivity|]. split; cbn; [auto|easy]. Qed.
Lemma att_bad l i s t : (i =? 0)%Z = false -> gP l s t -> att l (i, s) (i, t).
Proof. intros E H. apply Z.eqb_neq in E. split; [reflexivity|]. split; cbn; [easy|auto]. Qed.
(** one Cholesky step: save, factor, and either stop or replace the columns; then a second factorisation succeeds *)
Lemma g_step_two sh l s t : gP l s t -> exists s0 i R, i_save l s = Ok s0 /\ i_factor bl n sh s0 = Ok (i, R) /\ c_factor bl n sh t = Ok (i, R) /\ gP l s0 t /\
  (i = 0%Z -> exists s1 t1, i_set n s0 (b_trsm bl R) = Ok s1 /\ set_C n t (b_trsm bl R) = Ok t1 /\ gQ0 l s1 t1 /\
     exists R2, i_factor bl n false s1 = Ok (0%Z, R2) /\ c_factor bl n false t1 = Ok (0%Z, R2) /\
     exists s2 t2, i_set n s1 (b_trsm bl R2) = Ok s2 /\ set_C n t1 (b_trsm bl R2) = Ok t2 /\ gQ0 l s2 t2 /\
     exists R3, i_factor bl n false s2 = Ok (0%Z, R3) /\ c_factor bl n false t2 = Ok (0%Z, R3) /\
     exists s3 t3, i_set n s2 (b_trsm bl R3) = Ok s3 /\ set_C n t2 (b_trsm bl R3) = Ok t3 /\ gQ0 l s3 t3).
Proof.
  intros H. destruct (g_save_two l s t H) as (s0 & ES & B0 & E0 & P0 & P1). pose proof H as (_ & _ & _ & Eb & HL).
  pose proof B0 as (_ & _ & _ & _ & LC & _). pose proof (c_factor_val sh t LC) as EF. destruct (b_potrf bl (if sh then _ else _)) as [i R] eqn:EP.
  exists s0, i, R. split; [exact ES|]. rewrite (g_factor_two _ _ _ E0). split; [exact EF|]. split; [exact EF|]. split; [split; auto|]. intros ->.
  destruct (g_set_two l (b_trsm bl R) s0 t) as (s1 & t1 & E1 & E1' & X1 & C1 & _); [split; auto|]. exists s1, t1. split; [exact E1|]. split; [exact E1'|]. split; [exact X1|].
  pose proof X1 as ((_ & _ & _ & _ & L1 & _) & V1 & _).
  pose proof (NL _ sh R LC EP) as N2. rewrite <- C1 in N2. pose proof (c_factor_val false t1 L1) as F1. destruct (b_potrf bl (b_syherk bl (cs_C t1))) as [i2 R2] eqn:P2. cbn in N2. subst i2.
  exists R2. rewrite (g_factor_two _ _ _ V1). split; [exact F1|]. split; [exact F1|].
  destruct (g_set_two l (b_trsm bl R2) s1 t1 X1) as (s2 & t2 & E2 & E2' & X2 & C2 & _). exists s2, t2. split; [exact E2|]. split; [exact E2'|]. split; [exact X2|].
  pose proof X2 as ((_ & _ & _ & _ & L2 & _) & V2 & _).
  pose proof (NL _ false R2 L1 P2) as N3. rewrite <- C2 in N3. pose proof (c_factor_val false t2 L2) as F2. destruct (b_potrf bl (b_syherk bl (cs_C t2))) as [i3 R3] eqn:P3. cbn in N3. subst i3.
  exists R3. rewrite (g_factor_two _ _ _ V2). split; [exact F2|]. split; [exact F2|].
  destruct (g_set_two l (b_trsm bl R3) s2 t2 X2) as (s3 & t3 & E3 & E3' & X3 & _). exists s3, t3. auto.
Qed.
Ltac stp H sh := destruct (g_step_two sh _ _ _ H) as (s0 & i & R & ES & EI & EC & HP & HZ); rewrite ES; cbn [bind]; rewrite EI, EC; cbn [bind];
  destruct (i =? 0)%Z eqn:Ei; cbn [negb]; [apply Z.eqb_eq in Ei; subst i; specialize (HZ eq_refl);
    destruct HZ as (s1 & t1 & Z1 & Z2 & Z3 & R2 & Z4 & Z5 & s2 & t2 & Z6 & Z7 & Z8 & R3 & Z9 & Z10 & s3 & t3 & Z11 & Z12 & Z13)|now apply att_bad].
Lemma g_chol1_two l s t : gP l s t -> rel_res (att l) (i_chol1 bl n l s) (c_chol1 bl n l t).
Proof. intros H. unfold i_chol1, c_chol1. stp H false. rewrite Z1, Z2. cbn [bind]. now apply att_ok. Qed.
Lemma g_chol2_two l s t : gP l s t -> rel_res (att l) (i_chol2 bl n l s) (c_chol2 bl n l t) /\ rel_res (att l) (dv_chol2 bl n l s) (c_chol2 bl n l t).
Proof. intros H. unfold i_chol2, dv_chol2, c_chol2. split; stp H false; rewrite Z1, Z2; cbn [bind]; rewrite Z4, Z5; cbn [bind]; rewrite Z6, Z7; cbn [bind]; now apply att_ok. Qed.
Lemma g_schol2_two l s t : gP l s t -> rel_res (att l) (i_schol2 bl n l s) (c_schol2 bl false n l t) /\ rel_res (att l) (dv_schol2 bl n l s) (c_schol2 bl false n l t).
Proof.
  intros H. unfold i_schol2, dv_schol2, c_schol2. split; stp H true; rewrite Z1, Z2; cbn [bind]; rewrite Z4, Z5; cbn [bind Z.eqb negb andb]; rewrite Z6, Z7; cbn [bind]; rewrite Z9, Z10; cbn [bind];
    rewrite Z11, Z12; cbn [bind]; now apply att_ok.
Qed.
Lemma g_lockcopy_two l b s t : gQ0 l s t -> rel_res (gQ l) (i_lockcopy l b s) (c_lockcopy n l b t).
Proof.
  intros (X0 & E1 & P2 & Eb & HL). pose proof X0 as X. gb X. unfold i_lockcopy, c_lockcopy.
  rewrite (pfx_get l (is_V2 s) (cs_C2 t) 0 l) by (auto; lia). destruct (get_ok' (cs_C2 t) 0 l) as (c & Ec & Lc); [lia|]. rewrite Ec. cbn [bind]. rewrite E1.
  destruct (put_ok (cs_C t) 0 c) as (C' & EC & LC'); [lia|]. rewrite EC. cbn [bind].
  destruct (get_ok' C' l (n - l)) as (d & Ed & Ld); [lia|]. rewrite Ed. cbn [bind]. destruct (put_ok (cs_C2 t) l d) as (C2' & EC2 & LC2'); [lia|]. rewrite EC2. cbn.
  assert (A1 : pfx l (cs_C2 t) C').
  { intros i Hi. change (nth_error C' i) with (nth_error C' (0 + i)). rewrite (put_here _ 0 _ _ EC i) by lia. apply get_range_inv in Ec as [_ ->]. cbn. symmetry. now apply nth_firstn_lt. }
  split.
  - split; [gdone|]. cbn. split; auto. split; [|auto]. intros i Hi. destruct (Nat.lt_ge_cases i l) as [K|K].
    + rewrite (put_nth _ _ _ _ _ EC2). destruct (Nat.leb_spec l i); [lia|]. cbn. now apply A1.
    + replace i with (l + (i - l)) by lia. rewrite (put_here _ l _ _ EC2) by lia. apply get_range_inv in Ed as [_ ->]. rewrite nth_firstn_lt by lia. apply nth_skipn_add.
  - split; [|exact HL]. cbn. eapply pfx_trans; [exact P2|exact A1].
Qed.
Lemma mlanczos_none_keeps H Mn C d e b C' : mlanczos fo bl H Mn None C = Ok (d, e, b, C') -> C' = C.
Proof.
  unfold mlanczos. cbn beta iota. intros X.
  apply bind_ok in X as (st & _ & X). cbv zeta in X. apply bind_ok in X as (s & Hs & X). cbn [bind] in X. injection X as _ _ _ <-.
  assert (Y : forall todo k s s', ml_loop fo bl todo k H true Mn 1 s = Ok s' -> ml_C s' = ml_C s).
  { induction todo; intros k q q' Hq; cbn [ml_loop] in Hq; [now injection Hq as <-|].
    apply bind_ok in Hq as ([s1 v2] & Hb & Hq).
    assert (ml_C s1 = ml_C q).
    { unfold ml_body in Hb. apply bind_ok in Hb as (C2 & Hc & Hb). cbv zeta in Hb. apply bind_ok in Hb as (dd & _ & Hb). injection Hb as <- _. cbn [ml_C]. now injection Hc as <-. }
    destruct todo; [now injection Hq as <-|]. apply bind_ok in Hq as (s2 & Hn & Hq). apply IHtodo in Hq. rewrite Hq.
    unfold ml_next in Hn. cbv zeta in Hn. apply bind_ok in Hn as (ee & _ & Hn). injection Hn as <-. exact H0. }
  apply Y in Hs. exact Hs.
Qed.
Lemma g_mlanczos_two m s t : gP n s t -> rel_res (vrel (gP n)) (d_mlanczos L1 m None s) (c_mlanczos fo bl m None t).
Proof.
  intros (X0 & E1 & P2 & Eb & _). pose proof X0 as X. gb X.
  assert (Y : rel_res (vrel (gP n)) (i_mlanczos fo bl m None s) (c_mlanczos fo bl m None t)).
  { unfold i_mlanczos, c_mlanczos. rewrite E1, EH. destruct (mlanczos fo bl (cs_H t) m None (cs_C t)) as [[[[x e] b] C']| |] eqn:E; cbn [bind]; try exact I. apply mlanczos_none_keeps in E. subst C'.
    cbn. split; auto. split; [gdone|]. cbn. auto. }
  unfold istD. destruct dev; [|exact Y]. cbn [devD d_mlanczos]. unfold dv_mlanczos. rewrite g_lanczos_one; [exact Y| |auto|lia|easy].
  intros x. rewrite EH. now apply (sa_mul _ _ SA).
Qed.
Lemma g_shift_two c u (R : istT -> cstT -> Prop) s t : (forall s t, R s t -> gB s t) -> (forall s t h, R s t -> Hm h -> R (mk_ist h (is_V1 s) (is_V2 s) (is_sw s)) (mk_cst h (cs_C t) (cs_B t) (cs_C2 t) (cs_B2 t) (cs_bAc t))) ->
  R s t -> rel_res R (i_shift bl c u s) (c_shift bl c u t).
Proof.
  intros HB HR H. pose proof (HB _ _ H) as X. gb X. cbn. rewrite EH. apply HR; auto. now apply (sa_shift _ _ SA).
Qed.
Lemma gP_shift l s t h : gP l s t -> Hm h -> gP l (mk_ist h (is_V1 s) (is_V2 s) (is_sw s)) (mk_cst h (cs_C t) (cs_B t) (cs_C2 t) (cs_B2 t) (cs_bAc t)).
Proof. intros (X & Y) H. gb X. split; [gdone|]. exact Y. Qed.

Local Notation cmI := (cm (D := ist (V := V) (M := M))).
Local Notation cmC := (cm (D := cst (V := V) (M := M))).
Definition zR (l : nat) : cmI -> cmC -> Prop := kk (fun a b => gP n a b /\ l <= n) l.
Definition zF (p : bool) (l off m : nat) : cmI -> cmC -> Prop := kk (gF p l (l + off) (l + off + m)) l.
Definition zA (s : cmI) (t : cmC) : Prop := (same_start n s t /\ Hm (cs_H (cm_dla t))) /\ cm_locked s = 0 /\ cm_locked t = 0.

Theorem eq_paced : paced fo K1 K2 n false (fun s t => same_start n s t /\ Hm (cs_H (cm_dla t))) zA (zR 0) zR zF (fun l => kk (gP l) l) (fun l => kk (gQ l) l)
  (fun s t => gP n (cm_dla s) (cm_dla t)).
Proof.
  split; cbn [cmK k_sym k_start k_end k_init k_shift k_hemm k_qr k_rr k_resd k_swap k_lock k_lanczos1 k_lanczos2 k_dos colD d_sym d_start d_end d_shift d_apply d_rr d_resd d_swap].
  - intros s t H. assert (X : rel_res (vrel (fun a b => a = cm_dla s /\ b = cm_dla t)) (i_sym bl (cm_dla s)) (c_sym bl (cm_dla t))).
    { cbn. split; cbn; auto. destruct H as ((E & _) & _). now rewrite E. }
    unfold lift_v. eapply rel_bind; [unfold istD; destruct dev; exact X|]. intros [v a] [v' b] [Y [Y1 Y2]]. cbn [fst snd] in *. subst. cbn. split; auto.
  - intros s t H. unfold istD. destruct dev; cbn; split; auto.
  - intros s t (((EH & E1 & LV1 & LV2 & LB & LC2 & LB2) & HM) & Z1 & Z2).
    eapply rel_bind with (R := zR 0); [|intros s' t' H'; exact H'].
    unfold cm_init, lift. rewrite Z1, Z2. cbn [bind colD d_init].
    assert (X : rel_res (gP n) (i_init n (cm_dla s)) (c_init n (cm_dla t))).
    { unfold i_init, c_init. assert (LC : length (cs_C (cm_dla t)) = n) by congruence. rewrite E1, (get_full _ _ LC). cbn [bind]. rewrite put_full by lia. cbn [bind].
      destruct (put_ok (cs_C2 (cm_dla t)) 0 (cs_C (cm_dla t))) as (C2 & EP & LP); [lia|]. rewrite EP. cbn. split; [gdone|]. cbn. split; auto. split; [|auto].
      intros i Hi. change (nth_error C2 i) with (nth_error C2 (0 + i)). rewrite (put_here _ 0 _ _ EP) by lia. reflexivity. }
    eapply rel_bind with (R := gP n); [unfold istD; destruct dev; exact X|]. intros a b H. cbn. split; auto. split; auto. split; auto. lia.
  - split; cbn [starter cmK k_sym k_start k_end k_init k_shift k_hemm k_qr k_rr k_resd k_swap k_lock k_lanczos1 k_lanczos2 k_dos]; try (intros; exact I).
    intros m s t H. pose proof H as (E1 & E2 & HD & HL). eapply rel_mono; [|eapply (lanczos1_two _ _ _ _ (fun a b => gP n a b) (fun a b => gP n a b)); [now apply g_mlanczos_two|split; auto]].
    intros a b (X & Y1 & Y2 & Y3). split; [exact X|]. split; [exact Y1|]. split; [exact Y2|]. split; [exact Y3|lia].
  - auto.
  - intros l c s t (E1 & E2 & H & HL). apply kk_lift; auto. assert (X : rel_res (gP n) (i_shift bl c false (cm_dla s)) (c_shift bl c false (cm_dla t))).
    { apply g_shift_two; auto; [intros ? ? X; apply X|]. intros. now apply gP_shift. }
    eapply rel_mono; [|unfold istD; destruct dev; exact X]. auto.
  - intros l m a s t (E1 & E2 & H & HL) E. rewrite E1, E2. apply kk_lift; auto.
    pose proof (g_apply_two false a (f_zero fo) 0 m l 0 0 _ _ ltac:(lia) (or_intror (conj H (conj eq_refl eq_refl)))) as X. unfold istD; destruct dev; exact X.
  - intros p l off m off' m' a b s t (E1 & E2 & H) H1 H2. rewrite E1, E2. apply kk_lift; auto.
    assert (B : l + off <= l + off' /\ l + off' + m' <= l + off + m) by lia. assert (B' : l + off' + m' <= n) by (destruct H as (_ & _ & _ & _ & X & _); lia).
    pose proof (g_apply_two p a b off' m' l (l + off) (l + off + m) _ _ B' (or_introl (conj H B))) as X. unfold istD; destruct dev; exact X.
  - intros l off m c s t (E1 & E2 & H). apply kk_lift; auto. assert (X : rel_res (gP l) (i_shift bl c true (cm_dla s)) (c_shift bl c true (cm_dla t))).
    { apply g_shift_two; [intros ? ? X; apply X|intros; now apply gP_shift|]. destruct H as (X0 & X1 & X2 & X3 & X4 & X5 & _). split; auto. split; auto. split; auto. split; [exact X2|]. lia. }
    unfold istD; destruct dev; exact X.
  - intros l c s t (E1 & E2 & H).
    refine (cm_qr_two fo qe L1 L2 l (gP l) (gQ0 l) (gQ l) _ _ _ _ _ _ c s t E1 E2 H); unfold istD; destruct dev; cbn [devD inplD colD d_hhqr d_chol1 d_chol2 d_schol2 d_lockcopy]; intros;
      first [now apply g_hhqr_two|now apply g_chol1_two|now apply g_chol2_two|now apply g_schol2_two|now apply g_lockcopy_two].
  - intros l s t (E1 & E2 & H) HL. rewrite E1, E2. apply kk_lift_v; auto. eapply rel_mono; [|unfold istD; destruct dev; apply g_rr_two; exact H].
    intros a b (X & Y). split; auto.
  - intros l v s t (E1 & E2 & H & HL). rewrite E1, E2. apply kk_lift_v; auto. eapply rel_mono; [|unfold istD; destruct dev; [apply (g_resd_two v l (n - l) _ _ H)|apply (g_resd_two v l (n - l) _ _ H)]].
    intros a b (X & Y). split; auto.
  - intros l i j s t (E1 & E2 & H & HL). apply kk_lift; auto. eapply rel_mono; [|unfold istD; destruct dev; apply g_swap_two; exact H]. auto.
  - intros l m s t (E1 & E2 & H & HL) HM. cbn. repeat split; cbn; auto; try apply H; lia.
  - intros l s t (E1 & E2 & H & HL). unfold istD; destruct dev; exact H.
Qed.
End Eq.
