(** Cholesky QR, Rayleigh-Ritz and residuals of the distributed backend. *)
From Coq Require Import List Arith Bool ZArith Lia.
Require Import Verif.Base Verif.AlgModel Verif.DlaModel Verif.ColModel Verif.DistModel Verif.DistSpec Verif.DistProofs Verif.DistProofs2 Verif.FlatModel Verif.FlatSpec Verif.FlatProofs Verif.FlatProofs2 Verif.FlatProofs4 Verif.RedistModel Verif.RedistSpec.
Require Import Verif.SpmdModel Verif.SpmdSpec Verif.SpmdProofs Verif.SpmdProofs2 Verif.KerModel Verif.KerSpec Verif.KerProofs1 Verif.KerProofs5 Verif.KerProofs8 Verif.KerProofs9.
Require Import Verif.ClientModel Verif.DsModel Verif.DsSpec.
Require Import Verif.AlgProofs1 Verif.FilterProofs Verif.DsProofs1 Verif.DsProofs2.
Import ListNotations.

Lemma put_all {A} (l xs : list A) : length xs = length l -> put_range l 0 xs = Ok xs.
Proof. intros E. rewrite put_range_ok by lia. simpl. rewrite skipn_all2, app_nil_r by lia. reflexivity. Qed.
Lemma get_all {A} (l : list A) n : length l = n -> get_range l 0 n = Ok l.
Proof. intros <-. rewrite get_range_ok by lia. simpl. now rewrite firstn_all. Qed.
Lemma get_put {A} (l l' xs : list A) off : put_range l off xs = Ok l' -> get_range l' off (length xs) = Ok xs.
Proof.
  intros H. pose proof (put_range_length _ _ _ _ H) as L. apply put_range_inv in H as [H ->]. rewrite get_range_ok by lia. f_equal.
  rewrite skipn_app, firstn_length, Nat.min_l by lia. rewrite skipn_all2 by (rewrite firstn_length; lia). rewrite Nat.sub_diag. simpl. rewrite firstn_app, firstn_all, Nat.sub_diag, firstn_O, app_nil_r. reflexivity.
Qed.

Lemma put_put {A} (l l1 l2 xs ys : list A) off : put_range l off xs = Ok l1 -> put_range l1 off ys = Ok l2 -> length xs = length ys -> put_range l off ys = Ok l2.
Proof.
  intros H1 H2 E. apply put_range_inv in H1 as [B1 ->]. apply put_range_inv in H2 as [B2 ->]. rewrite put_range_ok by lia. f_equal.
  assert (L1 : length (firstn off l) = off) by (rewrite firstn_length; lia). f_equal; [|f_equal].
  - rewrite firstn_app, L1, Nat.sub_diag, firstn_O, app_nil_r, firstn_firstn, Nat.min_id. reflexivity.
  - rewrite skipn_app, L1, (skipn_all2 (firstn off l)) by lia. simpl. replace (off + length ys - off) with (length xs) by lia. rewrite skipn_app, skipn_all, Nat.sub_diag. simpl. now rewrite E.
Qed.
Lemma tri_ext {D} keep m (M M' : nat -> nat -> D) : (forall r c, r < m -> c < m -> keep r c = true -> M r c = M' r c) -> entries keep m M = entries keep m M'.
Proof. apply (entries_ext 1 1 1); [lia|lia|reflexivity]. Qed.
Lemma nth_zip {A B C} (f : A -> B -> C) l m t a b c : length l = length m -> t < length l -> nth t (zip f l m) c = f (nth t l a) (nth t m b).
Proof. unfold zip. revert m t. induction l; intros [|y m] t E Ht; simpl in *; try lia. destruct t; auto. apply IHl; lia. Qed.
Lemma nth_combine {A B} (l : list A) (m : list B) t a b : length l = length m -> nth t (combine l m) (a, b) = (nth t l a, nth t m b).
Proof. intros E. now apply combine_nth. Qed.

Section Calls.
Context {F D : Type} (o : sops D) (fo : fops F) (inj : F -> D) (re : D -> F) (oc : oracles D) (RT : is_ring o).
Variables (N p q mb nb rsrc csrc n : nat) (ldh : nat -> nat -> nat).
Hypothesis HL : layout N p q mb nb rsrc csrc.
Notation rows := (owned N mb p rsrc).
Notation cols := (owned N nb q csrc).
Notation env i j := (bc_env N p q mb nb rsrc csrc (ldh i j) n i j).
Notation V := (nat -> D).
Notation bl := (gblas o fo inj re oc N mb p rsrc).
Notation L := (colD fo bl true n).
Notation cst := (cst (V := V) (M := nat -> nat -> D)).
Notation blk := (blk o).
Notation hp i j := (holds_part o n (rows i) (cols j) (ldh i j)).
Variables (tab : nat -> nat -> gtab).
Notation kr i j c := (ker o fo inj re oc (env i j) (tab i j) c).
Notation spread := (spread o N p q mb nb rsrc csrc n ldh).
Notation after := (after o N p q mb nb rsrc csrc n ldh).
Hypothesis Hr : forall i, i < p -> (Z.of_nat (length (rows i) * n) < 2 ^ 31)%Z.
Hypothesis Hc : forall j, j < q -> (Z.of_nat (length (cols j) * n) < 2 ^ 31)%Z.
Hypothesis Hn : (Z.of_nat (n * n) < 2 ^ 31)%Z.
Notation Pp := (Pp N p q mb nb rsrc csrc HL).
Notation Pq := (Pq N p q mb nb rsrc csrc HL).

Lemma only_all (rs : list nat) (vs vs' : list V) buf buf' W : carries rs vs buf -> length vs = n -> only_columns rs 0 n W buf buf' -> length vs' = n ->
  (forall c g, c < n -> In g rs -> blk vs' g c = W g c) -> carries rs vs' buf'.
Proof.
  intros H1 L1 H2 L2 HW. eapply only_carries; [exact H1|exact H2|apply put_all; lia|auto|]. intros c g Hc1 Hg. now apply HW.
Qed.

Lemma row_list (vs : list V) g : length vs = n -> map (fun v => v g) vs = map (blk vs g) (seq 0 n).
Proof.
  intros <-. apply nth_error_ext. intros k. rewrite !nth_error_map. destruct (Nat.lt_ge_cases k (length vs)) as [Hk|Hk].
  - rewrite (proj2 (nth_error_seq 0 (length vs) k k)) by lia. simpl. unfold DsSpec.blk. now rewrite (nth_error_nth' vs (fun _ => s0 o) Hk).
  - rewrite !(proj2 (nth_error_None _ _)); auto. now rewrite seq_length.
Qed.
Definition same_cols (vs : list V) (W : nat -> nat -> D) : Prop := length vs = n /\ forall g c, c < n -> blk vs g c = W g c.
Lemma same_gram vs W : same_cols vs W -> entries upper n (gram o N (blk vs)) = entries upper n (gram o N W).
Proof. intros [L1 E]. apply tri_ext. intros r c Hr1 Hc1 _. unfold gram, mprod, ctrans. apply bsum_ext. intros g Hg. now rewrite !E. Qed.
Lemma same_solve vs W tri U : same_cols vs W -> same_cols (map (fun c g => tri n (entries upper n U) (map (fun v : V => v g) vs) c) (seq 0 n)) (row_solve n tri U W).
Proof.
  intros [L1 E]. split; [now rewrite map_length, seq_length|]. intros g c Hc1. rewrite blk_map by auto. unfold row_solve. f_equal. rewrite row_list by auto.
  apply map_ext_in. intros k Hk. apply in_seq in Hk. apply E. lia.
Qed.
Lemma same_refl vs : length vs = n -> same_cols vs (blk vs).
Proof. intros H. split; auto. Qed.
Lemma same_shift f vs W : same_cols vs W -> entries upper n (shift_diag o n f (gram o N (blk vs))) = entries upper n (shift_diag o n f (gram o N W)).
Proof.
  intros [L1 E]. assert (G : forall r c, r < n -> c < n -> gram o N (blk vs) r c = gram o N W r c) by (intros r c Hr1 Hc1; unfold gram, mprod, ctrans; apply bsum_ext; intros g Hg; now rewrite !E).
  apply tri_ext. intros r c Hr1 Hc1 _. unfold shift_diag. rewrite (G r c) by auto. destruct (r =? c); auto. f_equal. f_equal. apply map_ext_in. intros k Hk. apply in_seq in Hk. apply G; lia.
Qed.

Lemma set_C_inv f (g g' : cst) : length (cs_C g) = n -> set_C n g f = Ok g' ->
  g' = mk_cst (cs_H g) (map (f (cs_C g)) (seq 0 n)) (cs_B g) (cs_C2 g) (cs_B2 g) (cs_bAc g).
Proof.
  intros Ln E. unfold set_C in E. rewrite get_all in E by auto. cbn [bind] in E. rewrite put_all in E by (rewrite map_length, seq_length; auto). cbn [bind] in E. congruence.
Qed.
Lemma factor_inv (g : cst) sh info R : length (cs_C g) = n -> c_factor bl n sh g = Ok (info, R) ->
  let f := or_po oc n (entries upper n (if sh then shift_diag o n (or_shift oc) (gram o N (blk (cs_C g))) else gram o N (blk (cs_C g)))) in info = fst f /\ R = (n, snd f).
Proof.
  intros Ln E. unfold c_factor in E. rewrite get_all in E by auto. cbn [bind] in E. destruct sh; cbn in E; rewrite !Ln in E; inversion E; auto.
Qed.
Definition new_C (g : cst) (vs : list V) : cst := mk_cst (cs_H g) vs (cs_B g) (cs_C2 g) (cs_B2 g) (cs_bAc g).
Lemma new_C_id g : new_C g (cs_C g) = g. Proof. now destruct g. Qed.

Lemma after_qr g s r : spread g s -> forall vs a, same_cols vs (snd r) -> a = fst r ->
  forall st, completes (sadd o) p q (fun i j => qr_result n (rows i) r (s i j)) st -> good (sadd o) p q (after a (new_C g vs)) st.
Proof.
  intros HS vs a [L1 E1] -> st H. eapply good_mono; [|exact (completes_good _ _ _ _ _ H)]. intros i j x Hi Hj (A1 & A2 & A3 & A4). split; auto.
  pose proof (HS i j Hi Hj) as []. destruct hp_C as [LC HC]. rewrite A4. constructor; cbn; auto; [|lia]. split; auto. eapply only_all; eauto.
Qed.
Lemma qr_pre g s i j : spread g s -> i < p -> j < q ->
  holds (rows i) 0 n (length (rows i)) (blk (cs_C g)) (l_C (s i j)) /\ length (rows i) * n <= length (l_C (s i j)) /\ n * n <= length (l_A (s i j)).
Proof. intros HS Hi Hj. pose proof (HS i j Hi Hj) as []. destruct hp_C as [LC HC]. split; [|split; auto]. apply carries_holds; auto; lia. apply carries_len in HC. nia. Qed.

Lemma len_C g s : spread g s -> length (cs_C g) = n.
Proof. intros HS. destruct (HS 0 0 Pp Pq) as [_ [X _] _ _ _ _ _]. exact X. Qed.

Lemma call_chol1 l g s a g' : spread g s -> d_chol1 L l g = Ok (a, g') -> good (sadd o) p q (after a g') (fun i j => kr i j (QChol1 l) (s i j)).
Proof.
  intros HS E. pose proof (len_C g s HS) as Ln. cbn [d_chol1 colD] in E. unfold c_chol1 in E. apply bind_ok in E as ([info R] & E1 & E). apply factor_inv in E1; auto. cbn zeta in E1. destruct E1 as [Ei ER].
  cbn [ker]. set (vc := blk (cs_C g)) in *. pose proof (lay_qr1 o RT N p q mb nb rsrc csrc n ldh HL s (or_po oc) (or_tri oc) vc Hn (fun i j => qr_pre g s i j HS)) as HQ.
  assert (X : exists vs, same_cols vs (snd (qr1 o N n (or_po oc) (or_tri oc) vc)) /\ a = fst (qr1 o N n (or_po oc) (or_tri oc) vc) /\ g' = new_C g vs).
  { unfold qr1. rewrite <- Ei. destruct (info =? 0)%Z eqn:E0; cbn [negb] in E.
    - apply bind_ok in E as (g1 & E1 & E). apply set_C_inv in E1; auto. inversion E; subst a g' g1. subst R. cbn [b_trsm gblas fst snd]. eexists. split; [|split; [reflexivity|reflexivity]].
      apply same_solve. now apply same_refl.
    - inversion E; subst. exists (cs_C g'). cbn [fst snd]. split; [now apply same_refl|]. split; auto. now rewrite new_C_id. }
  destruct X as (vs & X1 & X2 & ->). eapply after_qr; eauto.
Qed.
Lemma call_chol2 l g s a g' : spread g s -> d_chol2 L l g = Ok (a, g') -> good (sadd o) p q (after a g') (fun i j => kr i j (QChol2 l) (s i j)).
Proof.
  intros HS E. pose proof (len_C g s HS) as Ln. cbn [d_chol2 colD] in E. unfold c_chol2 in E. apply bind_ok in E as ([info R] & E1 & E). apply factor_inv in E1; auto. cbn zeta in E1. destruct E1 as [Ei ER].
  cbn [ker]. set (vc := blk (cs_C g)) in *. pose proof (lay_qr2 o RT N p q mb nb rsrc csrc n ldh HL s (or_po oc) (or_tri oc) vc Hn (fun i j => qr_pre g s i j HS)) as HQ.
  assert (X : exists vs, same_cols vs (snd (qr2 o N n (or_po oc) (or_tri oc) vc)) /\ a = fst (qr2 o N n (or_po oc) (or_tri oc) vc) /\ g' = new_C g vs).
  { unfold qr2. rewrite <- Ei. destruct (info =? 0)%Z eqn:E0; cbn [negb] in E.
    - apply bind_ok in E as (g1 & E1 & E). apply set_C_inv in E1; auto. subst R. cbn [b_trsm gblas fst snd] in E1.
      match type of E1 with _ = mk_cst _ ?vs1 _ _ _ _ => assert (S1 : same_cols vs1 (row_solve n (or_tri oc) (snd (or_po oc n (entries upper n (gram o N vc)))) vc)) by (apply same_solve; now apply same_refl); set (vs := vs1) in * end.
      assert (L1 : length (cs_C g1) = n) by (subst g1; apply S1).
      apply bind_ok in E as ([i2 R2] & E2 & E). apply factor_inv in E2; auto. cbn zeta in E2. destruct E2 as [Ei2 ER2]. rewrite E1 in Ei2, ER2. cbn [cs_C] in Ei2, ER2. rewrite (same_gram _ _ S1) in Ei2, ER2.
      apply bind_ok in E as (g2 & E3 & E). apply set_C_inv in E3; auto. inversion E; subst a g' g2. rewrite ER2, E1. cbn [b_trsm gblas fst snd cs_C cs_H cs_B cs_C2 cs_B2 cs_bAc].
      eexists. split; [|split; [exact Ei2|reflexivity]]. now apply same_solve.
    - inversion E; subst. exists (cs_C g'). cbn [fst snd]. split; [now apply same_refl|]. split; auto. now rewrite new_C_id. }
  destruct X as (vs & X1 & X2 & ->). eapply after_qr; eauto.
Qed.
Lemma call_schol2 l g s a g' : spread g s -> d_schol2 L l g = Ok (a, g') -> good (sadd o) p q (after a g') (fun i j => kr i j (QSchol2 l) (s i j)).
Proof.
  intros HS E. pose proof (len_C g s HS) as Ln. cbn [d_schol2 colD] in E. unfold c_schol2 in E. apply bind_ok in E as ([info R] & E1 & E). apply factor_inv in E1; auto. cbn zeta in E1. destruct E1 as [Ei ER].
  cbn [ker]. set (vc := blk (cs_C g)) in *. pose proof (lay_sqr2 o RT N p q mb nb rsrc csrc n ldh HL s (or_po oc) (or_tri oc) vc Hn (fun i j => qr_pre g s i j HS) (or_shift oc)) as HQ.
  assert (X : exists vs, same_cols vs (snd (sqr2 o N n (or_po oc) (or_tri oc) (or_shift oc) vc)) /\ a = fst (sqr2 o N n (or_po oc) (or_tri oc) (or_shift oc) vc) /\ g' = new_C g vs).
  { unfold sqr2. rewrite <- Ei. destruct (info =? 0)%Z eqn:E0; cbn [negb] in E.
    - apply bind_ok in E as (g1 & E1 & E). apply set_C_inv in E1; auto. subst R. cbn [b_trsm gblas fst snd] in E1.
      match type of E1 with _ = mk_cst _ ?vs1 _ _ _ _ => assert (S1 : same_cols vs1 (row_solve n (or_tri oc) (snd (or_po oc n (entries upper n (shift_diag o n (or_shift oc) (gram o N vc))))) vc)) by (apply same_solve; now apply same_refl); set (vs := vs1) in * end.
      assert (L1 : length (cs_C g1) = n) by (subst g1; apply S1).
      apply bind_ok in E as ([i2 R2] & E2 & E). apply factor_inv in E2; auto. cbn zeta in E2. destruct E2 as [Ei2 ER2]. rewrite E1 in Ei2, ER2. cbn [cs_C] in Ei2, ER2. rewrite (same_gram _ _ S1) in Ei2, ER2.
      rewrite <- Ei2. destruct (i2 =? 0)%Z eqn:E02; cbn [negb andb] in E.
      + apply bind_ok in E as (g2 & E3 & E). apply set_C_inv in E3; auto. rewrite ER2, E1 in E3. cbn [b_trsm gblas fst snd cs_C cs_H cs_B cs_C2 cs_B2 cs_bAc] in E3.
        match type of E3 with _ = mk_cst _ ?vs1 _ _ _ _ => assert (S2 : same_cols vs1 (row_solve n (or_tri oc) (snd (or_po oc n (entries upper n (gram o N (row_solve n (or_tri oc) (snd (or_po oc n (entries upper n (shift_diag o n (or_shift oc) (gram o N vc))))) vc))))) (row_solve n (or_tri oc) (snd (or_po oc n (entries upper n (shift_diag o n (or_shift oc) (gram o N vc))))) vc))) by (now apply same_solve); set (vs2 := vs1) in * end.
        assert (L2 : length (cs_C g2) = n) by (subst g2; apply S2).
        apply bind_ok in E as ([i3 R3] & E4 & E). apply factor_inv in E4; auto. cbn zeta in E4. destruct E4 as [Ei3 ER3]. rewrite E3 in Ei3, ER3. cbn [cs_C] in Ei3, ER3. rewrite (same_gram _ _ S2) in Ei3, ER3.
        apply bind_ok in E as (g3 & E5 & E). apply set_C_inv in E5; auto. inversion E; subst a g' g3. rewrite ER3, E3. cbn [b_trsm gblas fst snd cs_C cs_H cs_B cs_C2 cs_B2 cs_bAc].
        eexists. split; [|split; [reflexivity|reflexivity]]. now apply same_solve.
      + inversion E; subst a g'. cbn [fst snd]. exists vs. split; auto.
    - inversion E; subst. exists (cs_C g'). cbn [fst snd]. split; [now apply same_refl|]. split; auto. now rewrite new_C_id. }
  destruct X as (vs & X1 & X2 & ->). eapply after_qr; eauto.
Qed.

(** *** gather, rr, resd *)
Hypothesis HP : packable N p q mb nb rsrc csrc.
Lemma gather_inv l k (g g1 : cst) : c_gather bl l k g = Ok g1 -> exists c c2, get_range (cs_C g) l k = Ok c /\ get_range (cs_C2 g) l k = Ok c2 /\
  put_range (cs_B g) l (map (matvec o N (ctrans o (cs_H g))) c) = Ok (cs_B g1) /\ put_range (cs_B2 g) l c2 = Ok (cs_B2 g1) /\
  get_range (cs_B g1) l k = Ok (map (matvec o N (ctrans o (cs_H g))) c) /\ get_range (cs_B2 g1) l k = Ok c2 /\
  g1 = mk_cst (cs_H g) (cs_C g) (cs_B g1) (cs_C2 g) (cs_B2 g1) (cs_bAc g).
Proof.
  intros E. unfold c_gather in E. apply bind_ok in E as (c & Ec & E). apply bind_ok in E as (B & EB & E). apply bind_ok in E as (c2 & Ec2 & E). apply bind_ok in E as (B2 & EB2 & E). inversion E; subst g1. cbn in *.
  exists c, c2. do 4 (split; auto). split; [|split; auto].
  - rewrite <- (get_range_length _ _ _ _ Ec). rewrite <- (map_length (matvec o N (ctrans o (cs_H g))) c). eapply get_put; eauto.
  - rewrite <- (get_range_length _ _ _ _ Ec2). eapply get_put; eauto.
Qed.
Lemma blk_matvec H (C c : list V) l k g t : get_range C l k = Ok c -> t < k -> blk (map (matvec o N H) c) g t = mprod o N H (blk C) g (l + t).
Proof.
  intros E Ht. pose proof (get_range_length _ _ _ _ E). rewrite blk_mapv by lia. rewrite (nth_get_range _ _ _ _ t _ E) by auto. reflexivity.
Qed.
Lemma call_rr k l g s a g' : spread g s -> d_rr L k l g = Ok (a, g') -> good (sadd o) p q (after a g') (fun i j => kr i j (QRr k l) (s i j)).
Proof.
  intros HS E. cbn [d_rr colD] in E. unfold c_rr in E. cbn [andb] in E. destruct (l + k =? n) eqn:En; cbn [negb] in E; [|discriminate]. apply Nat.eqb_eq in En.
  apply bind_ok in E as (g1 & Eg & E). destruct (gather_inv _ _ _ _ Eg) as (c & c2 & Ec & Ec2 & EB & EB2 & Gb & Gb2 & Eg1). rewrite Gb in E. cbn [bind] in E. rewrite Gb2 in E. cbn [bind] in E.
  rewrite Eg1 in E. cbn [cs_C cs_C2 cs_H cs_B cs_B2 cs_bAc] in E. rewrite Ec2 in E. cbn [bind] in E.
  apply bind_ok in E as (C' & EC & E). apply bind_ok in E as (C2' & EC2 & E). pose proof (get_range_length _ _ _ _ Ec) as Lc. pose proof (get_range_length _ _ _ _ Ec2) as Lc2.
  set (A := b_gram bl c2 (map (matvec o N (ctrans o (cs_H g))) c)) in *.
  set (zw := or_ev oc k (entries lower k (ritz_matrix o N (cs_H g) l (blk (cs_C2 g)) (blk (cs_C g))))).
  assert (EA : fst A = k /\ entries lower (fst A) (snd A) = entries lower k (ritz_matrix o N (cs_H g) l (blk (cs_C2 g)) (blk (cs_C g)))).
  { assert (F1 : fst A = k) by (cbn; rewrite map_length; auto). split; auto. rewrite F1. apply tri_ext. intros r t Hr1 Ht _. cbn [A b_gram gblas snd]. unfold dot, ritz_matrix, mprod at 1. apply bsum_ext. intros h Hh. f_equal.
    - unfold ctrans, from, DsSpec.blk. f_equal. now rewrite (nth_get_range _ _ _ _ r _ Ec2) by auto.
    - unfold from. rewrite <- (blk_matvec _ _ _ _ _ h t Ec) by auto. reflexivity. }
  destruct EA as [EA1 EA2]. assert (Ez : or_ev oc (fst A) (entries lower (fst A) (snd A)) = zw) by (rewrite EA2, EA1; reflexivity).
  inversion E; subst a g'. clear E. cbn [ker].
  eapply good_bind; [apply Pp|apply Pq|apply completes_good, (lay_rr o RT N p q mb nb rsrc csrc n ldh (cs_H g) HL s) with (V := blk (cs_C2 g)) (W := blk (cs_C g)); auto|].
  - intros i j Hi Hj. apply (HS i j Hi Hj).
  - intros i j Hi Hj. destruct (HS i j Hi Hj) as [_ [LC HC] _ _ _ _ _]. apply carries_holds; auto. lia.
  - intros i j Hi Hj. destruct (HS i j Hi Hj) as [_ _ [LC HC] _ _ _ _]. apply carries_holds; auto. lia.
  - intros i j Hi Hj. destruct (HS i j Hi Hj) as [_ [LC HC] _ _ _ _ _]. apply carries_len in HC. nia.
  - intros i j Hi Hj. destruct (HS i j Hi Hj) as [_ _ [LC HC] _ _ _ _]. apply carries_len in HC. nia.
  - intros i j Hi Hj. destruct (HS i j Hi Hj) as [_ _ _ [LC HC] _ _ _]. apply carries_len in HC. nia.
  - intros i j Hi Hj. destruct (HS i j Hi Hj) as [_ _ _ _ [LC HC] _ _]. apply carries_len in HC. nia.
  - intros j Hj. specialize (Hc j Hj). nia.
  - nia.
  - intros i j Hi Hj. destruct (HS i j Hi Hj) as [_ _ _ _ _ X _]. nia.
  - intros x Hx. cbv beta zeta in Hx. apply good_done. intros i j Hi Hj. eexists. split; [reflexivity|].
    destruct (Hx i j Hi Hj) as (X1 & X2 & X3 & X4 & X5 & X6 & X7 & X8 & X9). fold zw in X1, X2, X9. pose proof (HS i j Hi Hj) as []. split.
    + cbn [fst]. rewrite X9, map_map. apply map_ext. intros t. change (re (snd zw t) = re (snd (or_ev oc (fst A) (entries lower (fst A) (snd A))) t)). now rewrite Ez.
    + assert (W : forall t h, t < k -> blk (map (b_comb bl c2 A) (seq 0 k)) h t = mprod o k (from l (blk (cs_C2 g))) (fst zw) h (l + t - l)).
      { intros t h Ht. rewrite blk_map by auto. change (b_comb bl c2 A t h) with (bsum (s0 o) (sadd o) (length c2) (fun k => smul o (blk c2 h k) (fst (or_ev oc (fst A) (entries lower (fst A) (snd A))) k t))). rewrite Ez, Lc2. replace (l + t - l) with t by lia. unfold mprod. apply bsum_ext. intros r Hr1. f_equal.
        unfold from, DsSpec.blk. now rewrite (nth_get_range _ _ _ _ r _ Ec2) by auto. }
      destruct hp_C as [LC HC]. destruct hp_C2 as [LC2 HC2]. destruct hp_B as [LB HB]. destruct hp_B2 as [LB2 HB2]. destruct hp_next as [N1 N2].
      assert (Ls : length (map (b_comb bl c2 A) (seq 0 k)) = k) by now rewrite map_length, seq_length.
      constructor; cbn [snd cs_H cs_C cs_C2 cs_B cs_B2 cs_bAc].
      * now rewrite X3.
      * split; [rewrite <- LC; eapply put_range_length; eauto|]. eapply only_carries; [exact HC|exact X1|exact EC|auto|]. intros t h Ht _. now apply W.
      * split; [rewrite <- LC2; eapply put_range_length; eauto|]. eapply only_carries; [exact HC2|exact X2|exact EC2|auto|]. intros t h Ht _. now apply W.
      * split; [rewrite <- LB; eapply put_range_length; eauto|]. eapply only_carries; [exact HB|exact X7|exact EB|rewrite map_length; auto|]. intros t h Ht _. now apply blk_matvec with (k := k).
      * split; [rewrite <- LB2; eapply put_range_length; eauto|]. eapply only_carries; [exact HB2|exact X6|exact EB2|auto|]. intros t h Ht _. unfold DsSpec.blk. now rewrite (nth_get_range _ _ _ _ t _ Ec2) by auto.
      * lia.
      * rewrite X4, X5. auto.
Qed.

Hypothesis re_inj : forall x, re (inj x) = x.
Hypothesis inj_neg : forall x, inj (f_neg fo x) = sopp o (inj x).
Lemma call_resd ritzv l k g s a g' : spread g s -> d_resd L ritzv l k g = Ok (a, g') -> good (sadd o) p q (after a g') (fun i j => kr i j (QResd ritzv l k) (s i j)).
Proof.
  intros HS E. cbn [d_resd colD] in E. unfold c_resd in E.
  apply bind_ok in E as (g1 & Eg & E). destruct (gather_inv _ _ _ _ Eg) as (c & c2 & Ec & Ec2 & EB & EB2 & Gb & Gb2 & Eg1).
  apply bind_ok in E as (v & Ev & E). rewrite Gb in E. cbn [bind] in E. rewrite Gb2 in E. cbn [bind] in E.
  set (B1 := cs_B g1) in *. set (B21 := cs_B2 g1) in *.
  apply bind_ok in E as (B' & EB' & E). pose proof (get_range_length _ _ _ _ Ec) as Lc. pose proof (get_range_length _ _ _ _ Ec2) as Lc2. pose proof (get_range_length _ _ _ _ Ev) as Lv.
  match type of EB' with put_range _ _ ?x = _ => set (b' := x) in * end.
  rewrite Eg1 in E. cbn [cs_C cs_C2 cs_H cs_B cs_B2 cs_bAc] in E.
  set (lam := fun t => inj (nth t ritzv (f_zero fo))).
  set (res := resvec o N (cs_H g) lam l (blk (cs_C2 g)) (blk (cs_C g))).
  assert (Lb' : length b' = k) by (unfold b'; rewrite zip_length; rewrite combine_length, ?map_length; lia).
  assert (W : forall t h, t < k -> blk b' h t = res h t).
  { intros t h Ht. unfold DsSpec.blk, b'. rewrite (nth_zip _ _ _ _ (f_zero fo, fun _ => s0 o) (fun _ => s0 o)) by (rewrite combine_length, ?map_length; lia). rewrite nth_combine by lia. cbn [fst snd b_axpy b_inj gblas].
    unfold res, resvec. f_equal.
    - rewrite <- (blk_matvec _ _ _ _ _ h t Ec) by auto. reflexivity.
    - rewrite inj_neg. unfold lam. rewrite (nth_get_range _ _ _ _ t _ Ev) by auto. rewrite (nth_get_range _ _ _ _ t _ Ec2) by auto. reflexivity. }
  assert (Bk : l + k <= n) by (destruct (HS 0 0 Pp Pq) as [_ [X _] _ _ _ _ _]; apply get_range_inv in Ec as [Y _]; lia).
  inversion E; subst a g'. clear E. cbn [ker].
  eapply good_bind; [apply Pp|apply Pq|apply completes_good, (lay_resd o RT N p q mb nb rsrc csrc n ldh (cs_H g) HL s) with (V := blk (cs_C2 g)) (W := blk (cs_C g)) (lam := lam); auto|].
  - intros i j Hi Hj. apply (HS i j Hi Hj).
  - intros i j Hi Hj. destruct (HS i j Hi Hj) as [_ [LC HC] _ _ _ _ _]. apply carries_holds; auto. lia.
  - intros i j Hi Hj. destruct (HS i j Hi Hj) as [_ _ [LC HC] _ _ _ _]. apply carries_holds; auto. lia.
  - intros i j Hi Hj. destruct (HS i j Hi Hj) as [_ _ [LC HC] _ _ _ _]. apply carries_len in HC. nia.
  - intros i j Hi Hj. destruct (HS i j Hi Hj) as [_ _ _ [LC HC] _ _ _]. apply carries_len in HC. nia.
  - intros i j Hi Hj. destruct (HS i j Hi Hj) as [_ _ _ _ [LC HC] _ _]. apply carries_len in HC. nia.
  - intros j Hj. specialize (Hc j Hj). nia.
  - nia.
  - intros t Ht. assert (Hl : t < length ritzv) by (apply get_range_inv in Ev as [Y _]; lia). rewrite nth_error_map, (nth_error_nth' ritzv (f_zero fo) Hl). reflexivity.
  - intros x Hx. cbv beta zeta in Hx. apply good_done. intros i j Hi Hj. eexists. split; [reflexivity|].
    destruct (Hx i j Hi Hj) as (X1 & X2 & X3 & X4 & X5 & X6 & X7 & X8 & X9). fold res in X1, X7. pose proof (HS i j Hi Hj) as []. split.
    + cbn [fst]. rewrite X1, map_map. apply nth_error_ext. intros t. rewrite !nth_error_map. destruct (Nat.lt_ge_cases t k) as [Ht|Ht].
      * rewrite (proj2 (nth_error_seq 0 k t t)) by lia. rewrite (nth_error_nth' b' (fun _ => s0 o)) by lia. cbn [option_map b_nrm2 gblas]. rewrite re_inj. do 3 f_equal. unfold dot. apply bsum_ext. intros h Hh.
        specialize (W t h Ht). unfold DsSpec.blk in W. now rewrite W.
      * rewrite !(proj2 (nth_error_None _ _)); auto; rewrite ?seq_length; lia.
    + destruct hp_C as [LC HC]. destruct hp_C2 as [LC2 HC2]. destruct hp_B as [LB HB]. destruct hp_B2 as [LB2 HB2]. destruct hp_next as [N1 N2].
      pose proof (put_range_length _ _ _ _ EB) as LB1.
      constructor; cbn [snd cs_H cs_C cs_C2 cs_B cs_B2 cs_bAc].
      * now rewrite X2.
      * now rewrite X3.
      * now rewrite X4.
      * split; [rewrite <- LB, <- LB1; eapply put_range_length; eauto|]. eapply only_carries; [exact HB|exact X7| |exact Lb'|].
        -- eapply put_put; [exact EB|exact EB'|rewrite map_length; lia].
        -- intros t h Ht _. rewrite W by auto. f_equal. lia.
      * split; [rewrite <- LB2; eapply put_range_length; eauto|]. eapply only_carries; [exact HB2|exact X6|exact EB2|auto|]. intros t h Ht _. unfold DsSpec.blk. now rewrite (nth_get_range _ _ _ _ t _ Ec2) by auto.
      * now rewrite X5.
      * rewrite X8, X9. auto.
Qed.
End Calls.
