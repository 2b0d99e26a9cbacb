(** mLanczos and LanczosDos on the grid. *)
From Coq Require Import List Arith Bool ZArith Lia Ring_theory Ring.
Require Import Verif.Base Verif.AlgModel Verif.DlaModel Verif.ColModel Verif.DistModel Verif.DistSpec Verif.DistProofs Verif.DistProofs2 Verif.FlatModel Verif.FlatSpec Verif.FlatProofs Verif.FlatProofs2 Verif.FlatProofs4 Verif.RedistModel Verif.RedistSpec Verif.RedistProofs.
Require Import Verif.SpmdModel Verif.SpmdSpec Verif.SpmdProofs Verif.SpmdProofs2 Verif.KerModel Verif.KerSpec Verif.KerProofs1 Verif.KerProofs2 Verif.KerProofs3 Verif.KerProofs4 Verif.KerProofs5 Verif.KerProofs8 Verif.KerProofs9.
Require Import Verif.ClientModel Verif.DsModel Verif.DsSpec.
Require Import Verif.AlgProofs1 Verif.FilterProofs Verif.DsProofs1 Verif.DsProofs2 Verif.DsProofs3 Verif.DsProofs5.
Import ListNotations.

Lemma good_here {D A B} (add : D -> D -> D) p q (Q : nat -> nat -> B -> Prop) (f : nat -> nat -> res A) (v : nat -> nat -> A) (K : nat -> nat -> A -> prog D B) :
  (forall i j, i < p -> j < q -> f i j = Ok (v i j)) -> good add p q Q (fun i j => K i j (v i j)) -> good add p q Q (fun i j => pbind (local (f i j)) (K i j)).
Proof. intros H1 H2. apply (good_eqv add p q Q (fun i j => K i j (v i j))); auto. intros i j Hi Hj. now rewrite H1. Qed.

Lemma nth_first {A} (l : list A) m t d : t < m -> nth t (firstn m l) d = nth t l d.
Proof. revert m t. induction l; intros [|m] t H; simpl; try lia; auto. destruct t; auto. apply IHl. lia. Qed.
Lemma combine_map_l {A B C} (f : A -> C) (l : list A) (m : list B) : combine (map f l) m = map (fun x => (f (fst x), snd x)) (combine l m).
Proof. revert m. induction l; intros [|y m]; simpl; auto. now rewrite IHl. Qed.

Section Calls.
Context {F D : Type} (o : sops D) (fo : fops F) (inj : F -> D) (re : D -> F) (oc : oracles D) (RT : is_ring o).
Let rsub (x y : D) : D := sadd o x (sopp o y).
Let RT' : ring_theory (s0 o) (s1 o) (sadd o) (smul o) rsub (sopp o) eq := RT.
Add Ring Rm : RT'.
Variables (N p q mb nb rsrc csrc n : nat) (ldh : nat -> nat -> nat).
Hypothesis HL : layout N p q mb nb rsrc csrc.
Notation rows := (owned N mb p rsrc).
Notation cols := (owned N nb q csrc).
Notation env i j := (bc_env N p q mb nb rsrc csrc (ldh i j) n i j).
Notation V := (nat -> D).
Notation bl := (gblas o fo inj re oc N mb p rsrc).
Notation L := (colD fo bl true n).
Notation blk := (blk o).
Notation hp i j := (holds_part o n (rows i) (cols j) (ldh i j)).
Variables (tab : nat -> nat -> gtab).
Notation kr i j c := (ker o fo inj re oc (env i j) (tab i j) c).
Hypothesis Hc : forall j, j < q -> (Z.of_nat (length (cols j) * n) < 2 ^ 31)%Z.
Hypothesis Hn : (Z.of_nat (n * n) < 2 ^ 31)%Z.
Notation spread := (spread o N p q mb nb rsrc csrc n ldh).
Notation after := (after o N p q mb nb rsrc csrc n ldh).
Notation z := (fun _ : nat => s0 o).
Notation dot := (dot o N).

Let P0 : 0 < p := Pp _ _ _ _ _ _ _ HL.
Let Q0 : 0 < q := Pq _ _ _ _ _ _ _ HL.
Let Em i j : i < p -> e_m (env i j) = length (rows i) := em _ _ _ _ _ _ _ _ _ HL i j.
Let En i j : j < q -> e_n (env i j) = length (cols j) := en _ _ _ _ _ _ _ _ _ HL i j.
Let Rne i (Hi : i < p) : 0 < length (rows i) := lay_rows_ne _ _ _ _ _ _ _ HL i Hi.
Lemma small nv : nv <= n -> (Z.of_nat nv < 2 ^ 31)%Z.
Proof. intros H. nia. Qed.

Lemma good_dots (sg : D -> D) (xs ys : list V) : (forall a b, sg (sadd o a b) = sadd o (sg a) (sg b)) -> sg (s0 o) = s0 o -> length xs = length ys -> length xs <= n ->
  good (sadd o) p q (fun i j b => b = map (fun c => sg (dot (nth c xs z) (nth c ys z))) (seq 0 (length xs)))
    (fun i j => pbind (local (dots o (e_m (env i j)) (length xs) (flat (rows i) xs) (flat (rows i) ys))) (fun n2 => all_reduce ColC (map sg n2) 0 (length xs))).
Proof.
  intros Ha Hz Lx Lxn. set (val := fun i c => lsum o (map (fun g => smul o (scj o (blk xs g c)) (blk ys g c)) (rows i))).
  apply (good_here _ _ _ _ _ (fun i j => map (val i) (seq 0 (length xs))) (fun i j n2 => all_reduce ColC (map sg n2) 0 (length xs))).
  { intros i j Hi Hj. rewrite Em by auto. unfold val. apply dots_ok; auto. }
  apply (good_last (sadd o) p q _ ColC (fun j i b => b = map (fun c => sg (dot (nth c xs z) (nth c ys z))) (seq 0 (length xs))) (fun j i => all_reduce ColC (map sg (map (val i) (seq 0 (length xs)))) 0 (length xs)) P0 Q0); [|auto].
  intros j Hj. cbn [csize]. eapply crun_mono; [|apply (crun_all_reduce (s0 o) (sadd o)) with (v := fun i c => sg (val i c))]; auto.
  - intros i b Hi (L1 & L2 & _). rewrite !map_length, seq_length in L1. apply nth_error_ext. intros k. destruct (Nat.lt_ge_cases k (length xs)) as [Hk|Hk].
    + etransitivity; [exact (L2 k Hk)|]. rewrite nth_error_map, (proj2 (nth_error_seq 0 (length xs) k k)) by lia. simpl. f_equal.
      assert (S : forall m, bsum (s0 o) (sadd o) m (fun i => sg (val i k)) = sg (bsum (s0 o) (sadd o) m (fun i => val i k))) by (induction m; simpl; [now rewrite Hz|now rewrite IHm, Ha]).
      rewrite S. f_equal. unfold val. apply (split_sum o RT N p rows (fun g => smul o (scj o (blk xs g k)) (blk ys g k))). eapply lay_splits_r; eauto.
    + rewrite !(proj2 (nth_error_None _ _)); auto; rewrite ?map_length, ?seq_length; lia.
  - intros x. ring.
  - now apply small.
  - intros i Hi. rewrite !map_length, seq_length. lia.
  - intros i k Hi Hk. simpl. rewrite !nth_error_map, (proj2 (nth_error_seq 0 (length xs) k k)) by lia. reflexivity.
Qed.
Lemma map_nth_seq {A B} (f : A -> B) (l : list A) d : map (fun c => f (nth c l d)) (seq 0 (length l)) = map f l.
Proof.
  apply nth_error_ext. intros k. rewrite !nth_error_map. destruct (Nat.lt_ge_cases k (length l)) as [Hk|Hk].
  - rewrite (proj2 (nth_error_seq 0 (length l) k k)), (nth_error_nth' l d) by lia. reflexivity.
  - rewrite !(proj2 (nth_error_None _ _)); auto; rewrite ?seq_length; lia.
Qed.
Lemma map_zip_seq {A B C} (f : A -> B -> C) (l : list A) (m : list B) d e : length l = length m -> map (fun c => f (nth c l d) (nth c m e)) (seq 0 (length l)) = zip f l m.
Proof.
  intros E. apply nth_error_ext. intros k. rewrite nth_error_map. destruct (Nat.lt_ge_cases k (length l)) as [Hk|Hk].
  - rewrite (proj2 (nth_error_seq 0 (length l) k k)) by lia. simpl. symmetry. rewrite (nth_error_nth' (zip f l m) (f d e)) by (rewrite zip_length; auto). f_equal. now apply nth_zip.
  - rewrite !(proj2 (nth_error_None _ _)); auto; rewrite ?seq_length, ?zip_length; lia.
Qed.

Lemma good_norms (xs : list V) : length xs <= n ->
  good (sadd o) p q (fun i j b => b = map (b_nrm2 bl) xs) (fun i j => p_norms o fo re (env i j) (length xs) (flat (rows i) xs)).
Proof.
  intros Ln. unfold p_norms.
  eapply good_peq; [intros i j Hi Hj; apply pbind_assoc|].
  apply (good_bind (sadd o) p q (fun i j b => b = map (fun c => dot (nth c xs z) (nth c xs z)) (seq 0 (length xs))) _
    (fun i j => pbind (local (dots o (e_m (env i j)) (length xs) (flat (rows i) xs) (flat (rows i) xs))) (fun n2 => all_reduce ColC n2 0 (length xs)))
    (fun i j n2 => Ret (map (fun y => f_sqrt fo (re y)) n2))); auto.
  - pose proof (good_dots (fun x => x) xs xs (fun _ _ => eq_refl) eq_refl eq_refl Ln) as G. eapply good_peq; [|exact G].
    intros i j Hi Hj. cbv beta. destruct (dots o (e_m (env i j)) (length xs) (flat (rows i) xs) (flat (rows i) xs)); cbn [local pbind]; rewrite ?map_id; apply peq_refl.
  - intros a Ha. apply good_done. intros i j Hi Hj. eexists. split; [reflexivity|]. rewrite (Ha i j Hi Hj), map_map. apply (map_nth_seq (b_nrm2 bl) xs z).
Qed.

(** H^* applied to the vectors and redistributed *)
Lemma good_mul (G : nat -> nat -> D) (Hl : nat -> nat -> list D) (xs : list V) (w : nat -> nat -> list D) :
  stores_grid p q rows cols ldh G Hl -> length xs <= n -> (forall i j, i < p -> j < q -> length (w i j) = length xs * length (rows i)) ->
  forall Q (K : nat -> nat -> list D -> prog D Q) (R : nat -> nat -> Q -> Prop),
  good (sadd o) p q R (fun i j => K i j (flat (rows i) (map (b_mulH bl G) xs))) ->
  good (sadd o) p q R (fun i j =>
    let? vw := local (gemm o true (e_n (env i j)) (length xs) (e_m (env i j)) (s1 o) (Hl i j) 0 (e_ldh (env i j)) (flat (rows i) xs) 0 (e_m (env i j)) (s0 o) (repeat (s0 o) (e_n (env i j) * length xs)) 0 (e_n (env i j))) in
    let? vw := all_reduce ColC vw 0 (e_n (env i j) * length xs) in
    let? v2 := redist_prog RowC (e_b2c (env i j)) (e_i (env i j)) (e_j (env i j)) (e_n (env i j)) (e_m (env i j)) 0 (length xs) vw (w i j) in K i j v2).
Proof.
  intros HH Lx Lw Q K R HK. set (nv := length xs) in *. set (W := axpby o N (s1 o) (s0 o) (ctrans o G) (blk xs) (blk xs)).
  set (y := fun j => repeat (s0 o) (length (cols j) * nv)).
  eapply good_peq; [intros i j Hi Hj; apply pbind_assoc|].
  apply (good_eqv (sadd o) p q _ (fun i j => pbind (pbind (local (gemm o true (length (cols j)) nv (length (rows i)) (s1 o) (Hl i j) 0 (ldh i j) (flat (rows i) xs) (0 * length (rows i)) (length (rows i))
      (if i =? 0 then s0 o else s0 o) (y j) (0 * length (cols j)) (length (cols j)))) (fun vw => all_reduce ColC vw (0 * length (cols j)) (length (cols j) * nv)))
    (fun vw => let? v2 := redist_prog RowC (lay_b2c N p q mb nb rsrc csrc) i j (length (cols j)) (length (rows i)) 0 nv vw (w i j) in K i j v2))).
  { intros i j Hi Hj. rewrite Em, En by auto. destruct (i =? 0); reflexivity. }
  apply (good_phase (sadd o) p q _ P0 Q0 ColC (fun j i vw => only_columns (cols j) 0 nv W (y j) vw)
    (fun j i => pbind (local (gemm o true (length (cols j)) nv (length (rows i)) (s1 o) (Hl i j) 0 (ldh i j) (flat (rows i) xs) (0 * length (rows i)) (length (rows i))
      (if i =? 0 then s0 o else s0 o) (y j) (0 * length (cols j)) (length (cols j)))) (fun vw => all_reduce ColC vw (0 * length (cols j)) (length (cols j) * nv)))
    (fun i j vw => let? v2 := redist_prog RowC (lay_b2c N p q mb nb rsrc csrc) i j (length (cols j)) (length (rows i)) 0 nv vw (w i j) in K i j v2)).
  - intros j Hj. cbn [ncomm] in Hj. cbn [csize].
    apply (crun_gemm_reduce o RT ColC true N p rows (cols j) 0 nv (s1 o) (s0 o) (ctrans o G) (blk xs) (blk xs) (fun i => Hl i j) (fun i => flat (rows i) xs) (fun _ => y j) (fun i => ldh i j)); auto.
    + eapply lay_splits_r; eauto.
    + specialize (Hc j Hj). nia.
    + intros i r t g h Hi Hr Ht. exists (G h g). split; [|reflexivity]. now apply (HH i j Hi Hj).
    + intros i Hi a g c Ha Hcc. apply flat_nth; auto. fold nv. lia.
    + intros i Hi. unfold y. rewrite repeat_length. lia.
  - intros a Ha. cbn [cnum crank] in Ha.
    apply (good_phase (sadd o) p q _ P0 Q0 RowC (fun i j v2 => v2 = flat (rows i) (map (b_mulH bl G) xs))
      (fun i j => redist_prog RowC (lay_b2c N p q mb nb rsrc csrc) i j (length (cols j)) (length (rows i)) 0 nv (a i j) (w i j)) K).
    + intros i Hi. cbn [ncomm] in Hi. cbn [csize]. destruct (lay_b2c_ok N p q mb nb rsrc csrc HL i Hi) as [S1 S2].
      eapply crun_mono; [|apply (crun_redist (sadd o) q RowC i 0 nv W (fun j => a i j) (fun j => w i j) cols (rows i) (lay_b2c N p q mb nb rsrc csrc)); auto].
      * intros j v2 Hj HO. cbv beta in HO. assert (Lm : length (map (b_mulH bl G) xs) = nv) by (unfold nv; apply map_length).
        apply (only_flat o (rows i) (Rne i Hi) (map (b_mulH bl G) xs) W (w i j) v2); [rewrite Lm; auto|rewrite Lm; exact HO|].
        intros c g Hcc Hg. rewrite blk_mapv by lia. unfold W, axpby, b_mulH, gblas, matvec, DsSpec.blk. ring.
      * intros j Hj. apply (Ha i j Hi Hj).
      * intros j Hj. rewrite Lw by auto. lia.
    + intros v2 Hv2. apply (good_eqv (sadd o) p q _ (fun i j => K i j (flat (rows i) (map (b_mulH bl G) xs)))); auto.
      intros i j Hi Hj. rewrite (Hv2 i j Hi Hj). reflexivity.
Qed.

Definition lrel (nv : nat) (s : ml (F := F) (V := V)) (i j : nat) (l : lml (F := F) (D := D)) : Prop :=
  carries (rows i) (ml_C s) (lm_C l) /\ lm_v0 l = flat (rows i) (ml_v0 s) /\ lm_v1 l = flat (rows i) (ml_v1 s) /\ length (lm_v2 l) = nv * length (rows i) /\
  lm_d l = ml_d s /\ lm_e l = ml_e s /\ lm_b l = ml_b s.
Definition wf (nv : nat) (s : ml (F := F) (V := V)) : Prop := length (ml_v0 s) = nv /\ length (ml_v1 s) = nv /\ length (ml_b s) = nv /\ length (ml_C s) = n.

Lemma copy_cols (rs : list nat) (v1 : list V) k todo : forall i C C' buf, carries rs C buf ->
  for_ todo i (fun i C => let! x := rd v1 i in wr C k x) C = Ok C' ->
  exists buf', for_ todo i (fun i C => let! xs := get_range (flat rs v1) (i * length rs) (length rs) in put_range C (k * length rs) xs) buf = Ok buf' /\ carries rs C' buf' /\ length C' = length C.
Proof.
  induction todo; intros i C C' buf H E; cbn [for_] in *; [inversion E; subst; eauto|].
  apply bind_ok in E as (C1 & E1 & E). apply bind_ok in E1 as (x & Ex & E1). apply rd_ok in Ex.
  assert (Hv : carries rs v1 (flat rs v1)) by (exists []; now rewrite app_nil_r).
  pose proof (carries_get _ _ _ _ _ _ Hv (get_one _ _ _ Ex)) as Gx. rewrite Nat.mul_1_l in Gx. rewrite Gx. cbn [bind].
  pose proof (put_one _ _ _ _ E1) as P1. destruct (carries_put _ _ _ _ _ _ H P1) as (b1 & Q1 & Q2 & Q3). rewrite Q1. cbn [bind].
  destruct (IHtodo (S i) C1 C' b1 Q2 E) as (b2 & A1 & A2 & A3). exists b2. split; [exact A1|]. split; auto. apply put_range_length in P1. lia.
Qed.
Lemma map_opp_opp l : map (sopp o) (map (sopp o) l) = l.
Proof. rewrite map_map. rewrite <- (map_id l) at 2. apply map_ext. intros; ring. Qed.

Lemma body_ok (G : nat -> nat -> D) (Hl : nat -> nat -> list D) second Mn nv k s (l : nat -> nat -> lml) s1 v2 :
  stores_grid p q rows cols ldh G Hl -> wf nv s -> nv <= n -> (forall i j, i < p -> j < q -> lrel nv s i j (l i j)) ->
  ml_body fo bl G second Mn nv k s = Ok (s1, v2) -> wf nv s1 /\ length v2 = nv /\
  good (sadd o) p q (fun i j l1 => lrel nv s1 i j l1 /\ lm_v2 l1 = flat (rows i) v2) (fun i j => p_ml_body o fo inj re (env i j) (Hl i j) second Mn nv k (l i j)).
Proof.
  intros HH (W0 & W1 & W2 & W3) Hnv HR E. unfold ml_body in E. apply bind_ok in E as (C1 & EC & E). cbn zeta in E. apply bind_ok in E as (d1 & Ed & E).
  set (u := map (b_mulH bl G) (ml_v1 s)) in *. set (al := map (b_tneg bl) (zip (b_dot bl) (ml_v1 s) u)) in *.
  set (ua := zip (fun av y => b_axpy bl (fst av) (snd av) y) (combine al (ml_v1 s)) u) in *.
  set (ub := if k =? 0 then ua else zip (fun bv y => b_axpy bl (b_inj bl (f_neg fo (fst bv))) (snd bv) y) (combine (ml_b s) (ml_v0 s)) ua) in *.
  inversion E; subst s1 v2; clear E.
  assert (Lu : length u = nv) by (unfold u; now rewrite map_length).
  assert (La : length al = nv) by (unfold al; rewrite map_length, zip_length; lia).
  assert (Lua : length ua = nv) by (unfold ua; rewrite zip_length; rewrite combine_length; lia).
  assert (Lub : length ub = nv) by (unfold ub; destruct (k =? 0); auto; rewrite zip_length; rewrite combine_length; lia).
  assert (LC : length C1 = n). { destruct second; [congruence|]. destruct (copy_cols [] (ml_v1 s) k nv 0 (ml_C s) C1 []) as (_ & _ & _ & X); auto; [|congruence]. exists []. unfold flat. clear. induction (ml_C s); auto. }
  split; [repeat split; cbn [ml_v0 ml_v1 ml_b ml_C]; auto; now rewrite map_length|]. split; auto.
  apply (good_eqv (sadd o) p q _ (fun i j => p_ml_body o fo inj re (env i j) (Hl i j) second Mn nv k (mk_lml (lm_C (l i j)) (flat (rows i) (ml_v0 s)) (flat (rows i) (ml_v1 s)) (lm_v2 (l i j)) (ml_d s) (ml_e s) (ml_b s)))).
  { intros i j Hi Hj. destruct (HR i j Hi Hj) as (_ & R2 & R3 & _ & R5 & R6 & R7). rewrite <- R2, <- R3, <- R5, <- R6, <- R7. now destruct (l i j). }
  unfold p_ml_body. cbn zeta. cbn [lm_C lm_v0 lm_v1 lm_v2 lm_d lm_e lm_b].
  assert (HC : forall i j, i < p -> j < q -> exists C, (if second then Ok (lm_C (l i j)) else for_ nv 0 (fun i0 C => let! xs := get_range (flat (rows i) (ml_v1 s)) (i0 * e_m (env i j)) (e_m (env i j)) in put_range C (k * e_m (env i j)) xs) (lm_C (l i j))) = Ok C /\ carries (rows i) C1 C).
  { intros i j Hi Hj. destruct (HR i j Hi Hj) as (R1 & R2 & R3 & _). rewrite Em by auto. destruct second; [inversion EC; subst C1; eauto|].
    destruct (copy_cols (rows i) (ml_v1 s) k nv 0 (ml_C s) C1 (lm_C (l i j)) R1 EC) as (b & B1 & B2 & _). eauto. }
  apply (good_local (sadd o) p q _ (fun i j C => carries (rows i) C1 C)); auto.
  { intros i j Hi Hj. destruct (HC i j Hi Hj) as (C & E1 & E2). exists C. cbv beta. rewrite E1. auto. }
  intros Cl HCl. clear HC. rewrite <- W1.
  apply (good_mul G Hl (ml_v1 s) (fun i j => lm_v2 (l i j)) HH); [lia| |].
  { intros i j Hi Hj. destruct (HR i j Hi Hj) as (_ & _ & _ & R4 & _). now rewrite W1. }
  fold u.
  eapply good_peq; [intros i j Hi Hj; apply pbind_assoc|].
  eapply (good_bind (sadd o) p q (fun i j a => a = al)); auto.
  { pose proof (good_dots (sopp o) (ml_v1 s) u ltac:(intros; ring) ltac:(ring) ltac:(lia) ltac:(lia)) as Gd. eapply good_mono; [|exact Gd].
    intros i j b Hi Hj ->. unfold al. rewrite <- (map_zip_seq (b_dot bl) (ml_v1 s) u z z) by lia. rewrite map_map. reflexivity. }
  intros a Ha.
  apply (good_here _ _ _ _ _ (fun i j => flat (rows i) ua)).
  { intros i j Hi Hj. rewrite (Ha i j Hi Hj), Em, W1 by auto. rewrite <- Lu. unfold ua. apply (axpys_ok o (rows i) (Rne i Hi)); lia. }
  apply (good_here _ _ _ _ _ (fun i j => d1)).
  { intros i j Hi Hj. rewrite (Ha i j Hi Hj), <- Ed, W1. apply for_ext_in. intros k0 s0 _. rewrite rd_map. now destruct (rd al k0). }
  apply (good_here _ _ _ _ _ (fun i j => flat (rows i) ub)).
  { intros i j Hi Hj. unfold ub. destruct (k =? 0); auto. rewrite Em, W1 by auto. rewrite <- Lua.
    rewrite (axpys_ok o (rows i) (Rne i Hi)); [|rewrite map_length; lia|lia]. f_equal. f_equal.
    rewrite combine_map_l. unfold zip. rewrite combine_map_l, map_map. reflexivity. }
  eapply (good_bind (sadd o) p q (fun i j b => b = map (b_nrm2 bl) ub)); auto.
  { rewrite W1, <- Lub. apply good_norms. lia. }
  intros b Hb. apply good_done. intros i j Hi Hj. eexists. split; [reflexivity|]. split; [|reflexivity].
  repeat split; cbn [lm_C lm_v0 lm_v1 lm_v2 lm_d lm_e lm_b ml_C ml_v0 ml_v1 ml_d ml_e ml_b]; auto.
  rewrite flat_len. lia.
Qed.

Lemma next_ok Mn nv k s1 v2 s2 i j l1 : i < p -> wf nv s1 -> length v2 = nv -> lrel nv s1 i j l1 -> lm_v2 l1 = flat (rows i) v2 ->
  ml_next fo bl Mn nv k s1 v2 = Ok s2 -> wf nv s2 /\ exists l2, p_ml_next o fo inj (env i j) Mn nv k l1 = Ok l2 /\ lrel nv s2 i j l2.
Proof.
  intros Hi (W0 & W1 & W2 & W3) L2 (R1 & R2 & R3 & R4 & R5 & R6 & R7) Ev E. unfold ml_next in E. cbn zeta in E. apply bind_ok in E as (ee & Ee & E). inversion E; subst s2; clear E.
  set (v2s := zip _ _ _). assert (Ls : length v2s = nv) by (unfold v2s; rewrite zip_length; lia).
  split; [repeat split; cbn [ml_v0 ml_v1 ml_b ml_C]; auto|]. unfold p_ml_next. rewrite Em, Ev by auto.
  assert (Es : scals o (length (rows i)) nv (recips fo inj (lm_b l1)) (flat (rows i) v2) = Ok (flat (rows i) v2s)).
  { rewrite <- L2. rewrite (scals_ok o (rows i) (Rne i Hi)) by (unfold recips; rewrite map_length, R7; lia). f_equal. f_equal. unfold recips, v2s, zip. rewrite combine_map_l, map_map, R7. reflexivity. }
  rewrite Es. cbn [bind]. rewrite R7, R6, Ee. cbn [bind]. eexists. split; [reflexivity|].
  repeat split; cbn [lm_C lm_v0 lm_v1 lm_v2 lm_d lm_e lm_b ml_C ml_v0 ml_v1 ml_d ml_e ml_b]; auto. rewrite R2, flat_len. lia.
Qed.

Lemma loop_ok (G : nat -> nat -> D) (Hl : nat -> nat -> list D) second Mn nv : stores_grid p q rows cols ldh G Hl -> nv <= n -> forall todo k s (l : nat -> nat -> lml) s', wf nv s ->
  (forall i j, i < p -> j < q -> lrel nv s i j (l i j)) -> ml_loop fo bl todo k G second Mn nv s = Ok s' ->
  wf nv s' /\ good (sadd o) p q (lrel nv s') (fun i j => p_ml_loop o fo inj re todo k (env i j) (Hl i j) second Mn nv (l i j)).
Proof.
  intros HH Hnv. induction todo; intros k s l s' W HR E; cbn [ml_loop] in E; cbn [p_ml_loop].
  - inversion E; subst s'. split; auto. apply good_done. eauto.
  - apply bind_ok in E as ([s1 v2] & E1 & E). destruct (body_ok G Hl second Mn nv k s l s1 v2 HH W Hnv HR E1) as (W1 & L2 & Gb).
    destruct todo.
    + inversion E; subst s'. split; auto. eapply good_bind; eauto. intros a Ha. cbv beta in Ha. apply good_done. intros i j Hi Hj. exists (a i j). split; auto. apply Ha; auto.
    + apply bind_ok in E as (s2 & E2 & E).
      assert (W2 : wf nv s2). { unfold ml_next in E2. cbn zeta in E2. apply bind_ok in E2 as (ee & _ & E2). inversion E2. destruct W1 as (A1 & A2 & A3 & A4). repeat split; cbn; auto. rewrite zip_length; lia. }
      split.
      * destruct (IHtodo (k + 1) s2 (fun i j => mk_lml (flat (rows i) (ml_C s2)) (flat (rows i) (ml_v0 s2)) (flat (rows i) (ml_v1 s2)) (flat (rows i) (ml_v0 s2)) (ml_d s2) (ml_e s2) (ml_b s2)) s' W2) as [X _]; auto.
        intros i j Hi Hj. destruct W2 as (A1 & _). repeat split; cbn; auto; [exists []; now rewrite app_nil_r|rewrite flat_len; lia].
      * eapply good_bind; eauto. intros l1 Hl1. cbv beta in Hl1.
        apply (good_local (sadd o) p q _ (lrel nv s2) (fun i j => local (p_ml_next o fo inj (env i j) Mn nv k (l1 i j)))); auto.
        { intros i j Hi Hj. destruct (Hl1 i j Hi Hj) as [X1 X2]. destruct (next_ok Mn nv k s1 v2 s2 i j (l1 i j) Hi W1 L2 X1 X2 E2) as (_ & l2 & X3 & X4). exists l2. rewrite X3. auto. }
        intros l2 Hl2. exact (proj2 (IHtodo (k + 1) s2 l2 s' W2 Hl2 E)).
Qed.

Lemma call_mlanczos Mn numvec g s a g' : spread g s -> d_mlanczos L Mn numvec g = Ok (a, g') -> good (sadd o) p q (after a g') (fun i j => kr i j (QLanczos Mn numvec) (s i j)).
Proof.
  intros HS E. cbn [d_mlanczos colD] in E. unfold c_mlanczos in E. apply bind_ok in E as ([[[d e] b] C'] & E & Ea). inversion Ea; subst a g'; clear Ea.
  assert (Ln : length (cs_C g) = n) by now destruct (HS 0 0 P0 Q0) as [_ [X _] _ _ _ _ _].
  unfold mlanczos in E. cbn [ker]. unfold p_mlanczos.
  set (second := match numvec with None => true | Some _ => false end). set (nv := match numvec with None => 1 | Some n => n end).
  replace (match numvec with None => (true, 1) | Some n => (false, n) end) with (second, nv) in E by (unfold second, nv; destruct numvec; reflexivity).
  apply bind_ok in E as (st & Es & E). cbn zeta in E. apply bind_ok in E as (r & Er & E). apply bind_ok in E as (C1 & EC & E). inversion E; subst d e b C1; clear E.
  pose proof (get_range_length _ _ _ _ Es) as Lst. assert (Hnv : nv <= n) by (apply get_range_inv in Es as [Es _]; lia).
  set (v1 := map _ st) in Er. assert (Lv : length v1 = nv) by (unfold v1; now rewrite map_length).
  cbn zeta.
  apply (good_here _ _ _ _ _ (fun i j => flat (rows i) st)).
  { intros i j Hi Hj. destruct (HS i j Hi Hj) as [_ [_ X] _ _ _ _ _]. rewrite Em by auto. pose proof (carries_get _ _ _ _ _ _ X Es) as Y. simpl in Y. now rewrite (Nat.mul_comm _ nv). }
  eapply (good_bind (sadd o) p q (fun i j b => b = map (b_nrm2 bl) st)); auto.
  { rewrite <- Lst. apply good_norms. lia. }
  intros a Ha.
  apply (good_here _ _ _ _ _ (fun i j => flat (rows i) v1)).
  { intros i j Hi Hj. rewrite (Ha i j Hi Hj), Em by auto. rewrite <- Lst. rewrite (scals_ok o (rows i) (Rne i Hi)) by (unfold recips; rewrite !map_length; auto). f_equal. f_equal.
    unfold recips, v1, zip. rewrite !map_map, combine_map_l, map_map. clear. induction st; simpl; auto. now f_equal. }
  assert (W : wf nv (mk_ml (cs_C g) (repeat (b_zero bl) nv) v1 (repeat (f_zero fo) (Mn * nv)) (repeat (f_zero fo) (Mn * nv)) (repeat (f_zero fo) nv))).
  { repeat split; cbn [ml_v0 ml_v1 ml_b ml_C]; rewrite ?repeat_length; auto. }
  assert (Z : forall k (rs : list nat), repeat (s0 o) (length rs * k) = flat rs (repeat (fun _ => s0 o) k)).
  { clear. intros k rs. rewrite Nat.mul_comm. unfold flat. induction k; simpl; auto. rewrite repeat_app, IHk. f_equal. clear. induction rs; simpl; congruence. }
  set (l0 := fun i j => mk_lml (l_C (s i j)) (repeat (s0 o) (e_m (env i j) * nv)) (flat (rows i) v1) (repeat (s0 o) (e_m (env i j) * nv)) (repeat (f_zero fo) (Mn * nv)) (repeat (f_zero fo) (Mn * nv)) (repeat (f_zero fo) nv)).
  destruct (loop_ok (cs_H g) (fun i j => l_H (s i j)) second Mn nv ltac:(intros i j Hi Hj; apply (HS i j Hi Hj)) Hnv Mn 0 _ l0 r W) as [(_ & _ & _ & X) Gl]; auto.
  { intros i j Hi Hj. destruct (HS i j Hi Hj) as [_ [_ X] _ _ _ _ _]. unfold l0. rewrite Em, Z by auto. repeat split; cbn; auto. rewrite flat_len, repeat_length. lia. }
  eapply (good_bind (sadd o) p q (lrel nv r)); auto.
  intros l Hl.
  assert (LC : length C' = n) by (destruct second; [congruence|apply put_range_length in EC; congruence]).
  apply (good_local (sadd o) p q _ (fun i j C => carries (rows i) C' C)); auto.
  { intros i j Hi Hj. destruct (Hl i j Hi Hj) as (R1 & R2 & R3 & _). destruct second; [inversion EC; subst; exists (lm_C (l i j)); split; auto|].
    destruct (carries_put _ _ _ _ _ _ R1 EC) as (b & B1 & B2 & _). rewrite R3. simpl in B1. rewrite B1. exists b. split; auto. }
  intros C HC. apply good_done. intros i j Hi Hj. eexists. split; [reflexivity|]. destruct (Hl i j Hi Hj) as (_ & _ & _ & _ & R5 & R6 & R7). split; [cbn; congruence|].
  destruct (HS i j Hi Hj) as [X1 X2 X3 X4 X5 X6 X7]. constructor; cbn; auto.
Qed.

Lemma call_dos idx mm rv g s g' : spread g s -> d_dos L idx mm rv g = Ok g' -> good (sadd o) p q (after tt g') (fun i j => kr i j (QDos idx mm rv) (s i j)).
Proof.
  intros HS E. cbn [d_dos colD] in E. unfold c_dos in E. apply bind_ok in E as (rv' & Erv & E). apply bind_ok in E as (c & Ec & E). apply bind_ok in E as (C2 & EC2 & E).
  apply bind_ok in E as (c2 & Ec2 & E). apply bind_ok in E as (C & EC & E). inversion E; subst g'; clear E.
  cbn [ker]. apply local_unit. intros i j Hi Hj. destruct (HS i j Hi Hj) as [H0 [L1 H1] [L2 H2] H3 H4 H5 H6]. unfold p_dos. rewrite Em by auto.
  pose proof (get_range_length _ _ _ _ Ec) as Lc. pose proof Ec as Ec'. apply get_range_inv in Ec' as [Bc Ec']. apply get_range_inv in Erv as [Brv Erv]. pose proof EC2 as EC2'. apply put_range_inv in EC2' as [Bc2 _]. rewrite map_length, seq_length in Bc2.
  pose proof (Rne i Hi) as Hm. pose proof (carries_len _ _ _ H2) as CL2.
  assert (Nc : forall g0 t, t < mm -> blk c g0 t = blk (cs_C g) g0 t) by (intros g0 t Ht; unfold DsSpec.blk; subst c; rewrite skipn_O; now rewrite nth_first).
  destruct (gemm_spec o false (length (rows i)) idx mm (s1 o) (l_C (s i j)) 0 (length (rows i)) (map inj rv) 0 mm (s0 o) (l_C2 (s i j)) 0 (length (rows i))
    (fun r t => match nth_error (rows i) r with Some g0 => blk c g0 t | None => s0 o end) (fun t cc => inj (nth (t + cc * mm) rv' (f_zero fo)))) as (X & EX & LX & VX & KX).
  - lia.
  - intros r cc Hr Hcc. simpl. nia.
  - intros r t Hr Ht. cbv beta iota. destruct (row_at (rows i) Hm r Hr) as [g0 Eg]. rewrite Eg. simpl. rewrite Nc by auto. apply (carries_nth o (rows i) (cs_C g)); auto. lia.
  - intros t cc Ht Hcc. simpl. rewrite nth_error_map. assert (t + cc * mm < idx * mm) by nia. rewrite (nth_error_nth' rv (f_zero fo)) by lia. simpl. f_equal. f_equal. subst rv'. rewrite skipn_O. now rewrite nth_first.
  - simpl in EX. rewrite EX. cbn [bind].
    assert (HX : carries (rows i) C2 X).
    { eapply (only_carries o (rows i) (cs_C2 g) _ C2 (l_C2 (s i j)) X 0 idx (fun g0 cc => b_combl bl c rv' cc g0)); [exact H2| |exact EC2|now rewrite map_length, seq_length|].
      - split; auto. split.
        + intros a g0 cc Ha Hcc. assert (La : a < length (rows i)) by (apply nth_error_Some; congruence). simpl in VX. rewrite (VX a cc (blk (cs_C2 g) g0 cc)) by (auto; try lia; apply (carries_nth o (rows i) (cs_C2 g)); auto; lia).
          f_equal. rewrite Ha. unfold b_combl, gblas. rewrite Lc. ring.
        + intros k0 [Hk|Hk]; [lia|]. apply KX. lia.
      - intros cc g0 Hcc Hg. rewrite blk_map by auto. reflexivity. }
    pose proof (carries_get _ _ _ _ _ _ HX Ec2) as G2. simpl in G2. rewrite G2. cbn [bind].
    destruct (carries_put _ _ _ _ _ _ H1 EC) as (C' & P1 & P2 & P3). simpl in P1. rewrite P1. cbn [bind]. eexists. split; [reflexivity|].
    apply put_range_length in EC, EC2. constructor; cbn; auto; split; auto; lia.
Qed.
End Calls.
