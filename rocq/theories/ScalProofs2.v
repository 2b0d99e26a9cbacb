(** The QR factorisation through ScaLAPACK on a process column. *)
From Coq Require Import List Arith Bool ZArith Lia.
Require Import Verif.Base Verif.AlgModel Verif.DlaModel Verif.ColModel Verif.DistModel Verif.DistSpec Verif.DistProofs Verif.DistProofs2 Verif.FlatModel Verif.FlatSpec Verif.FlatProofs Verif.FlatProofs2 Verif.RedistModel Verif.RedistSpec.
Require Import Verif.SpmdModel Verif.SpmdSpec Verif.SpmdProofs Verif.SpmdProofs2 Verif.KerModel Verif.KerSpec Verif.KerProofs1 Verif.KerProofs3 Verif.KerProofs9.
Require Import Verif.ClientModel Verif.DsModel Verif.DsSpec Verif.AlgProofs1 Verif.DsProofs1 Verif.DsProofs2 Verif.DsProofs3 Verif.DsProofs4 Verif.DsProofs7 Verif.BlkProofs Verif.BlkSolve Verif.SolveClient.
Require Import Verif.ScalModel Verif.ScalSpec Verif.ScalProofs1.
Import ListNotations.

Lemma collect1 {D} (f : nat -> res D) (v : nat -> D) : forall m k acc, (forall r, k <= r < k + m -> f r = Ok (v r)) ->
  for_ m k (fun r acc => let! x := f r in Ok (acc ++ [x])) acc = Ok (acc ++ map v (seq k m)).
Proof.
  induction m; intros k acc H; cbn [for_ seq map]; [now rewrite app_nil_r|]. rewrite H by lia. cbn [bind]. rewrite IHm by (intros; apply H; lia). now rewrite <- app_assoc.
Qed.
Lemma collect2 {D} (f : nat -> nat -> res D) (v : nat -> nat -> D) m : forall n k acc, (forall c r, k <= c < k + n -> r < m -> f c r = Ok (v c r)) ->
  for_ n k (fun c acc => for_ m 0 (fun r acc => let! x := f c r in Ok (acc ++ [x])) acc) acc = Ok (acc ++ flat_map (fun c => map (v c) (seq 0 m)) (seq k n)).
Proof.
  induction n; intros k acc H; cbn [for_ seq flat_map]; [now rewrite app_nil_r|]. rewrite (collect1 (f k) (v k)) by (intros; apply H; lia). cbn [bind].
  rewrite IHn by (intros; apply H; auto; lia). now rewrite <- app_assoc.
Qed.

Lemma flat_map_same {A B} (f g : A -> list B) l : (forall x, In x l -> f x = g x) -> flat_map f l = flat_map g l.
Proof. intros H. rewrite !flat_map_concat_map. f_equal. now apply map_ext_in. Qed.

Lemma seq_at s n a : a < n -> nth_error (seq s n) a = Some (s + a).
Proof. intros H. now apply Verif.FlatProofs.nth_error_seq. Qed.

Section One.
Context {D : Type} (o : sops D).
Notation V := (nat -> D).
Variables (N p mb rsrc n : nat).
Hypotheses (Hmb : 0 < mb) (Hrs : rsrc < p).
Notation rows := (owned N mb p rsrc).
Notation plain i d := (plain_desc N n mb rsrc (length (rows i)) d).

Lemma flat_seq l (vs : list V) : flat l vs = flat_map (fun c => map (fun r => blk o vs (nth r l 0) c) (seq 0 (length l))) (seq 0 (length vs)).
Proof.
  induction vs as [|v vs IH] using rev_ind; auto. unfold flat in *. rewrite flat_map_app, app_length, seq_app, flat_map_app. cbn [flat_map length seq Nat.add]. rewrite !app_nil_r. f_equal.
  - rewrite IH. apply flat_map_same. intros c Hc. apply in_seq in Hc. apply map_ext. intros r. unfold blk. now rewrite app_nth1 by lia.
  - apply nth_error_ext. intros k. rewrite !nth_error_map. destruct (Nat.lt_ge_cases k (length l)) as [Hk|Hk].
    + rewrite (nth_error_nth' l 0 Hk), seq_at by lia. cbn [option_map]. unfold blk. rewrite app_nth2, Nat.sub_diag by lia. reflexivity.
    + rewrite (proj2 (nth_error_None l k)) by lia. rewrite (proj2 (nth_error_None _ k)) by (rewrite seq_length; lia). reflexivity.
Qed.
Lemma sl_rows_len i k d : k < p -> plain i d -> sl_rows p d k = length (rows k).
Proof. intros Hk (E1 & E2 & E3 & E4 & E5 & E6). unfold sl_rows. rewrite E1, E3, E5. now apply numroc_counts. Qed.

Lemma sl_pack_ok i d (vs : list V) A : i < p -> plain i d -> length vs = n -> carries (rows i) vs A -> sl_pack p i d A = Ok (flat (rows i) vs).
Proof.
  intros Hi P Ln HC. unfold sl_pack. rewrite (sl_rows_len i i d Hi P). pose proof P as (E1 & E2 & E3 & E4 & E5 & E6). rewrite E2, E6.
  rewrite (collect2 _ (fun c r => blk o vs (nth r (rows i) 0) c)).
  - cbn [app]. now rewrite (flat_seq (rows i) vs), Ln.
  - intros c r Hc Hr. apply rd_ok. rewrite g2l_one by auto. apply (carries_nth o); auto; [now apply nth_error_nth'|lia].
Qed.

Lemma crun_parts (add : D -> D -> D) (d : nat -> desc) (vs : list V) : (forall i, i < p -> plain i (d i)) -> length vs = n -> forall todo k acc, k + todo = p ->
  crun add ColC p (fun _ parts => parts = acc ++ map (fun k => flat (rows k) vs) (seq k todo))
    (fun i => sl_parts p i (d i) (flat (rows i) vs) todo k acc).
Proof.
  intros HD Ln. induction todo; intros k acc Hk; cbn [sl_parts].
  - apply crun_done. intros i Hi. exists acc. split; auto. cbn. now rewrite app_nil_r.
  - apply (crun_ext add ColC p _ (fun i => Call ColC (ABcast k (length (rows k) * n) (if i =? k then flat (rows i) vs else []))
      (fun r => match r with RNums ys => sl_parts p i (d i) (flat (rows i) vs) todo (S k) (acc ++ [ys]) | RFlag _ => Bad end))).
    { intros i Hi. rewrite (sl_rows_len i k (d i)) by (auto; lia). destruct (HD i Hi) as (_ & E2 & _). now rewrite E2. }
    eapply crun_call; [apply offers_map|apply (respond_bcast add p k (length (rows k) * n) (fun i => if i =? k then flat (rows i) vs else [])); [lia|]|].
    { rewrite Nat.eqb_refl, flat_len, Ln. lia. }
    rewrite Nat.eqb_refl. cbn [resume].
    eapply crun_mono; [|apply IHtodo; lia]. intros i parts Hi ->. cbn [seq map]. now rewrite <- app_assoc.
Qed.

Lemma sl_whole_ok i d (vs : list V) : i < p -> plain i d -> length vs = n -> sl_whole p d (map (fun k => flat (rows k) vs) (seq 0 p)) = Ok (flat (seq 0 N) vs).
Proof.
  intros Hi P Ln. unfold sl_whole. pose proof P as (E1 & E2 & E3 & E4 & E5 & E6). rewrite E1, E2.
  rewrite (collect2 _ (fun c g => blk o vs g c)).
  - cbn [app]. rewrite (flat_seq (seq 0 N) vs), Ln, seq_length. f_equal. apply flat_map_same. intros c Hc. apply map_ext_in. intros g Hg. apply in_seq in Hg. now rewrite seq_nth by lia.
  - intros c g Hc Hg. unfold sl_entry. rewrite E3, E5, g2p_owner, g2l_lpos. set (k := owner mb p rsrc g).
    assert (Hk : k < p) by (unfold k, owner; apply Nat.mod_upper_bound; lia).
    rewrite (sl_rows_len i k d Hk P). assert (X : rd (map (fun k => flat (rows k) vs) (seq 0 p)) k = Ok (flat (rows k) vs)).
    { apply rd_ok. rewrite nth_error_map, seq_at by lia. reflexivity. }
    rewrite X. cbn [bind]. apply rd_ok. apply (carries_nth o); [exists []; now rewrite app_nil_r|now apply lpos_owned|lia].
Qed.

Lemma sl_store_ok i d (Q : nat -> nat -> D) A : i < p -> plain i d -> length (rows i) * n <= length A ->
  exists A', sl_store p i d Q A = Ok A' /\ length A' = length A /\ forall a g c, nth_error (rows i) a = Some g -> c < n -> nth_error A' (a + c * length (rows i)) = Some (Q g c).
Proof.
  intros Hi P HA. unfold sl_store. pose proof P as (E1 & E2 & E3 & E4 & E5 & E6). rewrite E1, E2, E3, E5, E6. set (m := length (rows i)) in *.
  destruct (for_inv (fun c B => length B = length A /\ forall a g c', nth_error (rows i) a = Some g -> c' < c -> nth_error B (a + c' * m) = Some (Q g c'))
    (fun c A => for_ N 0 (fun g A => if indxg2p mb rsrc p g =? i then wr A (indxg2l mb p g + indxg2l (s_nb d) 1 c * m) (Q g c) else Ok A) A) n 0 A) as (A' & EA & L & R).
  - split; auto. intros; lia.
  - intros c B Hc (LB & RB).
    destruct (for_inv (fun g' B' => length B' = length A /\ (forall a g c', nth_error (rows i) a = Some g -> c' < c -> nth_error B' (a + c' * m) = Some (Q g c')) /\
        forall a g, nth_error (rows i) a = Some g -> g < g' -> nth_error B' (a + c * m) = Some (Q g c))
      (fun g A => if indxg2p mb rsrc p g =? i then wr A (indxg2l mb p g + indxg2l (s_nb d) 1 c * m) (Q g c) else Ok A) N 0 B) as (B' & EB & L' & R1 & R2).
    + split; auto. split; auto. intros; lia.
    + intros g B1 Hg (L1 & S1 & S2). rewrite g2p_owner, g2l_lpos, g2l_one by auto. destruct (Nat.eqb_spec (owner mb p rsrc g) i) as [Eo|Eo].
      * pose proof (lpos_owned N mb p rsrc g Hmb Hrs ltac:(lia)) as EL. rewrite Eo in EL. set (a0 := lpos mb p g) in *.
        assert (Ha0 : a0 < m) by (unfold m; apply nth_error_Some; congruence).
        rewrite wr_ok by (rewrite L1; nia). eexists. split; [reflexivity|]. rewrite upd_length. split; auto. split.
        -- intros a g1 c' Ha Hc'. assert (a < m) by (unfold m; apply nth_error_Some; congruence). rewrite upd_other by nia. auto.
        -- intros a g1 Ha Hg1. assert (a < m) by (unfold m; apply nth_error_Some; congruence). destruct (Nat.eq_dec a a0) as [->|Na].
           ++ rewrite upd_same by (rewrite L1; nia). congruence.
           ++ rewrite upd_other by lia. apply S2; auto. destruct (Nat.eq_dec g1 g) as [->|]; [|lia]. exfalso. apply Na.
              destruct (lpos_nth _ _ _ _ _ _ _ Hmb Hrs Ha) as (_ & _ & X). unfold a0. congruence.
      * exists B1. split; auto. split; auto. split; auto. intros a g1 Ha Hg1. destruct (Nat.eq_dec g1 g) as [->|]; [|apply S2; auto; lia]. exfalso. apply Eo.
        now destruct (lpos_nth _ _ _ _ _ _ _ Hmb Hrs Ha) as (_ & X & _).
    + exists B'. split; auto. split; auto. intros a g c' Ha Hc'. destruct (Nat.eq_dec c' c) as [->|]; [|apply R1; auto; lia].
      apply R2; auto. destruct (lpos_nth _ _ _ _ _ _ _ Hmb Hrs Ha) as (X & _). lia.
  - exists A'. split; auto.
Qed.
End One.

Section Calls.
Context {F D : Type} (o : sops D) (fo : fops F) (inj : F -> D) (re : D -> F) (oc : oracles D) (RT : is_ring o).
Variables (N p q mb nb rsrc csrc n : nat) (ldh : nat -> nat -> nat).
Hypothesis HL : layout N p q mb nb rsrc csrc.
Hypothesis HP : packable N p q mb nb rsrc csrc.
Notation rows := (owned N mb p rsrc).
Notation cols := (owned N nb q csrc).
Notation env i j := (bc_env N p q mb nb rsrc csrc (ldh i j) n i j).
Notation bl := (gblas o fo inj re oc N mb p rsrc).
Notation L := (slD fo bl n).
Notation hp i j := (holds_part o n (rows i) (cols j) (ldh i j)).
Variables (tab : nat -> nat -> gtab) (d : nat -> desc).
Notation kr i j := (ker_sl o fo inj re oc p (env i j) (tab i j) (d i)).
Hypothesis Htab : forall i j, i < p -> j < q -> htab N p q mb nb rsrc csrc i j (tab i j).
Hypothesis Hcyc : (forall i j, i < p -> j < q -> g_cyc (tab i j) = true) \/
  ((forall i j, i < p -> j < q -> g_cyc (tab i j) = false) /\ concat (map rows (seq 0 p)) = seq 0 N).
Hypothesis Hd : forall i, i < p -> plain_desc N n mb rsrc (length (rows i)) (d i).
Hypothesis Hld : forall i j, i < p -> j < q -> length (rows i) <= ldh i j.
Hypothesis Hcf : counts_fit N p q mb nb rsrc csrc n.
Hypothesis Hn0 : 0 < n.
Hypothesis HE : embeds o fo inj re.
Notation spread := (spread o N p q mb nb rsrc csrc n ldh).
Notation after := (after o N p q mb nb rsrc csrc n ldh).

Lemma call_hhqr_sl l g s g' : spread g s -> d_hhqr L l g = Ok g' -> good (sadd o) p q (after tt g') (fun i j => kr i j (QHhqr l) (s i j)).
Proof.
  intros HS E. pose proof (lay_pos _ _ _ _ _ _ _ HL) as (P0 & Q0 & _). pose proof HL as (L1 & L2 & L3 & L4 & L5 & L6).
  assert (Ln : length (cs_C g) = n) by now destruct (HS 0 0 P0 Q0) as [_ [X _] _ _ _ _ _].
  cbn [d_hhqr slD] in E. apply set_C_inv in E; auto. subst g'. set (new := map (b_hh bl (cs_C g)) (seq 0 n)).
  assert (Lnew : length new = n) by (unfold new; now rewrite map_length, seq_length).
  cbn [ker_sl]. set (g' := mk_cst _ _ _ _ _ _).
  apply (good_bind (sadd o) p q (fun i j s' => hp i j g' s') _ (fun i j => p_hhqr_sl oc p (env i j) (d i) (s i j)) (fun i j s => Ret (done_ s))); auto.
  2:{ intros a Ha. apply good_done. intros i j Hi Hj. exists (done_ (a i j)). split; auto. split; [reflexivity|]. apply Ha; auto. }
  unfold p_hhqr_sl. cbn [e_i bc_env].
  apply (good_eqv (sadd o) p q _ (fun i j => pbind (sl_parts p i (d i) (flat (rows i) (cs_C g)) p 0 [])
    (fun parts => pbind (local (sl_whole p (d i) parts)) (fun A => pbind (local (sl_store p i (d i) (or_hh oc (s_m (d i)) (s_n (d i)) A) (l_C (s i j)))) (fun C => Ret (with_C (s i j) C)))))).
  { intros i j Hi Hj. destruct (HS i j Hi Hj) as [_ [_ HC] _ _ _ _ _]. rewrite (sl_pack_ok o N p mb rsrc n L1 L3 i (d i) (cs_C g)) by auto. reflexivity. }
  apply (good_phase (sadd o) p q _ P0 Q0 ColC (fun j i parts => parts = map (fun k => flat (rows k) (cs_C g)) (seq 0 p))
    (fun j i => sl_parts p i (d i) (flat (rows i) (cs_C g)) p 0 [])
    (fun i j parts => pbind (local (sl_whole p (d i) parts)) (fun A => pbind (local (sl_store p i (d i) (or_hh oc (s_m (d i)) (s_n (d i)) A) (l_C (s i j)))) (fun C => Ret (with_C (s i j) C))))).
  - intros j Hj. cbn [ncomm] in Hj. cbn [csize]. exact (crun_parts N p mb rsrc n L1 L3 (sadd o) d (cs_C g) Hd Ln p 0 [] eq_refl).
  - intros a Ha. apply good_done. intros i j Hi Hj. rewrite (Ha i j Hi Hj), (sl_whole_ok o N p mb rsrc n L1 L3 i (d i) (cs_C g)) by auto. cbn [local pbind].
    destruct (HS i j Hi Hj) as [H0 [_ H1] H2 H3 H4 H5 [H6 H7]]. pose proof (carries_len _ _ _ H1) as LC. rewrite Ln in LC.
    destruct (sl_store_ok N p mb rsrc n L1 L3 i (d i) (or_hh oc (s_m (d i)) (s_n (d i)) (flat (seq 0 N) (cs_C g))) (l_C (s i j))) as (C' & EC & LC' & HC'); auto; [lia|].
    rewrite EC. eexists. split; [reflexivity|]. unfold g'; constructor; cbn [cs_H cs_C cs_C2 cs_B cs_B2 cs_bAc with_C l_H l_C l_C2 l_B l_B2 l_A l_bAc l_bAc_dla]; auto.
    split; auto. change (carries (rows i) new C'). apply (nth_error_carries o); [rewrite Lnew, LC'; lia|]. intros x c y Hx Hc. rewrite (HC' x y c Hx) by lia. f_equal.
    destruct (Hd i Hi) as (-> & -> & _). unfold blk, new. rewrite (nth_indep _ _ (b_hh bl (cs_C g) 0)) by (rewrite map_length, seq_length; lia). rewrite map_nth, seq_nth by lia. cbn [b_hh gblas Nat.add]. now rewrite Ln.
Qed.

Lemma call_any_sl c g s a g' : spread g s -> exec L c g = Ok (a, g') -> good (sadd o) p q (after a g') (fun i j => kr i j c (s i j)).
Proof.
  intros HS E. pose proof (call_any o fo inj re oc RT N p q mb nb rsrc csrc n ldh HL HP tab Htab Hcyc Hld Hcf Hn0 HE c g s a g' HS) as X.
  destruct c; try (apply X; exact E). clear X. cbn [exec] in E. apply unit_inv in E as [Ea E]. cbn [fst snd] in Ea, E. destruct a. eapply call_hhqr_sl; eauto.
Qed.

Lemma client_any_sl {A} (t : client F A) : forall g s a g', spread g s -> run_client L t g = Ok (a, g') -> good (sadd o) p q (after a g') (fun i j => run_proc (kr i j) t (s i j)).
Proof.
  pose proof (lay_pos _ _ _ _ _ _ _ HL) as (P0 & Q0 & _).
  induction t as [x|x|c k IH]; intros g s a g' HS E; cbn [run_client] in E; cbn [run_proc].
  - inversion E; subst. apply good_done. intros i j Hi Hj. eexists. split; [reflexivity|]. split; auto. apply HS; auto.
  - destruct x as [[]| |]; discriminate.
  - apply bind_ok in E as ([b g1] & E1 & E). pose proof (call_any_sl c g s b g1 HS E1) as G1.
    apply (good_bind (sadd o) p q (after b g1) _ (fun i j => kr i j c (s i j)) (fun i j r => run_proc (kr i j) (k (fst r)) (snd r))); auto.
    intros r Hr. cbv beta in Hr.
    apply (good_eqv (sadd o) p q _ (fun i j => run_proc (kr i j) (k b) (snd (r i j)))).
    + intros i j Hi Hj. destruct (Hr i j Hi Hj) as [-> _]. reflexivity.
    + eapply IH; [|exact E]. intros i j Hi Hj. apply (Hr i j Hi Hj).
Qed.
End Calls.
