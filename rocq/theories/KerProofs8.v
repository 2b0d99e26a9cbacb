(** The distributed Cholesky QR factorisations. *)
From Coq Require Import List Arith Bool ZArith Lia Ring_theory Ring Permutation.
Require Import Verif.Base Verif.DistModel Verif.DistSpec Verif.DistProofs Verif.DistProofs2 Verif.FlatModel Verif.FlatSpec Verif.FlatProofs Verif.FlatProofs2 Verif.FlatProofs3.
Require Import Verif.RedistModel Verif.RedistSpec Verif.RedistProofs Verif.RedistProofs2.
Require Import Verif.SpmdModel Verif.SpmdSpec Verif.SpmdProofs Verif.SpmdProofs2.
Require Import Verif.KerModel Verif.KerSpec Verif.KerProofs1 Verif.KerProofs2 Verif.KerProofs3 Verif.KerProofs4 Verif.KerProofs5.
Import ListNotations.

Section Local.
Context {D : Type} (o : sops D).
Notation bsum := (bsum (s0 o) (sadd o)).

Lemma syherk_spec n k (C : list D) ldc (A : list D) lda (x : nat -> nat -> D) : n <= lda -> (forall r c, r < n -> c < n -> r + c * lda < length A) ->
  (forall t c, t < k -> c < n -> nth_error C (t + c * ldc) = Some (x t c)) ->
  exists A', syherk o n k C ldc A lda = Ok A' /\ (length A' = length A /\
    (forall r c, r < n -> c < n -> upper r c = true -> nth_error A' (r + c * lda) = Some (bsum k (fun t => smul o (scj o (x t r)) (x t c))))).
Proof.
  intros Hl HL HC. unfold syherk.
  destruct (fill_kept upper n n lda (fun r c => bsum k (fun t => smul o (scj o (x t r)) (x t c))) A
    (fun r c A => let! x := dotp o k (fun t => let! x := rd C (t + r * ldc) in Ok (scj o x)) (fun t => rd C (t + c * ldc)) in wr A (r + c * lda) x)) as (A' & E & L & P & _); auto.
  - intros r c A' Hr Hc _ _. rewrite (dotp_spec o k _ _ (fun t => scj o (x t r)) (fun t => x t c)); [reflexivity| |].
    + intros t Ht. pose proof (HC t r Ht Hr) as E. apply rd_ok in E. now rewrite E.
    + intros t Ht. apply rd_ok. auto.
  - exists A'. auto.
Qed.

Lemma potrf_spec (po : chol) n lda (A : list D) M : n <= lda -> (forall r c, r < n -> c < n -> r + c * lda < length A) ->
  (forall r c, r < n -> c < n -> upper r c = true -> nth_error A (r + c * lda) = Some (M r c)) ->
  exists A', potrf po n lda A = Ok (fst (po n (entries upper n M)), A') /\ (length A' = length A /\
    (forall r c, r < n -> c < n -> upper r c = true -> nth_error A' (r + c * lda) = Some (snd (po n (entries upper n M)) r c))).
Proof.
  intros Hl HL HM. unfold potrf. rewrite (read_tri_spec upper n lda A M) by auto. cbn [bind].
  destruct (write_tri_spec upper n lda (snd (po n (entries upper n M))) A Hl HL) as (A' & E & L & P & _). rewrite E. cbn [bind].
  exists A'. auto.
Qed.

(** reading a sequence of positions *)
Lemma read_list_spec n (pos : nat -> nat) (A : list D) (x : nat -> D) : (forall i, i < n -> nth_error A (pos i) = Some (x i)) ->
  for_ n 0 (fun i acc => let! y := rd A (pos i) in Ok (acc ++ [y])) [] = Ok (map x (seq 0 n)).
Proof.
  intros H.
  destruct (for_run (fun i acc => acc = map x (seq 0 i)) (fun acc => acc = map x (seq 0 n)) (fun i acc => let! y := rd A (pos i) in Ok (acc ++ [y])) n 0 []) as (l & E & ->); auto.
  intros i acc Hi ->. specialize (H i ltac:(lia)). apply rd_ok in H. rewrite H. cbn [bind]. eexists. split; [reflexivity|]. rewrite seq_S, map_app. reflexivity.
Qed.

Lemma shift_loop_spec n (A : list D) d M : (forall r c, r < n -> c < n -> upper r c = true -> nth_error A (r + c * n) = Some (M r c)) -> n * n <= length A ->
  exists A', for_ n 0 (fun i A => let! x := rd A (i + i * n) in wr A (i + i * n) (sadd o x d)) A = Ok A' /\ (length A' = length A /\
    forall r c, r < n -> c < n -> upper r c = true -> nth_error A' (r + c * n) = Some (if r =? c then sadd o (M r c) d else M r c)).
Proof.
  intros HM HL.
  apply (for_run (fun i A' => length A' = length A /\ forall r c, r < n -> c < n -> upper r c = true -> nth_error A' (r + c * n) = Some (if (r =? c) && (r <? i) then sadd o (M r c) d else M r c))).
  - split; auto. intros r c Hr Hc Hu. rewrite andb_false_r. auto.
  - intros i A1 Hi (L & P). assert (U : upper i i = true) by (unfold upper; apply Nat.leb_refl).
    pose proof (P i i ltac:(lia) ltac:(lia) U) as E. rewrite Nat.eqb_refl, Nat.ltb_irrefl in E. cbn [andb] in E. apply rd_ok in E. rewrite E. cbn [bind].
    rewrite wr_ok by nia. eexists. split; [reflexivity|]. split; [now rewrite upd_length|].
    intros r c Hr Hc Hu. rewrite nth_error_upd by nia. destruct (Nat.eqb_spec (r + c * n) (i + i * n)) as [E2|E2].
    + assert (c = i /\ r = i) as [-> ->].
      { assert (c = (r + c * n) / n) by (now rewrite pos_div). assert (i = (i + i * n) / n) by (rewrite pos_div; lia).
        assert (c = i) by congruence. subst c. split; auto. lia. }
      rewrite Nat.eqb_refl. destruct (Nat.ltb_spec i (S i)); [reflexivity|lia].
    + rewrite P by auto. f_equal. destruct (Nat.eqb_spec r c); auto. subst. cbn [andb].
      destruct (Nat.ltb_spec c i), (Nat.ltb_spec c (S i)); try lia; auto. assert (c = i) by lia. subst. lia.
  - intros A1 (L & P). split; auto. intros r c Hr Hc Hu. rewrite P by auto. destruct (Nat.ltb_spec r (0 + n)); [now rewrite andb_true_r|lia].
Qed.

Lemma trsm_spec (tri : solver) m n (A : list D) lda (C : list D) (U x : nat -> nat -> D) :
  (forall r c, r < n -> c < n -> upper r c = true -> nth_error A (r + c * lda) = Some (U r c)) ->
  (forall r c, r < m -> c < n -> nth_error C (r + c * m) = Some (x r c)) -> m * n <= length C ->
  exists C', trsm tri m n A lda C m = Ok C' /\ length C' = length C /\
    (forall r c, r < m -> c < n -> nth_error C' (r + c * m) = Some (tri n (entries upper n U) (map (x r) (seq 0 n)) c)) /\
    (forall k, n <= k / m -> nth_error C' k = nth_error C k).
Proof.
  intros HU HC HL. unfold trsm. rewrite (read_tri_spec upper n lda A U) by auto. cbn [bind].
  set (tgt := fun k => Some (tri n (entries upper n U) (map (x (k mod m)) (seq 0 n)) (k / m))).
  apply (for_run (fun r C' => Verif.FlatProofs.prog m C tgt (fun a b => a < r /\ b < n) C')).
  - split; auto. intros k. split; [lia|auto].
  - intros r C1 Hr P1. pose proof P1 as [L1 P1'].
    rewrite (read_list_spec n (fun c => r + c * m) C1 (x r)).
    2:{ intros c Hc. destruct (P1' (r + c * m)) as [_ P]. rewrite pos_mod, pos_div in P by lia. rewrite P by lia. apply HC; lia. }
    cbn [bind].
    apply (for_run (fun c C' => Verif.FlatProofs.prog m C tgt (fun a b => (a < r /\ b < n) \/ (a = r /\ b < c)) C')).
    + eapply prog_ext; [|exact P1]. intros; cbv beta; lia.
    + intros c C2 Hc P2. assert (L2 : length C2 = length C) by apply P2. assert (Hb : r + c * m < length C) by nia. rewrite wr_ok by lia. eexists. split; [reflexivity|].
      assert (Et : tgt (r + c * m) = Some (tri n (entries upper n U) (map (x r) (seq 0 n)) c)) by (unfold tgt; now rewrite pos_mod, pos_div by lia).
      eapply prog_ext; [|exact (prog_upd m C tgt _ C2 r c _ ltac:(lia) Hb Et P2)]. intros; cbv beta; lia.
    + intros C2 P2. eapply prog_ext; [|exact P2]. intros; cbv beta; lia.
  - intros C1 [L1 P1]. split; auto. split.
    + intros r c Hr Hc. destruct (P1 (r + c * m)) as [P _]. rewrite pos_mod, pos_div in P by lia. rewrite P by lia. unfold tgt. now rewrite pos_mod, pos_div by lia.
    + intros k Hk. apply P1. lia.
Qed.
End Local.

Section Chol.
Context {D : Type} (o : sops D) (RT : is_ring o).
Let rsub (x y : D) : D := sadd o x (sopp o y).
Let RT' : ring_theory (s0 o) (s1 o) (sadd o) (smul o) rsub (sopp o) eq := RT.
Add Ring Rr : RT'.
Notation bsum := (bsum (s0 o) (sadd o)).
Variables (N p q n : nat) (same : bool) (c2b b2c : list run) (rows cols : nat -> list nat) (ldh : nat -> nat -> nat).
Hypotheses (Hp : 0 < p) (Hq : 0 < q) (HR : splits N p rows).
Variables (po : chol (D := D)) (tri : solver (D := D)).
Hypothesis Hn : (Z.of_nat (n * n) < 2 ^ 31)%Z.
Notation env := (genv n same c2b b2c rows cols ldh).

Definition cinv (V : nat -> nat -> D) (i : nat) (s : loc (D := D)) : Prop :=
  holds (rows i) 0 n (length (rows i)) V (l_C s) /\ length (rows i) * n <= length (l_C s) /\ n * n <= length (l_A s).
Definition keeps (s s' : loc (D := D)) : Prop :=
  s' = mk_loc (l_H s) (l_C s') (l_C2 s) (l_B s) (l_B2 s) (l_A s') (l_bAc s) (l_bAc_dla s).

Definition shifted (shift : option (list D -> D)) (M : nat -> nat -> D) : nat -> nat -> D :=
  match shift with None => M | Some f => shift_diag o n f M end.

Lemma entries_ext keep m (M M' : nat -> nat -> D) : (forall r c, r < m -> c < m -> keep r c = true -> M r c = M' r c) -> entries keep m M = entries keep m M'.
Proof.
  intros H. unfold entries. rewrite !flat_map_concat_map. f_equal. apply map_ext_in. intros c Hc. apply in_seq in Hc. apply map_ext_in. intros r Hr.
  apply filter_In in Hr as [Hr Hk]. apply in_seq in Hr. apply H; auto; lia.
Qed.

Lemma crun_chol_step shift j V (s : nat -> loc (D := D)) : (forall i, i < p -> cinv V i (s i)) ->
  let f := po n (entries upper n (shifted shift (gram o N V))) in
  crun (sadd o) ColC p (fun i r => fst r = fst f /\ keeps (s i) (snd r) /\ l_C (snd r) = l_C (s i) /\ length (l_A (snd r)) = length (l_A (s i)) /\
     forall a c, a < n -> c < n -> upper a c = true -> nth_error (l_A (snd r)) (a + c * n) = Some (snd f a c))
    (fun i => chol_step o po shift (env i j) (s i)).
Proof.
  intros HV f. unfold chol_step. cbn [genv e_nevex e_m].
  set (part := fun i r c => lsum o (map (fun g => smul o (scj o (V g r)) (V g c)) (rows i))).
  assert (HS : forall i, i < p -> exists A1, syherk o n (length (rows i)) (l_C (s i)) (length (rows i)) (l_A (s i)) n = Ok A1 /\ (length A1 = length (l_A (s i)) /\
     forall r c, r < n -> c < n -> upper r c = true -> nth_error A1 (r + c * n) = Some (part i r c))).
  { intros i Hi. destruct (HV i Hi) as (HC & LC & LA).
    destruct (syherk_spec o n (length (rows i)) (l_C (s i)) (length (rows i)) (l_A (s i)) n (fun t c => V (nth t (rows i) 0) c)) as (A1 & E & L & P).
    - lia.
    - intros r c Hr Hc. nia.
    - intros t c Ht Hc. apply HC; [now apply nth_of|lia].
    - exists A1. split; auto. split; auto. intros r c Hr Hc Hu. rewrite P by auto. f_equal. unfold part. apply (lsum_nth o RT).
      intros t g Hg. now rewrite (nth_error_nth _ _ _ Hg). }
  destruct (fin_choice0 p _ Hp HS) as [A1 HA1].
  apply (crun_ext (sadd o) ColC p _ (fun i => pbind (all_reduce ColC (A1 i) 0 (n * n)) (fun A =>
    let? iA := local (
      let! A := match shift with
                | None => Ok A
                | Some f =>
                  let! d := for_ n 0 (fun i acc => let! x := rd A (i + i * n) in Ok (acc ++ [x])) [] in
                  for_ n 0 (fun i A => let! x := rd A (i + i * n) in wr A (i + i * n) (sadd o x (f d))) A
                end in
      potrf po n n A) in
    Ret (fst iA, mk_loc (l_H (s i)) (l_C (s i)) (l_C2 (s i)) (l_B (s i)) (l_B2 (s i)) (snd iA) (l_bAc (s i)) (l_bAc_dla (s i)))))).
  { intros i Hi. destruct (HA1 i Hi) as (E & _). now rewrite E. }
  apply (crun_bind (sadd o) ColC p (fun i A' => length A' = length (l_A (s i)) /\ forall r c, r < n -> c < n -> upper r c = true -> nth_error A' (r + c * n) = Some (gram o N V r c))); auto.
  { eapply crun_mono; [|apply (crun_all_reduce (s0 o) (sadd o) ltac:(intros; ring) ColC p A1 0 (n * n) (fun i k => nth k (A1 i) (s0 o))); auto].
    - intros i A' Hi (L & P & _). destruct (HA1 i Hi) as (_ & L1 & _). split; [lia|]. intros r c Hr Hc Hu.
      rewrite (P (r + c * n) ltac:(nia) : nth_error A' (r + c * n) = _). f_equal. unfold gram, mprod, ctrans.
      rewrite <- (split_sum o RT N p rows (fun h => smul o (scj o (V h r)) (V h c)) HR).
      apply bsum_ext. intros i' Hi'. destruct (HA1 i' Hi') as (_ & _ & P1). apply nth_error_nth. now apply P1.
    - intros i Hi. destruct (HA1 i Hi) as (_ & L1 & _). destruct (HV i Hi) as (_ & _ & LA). simpl. lia.
    - intros i k Hi Hk. destruct (HA1 i Hi) as (_ & L1 & _). destruct (HV i Hi) as (_ & _ & LA). simpl. apply nth_of. lia. }
  intros A2 HA2. apply crun_done. intros i Hi. destruct (HA2 i Hi) as [L2 P2]. destruct (HV i Hi) as (_ & _ & LA).
  assert (HSh : exists A3, match shift with
                | None => Ok (A2 i)
                | Some f =>
                  let! d := for_ n 0 (fun i0 acc => let! x := rd (A2 i) (i0 + i0 * n) in Ok (acc ++ [x])) [] in
                  for_ n 0 (fun i0 A => let! x := rd A (i0 + i0 * n) in wr A (i0 + i0 * n) (sadd o x (f d))) (A2 i)
                end = Ok A3 /\ length A3 = length (A2 i) /\ forall r c, r < n -> c < n -> upper r c = true -> nth_error A3 (r + c * n) = Some (shifted shift (gram o N V) r c)).
  { destruct shift as [g|]; [|exists (A2 i); auto].
    rewrite (read_list_spec n (fun k => k + k * n) (A2 i) (fun k => gram o N V k k)).
    - cbn [bind]. destruct (shift_loop_spec o n (A2 i) (g (map (fun k => gram o N V k k) (seq 0 n))) (gram o N V) P2 ltac:(lia)) as (A3 & E3 & L3 & P3).
      exists A3. split; [exact E3|]. split; [exact L3|]. exact P3.
    - intros k Hk. apply P2; auto. unfold upper. apply Nat.leb_refl. }
  destruct HSh as (A3 & E3 & L3 & P3). rewrite E3. cbn [bind].
  destruct (potrf_spec po n n A3 (shifted shift (gram o N V)) ltac:(lia) ltac:(intros; nia) P3) as (A4 & E4 & L4 & P4). rewrite E4. cbn [local pbind fst snd].
  eexists. split; [reflexivity|]. cbn [fst snd l_A l_C]. split; [reflexivity|]. split; [reflexivity|]. split; [reflexivity|]. split; [lia|]. exact P4.
Qed.

Lemma trsm_step_ok i j (U V : nat -> nat -> D) (s : loc (D := D)) : cinv V i s ->
  (forall a c, a < n -> c < n -> upper a c = true -> nth_error (l_A s) (a + c * n) = Some (U a c)) ->
  exists s', trsm_step tri (env i j) s = Ret s' /\ keeps s s' /\ l_A s' = l_A s /\ only_columns (rows i) 0 n (row_solve n tri U V) (l_C s) (l_C s').
Proof.
  intros (HC & LC & LA) HU. unfold trsm_step. cbn [genv e_nevex e_m].
  destruct (trsm_spec tri (length (rows i)) n (l_A s) n (l_C s) U (fun r c => V (nth r (rows i) 0) c)) as (C' & E & L & P & P'); auto.
  - intros r c Hr Hc. apply HC; [now apply nth_of|lia].
  - rewrite E. cbn [local pbind]. eexists. split; [reflexivity|]. split; [reflexivity|]. cbn [l_A l_C]. split; [reflexivity|].
    split; [exact L|]. split.
    + intros a g c Ha Hc. assert (a < length (rows i)) by (apply nth_error_Some; congruence). rewrite P by lia. unfold row_solve. now rewrite (nth_error_nth _ _ _ Ha).
    + intros k Hk. apply P'. lia.
Qed.

Lemma cinv_next i (V W : nat -> nat -> D) (s t s' : loc (D := D)) : cinv V i s -> length (l_A s') = length (l_A s) -> l_C t = l_C s ->
  only_columns (rows i) 0 n W (l_C t) (l_C s') -> cinv W i s'.
Proof. intros (H1 & H2 & H3) E Et (L & H & _). split; [exact H|]. rewrite Et in L. split; lia. Qed.
Lemma only_trans rws (W W' : nat -> nat -> D) (b b' b'' : list D) : only_columns rws 0 n W b b' -> only_columns rws 0 n W' b' b'' -> only_columns rws 0 n W' b b''.
Proof. intros (L1 & _ & P1) (L2 & H & P2). split; [lia|]. split; auto. intros k Hk. rewrite P2, P1; auto. Qed.
Lemma keeps_trans s s' s'' : keeps s s' -> keeps s' s'' -> keeps s s''.
Proof. unfold keeps. intros H1 H2. rewrite H2, H1. reflexivity. Qed.

(** result of a factorisation: the same info everywhere, the columns of C replaced *)
Definition qr_post (r : Z * (nat -> nat -> D)) (i : nat) (s : loc (D := D)) (a : Z * loc) : Prop :=
  fst a = fst r /\ keeps s (snd a) /\ length (l_A (snd a)) = length (l_A s) /\ only_columns (rows i) 0 n (snd r) (l_C s) (l_C (snd a)).

Lemma only_same i V (s : loc (D := D)) C' : cinv V i s -> C' = l_C s -> only_columns (rows i) 0 n V (l_C s) C'.
Proof. intros (H & _) ->. split; auto. Qed.

(** one round: factorisation and division, then a continuation *)
Lemma crun_round {A} shift j V (s : nat -> loc (D := D)) (R : nat -> A -> Prop) (K : nat -> Z -> loc (D := D) -> prog D A) : (forall i, i < p -> cinv V i (s i)) ->
  let f := po n (entries upper n (shifted shift (gram o N V))) in
  (forall s', (forall i, i < p -> keeps (s i) (s' i) /\ length (l_A (s' i)) = length (l_A (s i)) /\ only_columns (rows i) 0 n (row_solve n tri (snd f) V) (l_C (s i)) (l_C (s' i)) /\
      cinv (row_solve n tri (snd f) V) i (s' i)) ->
    crun (sadd o) ColC p R (fun i => K i (fst f) (s' i))) ->
  crun (sadd o) ColC p R (fun i => pbind (chol_step o po shift (env i j) (s i)) (fun is => pbind (trsm_step tri (env i j) (snd is)) (fun s' => K i (fst is) s'))).
Proof.
  intros HV f HK.
  apply (crun_bind (sadd o) ColC p _ _ _ (fun i is => pbind (trsm_step tri (env i j) (snd is)) (fun s' => K i (fst is) s')) Hp (crun_chol_step shift j V s HV)).
  intros is His.
  assert (HT : forall i, i < p -> exists s', trsm_step tri (env i j) (snd (is i)) = Ret s' /\ keeps (snd (is i)) s' /\ l_A s' = l_A (snd (is i)) /\
     only_columns (rows i) 0 n (row_solve n tri (snd f) V) (l_C (snd (is i))) (l_C s')).
  { intros i Hi. destruct (His i Hi) as (E1 & E2 & E3 & E4 & E5). apply trsm_step_ok; auto.
    destruct (HV i Hi) as (H1 & H2 & H3). split; [now rewrite E3|]. rewrite E3, E4. auto. }
  destruct (fin_choice0 p _ Hp HT) as [s' Hs'].
  apply (crun_ext (sadd o) ColC p _ (fun i => K i (fst f) (s' i))).
  { intros i Hi. destruct (Hs' i Hi) as (E & _). destruct (His i Hi) as (E1 & _). now rewrite E, E1. }
  apply HK. intros i Hi. destruct (Hs' i Hi) as (_ & E2 & E3 & E4). destruct (His i Hi) as (_ & F2 & F3 & F4 & _).
  split; [eapply keeps_trans; eauto|]. split; [congruence|]. split; [now rewrite <- F3|].
  eapply cinv_next; [apply HV; auto| |exact F3|exact E4]. congruence.
Qed.

(** two continuations that agree on the results the first part can give *)
Lemma crun_take {A} (P : nat -> prog D (Z * loc (D := D))) (R : nat -> A -> Prop) (K K' : nat -> Z * loc (D := D) -> prog D A) :
  crun (sadd o) ColC p (fun i r => fst r = 0%Z) P -> crun (sadd o) ColC p R (fun i => pbind (P i) (K i)) ->
  crun (sadd o) ColC p R (fun i => pbind (P i) (fun is => if (fst is =? 0)%Z then K i is else K' i is)).
Proof.
  intros C. induction C as [P HPd|P acts r Ho Hr C IH]; intros HP.
  + eapply crun_ext; [|exact HP]. intros i Hi. destruct (HPd i Hi) as (a & Ea & Ha). rewrite Ea. cbn [pbind]. now rewrite Ha.
  + inversion HP as [P' HPd E'|P' acts' r' Ho' Hr' HP' E'].
    * exfalso. destruct (HPd 0 Hp) as (a & Ea & _). assert (O0 : offer ColC (P 0) <> None).
      { clear - Ho Hp. destruct p as [|p']; [lia|]. cbn [seq map offers] in Ho. destruct (offer ColC (P 0)); congruence. }
      destruct (P 0); simpl in Ea, O0; congruence.
    * pose proof (offers_bind ColC (seq 0 p) P K acts Ho) as Ho2. rewrite Ho' in Ho2. inversion Ho2. subst acts'. rewrite Hr in Hr'. inversion Hr'. subst r'.
      eapply crun_call; [exact (offers_bind ColC (seq 0 p) P (fun i is => if (fst is =? 0)%Z then K i is else K' i is) acts Ho)|exact Hr|].
      assert (RB : forall i, i < p -> exists c a k, P i = Call c a k).
      { intros i Hi. clear - Ho Hi. assert (In (P i) (map P (seq 0 p))) by (apply in_map; apply in_seq; lia). revert acts Ho H. generalize (map P (seq 0 p)).
        induction l; simpl; intros acts Ho H; [contradiction|]. destruct (offer ColC a) eqn:Ea; [|discriminate]. destruct (offers ColC l) eqn:El; [|discriminate].
        destruct H as [->|H]; [destruct (P i); simpl in Ea; try discriminate; eauto|eauto]. }
      apply (crun_ext (sadd o) ColC p R (fun i => pbind (resume (P i) r) (fun is => if (fst is =? 0)%Z then K i is else K' i is))).
      { intros i Hi. destruct (RB i Hi) as (c & a & k & E0). rewrite E0. reflexivity. }
      apply IH. apply (crun_ext (sadd o) ColC p R (fun i => resume (pbind (P i) (K i)) r)); [|exact HP'].
      intros i Hi. destruct (RB i Hi) as (c & a & k & E0). rewrite E0. reflexivity.
Qed.

Lemma crun_if_info {A} (R : nat -> A -> Prop) shift j V (s : nat -> loc (D := D)) (K K' : nat -> Z * loc (D := D) -> prog D A) : (forall i, i < p -> cinv V i (s i)) ->
  let f := po n (entries upper n (shifted shift (gram o N V))) in
  (fst f = 0%Z -> crun (sadd o) ColC p R (fun i => pbind (chol_step o po shift (env i j) (s i)) (K i))) ->
  (fst f <> 0%Z -> forall is, (forall i, i < p -> fst (is i) = fst f /\ keeps (s i) (snd (is i)) /\ l_C (snd (is i)) = l_C (s i) /\ length (l_A (snd (is i))) = length (l_A (s i))) ->
     crun (sadd o) ColC p R (fun i => K' i (is i))) ->
  crun (sadd o) ColC p R (fun i => pbind (chol_step o po shift (env i j) (s i)) (fun is => if (fst is =? 0)%Z then K i is else K' i is)).
Proof.
  intros HV f H1 H2. destruct (Z.eq_dec (fst f) 0) as [E|E].
  - assert (C : crun (sadd o) ColC p (fun i r => fst r = 0%Z) (fun i => chol_step o po shift (env i j) (s i))).
    { eapply crun_mono; [|apply (crun_chol_step shift j V s HV)]. intros i a Hi (Ea & _). rewrite Ea. exact E. }
    specialize (H1 E). clear H2 HV.
    exact (crun_take (fun i => chol_step o po shift (env i j) (s i)) R K K' C H1).
  - apply (crun_bind (sadd o) ColC p _ _ _ (fun i is => if (fst is =? 0)%Z then K i is else K' i is) Hp (crun_chol_step shift j V s HV)).
    intros is His. apply (crun_ext (sadd o) ColC p _ (fun i => K' i (is i))).
    + intros i Hi. destruct (His i Hi) as (E1 & _). rewrite E1. fold f. destruct (Z.eqb_spec (fst f) 0); [contradiction|reflexivity].
    + apply H2; auto. intros i Hi. destruct (His i Hi) as (E1 & E2 & E3 & E4 & _). auto.
Qed.

Lemma crun_qr1 j V (s : nat -> loc (D := D)) : (forall i, i < p -> cinv V i (s i)) ->
  crun (sadd o) ColC p (fun i => qr_post (qr1 o N n po tri V) i (s i)) (fun i => cholQR1 o po tri (env i j) (s i)).
Proof.
  intros HV. unfold cholQR1.
  apply (crun_if_info _ None j V s (fun i is => pbind (trsm_step tri (env i j) (snd is)) (fun s => Ret (fst is, s))) (fun i is => Ret is) HV).
  - intros E. cbn [shifted] in E. apply (crun_round None j V s _ (fun i z s => Ret (z, s)) HV). intros s' Hs'. apply crun_done. intros i Hi. destruct (Hs' i Hi) as (K1 & K2 & K3 & _).
    eexists. split; [reflexivity|]. unfold qr_post, qr1. cbn [shifted] in *. rewrite E. cbn [Z.eqb fst snd]. auto.
  - intros E is His. cbn [shifted] in *. apply crun_done. intros i Hi. destruct (His i Hi) as (K1 & K2 & K3 & K4). eexists. split; [reflexivity|].
    unfold qr_post, qr1. destruct (Z.eqb_spec (fst (po n (entries upper n (gram o N V)))) 0); [contradiction|]. cbn [fst snd].
    repeat (split; [assumption|]). apply only_same; auto.
Qed.

Lemma crun_qr2 j V (s : nat -> loc (D := D)) : (forall i, i < p -> cinv V i (s i)) ->
  crun (sadd o) ColC p (fun i => qr_post (qr2 o N n po tri V) i (s i)) (fun i => cholQR2 o po tri (env i j) (s i)).
Proof.
  intros HV. unfold cholQR2.
  apply (crun_if_info _ None j V s (fun i is => pbind (trsm_step tri (env i j) (snd is)) (fun s => pbind (chol_step o po None (env i j) s) (fun is =>
     pbind (trsm_step tri (env i j) (snd is)) (fun s => Ret (fst is, s))))) (fun i is => Ret is) HV).
  - intros E. cbn [shifted] in E.
    apply (crun_round None j V s _ (fun i z s => pbind (chol_step o po None (env i j) s) (fun is => pbind (trsm_step tri (env i j) (snd is)) (fun s => Ret (fst is, s)))) HV).
    cbn [shifted]. intros s' Hs'.
    apply (crun_round None j (row_solve n tri (snd (po n (entries upper n (gram o N V)))) V) s' _ (fun i z s => Ret (z, s))); [intros i Hi; apply Hs'; auto|].
    cbn [shifted]. intros s'' Hs''. apply crun_done. intros i Hi. destruct (Hs' i Hi) as (K1 & K2 & K3 & _). destruct (Hs'' i Hi) as (M1 & M2 & M3 & _).
    eexists. split; [reflexivity|]. unfold qr_post, qr2. rewrite E. cbn [Z.eqb fst snd].
    split; [reflexivity|]. split; [eapply keeps_trans; eauto|]. split; [lia|]. eapply only_trans; eauto.
  - intros E is His. cbn [shifted] in *. apply crun_done. intros i Hi. destruct (His i Hi) as (K1 & K2 & K3 & K4). eexists. split; [reflexivity|].
    unfold qr_post, qr2. destruct (Z.eqb_spec (fst (po n (entries upper n (gram o N V)))) 0); [contradiction|]. cbn [fst snd].
    repeat (split; [assumption|]). apply only_same; auto.
Qed.

Lemma crun_sqr2 shift j V (s : nat -> loc (D := D)) : (forall i, i < p -> cinv V i (s i)) ->
  crun (sadd o) ColC p (fun i => qr_post (sqr2 o N n po tri shift V) i (s i)) (fun i => shiftedcholQR2 o po tri shift (env i j) (s i)).
Proof.
  intros HV. unfold shiftedcholQR2.
  apply (crun_if_info _ (Some shift) j V s (fun i is => pbind (trsm_step tri (env i j) (snd is)) (fun s => pbind (chol_step o po None (env i j) s) (fun is =>
     if (fst is =? 0)%Z then pbind (trsm_step tri (env i j) (snd is)) (fun s => pbind (chol_step o po None (env i j) s) (fun is3 =>
       pbind (trsm_step tri (env i j) (snd is3)) (fun s => Ret (fst is, s)))) else Ret is))) (fun i is => Ret is) HV).
  - intros E. cbn [shifted] in E.
    apply (crun_round (Some shift) j V s _ (fun i z s => pbind (chol_step o po None (env i j) s) (fun is =>
     if (fst is =? 0)%Z then pbind (trsm_step tri (env i j) (snd is)) (fun s => pbind (chol_step o po None (env i j) s) (fun is3 =>
       pbind (trsm_step tri (env i j) (snd is3)) (fun s => Ret (fst is, s)))) else Ret is)) HV).
    cbn [shifted]. intros s' Hs'. set (V1 := row_solve n tri (snd (po n (entries upper n (shift_diag o n shift (gram o N V))))) V) in *.
    assert (HV1 : forall i, i < p -> cinv V1 i (s' i)) by (intros i Hi; apply Hs'; auto).
    apply (crun_if_info _ None j V1 s' (fun i is => pbind (trsm_step tri (env i j) (snd is)) (fun s => pbind (chol_step o po None (env i j) s) (fun is3 =>
       pbind (trsm_step tri (env i j) (snd is3)) (fun s => Ret (fst is, s))))) (fun i is => Ret is) HV1).
    + cbn [shifted]. intros E2.
      apply (crun_round None j V1 s' _ (fun i z s => pbind (chol_step o po None (env i j) s) (fun is3 => pbind (trsm_step tri (env i j) (snd is3)) (fun s => Ret (z, s)))) HV1).
      cbn [shifted]. intros s2 Hs2. set (V2 := row_solve n tri (snd (po n (entries upper n (gram o N V1)))) V1) in *.
      assert (HV2 : forall i, i < p -> cinv V2 i (s2 i)) by (intros i Hi; apply Hs2; auto).
      apply (crun_round None j V2 s2 _ (fun i z s => Ret (fst (po n (entries upper n (gram o N V1))), s)) HV2).
      cbn [shifted]. intros s3 Hs3. apply crun_done. intros i Hi. destruct (Hs' i Hi) as (K1 & K2 & K3 & _). destruct (Hs2 i Hi) as (M1 & M2 & M3 & _). destruct (Hs3 i Hi) as (O1 & O2 & O3 & _).
      eexists. split; [reflexivity|]. unfold qr_post, sqr2. rewrite E. cbn [Z.eqb fst snd]. fold V1. rewrite E2. cbn [Z.eqb fst snd]. fold V2.
      split; [reflexivity|]. split; [eapply keeps_trans; [eauto|eapply keeps_trans; eauto]|]. split; [lia|].
      eapply only_trans; [exact K3|]. eapply only_trans; eauto.
    + cbn [shifted]. intros E2 is His. apply crun_done. intros i Hi. destruct (Hs' i Hi) as (K1 & K2 & K3 & _). destruct (His i Hi) as (M1 & M2 & M3 & M4).
      eexists. split; [reflexivity|]. unfold qr_post, sqr2. rewrite E. cbn [Z.eqb fst snd]. fold V1.
      destruct (Z.eqb_spec (fst (po n (entries upper n (gram o N V1)))) 0); [contradiction|]. cbn [fst snd].
      split; [assumption|]. split; [eapply keeps_trans; eauto|]. split; [lia|]. rewrite M3. exact K3.
  - intros E is His. cbn [shifted] in *. apply crun_done. intros i Hi. destruct (His i Hi) as (K1 & K2 & K3 & K4). eexists. split; [reflexivity|].
    unfold qr_post, sqr2. destruct (Z.eqb_spec (fst (po n (entries upper n (shift_diag o n shift (gram o N V))))) 0); [contradiction|]. cbn [fst snd].
    repeat (split; [assumption|]). apply only_same; auto.
Qed.
End Chol.
