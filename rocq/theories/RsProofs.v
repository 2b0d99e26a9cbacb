(** Proofs about the library objects of solvers. *)
From Coq Require Import List Arith Bool Lia.
Require Import Verif.RedistModel Verif.RsModel Verif.RsSpec.
Import ListNotations.
Local Open Scope bool_scope.

Lemma rkind_eqb_spec a b : reflect (a = b) (rkind_eqb a b).
Proof. destruct a, b; cbn; constructor; congruence. Qed.
Lemma rkind_eqb_refl a : rkind_eqb a a = true.
Proof. now destruct a. Qed.

Definition one (k k' : rkind) : nat := if rkind_eqb k k' then 1 else 0.
Lemma live_snoc k t k' : live_in k (t ++ [(k', true)]) = live_in k t + one k k'.
Proof. unfold live_in, one. rewrite filter_app, app_length. cbn. rewrite andb_true_r. now destruct (rkind_eqb k k'). Qed.
Lemma live_kill k k' : forall t i, nth_error t i = Some (k', true) -> live_in k (kill i t) + one k k' = live_in k t.
Proof.
  unfold live_in, one. induction t as [|[k0 b0] t IH]; intros [|i] H; try discriminate.
  - injection H as -> ->. cbn. rewrite andb_false_r, andb_true_r. destruct (rkind_eqb k k'); cbn; lia.
  - cbn in *. specialize (IH i H). destruct (rkind_eqb k k0 && b0); cbn; lia.
Qed.
Lemma kill_length i : forall t, length (kill i t) = length t.
Proof. induction i as [|i IH]; intros [|[k b] t]; cbn; auto. Qed.
Lemma kill_nth i : forall t j, j <> i -> nth_error (kill i t) j = nth_error t j.
Proof. induction i as [|i IH]; intros [|[k b] t] [|j] H; cbn; auto; try congruence; try lia. Qed.
Lemma kill_app t i : forall u, length t <= i -> firstn (length t) (kill i (t ++ u)) = t.
Proof.
  revert i. induction t as [|[k b] t IH]; intros i u H; cbn; auto. destruct i as [|i]; cbn in *; [lia|]. f_equal. apply IH. lia.
Qed.
Lemma firstn_kill n i t : n <= i -> firstn n (kill i t) = firstn n t.
Proof. revert i t. induction n as [|n IH]; intros [|i] [|[k b] t] H; cbn; auto; try lia. f_equal. apply IH. lia. Qed.

(** syntactic counts *)
Definition mks (k : rkind) (l : list rop) : nat := list_sum (map (fun o => match o with Mk _ k' => one k k' | _ => 0 end) l).
Definition rels (k : rkind) (l : list rop) : nat := list_sum (map (fun o => match o with Rel _ k' => one k k' | _ => 0 end) l).
Lemma list_sum_app' a b : list_sum (a ++ b) = list_sum a + list_sum b.
Proof. apply list_sum_app. Qed.
Lemma mks_app k a b : mks k (a ++ b) = mks k a + mks k b.
Proof. unfold mks. now rewrite map_app, list_sum_app'. Qed.
Lemma rels_app k a b : rels k (a ++ b) = rels k a + rels k b.
Proof. unfold rels. now rewrite map_app, list_sum_app'. Qed.

Lemma rrun_app c a : forall b e t, rrun c (a ++ b) e t = match rrun c a e t with Done (e, t) => rrun c b e t | Full => Full | Bad => Bad end.
Proof. induction a as [|o a IH]; intros; cbn; auto. destruct (rstep c o e t) as [[e1 t1]| |]; auto. Qed.

(** environments: handles are distinct and younger than the object *)
Definition good (n : nat) (e : renv) (t : rtab) : Prop := NoDup (map snd e) /\ forall v i, In (v, i) e -> n <= i < length t.
Lemma rlook_in v e i : rlook v e = Some i -> In (v, i) e.
Proof. induction e as [|[w j] e IH]; cbn; [discriminate|]. destruct (rname_eq_dec v w) as [->|]; [intros [= ->]; auto|auto]. Qed.
Lemma mk_inv c v k e t e' t' : rstep c (Mk v k) e t = Done (e', t') -> e' = (v, length t) :: e /\ t' = t ++ [(k, true)].
Proof. unfold rstep. destruct k, c as [m|]; try (destruct (Nat.ltb (live_in RComm t) m)); intros H; inversion H; auto. Qed.
Lemma step_good c n o e t e' t' : n <= length t -> good n e t -> rstep c o e t = Done (e', t') ->
  good n e' t' /\ length t <= length t' /\ firstn n t' = firstn n t /\
  (forall k, live_in k t' + rels k [o] = live_in k t + mks k [o]).
Proof.
  intros Hn [G1 G2] H. destruct o as [v k|v k].
  - apply mk_inv in H as [-> ->]. rewrite app_length. cbn [length]. split; [split|].
    + cbn. constructor; auto. intros Hi. apply in_map_iff in Hi as ((w & i) & E & Hi). cbn in E. subst. specialize (G2 _ _ Hi). lia.
    + intros w i [[= <- <-]|Hi]; rewrite app_length; cbn; [lia|]. specialize (G2 _ _ Hi). lia.
    + split; [lia|]. split; [rewrite firstn_app; replace (n - length t) with 0 by lia; cbn; now rewrite app_nil_r|].
      intros k'. rewrite live_snoc. cbn. lia.
  - cbn in H. destruct (rlook v e) as [i|] eqn:E; [|discriminate]. destruct (nth_error t i) as [[k' [|]]|] eqn:En; try discriminate.
    destruct (rkind_eqb_spec k k') as [<-|]; [|discriminate]. injection H as <- <-.
    pose proof (G2 _ _ (rlook_in _ _ _ E)). rewrite kill_length. split; [split; auto; intros; rewrite kill_length; eauto|].
    split; auto. split; [apply firstn_kill; lia|]. intros k'. cbn. pose proof (live_kill k' k t i En). lia.
Qed.
Lemma run_good c n : forall l e t e' t', n <= length t -> good n e t -> rrun c l e t = Done (e', t') ->
  good n e' t' /\ length t <= length t' /\ firstn n t' = firstn n t /\ (forall k, live_in k t' + rels k l = live_in k t + mks k l).
Proof.
  induction l as [|o l IH]; intros e t e' t' Hn G H.
  - injection H as <- <-. split; auto.
  - cbn in H. destruct (rstep c o e t) as [[e1 t1]| |] eqn:E; try discriminate.
    destruct (step_good c n o e t e1 t1 Hn G E) as (G1 & L1 & F1 & C1).
    destruct (IH e1 t1 e' t' ltac:(lia) G1 H) as (G2 & L2 & F2 & C2). split; auto. split; [lia|]. split; [congruence|].
    intros k. specialize (C1 k). specialize (C2 k). change (o :: l) with ([o] ++ l). rewrite mks_app, rels_app. lia.
Qed.

(** a named handle that exists *)
Definition has (v : rname) (k : rkind) (e : renv) (t : rtab) : Prop := exists i, rlook v e = Some i /\ nth_error t i = Some (k, true).
Lemma mk_done c v k e t : (k = RComm -> match c with Some m => live_in RComm t < m | None => True end) ->
  rstep c (Mk v k) e t = Done ((v, length t) :: e, t ++ [(k, true)]).
Proof.
  intros H. unfold rstep. destruct k; auto. destruct c as [m|]; auto. now rewrite (proj2 (Nat.ltb_lt _ _) (H eq_refl)).
Qed.
Lemma mk_has e t v k w kw : good 0 e t -> has w kw e t \/ w = v /\ kw = k -> (w = v -> kw = k) -> has w kw ((v, length t) :: e) (t ++ [(k, true)]).
Proof.
  intros [_ G] H K. unfold has. cbn. destruct (rname_eq_dec w v) as [->|Nv].
  - exists (length t). split; auto. rewrite nth_error_app2, Nat.sub_diag by lia. cbn. now rewrite K.
  - destruct H as [(i & E & En)|[? _]]; [|contradiction]. exists i. split; auto. rewrite nth_error_app1; auto.
    apply nth_error_Some. congruence.
Qed.
Lemma rel_done c v k e t : has v k e t -> exists i, rlook v e = Some i /\ rstep c (Rel v k) e t = Done (e, kill i t).
Proof. intros (i & E & En). exists i. split; auto. cbn. now rewrite E, En, rkind_eqb_refl. Qed.
Lemma rel_has e t v i w kw : NoDup (map snd e) -> rlook v e = Some i -> w <> v -> has w kw e t -> has w kw e (kill i t).
Proof.
  intros ND E Nv (j & Ej & En). exists j. split; auto. rewrite kill_nth; auto. intros ->. apply Nv.
  apply rlook_in in E, Ej. clear - ND E Ej. induction e as [|[x y] e IH]; [contradiction|]. cbn in ND. inversion ND as [|? ? N1 N2]. subst.
  destruct E as [E|E], Ej as [Ej|Ej]; [congruence| | |auto]; exfalso; apply N1.
  - injection E as -> ->. now apply (in_map snd) in Ej.
  - injection Ej as -> ->. now apply (in_map snd) in E.
Qed.

(** only creations *)
Definition only_mk (l : list rop) : Prop := Forall (fun o => match o with Mk _ _ => True | _ => False end) l.
Definition enough (c : option nat) (l : list rop) (t : rtab) : Prop := match c with Some m => live_in RComm t + mks RComm l <= m | None => True end.

Lemma only_mk_run c : forall l e t, only_mk l -> enough c l t -> exists e' t', rrun c l e t = Done (e', t').
Proof.
  induction l as [|o l IH]; intros e t O E; [cbn; eauto|]. inversion O as [|? ? O1 O2]. subst. destruct o as [v k|]; [|contradiction].
  cbn [rrun]. rewrite mk_done; [apply IH; auto|]; unfold enough in *; destruct c as [m|]; auto.
  - rewrite live_snoc. change (Mk v k :: l) with ([Mk v k] ++ l) in E. rewrite mks_app in E. cbn in E. lia.
  - intros ->. cbn in E. lia.
Qed.
Lemma only_mk_full c : forall l e t, only_mk l -> ~ enough c l t -> match c with Some m => live_in RComm t <= m | None => True end -> rrun c l e t = Full.
Proof.
  induction l as [|o l IH]; intros e t O E B.
  - exfalso. apply E. unfold enough, mks. destruct c; cbn; auto. lia.
  - inversion O as [|? ? O1 O2]. subst. destruct o as [v k|]; [|contradiction]. destruct c as [m|]; [|exfalso; apply E; exact I].
    cbn [rrun]. destruct (rkind_eqb_spec k RComm) as [->|Nk].
    + cbn [rstep]. destruct (Nat.ltb_spec (live_in RComm t) m); auto. apply IH; auto; unfold enough in *.
      * rewrite live_snoc. change (Mk v RComm :: l) with ([Mk v RComm] ++ l) in E. rewrite mks_app in E. cbn in E |- *. lia.
      * rewrite live_snoc. cbn. lia.
    + rewrite mk_done by congruence. assert (Z : one RComm k = 0) by (unfold one; destruct (rkind_eqb_spec RComm k); congruence). apply IH; auto; unfold enough in *.
      * rewrite live_snoc. change (Mk v k :: l) with ([Mk v k] ++ l) in E. rewrite mks_app in E. cbn in E. rewrite Z in *. lia.
      * rewrite live_snoc. lia.
Qed.
(** names created in a list of creations, with their kinds, none twice *)
Definition makes (v : rname) (k : rkind) (l : list rop) : Prop := In (Mk v k) l /\ forall k', In (Mk v k') l -> k' = k.
Lemma only_mk_has c v k : forall l e t e' t', only_mk l -> good 0 e t -> rrun c l e t = Done (e', t') ->
  (has v k e t \/ In (Mk v k) l) -> (forall k', In (Mk v k') l -> k' = k) -> has v k e' t'.
Proof.
  induction l as [|o l IH]; intros e t e' t' O G H A K.
  - injection H as <- <-. destruct A as [|[]]; auto.
  - inversion O as [|? ? O1 O2]. subst. destruct o as [w kw|]; [|contradiction]. cbn [rrun] in H.
    destruct (rstep c (Mk w kw) e t) as [[e1 t1]| |] eqn:E; try discriminate.
    destruct (step_good c 0 _ _ _ _ _ (Nat.le_0_l _) G E) as (G1 & _).
    apply mk_inv in E as [-> ->].
    destruct (rname_eq_dec v w) as [->|Nv].
    + assert (kw = k) as -> by (apply K; now left). apply (IH _ _ _ _ O2 G1 H); [|intros; apply K; now right]. left. apply mk_has; auto.
    + apply (IH _ _ _ _ O2 G1 H); [|intros; apply K; now right]. destruct A as [A|[[= -> _]|A]]; auto; [|congruence].
      left. apply mk_has; auto. congruence.
Qed.

(** one call *)
Definition keeps (e : renv) (t : rtab) (e' : renv) (t' : rtab) : Prop :=
  forall v k, v <> v_iotype -> v <> v_file -> has v k e t -> has v k e' t'.
Lemma call_ok c x e t : good 0 e t -> exists e' t', rrun c (rcall_ops x) e t = Done (e', t') /\ keeps e t e' t'.
Proof.
  intros G. destruct x; [exists e, t; split; [reflexivity|]; intros v k _ _ H; exact H| |].
  - cbn [rcall_ops]. cbn [rrun]. rewrite mk_done by discriminate.
    set (e1 := (v_file, length t) :: e). set (t1 := t ++ [(RFile, true)]).
    assert (E1 : rstep c (Mk v_file RFile) e t = Done (e1, t1)) by (apply mk_done; discriminate).
    destruct (step_good c 0 _ _ _ _ _ (Nat.le_0_l _) G E1) as (G1 & _).
    rewrite mk_done by discriminate. set (e2 := (v_iotype, length t1) :: e1). set (t2 := t1 ++ [(RType, true)]).
    assert (E2 : rstep c (Mk v_iotype RType) e1 t1 = Done (e2, t2)) by (apply mk_done; discriminate).
    destruct (step_good c 0 _ _ _ _ _ (Nat.le_0_l _) G1 E2) as (G2 & _).
    assert (Hf : has v_file RFile e1 t1) by (apply mk_has; auto).
    assert (Hf2 : has v_file RFile e2 t2) by (apply mk_has; auto; discriminate).
    assert (Ht2 : has v_iotype RType e2 t2) by (apply mk_has; auto).
    destruct (rel_done c _ _ _ _ Ht2) as (i & Li & ->).
    assert (Hf3 : has v_file RFile e2 (kill i t2)) by (apply (rel_has _ _ v_iotype); auto; [apply G2|discriminate]).
    destruct (rel_done c _ _ _ _ Hf3) as (j & Lj & ->).
    exists e2, (kill j (kill i t2)). split; auto. intros v k N1 N2 H.
    apply (rel_has _ _ v_file); auto; [apply G2|]. apply (rel_has _ _ v_iotype); auto; [apply G2|].
    apply mk_has; auto; [|congruence]. left. apply mk_has; auto. congruence.
  - cbn [rcall_ops]. cbn [rrun]. rewrite mk_done by discriminate.
    set (e1 := (v_iotype, length t) :: e). set (t1 := t ++ [(RType, true)]).
    assert (E1 : rstep c (Mk v_iotype RType) e t = Done (e1, t1)) by (apply mk_done; discriminate).
    destruct (step_good c 0 _ _ _ _ _ (Nat.le_0_l _) G E1) as (G1 & _).
    rewrite mk_done by discriminate. set (e2 := (v_file, length t1) :: e1). set (t2 := t1 ++ [(RFile, true)]).
    assert (E2 : rstep c (Mk v_file RFile) e1 t1 = Done (e2, t2)) by (apply mk_done; discriminate).
    destruct (step_good c 0 _ _ _ _ _ (Nat.le_0_l _) G1 E2) as (G2 & _).
    assert (Hf : has v_iotype RType e1 t1) by (apply mk_has; auto).
    assert (Ht2 : has v_iotype RType e2 t2) by (apply mk_has; auto; discriminate).
    assert (Hf2 : has v_file RFile e2 t2) by (apply mk_has; auto).
    destruct (rel_done c _ _ _ _ Ht2) as (i & Li & ->).
    assert (Hf3 : has v_file RFile e2 (kill i t2)) by (apply (rel_has _ _ v_iotype); auto; [apply G2|discriminate]).
    destruct (rel_done c _ _ _ _ Hf3) as (j & Lj & ->).
    exists e2, (kill j (kill i t2)). split; auto. intros v k N1 N2 H.
    apply (rel_has _ _ v_file); auto; [apply G2|]. apply (rel_has _ _ v_iotype); auto; [apply G2|].
    apply mk_has; auto; [|congruence]. left. apply mk_has; auto. congruence.
Qed.
Lemma calls_ok c : forall xs e t, good 0 e t -> exists e' t', rrun c (flat_map rcall_ops xs) e t = Done (e', t') /\ keeps e t e' t'.
Proof.
  induction xs as [|x xs IH]; intros e t G; [exists e, t; split; [reflexivity|]; intros v k _ _ H; exact H|].
  cbn [flat_map]. destruct (call_ok c x e t G) as (e1 & t1 & E1 & K1). rewrite rrun_app, E1.
  destruct (run_good c 0 _ _ _ _ _ (Nat.le_0_l _) G E1) as (G1 & _).
  destruct (IH e1 t1 G1) as (e2 & t2 & E2 & K2). exists e2, t2. split; auto. intros v k N1 N2 H. apply K2, K1; auto.
Qed.
(** releases of distinct existing handles *)
Lemma rels_ok c : forall (l : list (rname * rkind)) e t, good 0 e t -> NoDup (map fst l) -> (forall v k, In (v, k) l -> has v k e t) ->
  exists t', rrun c (map (fun x => Rel (fst x) (snd x)) l) e t = Done (e, t').
Proof.
  induction l as [|[v k] l IH]; intros e t G ND H; [cbn; eauto|]. cbn in ND. inversion ND as [|? ? N1 N2]. subst.
  cbn [map rrun fst snd]. destruct (rel_done c v k e t) as (i & Li & ->); [apply H; now left|].
  apply IH; auto.
  - destruct G as [A B]. split; auto. intros. rewrite kill_length. eauto.
  - intros w kw Hi. apply (rel_has _ _ v); auto; [apply G| |apply H; now right]. intros ->. apply N1. now apply (in_map fst) in Hi.
Qed.
Definition destroyed (k : rback) : list (rname * rkind) :=
  match k with
  | BCuda => [(v_cublas, RBlas); (v_cusolver, RSolver)]
  | BMgpu => [(v_stream1, RStream); (v_stream2, RStream); (v_cublas, RBlas); (v_cusolver, RSolver)]
  | _ => []
  end.
Lemma destroy_map k : destroy_ops k = map (fun x => Rel (fst x) (snd x)) (destroyed k).
Proof. now destruct k. Qed.

(** the constructor only creates *)
Lemma only_mk_app a b : only_mk a -> only_mk b -> only_mk (a ++ b).
Proof. unfold only_mk. rewrite Forall_app. auto. Qed.
Lemma piece_only v me rs : only_mk (piece_ops v me rs).
Proof.
  unfold piece_ops, only_mk. apply Forall_forall. intros o Ho. apply in_flat_map in Ho as (ir & _ & Ho).
  destruct (me =? r_dest (snd ir)); [destruct Ho as [<-|[]]; exact I|contradiction].
Qed.
Lemma map_only (f : nat -> rname) k l : only_mk (map (fun j => Mk (f j) k) l).
Proof. apply Forall_forall. intros o Ho. apply in_map_iff in Ho as (j & <- & _). exact I. Qed.
Lemma dla_only g : only_mk (dla_ops g).
Proof. unfold dla_ops. repeat apply only_mk_app; auto using piece_only, (map_only (v_newtype 0)), (map_only (v_newtype 1)). Qed.
Lemma properties_only b : only_mk (properties_ops b).
Proof. unfold properties_ops, grid_ops, only_mk. destruct (rb_scalapack b), (rb_nccl b); cbn; repeat constructor. Qed.
Lemma construct_only k b g : only_mk (construct_ops k b g).
Proof.
  destruct k; cbn [construct_ops].
  1,2,3: unfold only_mk; repeat constructor.
  - apply only_mk_app; [apply properties_only|apply dla_only].
  - apply only_mk_app; [apply properties_only|]. apply only_mk_app; [|apply dla_only]. unfold only_mk; repeat constructor.
Qed.

(** counts of the constructor *)
Lemma mks_map (f : nat -> rname) k k' n a : mks k (map (fun j => Mk (f j) k') (seq a n)) = n * one k k'.
Proof. revert a. induction n as [|n IH]; intros a; auto. cbn [seq map]. change (mks k (?x :: ?l)) with (mks k ([x] ++ l)).
  unfold mks in *. cbn [map]. specialize (IH (S a)). cbn. cbn in IH. unfold list_sum in IH. rewrite IH. lia. Qed.
Lemma mks_piece k v me : forall rs a, mks k (flat_map (fun ir => if me =? r_dest (snd ir) then [Mk (v (fst ir)) RType] else []) (combine (seq a (length rs)) rs))
  = pieces me rs * one k RType.
Proof.
  unfold pieces. induction rs as [|r rs IH]; intros a; [reflexivity|]. cbn [length seq combine flat_map filter snd fst]. rewrite mks_app, IH.
  destruct (me =? r_dest r); cbn; lia.
Qed.
Lemma mks_dla k g : mks k (dla_ops g) = (rg_p g + rg_q g + pieces (rg_row g) (b_runs g) + pieces (rg_col g) (c_runs g)) * one k RType.
Proof.
  unfold dla_ops, piece_ops. rewrite !mks_app, !mks_piece, (mks_map (v_newtype 0)), (mks_map (v_newtype 1)). lia.
Qed.
Lemma mks_calls k xs : mks k (flat_map rcall_ops xs) = rels k (flat_map rcall_ops xs).
Proof. induction xs as [|x xs IH]; auto. cbn [flat_map]. rewrite mks_app, rels_app, IH. f_equal. destruct x, k; reflexivity. Qed.
Lemma only_rels k l : only_mk l -> rels k l = 0.
Proof. induction 1 as [|[v k'|v k'] l H1 H2 IH]; try contradiction; auto. Qed.
Lemma life_counts b j k : mks k (life_ops b j) = rels k (life_ops b j) + left b j k.
Proof.
  destruct j as [bk g xs]. unfold life_ops, left. cbn [rj_back rj_grid rj_calls]. rewrite !mks_app, !rels_app, mks_calls, (only_rels _ _ (construct_only bk b g)).
  destruct bk; cbn [construct_ops destroy_ops]; rewrite ?mks_app, ?mks_dla; unfold properties_ops, grid_ops;
    destruct k, (rb_scalapack b), (rb_nccl b); cbn -[pieces b_runs c_runs Nat.mul]; rewrite ?Nat.mul_0_r, ?Nat.mul_1_r; lia.
Qed.
Lemma construct_comm b j : mks RComm (construct_ops (rj_back j) b (rj_grid j)) = left b j RComm.
Proof.
  destruct j as [bk g xs]. unfold left. cbn [rj_back rj_grid rj_calls].
  destruct bk; cbn [construct_ops]; rewrite ?mks_app, ?mks_dla; unfold properties_ops, grid_ops;
    destruct (rb_scalapack b), (rb_nccl b); cbn -[pieces b_runs c_runs Nat.mul]; rewrite ?Nat.mul_0_r; lia.
Qed.

(** names of the constructor *)
Lemma dla_names g v k : In (Mk v k) (dla_ops g) -> match v with v_newtype _ _ | v_bc _ | v_cb _ => True | _ => False end.
Proof.
  unfold dla_ops, piece_ops. rewrite !in_app_iff. intros [H|[H|[H|H]]].
  1,2: apply in_map_iff in H as (j & [= <- _] & _); exact I.
  all: apply in_flat_map in H as (ir & _ & H); destruct (_ =? _); [destruct H as [[= <- _]|[]]; exact I|contradiction].
Qed.
Lemma properties_names b v k : In (Mk v k) (properties_ops b) -> match v with v_shm | v_cart | v_row | v_col | v_rowdup | v_coldup | v_colctx | v_ctx2d => True | _ => False end.
Proof.
  unfold properties_ops, grid_ops. destruct (rb_scalapack b), (rb_nccl b); cbn; intros H; repeat destruct H as [[= <- _]|H]; try exact I; contradiction.
Qed.
Lemma destroyed_made bk b g v k : In (v, k) (destroyed bk) ->
  In (Mk v k) (construct_ops bk b g) /\ (forall k', In (Mk v k') (construct_ops bk b g) -> k' = k).
Proof.
  destruct bk; cbn [destroyed construct_ops]; try contradiction; intros H; (split; [|intros k' H']).
  - cbn in *. repeat destruct H as [[= <- <-]|H]; try contradiction; tauto.
  - cbn in *. repeat destruct H as [[= <- <-]|H]; try contradiction; repeat destruct H' as [[=]|H']; congruence || contradiction.
  - rewrite !in_app_iff. cbn in *. repeat destruct H as [[= <- <-]|H]; try contradiction; tauto.
  - rewrite !in_app_iff in H'. destruct H' as [H'|[H'|H']].
    + apply properties_names in H'. cbn in H. repeat destruct H as [[= <- <-]|H]; contradiction.
    + cbn in *. repeat destruct H as [[= <- <-]|H]; try contradiction; repeat destruct H' as [[=]|H']; congruence || contradiction.
    + apply dla_names in H'. cbn in H. repeat destruct H as [[= <- <-]|H]; contradiction.
Qed.

(** one object *)
Lemma good_nil n t : good n [] t.
Proof. split; [constructor|intros v i []]. Qed.
Lemma life_done c b j t : match c with Some m => live_in RComm t + left b j RComm <= m | None => True end ->
  exists e' t', rrun c (life_ops b j) [] t = Done (e', t').
Proof.
  intros H. unfold life_ops. rewrite rrun_app.
  destruct (only_mk_run c _ [] t (construct_only (rj_back j) b (rj_grid j))) as (e1 & t1 & E1).
  { unfold enough. rewrite construct_comm. exact H. }
  rewrite E1, rrun_app. destruct (run_good c 0 _ _ _ _ _ (Nat.le_0_l _) (good_nil 0 t) E1) as (G1 & _).
  destruct (calls_ok c (rj_calls j) e1 t1 G1) as (e2 & t2 & E2 & K). rewrite E2.
  destruct (run_good c 0 _ _ _ _ _ (Nat.le_0_l _) G1 E2) as (G2 & _). rewrite destroy_map.
  destruct (rels_ok c (destroyed (rj_back j)) e2 t2 G2) as (t3 & E3).
  - destruct (rj_back j); cbn; repeat constructor; cbn; intuition discriminate.
  - intros v k Hi. destruct (destroyed_made _ b (rj_grid j) _ _ Hi) as [A B]. apply K.
    + intros ->. destruct (rj_back j); cbn in Hi; intuition discriminate.
    + intros ->. destruct (rj_back j); cbn in Hi; intuition discriminate.
    + apply (only_mk_has c _ _ _ _ _ _ _ (construct_only _ _ _) (good_nil 0 t) E1); auto.
  - exists e2, t3. exact E3.
Qed.
Lemma life_full m b j t : live_in RComm t <= m -> m < live_in RComm t + left b j RComm -> rrun (Some m) (life_ops b j) [] t = Full.
Proof.
  intros H1 H2. unfold life_ops. rewrite rrun_app, (only_mk_full (Some m)); auto using construct_only.
  unfold enough. rewrite construct_comm. lia.
Qed.
Lemma life_effect c b j t e' t' : rrun c (life_ops b j) [] t = Done (e', t') ->
  firstn (length t) t' = t /\ length t <= length t' /\ forall k, live_in k t' = live_in k t + left b j k.
Proof.
  intros H. destruct (run_good c (length t) _ _ _ _ _ (le_n _) (good_nil _ t) H) as (_ & L & F & C).
  split; [rewrite F; apply firstn_all|]. split; auto. intros k. specialize (C k). rewrite life_counts in C. lia.
Qed.

(** programs *)
Lemma total_cons b j js k : total b (j :: js) k = left b j k + total b js k.
Proof. reflexivity. Qed.
Lemma program_done c b : forall js t, match c with Some m => live_in RComm t + total b js RComm <= m | None => True end ->
  exists t', program c b js t = Done t'.
Proof.
  induction js as [|j js IH]; intros t H; [cbn; eauto|]. cbn [program].
  destruct (life_done c b j t) as (e1 & t1 & E1). { destruct c; auto. rewrite total_cons in H. lia. }
  rewrite E1. apply IH. destruct c; auto. destruct (life_effect _ _ _ _ _ _ E1) as (_ & _ & C). rewrite C, total_cons in *. lia.
Qed.
Lemma program_full m b : forall js t, live_in RComm t <= m -> m < live_in RComm t + total b js RComm -> program (Some m) b js t = Full.
Proof.
  induction js as [|j js IH]; intros t H1 H2; [cbn in H2; lia|]. cbn [program]. rewrite total_cons in H2.
  destruct (le_lt_dec (live_in RComm t + left b j RComm) m) as [L|L].
  - destruct (life_done (Some m) b j t L) as (e1 & t1 & E1). rewrite E1. destruct (life_effect _ _ _ _ _ _ E1) as (_ & _ & C).
    apply IH; rewrite C; lia.
  - now rewrite life_full.
Qed.
Lemma program_effect c b : forall js t t', program c b js t = Done t' ->
  firstn (length t) t' = t /\ forall k, live_in k t' = live_in k t + total b js k.
Proof.
  induction js as [|j js IH]; intros t t' H; [injection H as <-; split; [apply firstn_all|intros; cbn; lia]|]. cbn [program] in H.
  destruct (rrun c (life_ops b j) [] t) as [[e1 t1]| |] eqn:E1; try discriminate.
  destruct (life_effect _ _ _ _ _ _ E1) as (F1 & L1 & C1). destruct (IH t1 t' H) as (F2 & C2). split.
  - rewrite <- F1 at 2. rewrite <- F2. rewrite firstn_firstn. f_equal. lia.
  - intros k. rewrite C2, C1, total_cons. lia.
Qed.
Lemma life_not_bad c b j t : match c with Some m => live_in RComm t <= m | None => True end -> rrun c (life_ops b j) [] t <> Bad.
Proof.
  intros H. destruct c as [m|].
  - destruct (le_lt_dec (live_in RComm t + left b j RComm) m) as [L|L].
    + destruct (life_done (Some m) b j t L) as (? & ? & ->). discriminate.
    + rewrite life_full; auto. discriminate.
  - destruct (life_done None b j t I) as (? & ? & ->). discriminate.
Qed.

Lemma completes_iff m b js t : live_in RComm t <= m ->
  (live_in RComm t + total b js RComm <= m /\ (exists t', program (Some m) b js t = Done t')) \/
  (m < live_in RComm t + total b js RComm /\ program (Some m) b js t = Full).
Proof.
  intros H. destruct (le_lt_dec (live_in RComm t + total b js RComm) m) as [L|L].
  - left. split; auto. now apply (program_done (Some m)).
  - right. split; auto. now apply program_full.
Qed.
Lemma total_repeat b j k n : total b (repeat j n) k = n * left b j k.
Proof. induction n as [|n IH]; auto. cbn [repeat]. rewrite total_cons, IH. lia. Qed.
Lemma exhausted m b j t : is_mpi_back (rj_back j) = true -> live_in RComm t <= m -> exists n, program (Some m) b (repeat j n) t = Full.
Proof.
  intros B H. exists (S m). apply program_full; auto. rewrite total_repeat.
  assert (4 <= left b j RComm) by (unfold left; destruct (rj_back j); try discriminate; destruct (rb_nccl b); lia). nia.
Qed.
Lemma never_bad c b js t : match c with Some m => live_in RComm t <= m | None => True end -> program c b js t <> Bad.
Proof.
  destruct c as [m|]; intros H.
  - destruct (completes_iff m b js t H) as [[_ [t' ->]]|[_ ->]]; discriminate.
  - destruct (program_done None b js t I) as [t' ->]. discriminate.
Qed.
Lemma calls_leave_nothing c b bk g xs t : 
  match c with Some m => live_in RComm t + left b (mk_rjob bk g []) RComm <= m | None => True end ->
  exists t1 t2, program c b [mk_rjob bk g []] t = Done t1 /\ program c b [mk_rjob bk g xs] t = Done t2 /\ forall k, live_in k t1 = live_in k t2.
Proof.
  intros H.
  destruct (program_done c b [mk_rjob bk g []] t) as [t1 E1]. { destruct c; auto. rewrite total_cons. change (total b [] RComm) with 0. lia. }
  destruct (program_done c b [mk_rjob bk g xs] t) as [t2 E2]. { destruct c; auto. rewrite total_cons. change (total b [] RComm) with 0. unfold left in *. cbn [rj_back rj_grid] in *. lia. }
  exists t1, t2. split; auto. split; auto. intros k. destruct (program_effect _ _ _ _ _ E1) as [_ C1]. destruct (program_effect _ _ _ _ _ E2) as [_ C2].
  rewrite C1, C2. reflexivity.
Qed.
Lemma balanced_iff b js k : total b js k = 0 <-> Forall (fun j => left b j k = 0) js.
Proof.
  induction js as [|j js IH]; [cbn; split; auto|]. rewrite total_cons. split; intros H.
  - constructor; [lia|]. apply IH. lia.
  - inversion H. subst. apply IH in H3. lia.
Qed.
Lemma clean_iff b js : (forall k, total b js k = 0) <-> Forall (fun j => rj_back j = BSeq \/ rj_back j = BInplace) js.
Proof.
  split.
  - intros H. pose proof (proj1 (balanced_iff b js RComm) (H RComm)) as A. pose proof (proj1 (balanced_iff b js RBlas) (H RBlas)) as B.
    rewrite Forall_forall in *. intros j Hj. specialize (A j Hj). specialize (B j Hj). unfold left in *.
    destruct (rj_back j); auto; try discriminate; destruct (rb_nccl b); discriminate.
  - intros H k. apply balanced_iff. rewrite Forall_forall in *. intros j Hj. unfold left. destruct (H j Hj) as [-> | ->]; now destruct k.
Qed.
