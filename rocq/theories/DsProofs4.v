(** Gathering by broadcasts; the Householder QR of the distributed backend. *)
From Coq Require Import List Arith Bool ZArith Lia.
Require Import Verif.Base Verif.AlgModel Verif.DlaModel Verif.ColModel Verif.DistModel Verif.DistSpec Verif.DistProofs Verif.DistProofs2 Verif.FlatModel Verif.FlatSpec Verif.FlatProofs Verif.FlatProofs2 Verif.FlatProofs4 Verif.RedistModel Verif.RedistSpec Verif.RedistProofs Verif.GatherProofs Verif.GatherProofs2.
Require Import Verif.SpmdModel Verif.SpmdSpec Verif.SpmdProofs Verif.SpmdProofs2 Verif.KerModel Verif.KerSpec Verif.KerProofs1 Verif.KerProofs3 Verif.KerProofs5 Verif.KerProofs8 Verif.KerProofs9.
Require Import Verif.ClientModel Verif.DsModel Verif.DsSpec.
Require Import Verif.AlgProofs1 Verif.FilterProofs Verif.DsProofs1 Verif.DsProofs2 Verif.DsProofs3.
Import ListNotations.

Section Collect.
Context {T : Type} (add : T -> T -> T).
Variables (N block p : nat) (own lens offs : list (list nat)) (V : nat -> nat -> T) (C : nat -> list T).
Hypothesis Hp : 0 < p.
Hypothesis Lo : length own = p.
Hypothesis HT : tabs_of own lens offs.
Hypothesis HP : length (concat own) = N.
Hypothesis HC : forall i ow, nth_error own i = Some ow -> holds ow 0 block (length ow) V (C i) /\ length ow * block <= length (C i) /\ (Z.of_nat (length ow * block) < 2 ^ 31)%Z.
Variables (buf : list T).
Hypothesis Lb : N * block <= length buf.
Let ms := map (@length nat) own.
Let displs := displs_all 0 lens.
Let d k := list_sum (map (@length nat) (firstn k own)).
Let tgt := fun k => match nth_error (concat own) (k mod N) with Some g => Some (V g (k / N)) | None => nth_error buf k end.
Let part k x := exists ow, nth_error own k = Some ow /\ d k <= x < d k + length ow.
Let dn (i k : nat) x y := y < block /\ exists k', k' < k /\ k' <> i /\ part k' x.

Lemma part_move k ow D1 done : nth_error own k = Some ow -> Verif.FlatProofs.prog N buf tgt done D1 ->
  exists D2, move (length ow) N (length ow) 0 (d k) 0 block (C k) D1 = Ok D2 /\ Verif.FlatProofs.prog N buf tgt (fun x y => done x y \/ (y < block /\ part k x)) D2.
Proof.
  intros Ek P. pose proof (own_le N own lens offs HT HP _ _ Ek) as B. pose proof (own_pos N own lens offs HT HP _ _ Ek) as Bp. fold (d k) in B.
  destruct (move_spec (length ow) N (length ow) 0 (d k) 0 block (C k) D1 buf tgt _ P) as (b' & E & P'); try lia.
  - intros c t Hc Ht. cbn [Nat.add]. destruct (nth_error ow t) as [g|] eqn:Eg; [|apply nth_error_None in Eg; lia].
    exists (V g c). split; [eapply HC; eauto|]. unfold tgt. rewrite pos_mod, pos_div by lia. unfold d. now rewrite (concat_nth own k ow t g Ek Eg).
  - exists b'. split; auto. eapply prog_ext; [|exact P']. intros x y. cbv beta. unfold part. split.
    + intros [H|[H1 H2]]; auto. right. split; [lia|]. eauto.
    + intros [H|(H1 & ow' & H2 & H3)]; auto. right. rewrite Ek in H2. inversion H2; subst. lia.
Qed.
Lemma d0 k ow : nth_error own k = Some ow -> exists ds, rd displs k = Ok ds /\ rd ds 0 = Ok (d k).
Proof.
  intros Ek. destruct (lookup_all N own lens offs HT HP k ow Ek) as (ls & os & ds & E1 & E2 & E3 & A1 & A2 & A3 & A4 & A5 & A6). exists ds. split; [now apply rd_ok|]. apply rd_ok. rewrite (A6 0 A4). simpl. now rewrite Nat.add_0_r.
Qed.

Lemma crun_collect_bcasts : forall todo k D1, k + todo = p ->
  (forall i, i < p -> Verif.FlatProofs.prog N buf tgt (dn i k) (D1 i)) ->
  crun add ColC p (fun i D' => Verif.FlatProofs.prog N buf tgt (dn i p) D') (fun i => collect_bcasts N block i displs (C i) (skipn k ms) k (D1 i)).
Proof.
  induction todo; intros k D1 Hk P.
  - rewrite (skipn_all2 ms) by (unfold ms; rewrite map_length; lia). cbn [collect_bcasts]. apply crun_done. intros i Hi. exists (D1 i). split; auto. replace p with k by lia. auto.
  - destruct (nth_error own k) as [ow|] eqn:Ek; [|apply nth_error_None in Ek; lia]. destruct (HC k ow Ek) as (H1 & H2 & H3).
    assert (Em : skipn k ms = length ow :: skipn (S k) ms).
    { unfold ms. rewrite !skipn_map. assert (X : skipn k own = ow :: skipn (S k) own). { clear -Ek. revert own Ek. induction k; intros [|x l] E; simpl in *; try discriminate; [congruence|]. now apply IHk. } rewrite X. reflexivity. }
    rewrite Em. cbn [collect_bcasts]. destruct (d0 k ow Ek) as (ds & Ed1 & Ed2).
    rewrite mpi_count_small by auto. assert (Z0 : (Z.of_nat (length ow * block) <? 0)%Z = false) by (apply Z.ltb_ge; lia). rewrite Z0, Nat2Z.id.
    set (ys := firstn (length ow * block) (C k)).
    assert (Ey : get_range (C k) 0 (length ow * block) = Ok ys) by (rewrite get_range_ok by lia; reflexivity).
    assert (Ly : length ys = length ow * block) by (unfold ys; rewrite firstn_length; lia).
    assert (Gy : forall c, 0 <= c < 0 + block -> get_range ys ((c - 0) * length ow) (length ow) = get_range (C k) (0 + c * length ow) (length ow)).
    { intros c [_ Hc]. cbn [Nat.add] in *. assert (c * length ow + length ow <= length ow * block) by nia. rewrite Nat.sub_0_r, !get_range_ok by lia. f_equal. unfold ys. rewrite skipn_firstn_comm, firstn_firstn, Nat.min_l by lia. reflexivity. }
    assert (HM : forall i, i < p -> exists D2, unpack N (length ow) (d k) 0 block ys (D1 i) = Ok D2 /\ Verif.FlatProofs.prog N buf tgt (fun x y => dn i k x y \/ (y < block /\ part k x)) D2).
    { intros i Hi. rewrite (unpack_move (length ow) N (length ow) 0 (d k) 0 block (C k) ys (D1 i) Gy). apply (part_move _ _ _ _ Ek (P i Hi)). }
    destruct (fin_choice0 p _ Hp HM) as [D2 HD2].
    apply (crun_ext add ColC p _ (fun i => Call ColC (ABcast k (length ow * block) (if i =? k then ys else []))
      (if i =? k then (fun _ => collect_bcasts N block i displs (C i) (skipn (S k) ms) (S k) (D1 i))
       else fun re => match re with
                     | RNums ys => pbind (local (unpack N (length ow) (d k) 0 block ys (D1 i))) (fun D => collect_bcasts N block i displs (C i) (skipn (S k) ms) (S k) D)
                     | RFlag _ => Bad end))).
    { intros i Hi. destruct (i =? k) eqn:E.
      - apply Nat.eqb_eq in E. subst i. rewrite Ey. reflexivity.
      - rewrite Ed1. cbn [local pbind]. rewrite Ed2. cbn [local pbind]. rewrite (Nat.mul_comm block). reflexivity. }
    eapply crun_call; [apply offers_map|apply (respond_bcast add p k (length ow * block) (fun i => if i =? k then ys else [])); [lia|cbv beta; rewrite Nat.eqb_refl; exact Ly]|].
    cbv beta. rewrite Nat.eqb_refl. cbn [resume].
    apply (crun_ext add ColC p _ (fun i => collect_bcasts N block i displs (C i) (skipn (S k) ms) (S k) (if i =? k then D1 i else D2 i))).
    { intros i Hi. destruct (i =? k) eqn:E; [reflexivity|]. destruct (HD2 i Hi) as [E2 _]. now rewrite E2. }
    apply IHtodo; [lia|]. intros i Hi. destruct (i =? k) eqn:E.
    + apply Nat.eqb_eq in E. subst i. eapply prog_ext; [|apply P; auto]. intros x y. unfold dn. split.
      * intros (B1 & k' & B2 & B3 & B4). split; auto. exists k'. split; [lia|auto].
      * intros (B1 & k' & B2 & B3 & B4). split; auto. exists k'. split; [lia|auto].
    + apply Nat.eqb_neq in E. destruct (HD2 i Hi) as [_ P2]. eapply prog_ext; [|exact P2]. intros x y. cbv beta. unfold dn. split.
      * intros [(B1 & k' & B2 & B3 & B4)|[B1 B2]]; (split; [auto|]); [exists k'; split; [lia|auto]|exists k; split; [lia|split; [congruence|auto]]].
      * intros (B1 & k' & B2 & B3 & B4). destruct (Nat.eq_dec k' k) as [->|Ne]; [right; auto|]. left. split; auto. exists k'. split; [lia|auto].
Qed.

Lemma crun_part (e : nat -> env) (t : nat -> gtab) : (forall i, i < p -> e_i (e i) = i /\ g_N (t i) = N /\ g_ms (t i) = ms /\ g_lens (t i) = lens /\ g_offs (t i) = offs) ->
  crun add ColC p (fun i D2 => gathered N block V (concat own) buf D2) (fun i => collect_part (e i) (t i) block (C i) buf).
Proof.
  intros He. unfold collect_part. apply (crun_ext add ColC p _ (fun i =>
    let? buf := collect_bcasts N block i displs (C i) ms 0 buf in
    let? m := local (rd ms i) in let? ds := local (rd displs i) in let? d := local (rd ds 0) in
    local (move m N m 0 d 0 block (C i) buf))).
  { intros i Hi. destruct (He i Hi) as (E1 & E2 & E3 & E4 & E5). now rewrite E1, E2, E3, E4. }
  apply (crun_bind add ColC p (fun i D' => Verif.FlatProofs.prog N buf tgt (dn i p) D')); auto.
  - apply (crun_collect_bcasts p 0 (fun _ => buf)); auto. intros i Hi. split; auto. intros k. split; auto. intros (_ & k' & B & _). lia.
  - intros D1 HD1. apply crun_done. intros i Hi. destruct (nth_error own i) as [ow|] eqn:Ei; [|apply nth_error_None in Ei; lia].
    assert (Em : rd ms i = Ok (length ow)) by (apply rd_ok; unfold ms; rewrite nth_error_map, Ei; reflexivity). rewrite Em. cbn [local pbind].
    destruct (d0 i ow Ei) as (ds & Ed1 & Ed2). rewrite Ed1. cbn [local pbind]. rewrite Ed2. cbn [local pbind].
    destruct (part_move i ow (D1 i) _ Ei (HD1 i Hi)) as (D2 & E2 & P2). rewrite E2. cbn [local pbind].
    exists D2. split; [reflexivity|]. destruct P2 as [L2 P2]. split; auto. split.
    + intros a g c Ha Hc. assert (a < N) by (rewrite <- HP; apply nth_error_Some; congruence). destruct (P2 (a + c * N)) as [P1 _]. rewrite pos_mod, pos_div in P1 by lia. rewrite P1.
      * unfold tgt. now rewrite pos_mod, pos_div, Ha by lia.
      * destruct (concat_find own a) as (j & l & u & A1 & A2 & A3); [rewrite HP; auto|]. fold (d j) in A3. assert (Hpj : part j a) by (exists l; split; auto; lia).
        assert (j < p) by (rewrite <- Lo; apply nth_error_Some; congruence). destruct (Nat.eq_dec j i) as [->|Ne]; [right; split; [lia|auto]|]. left. split; [lia|]. eauto.
    + intros k Hk. apply P2. intros [[F _]|[F _]]; lia.
Qed.

Variable target : list T.
Hypothesis Lt : N * block <= length target.
Hypothesis HPerm : forall g, g < N -> exists j ow, nth_error own j = Some ow /\ In g ow.
Hypothesis HIn : forall j ow g, nth_error own j = Some ow -> In g ow -> g < N.
Lemma crun_sorted (e : nat -> env) (t : nat -> gtab) : (forall i, i < p -> e_i (e i) = i /\ g_N (t i) = N /\ g_ms (t i) = ms /\ g_lens (t i) = lens /\ g_offs (t i) = offs) ->
  (forall i, i < p -> g_cyc (t i) = true) ->
  crun add ColC p (fun i t' => gathered N block V (seq 0 N) target t') (fun i => collect_prog (e i) (t i) block (C i) buf target).
Proof.
  intros He Hc. unfold collect_prog. apply (crun_ext add ColC p _ (fun i =>
    let? buf := collect_part (e i) (t i) block (C i) buf in local (gather_sort N block displs lens offs buf target))).
  { intros i Hi. destruct (He i Hi) as (E1 & E2 & E3 & E4 & E5). rewrite (Hc i Hi), E2, E4, E5. reflexivity. }
  apply (crun_bind add ColC p (fun i D2 => gathered N block V (concat own) buf D2)); auto.
  - now apply crun_part.
  - intros D2 G. apply crun_done. intros i Hi.
    destruct (gather_sort_ok N block own lens offs V HT HP) with (buf0 := buf) (buf := D2 i) (target := target) as (t' & E & G'); auto.
    unfold displs. rewrite E. exists t'. split; [reflexivity|exact G'].
Qed.
End Collect.
(** both layouts *)
Lemma crun_collect {T} (add : T -> T -> T) N block p own lens offs V C : 0 < p -> length own = p -> tabs_of own lens offs -> length (concat own) = N ->
  (forall i ow, nth_error own i = Some ow -> holds ow 0 block (length ow) V (C i) /\ length ow * block <= length (C i) /\ (Z.of_nat (length ow * block) < 2 ^ 31)%Z) ->
  forall buf, N * block <= length buf -> forall target, N * block <= length target ->
  (forall g, g < N -> exists j ow, nth_error own j = Some ow /\ In g ow) -> (forall j ow g, nth_error own j = Some ow -> In g ow -> g < N) ->
  forall (e : nat -> env) (t : nat -> gtab),
  (forall i, i < p -> e_i (e i) = i /\ g_N (t i) = N /\ g_ms (t i) = map (@length nat) own /\ g_lens (t i) = lens /\ g_offs (t i) = offs) ->
  (forall i, i < p -> g_cyc (t i) = true) \/ ((forall i, i < p -> g_cyc (t i) = false) /\ concat own = seq 0 N) ->
  crun add ColC p (fun i t' => gathered N block V (seq 0 N) target t') (fun i => collect_prog (e i) (t i) block (C i) buf target).
Proof.
  intros Hp Lo HT HP HC buf Lb target Lt H1 H2 e t He [Hc|[Hc Hs]].
  - eapply crun_sorted; eauto.
  - apply (crun_ext add ColC p _ (fun i => collect_part (e i) (t i) block (C i) target)).
    { intros i Hi. unfold collect_prog. now rewrite (Hc i Hi). }
    rewrite <- Hs. eapply crun_part; eauto.
Qed.

Section Calls.
Context {F D : Type} (o : sops D) (fo : fops F) (inj : F -> D) (re : D -> F) (oc : oracles D) (RT : is_ring o).
Variables (N p q mb nb rsrc csrc n : nat) (ldh : nat -> nat -> nat).
Hypothesis HL : layout N p q mb nb rsrc csrc.
Notation rows := (owned N mb p rsrc).
Notation cols := (owned N nb q csrc).
Notation env i j := (bc_env N p q mb nb rsrc csrc (ldh i j) n i j).
Notation V := (nat -> D).
Notation bl := (gblas o fo inj re oc N mb p rsrc).
Notation L := (colD fo bl true n).
Notation cst := (cst (V := V) (M := nat -> nat -> D)).
Notation blk := (blk o).
Notation hp i j := (holds_part o n (rows i) (cols j) (ldh i j)).
Variables (tab : nat -> nat -> gtab).
Notation kr i j c := (ker o fo inj re oc (env i j) (tab i j) c).
Hypothesis Htab : forall i j, i < p -> j < q -> bc_ctor N mb p rsrc i = Ok (g_R (tab i j)) /\ bc_ctor N nb q csrc j = Ok (g_C (tab i j)) /\
  g_N (tab i j) = N /\ g_ms (tab i j) = bc_send_lens N mb p rsrc /\
  exists st, (forall k, k < p -> bc_blocks_of N mb p rsrc k = Ok (st k)) /\
    g_lens (tab i j) = map (fun k => t_lens (st k)) (seq 0 p) /\ g_offs (tab i j) = map (fun k => t_offs (st k)) (seq 0 p).
Hypothesis Hcyc : (forall i j, i < p -> j < q -> g_cyc (tab i j) = true) \/
  ((forall i j, i < p -> j < q -> g_cyc (tab i j) = false) /\ concat (map rows (seq 0 p)) = seq 0 N).
Hypothesis Hr : forall i, i < p -> (Z.of_nat (length (rows i) * n) < 2 ^ 31)%Z.
Hypothesis Hn0 : 0 < n.
Notation spread := (spread o N p q mb nb rsrc csrc n ldh).
Notation after := (after o N p q mb nb rsrc csrc n ldh).

Lemma call_hhqr l g s g' : spread g s -> d_hhqr L l g = Ok g' -> good (sadd o) p q (after tt g') (fun i j => kr i j (QHhqr l) (s i j)).
Proof.
  intros HS E. pose proof (Pp _ _ _ _ _ _ _ HL) as P0. pose proof (Pq _ _ _ _ _ _ _ HL) as Q0. pose proof HL as (L1 & L2 & L3 & L4 & L5 & L6).
  assert (Hall : p <= nblocks N mb). { apply (bc_all_safe_iff N mb p rsrc); auto. intros i Hi. exists (g_R (tab i 0)). now apply Htab. }
  cbn [d_hhqr colD] in E. unfold c_hhqr in E. apply bind_ok in E as (g1 & E1 & E). apply set_C_inv in E1; [|now destruct (HS 0 0 P0 Q0) as [_ [X _] _ _ _ _ _]].
  assert (Ln : length (cs_C g) = n) by now destruct (HS 0 0 P0 Q0) as [_ [X _] _ _ _ _ _].
  subst g1. inversion E; subst g'; clear E. cbn [cs_H cs_C cs_B cs_C2 cs_B2 cs_bAc orb].
  set (own := map rows (seq 0 p)).
  destruct (proj2 (proj2 (proj2 (proj2 (Htab 0 0 P0 Q0))))) as (st & Hst & El & Eo).
  assert (HT := own_tabs N mb p rsrc L1 L3 Hall st Hst). fold own in HT. rewrite <- El, <- Eo in HT. set (lens := g_lens (tab 0 0)) in *. set (offs := g_offs (tab 0 0)) in *.
  assert (Hsame : forall i j, i < p -> j < q -> g_lens (tab i j) = lens /\ g_offs (tab i j) = offs).
  { intros i j Hi Hj. destruct (proj2 (proj2 (proj2 (proj2 (Htab i j Hi Hj))))) as (st' & Hst' & El' & Eo'). rewrite El', Eo', El, Eo.
    split; apply map_ext_in; intros k Hk; apply in_seq in Hk; f_equal; specialize (Hst k ltac:(lia)); specialize (Hst' k ltac:(lia)); congruence. }
  set (new := map (b_hh bl (cs_C g)) (seq 0 n)).
  assert (Lnew : length new = n) by (unfold new; now rewrite map_length, seq_length).
  cbn [ker]. set (g' := mk_cst _ _ _ _ _ _).
  apply (good_bind (sadd o) p q (fun i j s' => hp i j g' s') _ (fun i j => p_hhqr o oc (env i j) (tab i j) (s i j)) (fun i j s => Ret (done_ s))); auto.
  2:{ intros a Ha. apply good_done. intros i j Hi Hj. exists (done_ (a i j)). split; auto. split; [reflexivity|]. apply Ha; auto. }
  unfold p_hhqr.
  apply (good_phase (sadd o) p q _ P0 Q0 ColC (fun j i V => V = flat (seq 0 N) (cs_C g))
    (fun j i => collect_prog (env i j) (tab i j) (e_nevex (env i j)) (l_C (s i j)) (repeat (s0 o) (e_nevex (env i j) * g_N (tab i j))) (repeat (s0 o) (e_nevex (env i j) * g_N (tab i j))))
    (fun i j V => let Q := or_hh oc (g_N (tab i j)) (e_nevex (env i j)) V in
       pbind (local (pre_application (g_N (tab i j)) (g_R (tab i j)) 0 (e_nevex (env i j)) (flat_map (fun c => map (fun g => Q g c) (seq 0 (g_N (tab i j)))) (seq 0 (e_nevex (env i j)))) (l_C (s i j))))
         (fun C => Ret (mk_loc (l_H (s i j)) C (l_C2 (s i j)) (l_B (s i j)) (l_B2 (s i j)) (l_A (s i j)) true true)))).
  - intros j Hj. cbn [ncomm] in Hj. cbn [csize]. change (fun i => e_nevex (env i j)) with (fun _ : nat => n).
    apply (crun_ext _ _ _ _ (fun i => collect_prog (env i j) (tab i j) n (l_C (s i j)) (repeat (s0 o) (n * N)) (repeat (s0 o) (n * N)))).
    { intros i Hi. destruct (Htab i j Hi Hj) as (_ & _ & EN & _). rewrite EN. reflexivity. }
    eapply crun_mono; [|apply (crun_collect (sadd o) N n p own lens offs (blk (cs_C g)) (fun i => l_C (s i j)) P0)].
    + intros i t Hi (G1 & G2 & _). rewrite repeat_length in G1.
      assert (CC : carries (seq 0 N) (cs_C g) t). { apply (nth_error_carries o); rewrite Ln, seq_length; [lia|]. intros a c x Ha Hc. apply G2; auto; lia. }
      destruct CC as [rest Er]. assert (X : length t = length (flat (seq 0 N) (cs_C g)) + length rest) by (rewrite Er at 1; apply app_length).
      rewrite flat_len, seq_length, Ln, G1 in X. destruct rest; [|simpl in X; lia]. now rewrite app_nil_r in Er.
    + unfold own. now rewrite map_length, seq_length.
    + exact HT.
    + now apply (own_total N mb p rsrc).
    + intros i ow Ho. apply (own_nth N mb p rsrc) in Ho as [Hi ->]; auto. destruct (HS i j Hi Hj) as [_ [_ HC] _ _ _ _ _]. split; [apply carries_holds; auto; lia|]. split; [pose proof (carries_len _ _ _ HC); lia|auto].
    + rewrite repeat_length. lia.
    + rewrite repeat_length. lia.
    + apply (own_cover N mb p rsrc); auto.
    + apply (own_in N mb p rsrc); auto.
    + intros i Hi. destruct (Htab i j Hi Hj) as (_ & _ & E2 & E3 & _). destruct (Hsame i j Hi Hj) as [E4 E5]. rewrite E3, send_lens_own by auto. repeat split; auto.
    + destruct Hcyc as [X|[X Y]]; [left|right]; auto.
  - intros a Ha. apply good_done. intros i j Hi Hj. rewrite (Ha i j Hi Hj). destruct (Htab i j Hi Hj) as (ER & _ & EN & _). rewrite EN. cbn [e_nevex bc_env]. cbn zeta.
    assert (Ef : flat_map (fun c => map (fun x => or_hh oc N n (flat (seq 0 N) (cs_C g)) x c) (seq 0 N)) (seq 0 n) = flat (seq 0 N) new).
    { unfold flat at 2, new. rewrite flat_map_concat_map, flat_map_concat_map, map_map. cbn [b_hh gblas]. now rewrite Ln. }
    rewrite Ef. destruct (HS i j Hi Hj) as [H0 [_ H1] H2 H3 H4 H5 [H6 H7]].
    destruct (pre_application_ok N (g_R (tab i j)) (rows i) 0 n (blk new) (flat (seq 0 N) new) (l_C (s i j))) as (C' & EC & LC & HC & HK).
    + now apply (bc_describes N mb p rsrc i).
    + now apply (bc_lens_pos N mb p rsrc i).
    + intros x Hx. apply in_owned in Hx. tauto.
    + specialize (L5 i Hi). destruct (rows i); [congruence|simpl; lia].
    + pose proof (carries_holds o (seq 0 N) new (flat (seq 0 N) new) 0 n) as X. rewrite seq_length in X. apply X; [exists []; now rewrite app_nil_r|lia].
    + pose proof (carries_len _ _ _ H1). lia.
    + rewrite EC. eexists. split; [reflexivity|]. unfold g'; constructor; cbn [cs_H cs_C cs_C2 cs_B cs_B2 cs_bAc l_H l_C l_C2 l_B l_B2 l_A l_bAc l_bAc_dla]; auto.
      split; auto. apply (nth_error_carries o); [pose proof (carries_len _ _ _ H1) as X; rewrite Ln in X; change (length new * length (rows i) <= length C'); rewrite Lnew, LC; exact X|]. intros a0 c x Hx Hc. apply HC; auto; change (c < length new) in Hc; lia.
Qed.
End Calls.
