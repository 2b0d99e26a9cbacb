(** The Lanczos routine of the CPU backends run on several start vectors at once. *)
From Coq Require Import List Arith ZArith Lia.
Require Import Verif.Base Verif.AlgModel Verif.AlgProofs1 Verif.DlaModel Verif.ColModel Verif.ColProofs1 Verif.LanczosSteps.
Import ListNotations.

Section Scatter.
Context {A B : Type}.
Lemma scatter (src : list A) (f : A -> B) (Mn k nv : nat) (d d' : list B) : k < Mn ->
  for_ nv 0 (fun i d => let! a := rd src i in wr d (k + Mn * i) (f a)) d = Ok d' ->
  length d' = length d /\ (forall i, i < nv -> nth_error d' (k + Mn * i) = option_map f (nth_error src i)) /\
  (forall j, (forall i, i < nv -> j <> k + Mn * i) -> nth_error d' j = nth_error d j).
Proof.
  intros Hk H.
  apply (for_inv_ok (fun m d' => length d' = length d /\ (forall i, i < m -> nth_error d' (k + Mn * i) = option_map f (nth_error src i)) /\
    (forall j, (forall i, i < m -> j <> k + Mn * i) -> nth_error d' j = nth_error d j))) in H; [exact H| |].
  - repeat split; auto. intros i Hi. lia.
  - intros m x y _ (L & I1 & I2) E. apply bind_ok in E as (a & Ea & E). apply wr_inv in E as [Hm ->]. apply rd_ok in Ea.
    rewrite upd_length. split; auto. split.
    + intros i Hi. destruct (Nat.eq_dec i m) as [->|N].
      * rewrite upd_same by auto. rewrite Ea. reflexivity.
      * rewrite upd_other by nia. apply I1. lia.
    + intros j Hj. rewrite upd_other by (intros Eq; apply (Hj m); lia). apply I2. intros i Hi. apply Hj. lia.
Qed.
End Scatter.

Section Vec.
Context {F V M G T : Type} (fo : fops F) (bl : blas F V M G T).
Local Notation steps := (lanczos_steps fo bl).

Lemma zip_nth {X Y Z} (f : X -> Y -> Z) l m i x y : nth_error l i = Some x -> nth_error m i = Some y -> nth_error (zip f l m) i = Some (f x y).
Proof.
  revert m i. unfold zip. induction l; intros [|b m] [|i]; cbn; intros Hx Hy; try discriminate; auto.
  now injection Hx as ->; injection Hy as ->.
Qed.
Lemma combine_nth' {X Y} (l : list X) (m : list Y) i x y : nth_error l i = Some x -> nth_error m i = Some y -> nth_error (combine l m) i = Some (x, y).
Proof. revert m i. induction l; intros [|b m] [|i]; cbn; intros Hx Hy; try discriminate; auto. now injection Hx as ->; injection Hy as ->. Qed.

Lemma ml_loop_runs H second n Mn nv i : i < nv -> forall todo k s s' x0 x1 b, k + S todo = Mn -> ml_len n Mn nv s ->
  (second = false -> Mn <= n) ->
  ml_loop fo bl (S todo) k H second Mn nv s = Ok s' ->
  nth_error (ml_v0 s) i = Some x0 -> nth_error (ml_v1 s) i = Some x1 -> nth_error (ml_b s) i = Some b ->
  let run := steps H (S todo) (if k =? 0 then None else Some (b, x0)) x1 in
  (forall j, j < S todo -> nth_error (ml_d s') (k + j + Mn * i) = option_map fst (nth_error run j)) /\
  (forall j, j < k -> nth_error (ml_d s') (j + Mn * i) = nth_error (ml_d s) (j + Mn * i)) /\
  (forall j, j < todo -> nth_error (ml_e s') (k + j + Mn * i) = option_map snd (nth_error run j)) /\
  (forall j, j < k -> nth_error (ml_e s') (j + Mn * i) = nth_error (ml_e s) (j + Mn * i)) /\
  nth_error (ml_e s') (Mn - 1 + Mn * i) = nth_error (ml_e s) (Mn - 1 + Mn * i) /\
  nth_error (ml_b s') i = option_map snd (nth_error run todo).
Proof.
  intros Hi. induction todo as [|todo IH]; intros k s s' x0 x1 b HM HL Hn Hs E0 E1 Eb; cbn [ml_loop] in Hs;
    (destruct (ml_body_ok fo bl n Mn nv k H second s HL ltac:(lia) ltac:(intros X; specialize (Hn X); lia)) as (s1 & v2 & Hb & HL1 & Lv));
    rewrite Hb in Hs; cbn [bind] in Hs;
    unfold ml_body in Hb; apply bind_ok in Hb as (C2 & _ & Hb); cbv zeta in Hb; apply bind_ok in Hb as (d & Hd & Hb).
  all: set (w := b_mulH bl H x1); set (a := b_tneg bl (b_dot bl x1 w)); set (w1 := b_axpy bl a x1 w);
    set (w2 := if k =? 0 then w1 else b_axpy bl (b_inj bl (f_neg fo b)) x0 w1).
  all: assert (Ew : nth_error (map (b_mulH bl H) (ml_v1 s)) i = Some w) by now rewrite nth_error_map, E1.
  all: assert (Ea : nth_error (map (b_tneg bl) (zip (b_dot bl) (ml_v1 s) (map (b_mulH bl H) (ml_v1 s)))) i = Some a)
    by (rewrite nth_error_map, (zip_nth _ _ _ _ _ _ E1 Ew); reflexivity).
  all: assert (Ew1 : nth_error (zip (fun av y => b_axpy bl (fst av) (snd av) y)
      (combine (map (b_tneg bl) (zip (b_dot bl) (ml_v1 s) (map (b_mulH bl H) (ml_v1 s)))) (ml_v1 s)) (map (b_mulH bl H) (ml_v1 s))) i = Some w1)
    by (rewrite (zip_nth _ _ _ _ _ _ (combine_nth' _ _ _ _ _ Ea E1) Ew); reflexivity).
  all: injection Hb as Hs1 Hv2.
  all: assert (Ew2 : nth_error v2 i = Some w2)
    by (rewrite <- Hv2; unfold w2; destruct (k =? 0); [exact Ew1|rewrite (zip_nth _ _ _ _ _ _ (combine_nth' _ _ _ _ _ Eb E0) Ew1); reflexivity]).
  all: rewrite Hv2 in Hs1.
  all: apply (scatter _ (fun a => b_re bl (b_tneg bl a))) in Hd; [|lia]; destruct Hd as (_ & D1 & D2).
  all: assert (Ed : nth_error d (k + Mn * i) = Some (b_re bl (b_tneg bl a))) by (rewrite D1, Ea by auto; reflexivity).
  all: assert (Dk : forall j, j < Mn -> j <> k -> nth_error d (j + Mn * i) = nth_error (ml_d s) (j + Mn * i))
    by (intros j Hj Nj; apply D2; intros i' Hi' Eq; assert (i' = i) by nia; subst; lia).
  - injection Hs as <-. subst s1. cbn [ml_d ml_e ml_b ml_len]. cbn [lanczos_steps].
    assert (Ek : match (if k =? 0 then None else Some (b, x0)) with None => w1 | Some (b, x0) => b_axpy bl (b_inj bl (f_neg fo b)) x0 w1 end = w2)
      by (unfold w2; destruct (k =? 0); reflexivity).
    fold w. fold a. fold w1. rewrite Ek. cbv zeta.
    repeat split; auto.
    + intros [|j] Hj; [|lia]. rewrite Nat.add_0_r. exact Ed.
    + intros j Hj. apply Dk; lia.
    + intros j Hj. lia.
    + rewrite nth_error_map, Ew2. reflexivity.
  - apply bind_ok in Hs as (s2 & Hx & Hs).
    destruct (ml_next_ok fo bl n Mn nv k s1 v2 HL1 Lv ltac:(lia)) as (s2' & Hx' & HL2). rewrite Hx in Hx'. injection Hx' as <-.
    unfold ml_next in Hx. cbv zeta in Hx. apply bind_ok in Hx as (e & He & Hx).
    apply (scatter _ (fun b => b)) in He; [|lia]. destruct He as (_ & X1 & X2).
    assert (Eb1 : nth_error (ml_b s1) i = Some (b_nrm2 bl w2)) by (subst s1; cbn [ml_b]; rewrite nth_error_map, Ew2; reflexivity).
    assert (Ee : nth_error e (k + Mn * i) = Some (b_nrm2 bl w2)) by (rewrite X1, Eb1 by auto; reflexivity).
    assert (Ek2 : forall j, j < Mn -> j <> k -> nth_error e (j + Mn * i) = nth_error (ml_e s1) (j + Mn * i))
      by (intros j Hj Nj; apply X2; intros i' Hi' Eq; assert (i' = i) by nia; subst; lia).
    assert (Ee1 : ml_e s1 = ml_e s) by (subst s1; reflexivity). rewrite Ee1 in Ek2.
    assert (Ev1 : nth_error (ml_v1 s2) i = Some (b_scal bl (b_inj bl (f_div fo (f_one fo) (b_nrm2 bl w2))) w2)).
    { injection Hx as <-. cbn [ml_v1]. rewrite (zip_nth _ _ _ _ _ _ Eb1 Ew2). reflexivity. }
    specialize (IH (k + 1) s2 s' x1 (b_scal bl (b_inj bl (f_div fo (f_one fo) (b_nrm2 bl w2))) w2) (b_nrm2 bl w2) ltac:(lia) HL2 Hn Hs).
    destruct IH as (A1 & A2 & A3 & A4 & A5 & A6); try exact Ev1.
    { injection Hx as <-. subst s1. cbn [ml_v0 ml_v1]. exact E1. }
    { injection Hx as <-. cbn [ml_b]. exact Eb1. }
    replace (k + 1 =? 0) with false in * by (symmetry; apply Nat.eqb_neq; lia).
    assert (Es2 : ml_d s2 = d /\ ml_e s2 = e) by (injection Hx as <-; subst s1; auto). destruct Es2 as [Es2 Es3]. rewrite Es2 in A2. rewrite Es3 in A4, A5.
    assert (ER : steps H (S (S todo)) (if k =? 0 then None else Some (b, x0)) x1 =
      (b_re bl (b_tneg bl a), b_nrm2 bl w2) :: steps H (S todo) (Some (b_nrm2 bl w2, x1)) (b_scal bl (b_inj bl (f_div fo (f_one fo) (b_nrm2 bl w2))) w2)).
    { unfold w2. destruct (k =? 0); reflexivity. }
    rewrite ER. repeat split.
    + intros [|j] Hj; cbn [nth_error].
      * rewrite Nat.add_0_r. rewrite (A2 k ltac:(lia)), Ed. reflexivity.
      * rewrite <- A1 by lia. f_equal. lia.
    + intros j Hj. rewrite A2 by lia. apply Dk; lia.
    + intros [|j] Hj; cbn [nth_error].
      * rewrite Nat.add_0_r. rewrite (A4 k ltac:(lia)), Ee. reflexivity.
      * rewrite <- A3 by lia. f_equal. lia.
    + intros j Hj. rewrite A4 by lia. apply Ek2; lia.
    + rewrite A5. apply Ek2; lia.
    + cbn [nth_error]. exact A6.
Qed.

Lemma mlanczos_runs H Mn nv C d e b C' : 1 <= Mn -> mlanczos fo bl H Mn nv C = Ok (d, e, b, C') -> (nv <> None -> Mn <= length C) ->
  forall i x, i < match nv with None => 1 | Some m => m end -> nth_error C i = Some x ->
  let run := lanczos_steps fo bl H Mn None (b_scal bl (b_inj bl (f_div fo (f_one fo) (b_nrm2 bl x))) x) in
  (forall k, k < Mn -> nth_error d (k + Mn * i) = option_map fst (nth_error run k)) /\
  (forall k, k < Mn - 1 -> nth_error e (k + Mn * i) = option_map snd (nth_error run k)) /\
  nth_error e (Mn - 1 + Mn * i) = Some (f_zero fo) /\
  nth_error b i = option_map snd (nth_error run (Mn - 1)).
Proof.
  intros HM H0 Hn i x Hi Hx. set (numvec := match nv with None => 1 | Some m => m end) in *. unfold mlanczos in H0.
  assert (E : (match nv with None => (true, 1) | Some n => (false, n) end) = (match nv with None => true | _ => false end, numvec)) by (unfold numvec; now destruct nv).
  rewrite E in H0. apply bind_ok in H0 as (st & Hst & H0). cbv zeta in H0. apply bind_ok in H0 as (s & Hs & H0). apply bind_ok in H0 as (C1 & _ & H0).
  injection H0 as <- <- <- _. apply get_range_inv in Hst as [Hle ->]. cbn [skipn] in *.
  assert (Hst : nth_error (firstn numvec C) i = Some x) by now rewrite AlgProofs1.nth_firstn.
  destruct Mn as [|Mn]; [lia|]. replace (S Mn - 1) with Mn in * by lia.
  assert (Z1 : forall m j, j < m -> nth_error (repeat (f_zero fo) m) j = Some (f_zero fo)).
  { intros m j Hj. rewrite (nth_error_nth' _ (f_zero fo)) by now rewrite repeat_length. now rewrite nth_repeat. }
  eapply (ml_loop_runs H _ (length C) (S Mn) numvec i Hi Mn 0) with (x0 := b_zero bl) in Hs.
  - destruct Hs as (A1 & _ & A3 & _ & A5 & A6). cbn [Nat.eqb] in *. rewrite <- A6. repeat split; auto.
    replace (S Mn - 1) with Mn in A5 by lia. rewrite A5. cbn [ml_e]. apply Z1. nia.
  - lia.
  - unfold ml_len. cbn [ml_C ml_v0 ml_v1 ml_d ml_e ml_b]. rewrite map_length, !repeat_length, firstn_length. repeat split; lia.
  - intros X. apply Hn. destruct nv; congruence.
  - cbn [ml_v0]. rewrite (nth_error_nth' _ (b_zero bl)) by now rewrite repeat_length. now rewrite nth_repeat.
  - cbn [ml_v1]. rewrite nth_error_map, Hst. reflexivity.
  - cbn [ml_b]. apply Z1. lia.
Qed.
End Vec.
