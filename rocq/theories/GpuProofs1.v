(** The single-GPU backend: bounds of every call; multi-vector Lanczos. *)
From Coq Require Import List Arith ZArith Bool Lia.
Require Import Verif.Base Verif.AlgModel Verif.AlgSpec Verif.AlgProofs1 Verif.DlaModel Verif.ColModel Verif.ColProofs1 Verif.InplProofs Verif.GpuModel.
Import ListNotations.

Section Safe.
Context {F V M G T : Type} (fo : fops F) (bl : blas F V M G T).

Lemma axpy_batch_length (a : list T) (x y : list V) : length x = length y -> length (axpy_batch bl a x y) = length y.
Proof. intros H. destruct a; cbn; auto. rewrite zip_length. lia. Qed.

Lemma g_body_ok n Mn nv k H second s : ml_len n Mn nv s -> k < Mn -> (second = false -> k < n) ->
  exists s' v2, g_body fo bl H second Mn nv k s = Ok (s', v2) /\ ml_len n Mn nv s' /\ length v2 = nv.
Proof.
  intros (L1 & L2 & L3 & L4 & L5 & L6) Hk Hc. unfold g_body.
  assert (HC : exists C, (if second then Ok (ml_C s)
    else for_ nv 0 (fun i C => let! x := rd (ml_v1 s) i in wr C k x) (ml_C s)) = Ok C /\ length C = n).
  { destruct second; [eauto|]. destruct (for_inv (fun _ C => length C = n) (fun i C => let! x := rd (ml_v1 s) i in wr C k x) nv 0 (ml_C s)) as (C & HC & LC); [exact L1| |exists C; split; auto].
    intros i C Hi LC. destruct (rd_in (ml_v1 s) i) as (x & ->); [lia|]. cbn [bind].
    rewrite wr_ok by (rewrite LC; auto). eexists. split; eauto. now rewrite upd_length. }
  destruct HC as (C & -> & LC). cbn [bind]. cbv zeta.
  match goal with |- context [for_ nv 0 (fun i d => let! a := rd ?al i in _) _] => set (alpha := al) end.
  assert (La : length alpha = nv). { unfold alpha. lens. }
  destruct (for_inv (fun _ d => length d = Mn * nv) (fun i d => let! a := rd alpha i in wr d (k + Mn * i) (b_re bl (b_tneg bl a))) nv 0 (ml_d s)) as (d & -> & Ld); auto.
  { intros i d Hi Ld. destruct (rd_in alpha i) as (x & ->); [lia|]. cbn [bind]. rewrite wr_ok by (rewrite Ld; nia).
    eexists. split; eauto. now rewrite upd_length. }
  cbn [bind]. do 2 eexists. split; [reflexivity|]. unfold ml_len. cbn [ml_C ml_v0 ml_v1 ml_d ml_e ml_b].
  rewrite map_length.
  assert (Y : forall a b : list V, length a = nv -> length b = nv -> length (if k =? 0 then a else b) = nv) by (destruct (k =? 0); auto).
  assert (X : forall a, length (axpy_batch bl a (ml_v1 s) (map (b_mulN bl H) (ml_v1 s))) = nv) by (intros a; rewrite axpy_batch_length; lens).
  rewrite Y; [repeat split; auto| |]; auto. rewrite axpy_batch_length; rewrite X; lia.
Qed.

Lemma g_loop_ok n Mn nv H second : forall todo k s, ml_len n Mn nv s -> k + todo <= Mn -> (second = false -> k + todo <= n) ->
  exists s', g_loop fo bl todo k H second Mn nv s = Ok s' /\ ml_len n Mn nv s'.
Proof.
  induction todo; intros k s Hs Hk Hn; cbn [g_loop]; [eauto|].
  destruct (g_body_ok n Mn nv k H second s) as (s1 & v2 & -> & L1 & Lv); auto; [lia|intros E; specialize (Hn E); lia|]. cbn [bind].
  destruct todo; [eauto|]. destruct (ml_next_ok fo bl n Mn nv k s1 v2) as (s2 & -> & L2); auto; [lia|]. cbn [bind].
  apply IHtodo; auto; [lia|intros E; specialize (Hn E); lia].
Qed.

Lemma g_lanczos_ok H Mn nv C : nv_of nv <= length C -> (nv <> None -> Mn <= length C) ->
  exists d e b C', g_lanczos fo bl H Mn nv C = Ok (d, e, b, C') /\ length d = Mn * nv_of nv /\ length e = Mn * nv_of nv /\
    length b = nv_of nv /\ length C' = length C.
Proof.
  intros Hv Hm. unfold g_lanczos.
  assert (E : (match nv with None => (true, 1) | Some n => (false, n) end) = (match nv with None => true | _ => false end, nv_of nv)) by now destruct nv.
  rewrite E. cbv zeta. acc.
  match goal with |- context [g_loop fo bl Mn 0 H ?sc Mn ?n ?s0] =>
    destruct (g_loop_ok (length C) Mn n H sc Mn 0 s0) as (s & -> & L1 & L2 & L3 & L4 & L5 & L6) end.
  { unfold ml_len. cbn [ml_C ml_v0 ml_v1 ml_d ml_e ml_b]. repeat split; lens. }
  { lia. } { intros Hs. apply Hm. destruct nv; [congruence|discriminate]. }
  cbn [bind]. destruct nv; cbn [nv_of] in *.
  - acc. do 4 eexists. split; [reflexivity|]. repeat split; auto; lia.
  - cbn [bind]. do 4 eexists. split; [reflexivity|]. repeat split; auto; lia.
Qed.

Lemma g_lanczos_len H Mn nv C d e b C' : g_lanczos fo bl H Mn nv C = Ok (d, e, b, C') -> length C' = length C.
Proof.
  unfold g_lanczos. destruct (match nv with None => _ | _ => _ end) as [second numvec]. intros X.
  apply bind_ok in X as (st & _ & X). cbv zeta in X. apply bind_ok in X as (s & Hs & X). apply bind_ok in X as (C1 & H1 & X).
  injection X as _ _ _ <-.
  assert (Y : forall todo k s s', g_loop fo bl todo k H second Mn numvec s = Ok s' -> length (ml_C s') = length (ml_C s)).
  { induction todo; intros k q q' Hq; cbn [g_loop] in Hq; [now injection Hq as <-|].
    apply bind_ok in Hq as ([s1 v2] & Hb & Hq).
    assert (length (ml_C s1) = length (ml_C q)).
    { unfold g_body in Hb. apply bind_ok in Hb as (C2 & Hc & Hb). cbv zeta in Hb. apply bind_ok in Hb as (dd & _ & Hb).
      injection Hb as <- _. cbn [ml_C]. destruct second; [now injection Hc as <-|].
      apply (for_inv_ok (fun _ C => length C = length (ml_C q))) in Hc; auto.
      intros i x y _ Hx Hy. apply bind_ok in Hy as (z & _ & Hy). apply wr_inv in Hy as [_ ->]. now rewrite upd_length. }
    destruct todo; [now injection Hq as <-|]. apply bind_ok in Hq as (s2 & Hn & Hq). apply IHtodo in Hq. rewrite Hq.
    unfold ml_next in Hn. cbv zeta in Hn. apply bind_ok in Hn as (ee & _ & Hn). injection Hn as <-. exact H0. }
  apply Y in Hs. cbn [ml_C] in Hs. destruct second; [injection H1 as <-; auto|]. apply put_range_length in H1. congruence.
Qed.

(** one start vector: the CPU routine, up to the product with H or its adjoint *)
Lemma zip_one {A B C} (f : A -> B -> C) x y : zip f [x] [y] = [f x y].
Proof. reflexivity. Qed.
Lemma g_body_one H second Mn k s : (forall x, b_mulN bl H x = b_mulH bl H x) -> length (ml_v1 s) = 1 -> length (ml_v0 s) = 1 -> length (ml_b s) = 1 ->
  g_body fo bl H second Mn 1 k s = ml_body fo bl H second Mn 1 k s.
Proof.
  intros E L1 L0 Lb. destruct s as [C v0 v1 d e b]. cbn [ml_v0 ml_v1 ml_b] in *.
  destruct v1 as [|x [|? ?]]; try discriminate. destruct v0 as [|y [|? ?]]; try discriminate. destruct b as [|z [|? ?]]; try discriminate.
  unfold g_body, ml_body. cbn [ml_C ml_v0 ml_v1 ml_d ml_e ml_b map combine zip axpy_batch fst snd]. now rewrite E.
Qed.
Lemma g_loop_one H second Mn n : (forall x, b_mulN bl H x = b_mulH bl H x) -> forall todo k s, ml_len n Mn 1 s -> k + todo <= Mn -> (second = false -> k + todo <= n) ->
  g_loop fo bl todo k H second Mn 1 s = ml_loop fo bl todo k H second Mn 1 s.
Proof.
  intros E. induction todo; intros k s Hs Hk Hn; cbn [g_loop ml_loop]; auto. pose proof Hs as (L1 & L2 & L3 & L4 & L5 & L6).
  rewrite g_body_one by auto.
  destruct (ml_body_ok fo bl n Mn 1 k H second s) as (s1 & v2 & -> & M1 & Lv); auto; [lia|intros X; specialize (Hn X); lia|]. cbn [bind].
  destruct todo; auto. destruct (ml_next_ok fo bl n Mn 1 k s1 v2) as (s2 & -> & M2); auto; [lia|]. cbn [bind].
  apply IHtodo; auto; [lia|intros X; specialize (Hn X); lia].
Qed.
Lemma g_lanczos_one H Mn nv C : (forall x, b_mulN bl H x = b_mulH bl H x) -> nv = None \/ nv = Some 1 -> 1 <= length C -> (nv <> None -> Mn <= length C) ->
  g_lanczos fo bl H Mn nv C = mlanczos fo bl H Mn nv C.
Proof.
  intros E Hnv HC Hm. unfold g_lanczos, mlanczos. destruct C as [|x C]; [cbn in HC; lia|].
  destruct Hnv as [-> | ->]; cbv zeta; (destruct (get_ok (x :: C) 0 1) as (st & -> & Ls); [cbn; lia|]); cbn [bind];
    (rewrite (g_loop_one H _ Mn (length (x :: C))); [reflexivity|auto| |lia|]).
  - unfold ml_len. cbn [ml_C ml_v0 ml_v1 ml_d ml_e ml_b]. repeat split; lens.
  - discriminate.
  - unfold ml_len. cbn [ml_C ml_v0 ml_v1 ml_d ml_e ml_b]. repeat split; lens.
  - intros _. cbn [plus]. apply Hm. discriminate.
Qed.

(** every call stays inside the arrays *)
Context (n : nat).
Definition glen (s : gst (F := F) (V := V) (M := M)) : Prop := ilen n (g_dev s) /\ length (g_V1 s) = n /\ length (g_ritz s) = n.

Ltac gd s := destruct s as [gh gv gd gr]; unfold glen in *; cbn [g_H g_V1 g_dev g_ritz] in *.
Lemma on_dev_ok (s : gst) (x : res (ist (V := V) (M := M))) : glen s -> (exists d, x = Ok d /\ ilen n d) -> exists s', on_dev s x = Ok s' /\ glen s'.
Proof. intros (A & B & C) (d & -> & Hd). unfold on_dev. cbn [bind]. eexists. split; [reflexivity|]. unfold glen. cbn. auto. Qed.
Lemma on_dev_v_ok {X} (s : gst) (x : res (X * ist (V := V) (M := M))) : glen s -> (exists v d, x = Ok (v, d) /\ ilen n d) -> exists v s', on_dev_v s x = Ok (v, s') /\ glen s'.
Proof. intros (A & B & C) (v & d & -> & Hd). unfold on_dev_v. cbn [bind]. do 2 eexists. split; [reflexivity|]. unfold glen. cbn. auto. Qed.

Ltac sv := match goal with H : ilen n ?s |- context [bind (i_save ?l ?s) _] => let s0 := fresh "s0" in let H0 := fresh "H0" in
    destruct (i_save_ok n l s) as (s0 & -> & H0); [auto|auto|cbn [bind]] end.
Ltac fc := match goal with H : ilen n ?s |- context [bind (i_factor bl n ?b ?s) _] => let i := fresh "i" in let R := fresh "R" in
    destruct (i_factor_ok bl n b s H) as (i & R & ->); cbn [bind] end.
Ltac st := match goal with H : ilen n ?s |- context [bind (i_set n ?s ?f) _] => let s0 := fresh "s0" in let H0 := fresh "H0" in
    destruct (i_set_ok n f s H) as (s0 & -> & H0); cbn [bind] end.
Lemma dv_chol2_ok l s : ilen n s -> l <= n -> exists i s', dv_chol2 bl n l s = Ok (i, s') /\ ilen n s'.
Proof. intros Hs Hl. unfold dv_chol2. sv. fc. destruct (negb _); [eauto|]. st. fc. st. eauto. Qed.
Lemma dv_schol2_ok l s : ilen n s -> l <= n -> exists i s', dv_schol2 bl n l s = Ok (i, s') /\ ilen n s'.
Proof. intros Hs Hl. unfold dv_schol2. sv. fc. destruct (negb _); [eauto|]. st. fc. destruct (negb _); [eauto|]. st. fc. st. eauto. Qed.
Lemma dv_resd_ok v locked unc s : ilen n s -> locked + unc <= n -> unc <= length v ->
  exists r s', dv_resd fo bl v locked unc s = Ok (r, s') /\ length r = unc /\ ilen n s'.
Proof.
  intros (L1 & L2) Hr Hv. unfold dv_resd. acc. acc. cbv zeta. acc. do 2 eexists. split; [reflexivity|]. split; [lens|]. unfold ilen; cbn; lens.
Qed.

Lemma gpu_dla_safe : dla_safe (gpuD fo bl n) n glen.
Proof.
  split; cbn [gpuD d_sym d_start d_end d_initrnd d_init d_shift d_apply d_hhqr d_chol1 d_chol2 d_schol2 d_lockcopy d_rr d_resd d_swap d_mlanczos d_dos];
    intros; eauto.
  - unfold g_sym. eauto.
  - gd d. destruct H as ((L1 & L2) & L3 & L4). unfold g_end. cbn [g_dev g_V1]. acc. acc. eexists. split; [reflexivity|]. unfold glen, ilen. cbn. lens.
  - apply on_dev_ok; auto. apply i_initrnd_ok. apply H.
  - gd d. destruct H as (L0 & L3 & L4). unfold g_init. cbn [g_dev g_H g_V1 g_ritz]. destruct (i_init_ok n gd L0) as (d' & -> & (L1 & L2)).
    cbn [bind]. eexists. split; [reflexivity|]. unfold glen, ilen. cbn. auto.
  - apply on_dev_ok; auto. unfold i_shift. eexists. split; eauto. apply H.
  - apply on_dev_ok; auto. apply i_apply_ok; auto. apply H.
  - apply on_dev_ok; auto. apply i_hhqr_ok; auto. apply H.
  - apply on_dev_v_ok; auto. apply i_chol1_ok; auto. apply H.
  - apply on_dev_v_ok; auto. apply dv_chol2_ok; auto. apply H.
  - apply on_dev_v_ok; auto. apply dv_schol2_ok; auto. apply H.
  - apply on_dev_ok; auto. apply i_lockcopy_ok; auto. apply H.
  - gd d. destruct H as (L0 & L3 & L4). unfold g_rr. cbn [g_dev g_H g_V1 g_ritz].
    destruct (i_rr_ok bl n blk l gd L0) as (v & d' & -> & Lv & Ld); [lia|]. cbn [bind]. acc. do 2 eexists. split; [reflexivity|]. split; [lia|].
    unfold glen. cbn. repeat split; try lia; apply Ld.
  - gd d. destruct H as (L0 & L3 & L4). unfold g_resd. cbn [g_dev g_ritz].
    destruct (dv_resd_ok gr l u gd L0) as (r & d' & -> & Lr & Ld); [lia|lia|]. unfold on_dev_v. cbn [bind].
    do 2 eexists. split; [reflexivity|]. split; [lia|]. unfold glen. cbn. auto.
  - apply on_dev_ok; auto. apply i_swap_ok; auto. apply H.
  - gd d. destruct H as ((L1 & L2) & L3 & L4). unfold g_mlanczos, dv_mlanczos. cbn [g_dev g_H g_V1 g_ritz].
    destruct (g_lanczos_ok (is_H gd) M0 nv (is_V1 gd)) as (a & e & b & C' & -> & X1 & X2 & X3 & X4); [lia|lia|]. cbn [bind].
    do 4 eexists. split; [reflexivity|]. unfold glen, ilen; cbn; repeat split; lia.
  - apply on_dev_ok; auto. apply i_dos_ok; auto. apply H.
Qed.
End Safe.
