(** The single-GPU backend: wrapped statements, memory safety, and the state after a solve. *)
From Coq Require Import List Arith ZArith Bool Lia Permutation.
Require Import Verif.Base Verif.AlgModel Verif.AlgSpec Verif.AlgProofs1 Verif.AlgProofs2 Verif.AlgProofs3 Verif.AlgSim2 Verif.DlaModel Verif.DlaSim
  Verif.ColModel Verif.ColSpec Verif.ColProofs1 Verif.InplProofs Verif.ColProofs3 Verif.GpuModel Verif.GpuSpec Verif.GpuProofs1 Verif.GpuProofs2.
Import ListNotations.

Lemma sizes_glen {F V M} n (s : gst (F := F) (V := V) (M := M)) : gpu_sizes n s <-> glen n s.
Proof. unfold gpu_sizes, glen, ilen. tauto. Qed.

Section W.
Context {F V M G T : Type} (fo : fops F) (bl : blas F V M G T) (qe : qr_env F) (td : tridiag F) (cf : conf F).
Local Notation n := (c_nev cf + c_nex cf).
Local Notation gK := (cmK fo qe td (gpuD fo bl (c_nev cf + c_nex cf)) (c_nev cf) (c_nex cf)).
Context (sort_idx : list F -> list nat) (Hperm : forall keys, Permutation (sort_idx keys) (seq 0 (length keys))) (fsort : list F -> list F).

Lemma w_sorted (P : F -> Prop) g : order_on fo P -> gpu_sizes n (cm_dla g) -> conf_ok cf -> 1 <= c_maxiter cf -> no_late_shift bl n -> forall ritzv resid o s,
  solve fo gK fsort sort_idx cf g ritzv resid = Ok o -> o_exit o = Some s -> Forall P (o_ritz o) ->
  let V1 := g_V1 (cm_dla (o_k o)) in
  fsorted_upto fo (c_nev cf) (c_nev cf) (o_ritz o) /\ c_nev cf <= length (o_ritz o) /\ length V1 = n /\
  forall i v x, i < c_nev cf -> nth_error (o_ritz o) i = Some v -> nth_error V1 i = Some x -> ritz_pair_inpl fo bl (g_H (cm_dla g)) v x.
Proof. intros HO HG. apply sizes_glen in HG. intros. exact (gpu_sorted fo bl qe td cf sort_idx Hperm fsort g HG P HO H H0 H1 ritzv resid o s H2 H3 H4). Qed.

Lemma w_residuals g : gpu_sizes n (cm_dla g) -> conf_ok cf -> 1 <= c_maxiter cf -> no_late_shift bl n -> forall ritzv resid o s,
  solve fo gK fsort sort_idx cf g ritzv resid = Ok o -> o_exit o = Some s ->
  fsorted_upto fo (c_nev cf) (c_nev cf) (whole (ss_ritz s)) ->
  forall i v x r, i < c_nev cf -> nth_error (o_ritz o) i = Some v -> nth_error (g_V1 (cm_dla (o_k o))) i = Some x ->
  nth_error (o_res o) i = Some r -> ritz_pair_inpl fo bl (g_H (cm_dla g)) v x /\ ritz_resid fo bl (g_H (cm_dla g)) v x r.
Proof. intros HG. apply sizes_glen in HG. exact (gpu_residuals fo bl qe td cf sort_idx Hperm fsort g HG). Qed.

Lemma w_matrix g ritzv resid o : gpu_sizes n (cm_dla g) -> solve fo gK fsort sort_idx cf g ritzv resid = Ok o ->
  g_H (cm_dla (o_k o)) = g_H (cm_dla g) /\ gpu_sizes n (cm_dla (o_k o)) /\
  (o_exit o <> None -> g_V1 (cm_dla (o_k o)) = is_V1 (g_dev (cm_dla (o_k o)))) /\
  (o_exit o = None -> o_k o = g).
Proof.
  intros HG Hs. apply sizes_glen in HG. split; [exact (gpu_matrix fo bl qe td cf sort_idx Hperm fsort g HG ritzv resid o Hs)|].
  destruct (gpu_to_bare fo bl qe td cf sort_idx Hperm fsort g HG ritzv resid o Hs) as (o' & H' & E1 & E2 & EX). rewrite sizes_glen.
  destruct (o_exit o) as [s|] eqn:He; destruct (o_exit o') eqn:He'; try easy.
  - destruct EX as (_ & _ & ((X1 & X2 & X3) & X4)). rewrite X3 at 1. repeat split; auto; try apply X1; try congruence; discriminate.
  - destruct EX as (_ & X). repeat split; try apply X; try congruence. intros _.
    unfold solve in Hs. apply bind_ok in Hs as ([b k] & Hsym & Hs). destruct b; cbn [negb] in Hs.
    + exfalso. revert Hs. repeat (intros Hs; first [apply bind_ok in Hs as (? & _ & Hs) | apply bind_ok in Hs as ([? ?] & _ & Hs)]; revert Hs).
      intros Hs. repeat match type of Hs with context [let '(_, _) := ?p in _] => destruct p end.
      repeat (apply bind_ok in Hs as (? & _ & Hs); repeat match type of Hs with context [let '(_, _) := ?p in _] => destruct p end).
      injection Hs as <-. discriminate.
    + injection Hs as <-. cbn. destruct (c_symcheck cf); [|congruence]. cbn in Hsym. unfold lift_v in Hsym. cbn in Hsym. injection Hsym as _ <-. now destruct g.
Qed.

Lemma w_safe g ritzv resid : gpu_sizes n (cm_dla g) -> conf_ok cf -> (forall l, length (fsort l) = length l) ->
  n <= length ritzv -> n <= length resid -> 2 <= c_N cf -> 1 <= c_lanczositer cf -> c_approx cf = true ->
  (exists o, solve fo gK fsort sort_idx cf g ritzv resid = Ok o) \/
  (solve fo gK fsort sort_idx cf g ritzv resid = UB /\ degree_overflow fo gK sort_idx fsort cf g ritzv resid).
Proof.
  intros HG HC Hf L1 L2 HN HL HA. apply sizes_glen in HG.
  destruct (dla_solve_safe fo qe td cf sort_idx Hperm fsort Hf (gpuD fo bl n) (glen n) (gpu_dla_safe fo bl n) g ritzv resid HC L1 L2 HN HL)
    as [X|X]; auto.
  - rewrite HA. discriminate.
Qed.

Lemma w_locked g : gpu_sizes n (cm_dla g) -> conf_ok cf -> no_late_shift bl n -> forall k0 ritzv resid ub s0 s t,
  (if c_symcheck cf then k_sym gK g else Ok (true, g)) = Ok (true, k0) ->
  solve_init fo gK fsort cf k0 ritzv resid = Ok (ub, s0) ->
  reach fo gK sort_idx cf ub s0 s -> reach fo gK sort_idx cf ub s t ->
  let dV := fun x : @sstate F _ => is_V1 (g_dev (cm_dla (ss_k x))) in
  length (fst (ss_ritz s)) = ss_locked s /\ length (fst (ss_res s)) = ss_locked s /\ ss_locked s <= ss_locked t /\
  firstn (ss_locked s) (fst (ss_ritz t)) = fst (ss_ritz s) /\
  firstn (ss_locked s) (fst (ss_res t)) = fst (ss_res s) /\
  firstn (ss_locked s) (dV t) = firstn (ss_locked s) (dV s).
Proof. intros HG. apply sizes_glen in HG. exact (gpu_locked fo bl qe td cf sort_idx Hperm fsort g HG). Qed.

Lemma w_ignores l (H h h' : M) (U U' W W' : list V) sw r r' ritzv resid o :
  let g := mk_cm l (mk_gst H U (mk_ist h W W' sw) r) in let g' := mk_cm l (mk_gst H U' (mk_ist h' W W' sw) r') in
  gpu_sizes n (cm_dla g) -> gpu_sizes n (cm_dla g') ->
  solve fo gK fsort sort_idx cf g ritzv resid = Ok o ->
  exists o', solve fo gK fsort sort_idx cf g' ritzv resid = Ok o' /\ o_ritz o' = o_ritz o /\ o_res o' = o_res o /\
    (o_exit o <> None -> g_V1 (cm_dla (o_k o')) = g_V1 (cm_dla (o_k o))).
Proof. intros g g' HG HG'. apply sizes_glen in HG, HG'. exact (gpu_ignores fo bl qe td cf sort_idx Hperm fsort l H h h' U U' W W' sw r r' ritzv resid o HG HG'). Qed.
End W.
