(** Whole runs of the single-GPU backend on arrays, with exact library calls. *)
From Coq Require Import Permutation.
From mathcomp Require Import all_ssreflect all_algebra all_real_closed.
Require Import Verif.Base Verif.AlgModel Verif.AlgSpec Verif.AlgProofs2 Verif.AlgProofs4 Verif.AlgSim Verif.AlgSim2 Verif.DlaModel Verif.DlaSim Verif.ColModel Verif.ColSpec Verif.ColOrth Verif.ColRel
  Verif.GpuModel Verif.GpuSpec Verif.SfModel Verif.SfSpec Verif.SfProofs1 Verif.SfProofs4 Verif.SfProofs5 Verif.SiModel Verif.SiSpec Verif.SiProofs2 Verif.SgModel Verif.SgSpec Verif.SgProofs2 Verif.SgProofs3
  Verif.ExactSpec Verif.ExactSolve Verif.OrthSpec Verif.OrthProofs Verif.OrthSolve Verif.KyFan Verif.LapackSpec Verif.LapackProofs Verif.BackSpec Verif.BackSpec2 Verif.BackSolve
  Verif.SxSpec Verif.SxRel Verif.SxProofs1 Verif.SxProofs2 Verif.SxProofs3 Verif.SgRel.
Import Verif.ExactSpec Verif.OrthSpec Verif.ColSpec.
Set Implicit Arguments. Unset Strict Implicit. Unset Printing Implicit Defensive.
Import GRing.Theory Num.Theory.
Local Open Scope ring_scope.
Local Open Scope complex_scope.

Section Runs.
Variables (R : rcfType) (C : fieldType) (inj : {rmorphism R -> C}) (cj : {rmorphism C -> C}) (e : {rmorphism C -> R[i]}).
Variables (fo : fops R) (lb : flib R C) (qe : qr_env R) (td : tridiag R) (cf : conf R) (N ldh : nat).
Variables (fsort : list R -> list R) (si : list R -> list nat) (l0 : nat) (ritzv resid : list R) (f : gfs (F := R) (T := C)).
Local Notation n := (Nat.add (c_nev cf) (c_nex cf)).
Hypotheses (N1 : le 1 N) (NL : le N ldh) (HS : gflat_sizes N ldh n f).
Hypotheses (EF : exact_fops fo) (XL : exact_lib inj cj lb N n).
Local Notation Hm := (matrix_of N ldh (u_H f)).
Local Notation mb := (mxb fo lb N).
Local Notation cb := (col_blas fo lb N).
Local Notation gD := (gflatD fo lb N ldh n).
Local Notation f0 := (mk_cm l0 f).
Local Notation gm := (mk_gst Hm (vectors_of N n (u_V f))
  (mk_ist (matrix_of N N (SiModel.g_H (u_d f))) (vectors_of N n (SiModel.g_V1 (u_d f))) (vectors_of N n (g_V2 (u_d f))) (g_sw (u_d f))) (u_ritz f)).
Local Notation m0 := (mk_cm l0 gm).
Local Notation RA := (cmR (gflat_rel lb N ldh n (u_H f))).
Local Notation RC := (cmR (gstR (F := R) (@RV C N) (@RM C N))).
Local Notation K L := (cmK fo qe td L (c_nev cf) (c_nex cf)).

Lemma gm_start : RC m0 (mk_cm l0 (gpu_columns lb N ldh n f)).
Proof.
case: HS => [_ [S2 [_ [S4 [S5 _]]]]]; split=> //=; split; first exact: (windowE ldh XL).
split=> /=; first by rewrite (vectorsE S2); exact: v_f2.
split=> //=; split=> /=; first exact: (windowE N XL).
by split; last split=> //; rewrite /= ?(vectorsE S4) ?(vectorsE S5); exact: v_f2.
Qed.
Lemma gm_sizes : gpu_sizes n (cm_dla m0).
Proof. by case: HS => [_ [_ [_ [_ [_ [_ [S7 _]]]]]]]; do ! split=> //; exact: (size_vectors cf N). Qed.

Lemma gpu_chain (K1 : kernel R (DlaModel.cm (D := gfs (F := R) (T := C)))) K2 K3 o : kernel_rel K1 K2 RA -> kernel_rel K3 K2 RC -> solve fo K1 fsort si cf f0 ritzv resid = Ok o ->
  exists o', solve fo K3 fsort si cf m0 ritzv resid = Ok o' /\ o_ritz o' = o_ritz o /\ o_res o' = o_res o /\
    GpuModel.g_V1 (cm_dla (o_k o')) = vectors_of N n (u_V (cm_dla (o_k o))) /\ (forall s, o_exit o = Some s -> exists s', o_exit o' = Some s').
Proof.
move=> A B E.
have S1 := solve_rel fo _ _ _ A fsort si cf _ _ ritzv resid (g_start_rel lb cf N ldh N1 NL f HS l0).
have [b [Eb [[Ek Rk] [Er [Es Rx]]]]] := rel_ok_r _ _ _ _ S1 E.
have S2 := solve_rel fo _ _ _ B fsort si cf _ _ ritzv resid gm_start.
have [c [Ec [[Ek' [RH [RCc _]]] [Er' [Es' Rx']]]]] := rel_ok_l _ _ _ _ S2 Eb.
have [_ [_ [pC [lC _]]]] := Rk.
exists c; rewrite Er' Es' Er Es; do ! split=> //.
- apply: vs_inj; rewrite -(f2_lst RCc) -vectorsE ?(columns_packs _ _ _ _ N1 pC lC) //.
  by rewrite (packs_len _ N1 _ _ pC) lC PeanoNat.Nat.mul_comm.
- move=> s Ex; rewrite Ex in Rx; case Exb : (o_exit b) Rx Rx' => [sb|] // _; case Exc : (o_exit c) => [sc|] // _; by exists sc.
Qed.

Hypotheses (Hperm : forall keys, Permutation (si keys) (List.seq 0 (length keys))) (HC : conf_ok cf).
Hypotheses (IC : in_complex inj cj e) (HH : hermitian cj Hm) (HM : le 1 (c_maxiter cf)).
Lemma late3 g s : gflat_rel lb N ldh n (u_H f) g s -> late_garr fo lb N n g = late_gst cb n s.
Proof. by move=> [_ [_ [_ [_ [[_ [_ [_ [pC [lC _]]]]] _]]]]]; rewrite /late_garr (columns_packs _ _ _ _ N1 pC lC). Qed.

Lemma gpu_arrays o s : solve fo (K gD) fsort si cf f0 ritzv resid = Ok o -> o_exit o = Some s ->
  (chol_disabled qe \/ solve fo (K (stop_late (late_garr fo lb N n) gD)) fsort si cf f0 ritzv resid = Ok o) ->
  eigen_answer inj cj Hm (c_nev cf) n (o_ritz o) (vectors_of N n (u_V (cm_dla (o_k o)))) (o_res o).
Proof.
move=> E Hx HN.
have {HN} ES : solve fo (K (stop_late (late_garr fo lb N n) gD)) fsort si cf f0 ritzv resid = Ok o.
  case: HN => [Hd|h]; [exact: (disabled_run _ _ _ _ _ _ _ _ _ _ _ _ _ _ Hd E)|exact: h].
have HL := proj1 HS.
have KA := stop_kernel fo qe td (c_nev cf) (c_nex cf) _ _ _ _ _ late3 (gflat_dla fo lb N ldh n (u_H f) N1) (gflat_every_call fo lb qe td cf N ldh N1 NL (u_H f) HL).
have KB := stop_kernel fo qe td (c_nev cf) (c_nex cf) _ _ _ (late_gst mb n) (late_gst cb n)
   (fun s t (h : gstR (F := R) (@RV C N) (@RM C N) s t) => late_rel _ _ _ _ _ n _ _ (mx_sim fo lb N) (proj1 (proj2 (proj1 (proj2 (proj2 h))))))
   (gpu_rel fo _ _ _ _ _ (mx_sim fo lb N) n) (gpu_kernel fo _ _ _ _ _ (mx_sim fo lb N) n qe td (c_nev cf) (c_nex cf)).
have [o' [E' [Er [Es [EC Ex]]]]] := gpu_chain KA KB ES.
have [s' Hx'] := Ex _ Hx; have P := stop_late_run _ _ _ _ _ _ _ _ _ _ _ _ _ _ E'.
rewrite -EC -Er -Es.
exact: (gpu_answer Hperm EF (x_mv fo XL) (x_qr IC fo XL) (x_rr' IC fo XL HH) HH HC HM IC (x_vec fo XL) (erefl _ : GpuModel.g_H (cm_dla m0) = Hm) gm_sizes P Hx' (or_intror (or_intror E'))).
Qed.

(** ** with a fixed degree and no symmetry test the runs return *)
Hypotheses (Ho : c_opt cf = false) (Hs : c_symcheck cf = false) (Ha : c_approx cf = true) (Hf : forall l, length (fsort l) = length l).
Hypotheses (L1 : le n (length ritzv)) (L2 : le n (length resid)) (HN2 : le 2 (c_N cf)) (HLz : le 1 (c_lanczositer cf)).
Lemma gpu_total : chol_disabled qe -> exists o, solve fo (K gD) fsort si cf f0 ritzv resid = Ok o /\
  u_H (cm_dla (o_k o)) = u_H f /\ eigen_answer inj cj Hm (c_nev cf) n (o_ritz o) (vectors_of N n (u_V (cm_dla (o_k o)))) (o_res o).
Proof.
move=> Hd; have h : c_approx cf = false -> Logic.False by rewrite Ha.
have [[o E]|[_ D]] := gflat_safe fo lb qe td cf N ldh N1 NL f HS l0 si Hperm fsort ritzv resid HC Hf L1 L2 HN2 HLz (fun q => match h q with end).
  exists o; split=> //; split; first exact: (proj1 (gflat_after fo lb qe td cf N ldh N1 NL f HS l0 si Hperm fsort ritzv resid o E)).
  have [s Hx] := exits Hs E; exact: (gpu_arrays E Hx (or_introl Hd)).
by move: D => [k0 [ub [s0 [t [_ [_ [_ [_ [_ [Hc _]]]]]]]]]]; rewrite Ho in Hc.
Qed.
End Runs.
