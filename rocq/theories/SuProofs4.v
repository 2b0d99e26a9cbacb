(** Sessions on the arrays of one object, with exact library calls. *)
From Coq Require Import Permutation.
From mathcomp Require Import all_ssreflect all_algebra all_real_closed.
Require Import Verif.Base Verif.AlgModel Verif.AlgSpec Verif.DlaModel Verif.ColModel Verif.ColSpec Verif.SfModel Verif.SfSpec Verif.SiModel Verif.SgModel Verif.SgSpec Verif.SgProofs3 Verif.SgProofs4
  Verif.ExactSpec Verif.OrthSpec Verif.BackSpec2 Verif.SxSpec Verif.SxProofs3 Verif.ReuseSpec Verif.SuSpec Verif.SuSpec2 Verif.SuProofs1 Verif.SuProofs2 Verif.SuProofs3.
Import Verif.ExactSpec Verif.OrthSpec Verif.ColSpec.
Set Implicit Arguments. Unset Strict Implicit. Unset Printing Implicit Defensive.
Import GRing.Theory Num.Theory.
Local Open Scope ring_scope.
Local Open Scope complex_scope.

Section Session.
Variables (R : rcfType) (C : fieldType) (inj : {rmorphism R -> C}) (cj : {rmorphism C -> C}) (e : {rmorphism C -> R[i]}).
Variables (fo : fops R) (lb : flib R C) (qe : qr_env R) (td : tridiag R) (nev nex : nat) (N ldh : nat) (fsort : list R -> list R) (si : list R -> list nat).
Local Notation n := (Nat.add nev nex).
Local Notation jobT := (job (F := R) (V := C) (M := list C)).
Hypotheses (N1 : le 1 N) (NL : le N ldh) (EF : exact_fops fo) (IC : in_complex inj cj e) (XL : exact_lib inj cj lb N n).
Hypotheses (Hperm : forall keys, Permutation (si keys) (List.seq 0 (length keys))) (Hf : forall l, length (fsort l) = length l) (Hd : chol_disabled qe).

Local Notation xjob_ok := (xjob_ok cj nev nex N ldh).
Local Notation answer_ok := (answer_ok inj cj nev nex N ldh).
Local Notation run D := (fun (j : jobT) k => solve fo (cmK fo qe td D nev nex) fsort si (j_conf j) k (j_ritz j) (j_resid j)).

Lemma session_answers (D : Type) (vecs : D -> list C) (good : D -> Prop) (r : jobT -> DlaModel.cm (D := D) -> res (outcome (F := R) (St := DlaModel.cm (D := D)))) :
  (forall j s, xjob_ok j -> good (cm_dla s) -> exists o, r j s = Ok o /\ (exists x, o_exit o = Some x) /\ good (cm_dla (o_k o)) /\
    eigen_answer inj cj (matrix_of N ldh (j_H j)) nev n (o_ritz o) (vectors_of N n (vecs (cm_dla (o_k o)))) (o_res o)) ->
  forall jobs s, List.Forall xjob_ok jobs -> good (cm_dla s) -> List.Forall2 answer_ok jobs (session vecs r jobs s).
Proof.
move=> A; elim=> [|j l IH] s HJ HG /=; first by constructor.
inversion_clear HJ as [|? ? Hj Hl]; have [o [-> [[x Ex] [Go An]]]] := A _ _ Hj HG.
constructor; last exact: IH.
by exists (o_ritz o), (o_res o), (vecs (cm_dla (o_k o))); split; first by rewrite /answer Ex.
Qed.

Lemma seq_answers jobs s : le nex nev -> flat_sizes N ldh n (Nat.add nev nev) (cm_dla s) -> List.Forall xjob_ok jobs ->
  List.Forall2 answer_ok jobs (session f_C (fun j k => run (flatD fo lb N ldh n) j (load_flat j k)) jobs s).
Proof.
move=> HX HS HJ; apply: (session_answers (good := flat_sizes N ldh n (Nat.add nev nev))) HJ HS => j {}s.
move=> [[CF [E1 [E2 [LH [LV _]]]]] [HH [HM [Ho [Hs [Ha [L1 [L2 [HN HLz]]]]]]]]] [A1 [A2 [A3 [A4 [A5 A6]]]]].
have Hw : le n (Nat.add nev nev) by exact: (proj1 (PeanoNat.Nat.add_le_mono_l _ _ _) HX).
have S : flat_sizes N ldh n (Nat.add nev nev) (cm_dla (load_flat j s)) by rewrite /load_flat Ha; do ! split.
have T := @us_total R C inj cj e fo lb qe td (j_conf j) N ldh fsort si (cm_locked s) (j_ritz j) (j_resid j) N1 NL EF.
rewrite E1 E2 in T; have [o [E [_ [So An]]]] := T XL Hperm CF _ _ S IC HH HM Ho Hs Ha Hf L1 L2 HN HLz Hw Hd.
by exists o; split; first exact: E; split; first exact: (exits Hs E).
Qed.

Lemma inpl_answers jobs s : iflat_sizes N ldh n (cm_dla s) -> List.Forall xjob_ok jobs ->
  List.Forall2 answer_ok jobs (session SiModel.g_V1 (fun j k => run (iflatD fo lb N ldh n) j (load_iflat j k)) jobs s).
Proof.
move=> HS HJ; apply: (session_answers (good := iflat_sizes N ldh n)) HJ HS => j {}s.
move=> [[CF [E1 [E2 [LH [LV _]]]]] [HH [HM [Ho [Hs [Ha [L1 [L2 [HN HLz]]]]]]]]] [A1 [A2 [A3 A4]]].
have [S EH] : iflat_sizes N ldh n (cm_dla (load_iflat j s)) /\ SiModel.g_H (cm_dla (load_iflat j s)) = j_H j.
  by rewrite /load_iflat Ha; case: (g_sw (cm_dla s)); do ! split.
have T := @ui_total R C inj cj e fo lb qe td (j_conf j) N ldh fsort si (cm_locked s) (j_ritz j) (j_resid j) N1 NL EF.
rewrite E1 E2 in T; have := T XL Hperm CF _ S IC; rewrite EH => /(_ HH HM Ho Hs Ha Hf L1 L2 HN HLz Hd) [o [E [_ [So An]]]].
by exists o; split; first exact: E; split; first exact: (exits Hs E).
Qed.

Lemma gpu_answers jobs s : gflat_sizes N ldh n (cm_dla s) -> List.Forall xjob_ok jobs ->
  List.Forall2 answer_ok jobs (session u_V (fun j k => run (gflatD fo lb N ldh n) j (load_gflat j k)) jobs s).
Proof.
move=> HS HJ; apply: (session_answers (good := gflat_sizes N ldh n)) HJ HS => j {}s.
move=> [[CF [E1 [E2 [LH [LV _]]]]] [HH [HM [Ho [Hs [Ha [L1 [L2 [HN HLz]]]]]]]]] [A1 [A2 [A3 [A4 [A5 [A6 [A7 A8]]]]]]].
have S : gflat_sizes N ldh n (cm_dla (load_gflat j s)) by rewrite /load_gflat Ha; do ! split.
have T := @gpu_total R C inj cj e fo lb qe td (j_conf j) N ldh fsort si (cm_locked s) (j_ritz j) (j_resid j).
have U := gflat_after fo lb qe td (j_conf j) N ldh N1 NL (cm_dla (load_gflat j s)).
rewrite E1 E2 in T U; have [o [E [_ An]]] := T _ N1 NL S EF XL Hperm CF IC HH HM Ho Hs Ha Hf L1 L2 HN HLz Hd.
exists o; split; first exact: E; split; first exact: (exits Hs E); split=> //.
exact: (proj1 (proj2 (U S _ si Hperm fsort _ _ o E))).
Qed.
End Session.
