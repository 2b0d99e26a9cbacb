(** Runs that meet the hypotheses of the termination theorems. *)
From Coq Require Import Permutation ZArith.
From mathcomp Require Import all_ssreflect all_algebra all_real_closed.
Require Import Verif.Base Verif.AlgModel Verif.AlgSpec Verif.DlaModel Verif.ColModel Verif.ColSpec Verif.ColProofs3 Verif.ExactSpec Verif.ExactEx Verif.OrthSpec Verif.OrthProofs Verif.OrthEx
  Verif.Spectral Verif.ConvSpec Verif.ApproxSpec Verif.ConvRun Verif.StopSpec Verif.ResidSpec Verif.AlgStop Verif.StopFinal.
Set Implicit Arguments. Unset Strict Implicit. Unset Printing Implicit Defensive.
Import Order.TTheory GRing.Theory Num.Theory.
Local Open Scope ring_scope.
Local Open Scope complex_scope.

Section Ex.
Variables (R : rcfType) (N2 : nat) (H : 'M[complex_numClosedFieldType R]_N2.+2) (qe : qr_env R) (tol : R) (deg : nat) (fsort : list R -> list R) (resid : list R).
Hypotheses (HH : hermitian (cc R) H) (Hf : forall l, length (fsort l) = length l) (hdeg : le 1 deg) (hres : le 2 (length resid)).
Local Notation cf M := (mk_conf R N2.+2 1 1 tol deg 36 2 M 25 4 false true false).
Local Notation mpiK td := (cmK (ex_fops R) qe td (colD (ex_fops R) (xblas R N2.+2) true 2) 1 1).
Local Notation k v w := (mk_cm 0 (mpi_state (xblas R N2.+2) 1 1 H [:: v; w])).

Lemma x_ok M : conf_ok (cf M).
Proof. by do ! split=> //; do ! constructor. Qed.

Lemma x_enter (a b : R) v w (ls : seq R) : a < b -> exists td ub s0,
  [/\ forall M, exists o s, solve (ex_fops R) (mpiK td) fsort (@x_sort R) (cf M) (k v w) [:: a; b] resid = Ok o /\ o_exit o = Some s,
      entered (ex_fops R) (mpiK td) fsort (cf 1) (k v w) [:: a; b] resid ub s0,
      cs_C (cm_dla (ss_k s0)) = [:: v; w],
      ss_lowerb s0 = b /\ ss_lambda s0 = a & b < ub /\ forall x, x \in ls -> x <= ub].
Proof.
move=> ab; pose big : R := `|b| + 1 + \sum_(x <- ls) `|x|.
pose td : tridiag R := mk_td R (fun _ _ _ => big) (fun _ _ _ => 0).
have run M : exists o, solve (ex_fops R) (mpiK td) fsort (@x_sort R) (cf M) (k v w) [:: a; b] resid = Ok o.
  have X := other_solve_safe (ex_fops R) (xblas R N2.+2) qe td (cf M) (@x_sort R) (@x_sort_perm R) fsort 0 H [:: v; w] [:: a; b] resid erefl (x_ok M) Hf (le_n 2) hres.
  case: X => [| | |]; [by apply/ssrnat.leP|by do ! constructor|by []|].
  by move=> [[o E]|[_ [k0 [ub [s0 [t [_ [_ [_ [_ [_ []]]]]]]]]]]] _ //; exists o.
have [o E] := run 1%N.
have [|s [ub [s0 [Ex [HU [It [EC [Hmax [Hmin [d [e [mm [b0 Eub]]]]]]]]]]]]] := @approx_start _ _ _ _ _ (ex_fops R) (xblas R N2.+2) qe td (cf 1) (@x_sort R) fsort 0 H [:: v; w] [:: a; b] resid o erefl erefl erefl _ E; first by constructor.
have He : entered (ex_fops R) (mpiK td) fsort (cf 1) (k v w) [:: a; b] resid ub s0 by case: HU => k0 [h [A [B _]]]; exists k0.
exists td, ub, s0; split=> //.
- move=> M; have [o' E'] := run M; have [s' X'] := solve_some _ _ _ _ (cf M) _ _ _ _ _ _ E' He; by exists o', s'.
- by move: Hmax Hmin => /=; rewrite ab ltNge (ltW ab) /= => -[<-] [<-].
have big0 : 0 <= \sum_(x <- ls) `|x| by apply: sumr_ge0 => x _; exact: normr_ge0.
have bb : big <= ub.
  rewrite Eub /run_bound /fmax /= if_same; apply: (@le_trans _ _ `|big|); first exact: ler_norm.
  by rewrite ler_addl normr_ge0.
split.
  apply: lt_le_trans bb; apply: (@lt_le_trans _ _ (`|b| + 1)); last by rewrite ler_addl.
  by apply: le_lt_trans (ler_norm b) _; rewrite ltr_addl ltr01.
move=> x xl; apply: le_trans bb; rewrite /big (big_rem x xl) /=.
apply: le_trans (ler_norm _) _; rewrite addrCA ler_addl addr_ge0 //; first by rewrite addr_ge0 ?normr_ge0 ?ler01.
by apply: sumr_ge0 => y _; exact: normr_ge0.
Qed.

Variables (us : seq 'cV[complex_numClosedFieldType R]_N2.+2) (ls : seq R).
Hypothesis EB : eigenbasis (rc R) (cc R) H us ls.

Lemma x_eventually u v w : archimedean R -> 0 < tol -> ls`_0 < u <= ls`_1 -> dot (cc R) us`_0 v != 0 ->
  exists td T, forall M, le T M -> exists o s, solve (ex_fops R) (mpiK td) fsort (@x_sort R) (cf M) (k v w) [:: u - 1; u] resid = Ok o /\ o_exit o = Some s /\
    ss_locked s = 1%N /\ le (ss_iter s) T.
Proof.
move=> AR tol0 /andP [u1 u2] uv; have [su ou sl so _] := EB.
have ud : u - 1 < u by rewrite ltr_subl_addr ltr_addl ltr01.
have [td [ub [s0 [run He EC [El Ea] [bu bl]]]]] := x_enter v w ls ud.
pose Y (l _ : nat) := if l == 0%N then (dot (cc R) us`_0 v)^-1 else 0.
have RE : reaches (cc R) us (cs_C (cm_dla (ss_k s0))) 1 Y.
  by rewrite EC => -[|//] [|//] _ _; rewrite big_ord_recl big_ord1 /= mulr0 addr0 mulfV.
have SP : splits ls 1 (ss_lambda s0) (ss_lowerb s0) ub.
  rewrite El Ea; split=> //; split=> //; split; first by rewrite sl.
  split; first by case.
  move=> j; rewrite sl => /andP [j1 jN]; rewrite bl ?mem_nth ?sl // andbT (le_trans u2) //.
  by apply: (sorted_leq_nth le_trans lexx 0 so) => //; rewrite inE sl.
have [T hT] := @mpi_eventually R _ (rc R) (cc R) (ci R) _ _ (ex_fops R) (xblas R N2.+2) qe td (cf 1) (@x_sort R) H fsort 0 [:: v; w] [:: u - 1; u] resid
  (@x_sort_perm R) (ex_fops_exact R) (fun _ _ => erefl) (x_mv R N2.+2) (@x_qr R N2.+2 2 isT) (@x_rr R N2.+2 H 2 HH) (x_vec R N2.+2) (@x_ordered R N2.+2 H 2 HH) HH (x_complex R) erefl (x_ok 1) us ls 1 Y EB isT isT ub s0 AR tol0 erefl erefl He SP RE.
exists td, T => M TM; have [o [s [E Hx]]] := run M; exists o, s; do 2 split=> //; exact: hT TM E Hx.
Qed.

Lemma x_restart M w : 0 <= tol -> le 1 M -> ls`_0 < ls`_1 -> exists td o s,
  solve (ex_fops R) (mpiK td) fsort (@x_sort R) (cf M) (k us`_0 w) [:: ls`_0; ls`_1] resid = Ok o /\ o_exit o = Some s /\
  ss_locked s = 1%N /\ ss_iter s = 1%N /\ {in take 1 (o_res o), forall r, r <= tol}.
Proof.
move=> tol0 M1 gap; have [su ou sl so _] := EB.
have [td [ub [s0 [run He EC _ [bu bl]]]]] := x_enter us`_0 w ls gap.
have [o [s [E Hx]]] := run M; exists td, o, s; do 2 split=> //.
apply: (@mpi_restart R _ (rc R) (cc R) (ci R) _ _ (ex_fops R) (xblas R N2.+2) qe td (cf M) (@x_sort R) H fsort 0 [:: us`_0; w] [:: ls`_0; ls`_1] resid
  (@x_sort_perm R) (ex_fops_exact R) (fun _ _ => erefl) (x_mv R N2.+2) (@x_qr R N2.+2 2 isT) (@x_rr R N2.+2 H 2 HH) (x_vec R N2.+2) (@x_ordered R N2.+2 H 2 HH) HH (x_complex R) erefl (x_ok M) M1 us ls 1 EB isT isT isT tol0 erefl _ gap erefl _ ub s0 o s He bu bl E Hx).
  by case: (ls) sl => [|x [|y t]] //= _; rewrite take0 perm_refl.
case=> // _; exists (fun i => (i == 0%N)%:R); by rewrite big_ord_recl big_ord1 /= scale1r scale0r addr0.
Qed.
End Ex.

Lemma realalg_arch : archimedean [rcfType of realalg].
Proof. by move=> x; exists (Num.bound `|x|); apply: le_lt_trans (ler_norm x) (archi_boundP (normr_ge0 x)). Qed.
