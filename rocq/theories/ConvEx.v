(** A run that meets the hypotheses of the convergence theorem. *)
From Coq Require Import Permutation ZArith.
From mathcomp Require Import all_ssreflect all_algebra all_real_closed.
Require Import Verif.Base Verif.AlgModel Verif.AlgSpec Verif.DlaModel Verif.ColModel Verif.ColSpec Verif.ColProofs3 Verif.ExactSpec Verif.ExactEx Verif.OrthSpec Verif.OrthProofs Verif.OrthEx
  Verif.Spectral Verif.ConvSpec Verif.ApproxSpec Verif.ConvRun.
Set Implicit Arguments. Unset Strict Implicit. Unset Printing Implicit Defensive.
Import Order.TTheory GRing.Theory Num.Theory.
Local Open Scope ring_scope.
Local Open Scope complex_scope.

Lemma x_basis (R : rcfType) N (H : 'M[complex_numClosedFieldType R]_N) : hermitian (cc R) H -> exists us ls, eigenbasis (rc R) (cc R) H us ls.
Proof.
move=> HH; have /and5P [/eqP su /orthoP ou /allP he /eqP sd so] := eigP HH.
set us := (eig H).1 in su ou he; set d := (eig H).2 in he sd so.
have hd j : (j < N)%N -> H *m us`_j = d`_j *: us`_j by move=> hj; apply/eqP; apply: he; rewrite mem_iota.
have dr j : (j < N)%N -> d`_j = (complex.Re d`_j)%:C.
  move=> hj; rewrite RRe_real //; apply: (eig_real HH (x := us`_j)); last exact: hd.
  by rewrite -(dot_eq0 us`_j) ou ?su // eqxx oner_eq0.
exists us, (map (fun z : R[i] => complex.Re z) d); split=> //; first by rewrite size_map.
  apply/(sortedP 0) => i; rewrite size_map => hi; rewrite !(nth_map 0) // ?(ltnW hi) // -lecR -!dr -?sd ?(ltnW hi) //.
  by move/(sortedP 0): so; apply.
by move=> j hj; rewrite hd // {1}dr // (nth_map 0) ?sd.
Qed.

Lemma x_conv (R : rcfType) N2 (H : 'M[complex_numClosedFieldType R]_N2.+2) qe tol deg fsort u v w resid : hermitian (cc R) H ->
  (forall l, length (fsort l) = length l) -> le 1 deg -> le 2 (length resid) -> forall us ls, eigenbasis (rc R) (cc R) H us ls -> ls`_0 < u <= ls`_1 -> dot (cc R) us`_0 v != 0 ->
  let cf := mk_conf R N2.+2 1 1 tol deg 36 2 1 25 4 false true false in
  let mpiK td := (cmK (ex_fops R) qe td (colD (ex_fops R) (xblas R N2.+2) true 2) 1 1) in
  let k := mk_cm 0 (mpi_state (xblas R N2.+2) 1 1 H [:: v; w]) in
  conf_ok cf /\ exists td o s ub s0 Y,
    solve (ex_fops R) (mpiK td) fsort (@x_sort R) cf k [:: u - 1; u] resid = Ok o /\ o_exit o = Some s /\
    unlocked_run (ex_fops R) (mpiK td) (@x_sort R) fsort cf k [:: u - 1; u] resid ub s0 s /\ ss_iter s = 1%N /\
    splits ls 1 (ss_lambda s0) (ss_lowerb s0) ub /\ reaches (cc R) us (cs_C (cm_dla (ss_k s0))) 1 Y.
Proof.
move=> HH Hf hdeg hres us ls EB /andP [u1 u2] uv cf mpiK k.
have HC : conf_ok cf by do ! split=> //; do ! constructor.
split=> //.
pose big : R := `|u| + 1 + \sum_(x <- ls) `|x|.
pose td : tridiag R := mk_td R (fun _ _ _ => big) (fun _ _ _ => 0).
have X := other_solve_safe (ex_fops R) (xblas R N2.+2) qe td cf (@x_sort R) (@x_sort_perm R) fsort 0 H [:: v; w] [:: u - 1; u] resid erefl HC Hf (le_n 2) hres.
case: X => [| | |]; [by apply/ssrnat.leP|by do ! constructor|by []|].
move=> [[o E]|[_ [k0 [ub [s0 [t [_ [_ [_ [_ [_ []]]]]]]]]]]] _ //.
have [|s [ub [s0 [Ex [HU [It [EC [Hmax [Hmin [a [b [mm [b0 Eub]]]]]]]]]]]]] := @approx_start _ _ _ _ _ (ex_fops R) (xblas R N2.+2) qe td cf (@x_sort R) fsort 0 H [:: v; w] [:: u - 1; u] resid o erefl erefl erefl _ E; first by constructor.
exists td, o, s, ub, s0, (fun l _ => if l == 0%N then (dot (cc R) us`_0 v)^-1 else 0).
split=> //; split=> //; split=> //; split=> //.
have ud : u - 1 < u by rewrite ltr_subl_addr ltr_addl ltr01.
have [su ou sl so _] := EB.
have big0 : 0 <= \sum_(x <- ls) `|x| by apply: sumr_ge0 => x _; exact: normr_ge0.
have bb : big <= ub.
  rewrite Eub /run_bound /fmax /= if_same; apply: (@le_trans _ _ `|big|); first exact: ler_norm.
  by rewrite ler_addl normr_ge0.
have bu : u < ub.
  apply: lt_le_trans bb; apply: (@lt_le_trans _ _ (`|u| + 1)); last by rewrite ler_addl.
  by apply: le_lt_trans (ler_norm u) _; rewrite ltr_addl ltr01.
have bl j : (j < N2.+2)%N -> ls`_j <= ub.
  move=> hj; apply: le_trans bb; rewrite /big (big_nth 0) big_mkord sl (bigD1 (Ordinal hj)) //=.
  apply: le_trans (ler_norm _) _; rewrite addrCA ler_addl addr_ge0 //; first by rewrite addr_ge0 ?normr_ge0 ?ler01.
  by apply: sumr_ge0 => x _; exact: normr_ge0.
split; last first.
  rewrite EC => -[|//] [|//] _ _; rewrite big_ord_recl big_ord1 /= mulr0 addr0 mulfV //.
move: Hmax Hmin => /=; rewrite ud ltNge (ltW ud) /= => -[<-] [<-]; split=> //; split=> //; split; first by rewrite sl.
split; first by case.
move=> j; rewrite sl => /andP [j1 jN]; rewrite bl // andbT (le_trans u2) //.
by apply: (sorted_leq_nth le_trans lexx 0 so) => //; rewrite inE sl.
Qed.
