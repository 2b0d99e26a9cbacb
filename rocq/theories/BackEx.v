(** Exact oracles for the in-place and GPU backends exist over the complex numbers of any real closed field, and runs on them return. *)
From Coq Require Import Permutation ZArith.
From mathcomp Require Import all_ssreflect all_algebra all_real_closed.
Require Import Verif.Base Verif.AlgModel Verif.AlgSpec Verif.DlaModel Verif.ColModel Verif.ColSpec Verif.ColProofs1 Verif.ColProofs2 Verif.ColProofs3
  Verif.GpuModel Verif.GpuSpec Verif.GpuProofs3 Verif.MgpuModel Verif.MgpuSpec Verif.MgpuProofs2
  Verif.ColOrth Verif.ExactSpec Verif.ExactEx Verif.OrthSpec Verif.OrthProofs Verif.Spectral Verif.OrthSolve Verif.KyFan Verif.OrthEx Verif.BackSpec Verif.BackSolve.
Import Verif.ExactSpec Verif.OrthSpec Verif.ColSpec.
Set Implicit Arguments. Unset Strict Implicit. Unset Printing Implicit Defensive.
Import Order.TTheory GRing.Theory Num.Theory.
Local Open Scope ring_scope.
Local Open Scope complex_scope.

Section Inst.
Variables (R : rcfType) (N : nat).
Local Notation C := (complex_numClosedFieldType R).
Local Notation V := 'cV[C]_N.
Local Notation rc := (rc R).
Local Notation cc := (cc R).
Local Notation xblas := (xblas R N).

Lemma y_rr (H : 'M[C]_N) n : hermitian cc H -> exact_rr rc cc (gram_swapped xblas) H n.
Proof.
move=> HH; split=> cs _ on /=.
set g : gr R N := (_, cs).
have sg : size g.1 = size cs by rewrite size_map.
have gE (i k : 'I_(size g.1)) : gmx g i k = dot cc cs`_i (H *m cs`_k).
  have hi : (i < size cs)%N by rewrite -sg.
  have aE x : adj cc H *m x = H *m x by rewrite (HH : adj cc H = H).
  by rewrite mxE /= (nth_map 0) // aE (dot_herm HH).
have A : hermitian cc (gmx g).
  by apply/matrixP => i k; rewrite mxE mxE !gE -(dot_herm HH) [RHS]dotC.
have := eigP A; rewrite /is_eig; set us := (eig (gmx g)).1; set d := (eig (gmx g)).2.
rewrite -sg; move=> /and5P [/eqP sz /orthoP ou /allP hd _ _].
have hd' j : (j < size g.1)%N -> gmx g *m us`_j = d`_j *: us`_j by move=> hj; apply/eqP/hd; rewrite mem_iota.
have dr j : (j < size g.1)%N -> rc (complex.Re d`_j) = d`_j.
  move=> hj; have : d`_j \is Num.real.
    by apply: (eig_real A (x := us`_j)); [rewrite -dot_eq0 ou ?sz // eqxx oner_eq0|exact: hd'].
  by move=> h; apply: RRe_real.
exists (fun i j => if insub i is Some k then us`_j k 0 else 0); split; last split.
- by move=> j hj; apply: eq_bigr => i _; rewrite valK.
- move=> j k hj hk; rewrite -(ou j k) ?sz // dotE; apply: eq_bigr => i _; by rewrite valK.
- move=> i j hi hj; rewrite dr // insubT.
  have := congr1 (fun M : 'cV[C]_(size g.1) => M (Ordinal hi) 0) (hd' j hj); rewrite mxE [X in _ = X]mxE => <-.
  by apply: eq_bigr => k _; rewrite valK gE (HH : adj cc H = H).
Qed.

Lemma y_nl n : (n <= N)%N -> no_late_failure xblas n.
Proof.
move=> hn cs sh U sz _; have [_ on] := eq_hh (x_qr R hn) (sz : size cs = n).
have E : List.map (b_trsm xblas U cs) (List.seq 0 n) = map (b_hh xblas cs) (iota 0 n) by rewrite OrthMpi.listseqE.
by rewrite E; apply: (eq_unit (x_qr R hn)) => //; rewrite size_map size_iota.
Qed.
End Inst.

Section Run.
Variables (R : rcfType) (N nev nex : nat) (H : 'M[complex_numClosedFieldType R]_N).
Variables (qe : qr_env R) (td : tridiag R) (tol : R) (deg : nat) (sort_idx : list R -> list nat) (fsort : list R -> list R) (ritzv resid : list R).
Hypotheses (Hp : forall keys, Permutation (sort_idx keys) (List.seq 0 (length keys))) (Hf : forall l, length (fsort l) = length l).
Hypotheses (h1 : le 2 N) (h2 : le 1 nev) (h4 : le 1 deg) (hr : le (Nat.add nev nex) (length ritzv)) (hs : le (Nat.add nev nex) (length resid)).
Local Notation cf := (mk_conf R N nev nex tol deg 36 2 25 25 4 false true false).
Local Notation n := (Nat.add nev nex).

Lemma y_conf : conf_ok cf.
Proof. by do ! split=> //; do ! constructor. Qed.
Lemma y_exit S (K : kernel R S) k o : solve (ex_fops R) K fsort sort_idx cf k ritzv resid = Ok o -> exists s, o_exit o = Some s.
Proof.
case Ex : (o_exit o) => [s|]; first by exists s.
move=> E; exfalso; move: E; rewrite /solve => /bind_ok [[c k0] [[<- _]]] /= /bind_ok [[ub s0] [_]] /bind_ok [s [_]] /bind_ok [[r k'] [_]] /bind_ok [k'' [_]].
by move=> [Eo]; rewrite -Eo in Ex.
Qed.
Lemma y_inpl V1 : length V1 = n -> exists o s, solve (ex_fops R) (cmK (ex_fops R) qe td (inplD (ex_fops R) (xblas R N) n) nev nex) fsort sort_idx cf
    (mk_cm 0 (inpl_state (xblas R N) nev nex H V1)) ritzv resid = Ok o /\ o_exit o = Some s.
Proof.
move=> hV; have X := other_solve_safe (ex_fops R) (xblas R N) qe td cf sort_idx Hp fsort 0 H V1 ritzv resid hV y_conf Hf hr hs h1.
case: X => [| |_ ]; [by do ! constructor|by []|].
move=> [[o E]|[_ [k0 [ub [s0 [t [_ [_ [_ [_ [_ []]]]]]]]]]]] //.
by have [s Es] := y_exit E; exists o, s.
Qed.
Lemma y_gpu g : gpu_sizes n (cm_dla g) -> exists o s, solve (ex_fops R) (cmK (ex_fops R) qe td (gpuD (ex_fops R) (xblas R N) n) nev nex) fsort sort_idx cf g ritzv resid = Ok o /\ o_exit o = Some s.
Proof.
move=> hg; have X := w_safe (ex_fops R) (xblas R N) qe td cf sort_idx Hp fsort g ritzv resid hg y_conf Hf hr hs h1.
case: X => [|//|[o E]|[_ [k0 [ub [s0 [t [_ [_ [_ [_ [_ []]]]]]]]]]]] //; first by do ! constructor.
by have [s Es] := y_exit E; exists o, s.
Qed.
Lemma y_mgpu loc g : (n <= N)%N -> mgpu_sizes n (cm_dla g) -> exists o s, solve (ex_fops R) (cmK (ex_fops R) qe td (mgpuD (ex_fops R) (xblas R N) loc false n) nev nex) fsort sort_idx cf g ritzv resid = Ok o /\ o_exit o = Some s.
Proof.
move=> hn hg; have X := mgpu_safe (ex_fops R) (xblas R N) loc qe td cf sort_idx Hp fsort (exact_beta (ex_fops_exact R) (x_mv R N)) (@y_nl R N _ hn) g ritzv resid hg y_conf Hf hr hs h1.
case: X => [|//|[o E]|[_ [k0 [ub [s0 [t [_ [_ [_ [_ [_ []]]]]]]]]]]] //; first by do ! constructor.
by have [s Es] := y_exit E; exists o, s.
Qed.
End Run.
