(** Residuals of the Ritz vectors of a subspace that nearly contains the lowest eigenvectors. *)
From mathcomp Require Import all_ssreflect all_algebra all_real_closed.
From mathcomp Require Import ring.
Require Import Verif.Base Verif.ExactSpec Verif.OrthSpec Verif.OrthProofs Verif.Spectral Verif.KyFan Verif.Conv.
Set Implicit Arguments. Unset Strict Implicit. Unset Printing Implicit Defensive.
Import Order.TTheory GRing.Theory Num.Theory.
Local Open Scope ring_scope.

Section Ritz.
Variables (C : numClosedFieldType) (N : nat) (H : 'M[C]_N).
Local Notation cj := (@conjC C).
Local Notation dot := (@dot C cj N).
Local Notation orthonormal := (@orthonormal C cj N).
Variables (xs us : seq 'cV[C]_N) (th l : nat -> C).
Hypotheses (ox : orthonormal xs) (rx : forall i j, (i < size xs)%N -> (j < size xs)%N -> dot xs`_i (H *m xs`_j) = th i *+ (i == j)).
Hypotheses (ou : orthonormal us) (su : size us = N) (hu : forall j, (j < N)%N -> H *m us`_j = l j *: us`_j).
Variables (m : nat) (z : nat -> 'cV[C]_N) (lo up : C).
Hypotheses (m0 : (0 < m)%N) (mx : (m <= size xs)%N).
Hypotheses (ths : forall i j, (i <= j < size xs)%N -> th i <= th j) (ls : forall i j, (i <= j < N)%N -> l i <= l j) (lup : forall j, (j < N)%N -> l j <= up).
Hypotheses (thr : forall j, th j \is Num.real) (lr : forall j, l j \is Num.real).
Hypotheses (gap : l m.-1 < lo) (above : forall j, (m <= j < N)%N -> lo <= l j).
Hypotheses (hw : forall i, (i < m)%N -> exists a : nat -> C, us`_i + z i = \sum_(j < size xs) a j *: xs`_j).
Hypotheses (hz : forall i j, (i < m)%N -> (j < m)%N -> dot us`_j (z i) = 0).

Local Notation mN := (leq_trans mx (orth_size ox)).
Let Q := \sum_(i < m) dot (z i) (z i).
Let D := up - l 0.
Let N0 : (0 < N)%N. Proof. exact: leq_trans m0 mN. Qed.
Let Q0 : 0 <= Q. Proof. by apply: sumr_ge0 => i _; exact: dot_ge0. Qed.
Let D0 : 0 <= D. Proof. by rewrite subr_ge0 lup. Qed.

Lemma dotr0 x y : dot x y = 0 -> dot y x = 0.
Proof. by rewrite (dotC x y) => ->; rewrite rmorph0. Qed.

(** the part of the first m Ritz vectors outside of the first m eigenvectors *)
Lemma outside_small : (lo - l m.-1) * (\sum_(j < N | (m <= j)%N) \sum_(i < m) `|dot us`_j xs`_i| ^+ 2) <= m%:R * (D * Q).
Proof.
pose p j := \sum_(i < m) `|dot us`_j xs`_i| ^+ 2.
have p0 j : 0 <= p j by apply: sumr_ge0 => i _; rewrite exprn_ge0.
have p1 j : (j < N)%N -> p j <= 1.
  move=> jN; have := bessel us`_j ox (orth_size ox); rewrite ou ?su // eqxx; apply: le_trans.
  rewrite /p (big_ord_widen (size xs) (fun i => `|dot us`_j xs`_i| ^+ 2)) // big_mkcond /=; apply: ler_sum => i _.
  by case: ifP => _; rewrite ?exprn_ge0 // (dotC xs`_i) norm_conjC.
have thE i : (i < m)%N -> th i = \sum_(j < N) l j * `|dot us`_j xs`_i| ^+ 2.
  by move=> im; have ix := leq_trans im mx; rewrite -(rayleigh xs`_i ou su hu) rx // eqxx mulr1n.
have sth : \sum_(i < m) th i = \sum_(j < N) l j * p j.
  rewrite (eq_bigr (fun i : 'I_m => \sum_(j < N) l j * `|dot us`_j xs`_i| ^+ 2)) => [|i _]; last by rewrite -thE.
  by rewrite exchange_big; apply: eq_bigr => j _; rewrite mulr_sumr.
have sp : \sum_(j < N) p j = m%:R.
  rewrite exchange_big /= (eq_bigr (fun=> 1)) => [|i _]; first by rewrite sumr_const card_ord.
  by rewrite -(parseval xs`_i ou su) ox ?eqxx // (leq_trans (ltn_ord i) mx).
have up_th : \sum_(i < m) th i <= \sum_(i < m) l i + m%:R * (D * Q).
  rewrite (_ : m%:R * (D * Q) = \sum_(i < m) D * Q); last by rewrite sumr_const card_ord mulr_natl.
  rewrite -big_split /=; apply: ler_sum => i _; have im := ltn_ord i.
  have iN : (i < N)%N := leq_trans im mN.
  have h : th i <= l i + (up - l i) * \sum_(a < i.+1) dot (z a) (z a).
    apply: (@ritz_high _ _ _ _ _ _ _ ox rx ou su hu i m z up) => //.
    - exact: leq_trans im mx.
    - exact: mN.
    - by move=> j /andP [a b]; rewrite ths // a.
    - by move=> j ji; rewrite ls // ji.
    - by move=> j /andP [_ jN]; exact: lup.
    - exact: lup.
    - by move=> a ai; apply: hw; exact: leq_ltn_trans ai im.
    - by move=> a j ai jm; apply: hz => //; exact: leq_ltn_trans ai im.
  apply: le_trans h _; rewrite ler_add2l; apply: ler_pmul.
  - by rewrite subr_ge0 lup.
  - by apply: sumr_ge0 => a _; exact: dot_ge0.
  - by rewrite ler_add2l ler_opp2 ls.
  rewrite /Q (big_ord_widen m (fun a => dot (z a) (z a))) // big_mkcond /=; apply: ler_sum => a _.
  by case: ifP => _ //; exact: dot_ge0.
rewrite sth in up_th.
have E : \sum_(j < N | (m <= j)%N) p j = m%:R - \sum_(j < N | (j < m)%N) p j.
  rewrite -sp [X in _ = X - _](bigID (fun j : 'I_N => (j < m)%N)) /= addrAC subrr add0r.
  by apply: eq_bigl => j; rewrite -leqNgt.
have El (f : nat -> C) : \sum_(j < N | (j < m)%N) f j = \sum_(j < m) f j.
  by rewrite (big_ord_widen N f) ?mN.
apply: (@le_trans _ _ (\sum_(j < N) l j * p j - \sum_(i < m) l i)); last by rewrite ler_subl_addl.
rewrite [X in _ <= X - _](bigID (fun j : 'I_N => (j < m)%N)) /= (El (fun j => l j * p j)) addrAC -sumrB.
rewrite mulrBl; have -> : (l m.-1 * \sum_(j < N | (m <= j)%N) p j) = - \sum_(j < m) l m.-1 * (p j - 1).
  rewrite -mulr_sumr sumrB sumr_const card_ord E El -mulrN; congr (_ * _); by rewrite opprB.
rewrite opprK addrC; apply: ler_add.
  apply: ler_sum => j _; rewrite -[X in _ <= _ - X]mulr1 -mulrBr.
  rewrite ler_wnmul2r ?subr_le0 ?p1 ?(leq_trans (ltn_ord j) mN) //.
  rewrite ls // -ltnS prednK // ltn_ord /=.
  by rewrite (leq_trans _ mN) // prednK.
rewrite mulr_sumr [X in _ <= X](eq_bigl (fun j : 'I_N => (m <= j)%N)) => [|j]; last by rewrite -leqNgt.
by apply: ler_sum => j mj; apply: ler_wpmul2r; [exact: p0|apply: above; rewrite mj ltn_ord].
Qed.

Lemma ritz_resid k r : (k < m)%N -> r = H *m xs`_k - th k *: xs`_k ->
  dot r r <= D ^+ 2 * Q * (1 + m%:R * D / (lo - l m.-1)) *+ 2.
Proof.
move=> km rE; have kx : (k < size xs)%N := leq_trans km mx.
set w := xs`_k in rE; pose c j := dot us`_j w; pose a j := (l j - l 0) * c j.
have w1 : dot w w = 1 by rewrite ox // eqxx.
have rxs i : (i < size xs)%N -> dot r xs`_i = 0.
  move=> ix; apply: dotr0; rewrite rE -scaleNr dotDr rx // dotZr ox //.
  by case: eqP => [->|_]; rewrite ?mulr1n ?mulr1 ?subrr // mulr0n mulr0 addr0.
have ruz j : (j < m)%N -> dot r us`_j = - dot r (z j).
  move=> jm; apply/eqP; rewrite -addr_eq0 -dotDr; have [b ->] := hw jm; apply/eqP.
  by rewrite dot_sumr big1 // => i _; rewrite dotZr rxs // mulr0.
have vE : H *m w - l 0 *: w = \sum_(j < N) a j *: us`_j.
  rewrite {1 2}(coords w ou su) mulmx_sumr scaler_sumr -sumrB; apply: eq_bigr => j _.
  by rewrite -scalemxAr hu // !scalerA -scalerBl /a /c mulrBl [_ * l j]mulrC.
pose P : 'cV[C]_N := \sum_(j < m) (- a j) *: z j.
pose V : 'cV[C]_N := \sum_(j < N | (m <= j)%N) a j *: us`_j.
have rG : dot r r = dot r (P + V).
  have -> : dot r r = dot r (H *m w - l 0 *: w).
    rewrite {2}rE -!scaleNr !dotDr; congr (_ + _); by rewrite !dotZr rxs // !mulr0.
  rewrite vE (bigID (fun j : 'I_N => (j < m)%N)) /= !dotDr; congr (_ + _).
    rewrite -(big_ord_widen N (fun j => a j *: us`_j)) ?mN // !dot_sumr; apply: eq_bigr => j _.
    by rewrite !dotZr ruz // mulrN mulNr.
  by congr dot; apply: eq_bigl => j; rewrite -leqNgt.
have rr_le : dot r r <= dot (P + V) (P + V).
  have := dot_CS r (P + V); rewrite -rG ger0_norm ?dot_ge0 // expr2.
  have := dot_ge0 r; rewrite le_eqVlt => /orP [/eqP <- _|r0]; first exact: dot_ge0.
  by rewrite ler_pmul2l.
apply: le_trans rr_le _.
have par : dot (P + V) (P + V) <= (dot P P + dot V V) *+ 2.
  rewrite -subr_ge0 (_ : _ - _ = dot (P - V) (P - V)) ?dot_ge0 // dotBB dotDD; ring.
apply: le_trans par _; rewrite ler_muln2r /=.
have aD j : (j < N)%N -> `|a j| ^+ 2 <= D ^+ 2 * `|c j| ^+ 2.
  move=> jN; rewrite /a normrM exprMn ler_wpmul2r ?exprn_ge0 //.
  have h : 0 <= l j - l 0 by rewrite subr_ge0 ls.
  by rewrite ger0_norm // ler_expn2r ?nnegrE // ler_add2r lup.
have csum : \sum_(j < N) `|c j| ^+ 2 = 1 by rewrite -(parseval w ou su).
have PP : dot P P <= D ^+ 2 * Q.
  apply: le_trans (dot_comb_le (fun j : 'I_m => - a j) (fun j : 'I_m => z j)) _; rewrite -/Q ler_wpmul2r //.
  rewrite -[X in _ <= X]mulr1 -csum mulr_sumr (big_ord_widen N (fun j => `|- a j| ^+ 2)) ?mN // big_mkcond /=.
  apply: ler_sum => j _; case: ifP => _; last by rewrite mulr_ge0 ?exprn_ge0.
  by rewrite normrN aD.
have VV : dot V V <= D ^+ 2 * \sum_(j < N | (m <= j)%N) `|c j| ^+ 2.
  rewrite (parseval V ou su) mulr_sumr [X in _ <= X]big_mkcond /=; apply: ler_sum => j _.
  have -> : dot us`_j V = if (m <= j)%N then a j else 0.
    rewrite /V big_mkcond dot_sumr (bigD1 j) //= big1 ?addr0 => [|i ij].
      by case: ifP => _; rewrite ?dot0r // dotZr ou ?su // eqxx mulr1.
    case: ifP => _; rewrite ?dot0r // dotZr ou ?su // (_ : (j == i :> nat) = false) ?mulr0 //.
    by apply/negbTE; rewrite eq_sym.
  by case: ifP => _; [exact: aD|rewrite normr0 expr0n].
have g0 : 0 < lo - l m.-1 by rewrite subr_gt0.
have SS : \sum_(j < N | (m <= j)%N) `|c j| ^+ 2 <= m%:R * (D * Q) / (lo - l m.-1).
  rewrite ler_pdivl_mulr // mulrC; apply: le_trans outside_small; rewrite ler_pmul2l //; apply: ler_sum => j _.
  by rewrite (bigD1 (Ordinal km)) //= ler_addl sumr_ge0 // => i _; rewrite exprn_ge0.
apply: le_trans (ler_add PP (le_trans VV (ler_wpmul2l _ SS))) _; first by rewrite exprn_ge0.
rewrite le_eqVlt; apply/orP; left; apply/eqP; ring.
Qed.
End Ritz.
