(** Rayleigh-Ritz values of a subspace that nearly contains eigenvectors (Courant-Fischer arguments). *)
From Coq Require Import Permutation.
From mathcomp Require Import all_ssreflect all_algebra all_real_closed.
From mathcomp Require Import ring.
Require Import Verif.Base Verif.ExactSpec Verif.OrthSpec Verif.OrthProofs Verif.Spectral Verif.KyFan.
Set Implicit Arguments. Unset Strict Implicit. Unset Printing Implicit Defensive.
Import Order.TTheory GRing.Theory Num.Theory.
Local Open Scope ring_scope.

Section Ritz.
Variables (C : numClosedFieldType) (N : nat) (H : 'M[C]_N).
Hypothesis HH : hermitian conjC H.
Local Notation cj := (@conjC C).
Local Notation dot := (@dot C cj N).
Local Notation orthonormal := (@orthonormal C cj N).
Variables (xs us : seq 'cV[C]_N) (th l : nat -> C).
Hypotheses (ox : orthonormal xs) (rx : forall i j, (i < size xs)%N -> (j < size xs)%N -> dot xs`_i (H *m xs`_j) = th i *+ (i == j)).
Hypotheses (ou : orthonormal us) (su : size us = N) (hu : forall j, (j < N)%N -> H *m us`_j = l j *: us`_j).

Lemma ritz_comb (a : nat -> C) : let x := \sum_(i < size xs) a i *: xs`_i in
  dot x x = \sum_(i < size xs) `|a i| ^+ 2 /\ dot x (H *m x) = \sum_(i < size xs) th i * `|a i| ^+ 2.
Proof.
move=> x; split; first by rewrite (dot_comb _ _ ox); apply: eq_bigr => i _; rewrite normCKC.
rewrite mulmx_sumr dot_suml; apply: eq_bigr => i _; rewrite dotZl dot_sumr (bigD1 i) //= big1 ?addr0 => [|j ji].
  by rewrite -scalemxAr dotZr rx // eqxx mulr1n mulrA -normCKC mulrC.
by rewrite -scalemxAr dotZr rx // (_ : (i == j :> nat) = false) ?mulr0n ?mulr0 //; apply/negbTE; rewrite eq_sym.
Qed.
Lemma comb_coef (a : nat -> C) j : (j < size xs)%N -> dot xs`_j (\sum_(i < size xs) a i *: xs`_i) = a j.
Proof.
move=> hj; rewrite dot_sumr (bigD1 (Ordinal hj)) //= dotZr ox // eqxx mulr1 big1 ?addr0 // => i ij.
by rewrite dotZr ox // (_ : (j == i :> nat) = false) ?mulr0 //; apply/negbTE; rewrite eq_sym; exact: ij.
Qed.

(** the k-th Ritz value is not below the k-th eigenvalue *)
Lemma ritz_low k : (k < size xs)%N -> (forall i, (i <= k)%N -> th i <= th k) -> (forall j, (k <= j < N)%N -> l k <= l j) -> l k <= th k.
Proof.
move=> hk tk lk; have kN : (k < N)%N := leq_trans hk (orth_size ox).
have [z [nz hz]] := ker_col (\matrix_(j < k, i < k.+1) dot us`_j xs`_i) (ltnSn k).
pose a i := if (insub i : option 'I_k.+1) is Some o then z o 0 else 0.
pose x : 'cV[C]_N := \sum_(i < size xs) a i *: xs`_i.
have aE (i : 'I_k.+1) : a i = z i 0 by rewrite /a valK.
have a0 i : (k < i)%N -> a i = 0 by move=> h; rewrite /a insubF // ltnS leqNgt h.
have xE : x = \sum_(i < k.+1) z i 0 *: xs`_i.
  rewrite /x; under [RHS]eq_bigr do rewrite -aE; rewrite [RHS](big_ord_widen (size xs) (fun i => a i *: xs`_i)) // [RHS]big_mkcond /=.
  by apply: eq_bigr => i _; rewrite ltnS; case: leqP => // h; rewrite a0 // scale0r.
have [xx xH] := ritz_comb a; rewrite -/x in xx xH.
have x0 : 0 < dot x x.
  rewrite lt0r dot_ge0 andbT dot_eq0; apply: contra nz => /eqP xz; apply/eqP/matrixP => i c; rewrite ord1 mxE -aE.
  by rewrite -(comb_coef a) ?(leq_trans (ltn_ord i)) // -/x xz dot0r.
have low : l k * dot x x <= dot x (H *m x).
  rewrite (rayleigh x ou su hu) (parseval x ou su) mulr_sumr; apply: ler_sum => j _.
  case: (leqP k j) => jk; first by rewrite ler_wpmul2r ?exprn_ge0 ?lk // jk ltn_ord.
  have -> : dot us`_j x = 0.
    rewrite xE dot_sumr; have := congr1 (fun M : 'cV[C]_k => M (Ordinal jk) 0) hz; rewrite !mxE; apply: etrans.
    by apply: eq_bigr => i _; rewrite dotZr !mxE mulrC.
  by rewrite normr0 expr0n /= !mulr0.
have high : dot x (H *m x) <= th k * dot x x.
  rewrite xH xx mulr_sumr; apply: ler_sum => i _; case: (leqP i k) => ik; first by rewrite ler_wpmul2r ?exprn_ge0 ?tk.
  by rewrite a0 // normr0 expr0n /= !mulr0.
by rewrite -(ler_pmul2r x0) (le_trans low high).
Qed.

(** the k-th Ritz value is not far above the k-th eigenvalue if the subspace holds vectors near the first k+1 eigenvectors *)
Lemma ritz_high k m (z : nat -> 'cV[C]_N) (up : C) : (k < size xs)%N -> (k < m)%N -> (m <= N)%N ->
  (forall j, (k <= j < size xs)%N -> th k <= th j) -> (forall i, (i <= k)%N -> l i <= l k) -> (forall j, (m <= j < N)%N -> l j <= up) -> l k <= up ->
  th k \is Num.real -> l k \is Num.real ->
  (forall i, (i <= k)%N -> exists a : nat -> C, us`_i + z i = \sum_(j < size xs) a j *: xs`_j) ->
  (forall i j, (i <= k)%N -> (j < m)%N -> dot us`_j (z i) = 0) ->
  th k <= l k + (up - l k) * \sum_(i < k.+1) dot (z i) (z i).
Proof.
move=> hk km mN tk lk lup klup tr lr hw hz.
have kN : (k < N)%N := leq_trans km mN.
have [c [nc hc]] := ker_col (\matrix_(j < k, i < k.+1) dot xs`_j (us`_i + z i)) (ltnSn k).
pose x : 'cV[C]_N := \sum_(i < k.+1) c i 0 *: (us`_i + z i).
pose y : 'cV[C]_N := \sum_(i < k.+1) c i 0 *: z i.
pose p : 'cV[C]_N := \sum_(i < k.+1) c i 0 *: us`_i.
have xE : x = p + y by rewrite /x /p /y -big_split; apply: eq_bigr => i _; rewrite scalerDr.
pose S : C := \sum_(i < k.+1) `|c i 0| ^+ 2.
have S0 : 0 < S.
  have [i ci] : exists i, c i 0 != 0.
    apply/existsP; rewrite -[X in is_true X]negbK negb_exists; apply: contra nc => /forallP h.
    by apply/eqP/matrixP => i q; rewrite ord1 mxE; have := h i; rewrite negbK => /eqP.
  rewrite /S (bigD1 i) //= ltr_paddr ?exprn_gt0 ?normr_gt0 // sumr_ge0 // => j _; exact: exprn_ge0.
have yu j : (j < m)%N -> dot us`_j y = 0.
  by move=> jm; rewrite dot_sumr big1 // => i _; rewrite dotZr hz ?mulr0 // -ltnS.
have pu j : (j < N)%N -> dot us`_j p = if (insub j : option 'I_k.+1) is Some o then c o 0 else 0.
  move=> jN; rewrite dot_sumr; have lt (i : 'I_k.+1) : (i < size us)%N by rewrite su (leq_trans (ltn_ord i)).
  case: insubP => [o _ <-|nj].
    by rewrite (bigD1 o) //= dotZr ou // eqxx mulr1 big1 ?addr0 // => i io; rewrite dotZr ou // (_ : (o == i :> nat) = false) ?mulr0 //; apply/negbTE; rewrite eq_sym.
  rewrite big1 // => i _; rewrite dotZr ou ?lt ?su // (_ : (j == i) = false) ?mulr0 //.
  by apply/negbTE; apply: contra nj => /eqP ->.
have xu j : (j < N)%N -> dot us`_j x = if (insub j : option 'I_k.+1) is Some o then c o 0 else dot us`_j y.
  move=> jN; rewrite xE dotDr pu //; case: insubP => [o jo <-|_]; last by rewrite add0r.
  by rewrite yu ?addr0 // (leq_trans (ltn_ord o) km).
have split3 (f : nat -> C) : \sum_(j < N) f j * `|dot us`_j x| ^+ 2 =
    \sum_(i < k.+1) f i * `|c i 0| ^+ 2 + \sum_(j < N) f j * `|dot us`_j y| ^+ 2.
  pose g j := if (insub j : option 'I_k.+1) is Some o then f j * `|c o 0| ^+ 2 else 0.
  have -> : \sum_(i < k.+1) f i * `|c i 0| ^+ 2 = \sum_(j < N) g j.
    have gE (i : 'I_k.+1) : f i * `|c i 0| ^+ 2 = g i by rewrite /g valK.
    under eq_bigr => i _ do rewrite gE.
    rewrite [LHS](big_ord_widen N g) // big_mkcond /=; apply: eq_bigr => j _; case: ltnP => // h.
    by rewrite /g insubF // ltnNge h.
  rewrite -big_split /=; apply: eq_bigr => j _; rewrite xu // /g; case: insubP => [o jo <-|_]; last by rewrite add0r.
  by rewrite yu ?normr0 ?expr0n ?mulr0 ?addr0 // (leq_trans (ltn_ord o) km).
have xx : dot x x = S + dot y y.
  rewrite (parseval x ou su) (parseval y ou su); have one I (r : seq I) (f : I -> C) : \sum_(i <- r) 1 * f i = \sum_(i <- r) f i by apply: eq_bigr => i _; rewrite mul1r.
  by have := split3 (fun=> 1); rewrite !one.
have yy0 := dot_ge0 y.
have x0 : 0 < dot x x by rewrite xx ltr_paddr.
have high : dot x (H *m x) <= l k * S + up * dot y y.
  rewrite (rayleigh x ou su hu) (split3 l) (parseval y ou su) !mulr_sumr; apply: ler_add; apply: ler_sum => i _.
    by rewrite ler_wpmul2r ?exprn_ge0 ?lk // -ltnS.
  case: (ltnP i m) => im; first by rewrite yu // normr0 expr0n /= !mulr0.
  by rewrite ler_wpmul2r ?exprn_ge0 ?lup // im ltn_ord.
have [a xa] : exists a : nat -> C, x = \sum_(j < size xs) a j *: xs`_j.
  have [A hA] : exists A : 'I_k.+1 -> nat -> C, forall i : 'I_k.+1, us`_i + z i = \sum_(j < size xs) A i j *: xs`_j.
    exists (fun i j => dot xs`_j (us`_i + z i)) => i; have [b hb] := hw i (ltn_ord i).
    by rewrite [LHS]hb; apply: eq_bigr => j _; rewrite hb comb_coef.
  exists (fun j => \sum_(i < k.+1) c i 0 * A i j); rewrite /x; under eq_bigr do rewrite hA scaler_sumr.
  by rewrite exchange_big; apply: eq_bigr => j _; rewrite scaler_suml; apply: eq_bigr => i _; rewrite scalerA.
have aj j : (j < k)%N -> a j = 0.
  move=> jk; rewrite -(comb_coef a) ?(ltn_trans jk) // -xa dot_sumr.
  have := congr1 (fun M : 'cV[C]_k => M (Ordinal jk) 0) hc; rewrite !mxE; apply: etrans.
  by apply: eq_bigr => i _; rewrite dotZr !mxE mulrC.
have low : th k * dot x x <= dot x (H *m x).
  have [xx' xH] := ritz_comb a; rewrite -xa in xx' xH; rewrite xx' xH mulr_sumr; apply: ler_sum => j _.
  case: (ltnP j k) => jk; first by rewrite aj // normr0 expr0n /= !mulr0.
  by rewrite ler_wpmul2r ?exprn_ge0 ?tk // jk ltn_ord.
have yS : dot y y <= S * \sum_(i < k.+1) dot (z i) (z i) by apply: dot_comb_le.
set Q := \sum_(i < k.+1) dot (z i) (z i) in yS *.
have Q0 : 0 <= Q by apply: sumr_ge0 => i _; exact: dot_ge0.
have up0 : 0 <= up - l k by rewrite subr_ge0.
case: (real_leP tr lr) => tl; first by rewrite (le_trans tl) // ler_addl mulr_ge0.
rewrite -ler_subl_addl -(ler_pmul2r S0).
apply: (@le_trans _ _ ((th k - l k) * dot x x)).
  by rewrite xx ler_wpmul2l ?ler_addl // subr_ge0 ltW.
apply: (@le_trans _ _ ((up - l k) * dot y y)).
  rewrite mulrBl ler_subl_addr; apply: le_trans low _; apply: le_trans high _.
  rewrite xx le_eqVlt; apply/orP; left; apply/eqP; ring.
by rewrite -mulrA ler_wpmul2l // mulrC.
Qed.
End Ritz.
