(** Sums of Rayleigh quotients of orthonormal vectors lie between sums of extreme eigenvalues (Ky Fan). *)
From Coq Require Import Permutation.
From mathcomp Require Import all_ssreflect all_algebra all_real_closed.
Require Import Verif.Base Verif.AlgModel Verif.AlgSpec Verif.DlaModel Verif.ColModel Verif.ColSpec Verif.ExactSpec Verif.OrthSpec Verif.OrthProofs Verif.Spectral Verif.OrthSolve.
Set Implicit Arguments. Unset Strict Implicit. Unset Printing Implicit Defensive.
Import Order.TTheory GRing.Theory Num.Theory.
Local Open Scope ring_scope.
Local Open Scope complex_scope.

(** weights between 0 and 1 *)
Section Weights.
Variables (R : rcfType) (J : finType) (w d : J -> R) (k : nat).
Hypotheses (w0 : forall j, 0 <= w j) (w1 : forall j, w j <= 1) (wk : \sum_j w j = k%:R).

Lemma weights_low t : k%:R * t + \sum_j Num.min (d j - t) 0 <= \sum_j w j * d j.
Proof.
have -> : \sum_j w j * d j = k%:R * t + \sum_j w j * (d j - t).
  by rewrite -wk mulr_suml -big_split /=; apply: eq_bigr => j _; rewrite -mulrDr addrC subrK.
rewrite ler_add2l; apply: ler_sum => j _; case: (leP 0 (d j - t)) => h; first by rewrite mulr_ge0.
by rewrite -{1}[d j - t]mul1r ler_wnmul2r // ltW.
Qed.
Lemma weights_high t : \sum_j w j * d j <= k%:R * t + \sum_j Num.max (d j - t) 0.
Proof.
have -> : \sum_j w j * d j = k%:R * t + \sum_j w j * (d j - t).
  by rewrite -wk mulr_suml -big_split /=; apply: eq_bigr => j _; rewrite -mulrDr addrC subrK.
rewrite ler_add2l; apply: ler_sum => j _; case: (leP (d j - t) 0) => h; first by rewrite mulr_ge0_le0.
by rewrite -{2}[d j - t]mul1r ler_wpmul2r // ltW.
Qed.

Variable ls : seq R.
Hypotheses (sl : sorted <=%R ls) (pl : perm_eq ls [seq d j | j <- enum J]).
Let sz : size ls = #|J|. Proof. by rewrite (perm_size pl) size_map -cardE. Qed.
Let sumE (f : R -> R) : \sum_j f (d j) = \sum_(i < size ls) f ls`_i.
Proof. rewrite -(big_mkord xpredT (fun i => f ls`_i)) -(big_nth 0 xpredT f) (perm_big _ pl) big_map big_enum //. Qed.
Let mono i j : (i <= j)%N -> (j < size ls)%N -> ls`_i <= ls`_j.
Proof. by move=> ij hj; apply: (sorted_leq_nth le_trans le_refl) => //; rewrite inE // (leq_ltn_trans ij). Qed.


Lemma weights_sorted_low : (k <= size ls)%N -> \sum_(i < k) ls`_i <= \sum_j w j * d j.
Proof.
move=> hk; pose t := ls`_k.-1; apply: le_trans (weights_low t).
rewrite (sumE (fun x => Num.min (x - t) 0)).
have -> : \sum_(i < k) ls`_i = k%:R * t + \sum_(i < size ls | (i < k)%N) (ls`_i - t).
  rewrite -(big_ord_widen _ (fun i => ls`_i - t) hk) sumrB sumr_const card_ord mulr_natl addrC subrK //.
rewrite ler_add2l big_mkcond; apply: ler_sum => i _; case: ltnP => h.
  by rewrite le_minr lexx subr_le0 mono //; case: k h hk.
by rewrite le_minr lexx subr_ge0 mono // ?(leq_trans _ h) ?leq_pred.
Qed.
Lemma weights_sorted_high : (k <= size ls)%N -> \sum_j w j * d j <= \sum_(i < k) ls`_(size ls - i.+1).
Proof.
move=> hk; pose t := ls`_(size ls - maxn k 1); apply: le_trans (weights_high t) _.
rewrite (sumE (fun x => Num.max (x - t) 0)).
have -> : \sum_(i < k) ls`_(size ls - i.+1) = k%:R * t + \sum_(i < size ls | (i < k)%N) (ls`_(size ls - i.+1) - t).
  rewrite -(big_ord_widen _ (fun i => ls`_(size ls - i.+1) - t) hk) sumrB sumr_const card_ord mulr_natl addrC subrK //.
rewrite ler_add2l (reindex_inj rev_ord_inj) big_mkcond /= [X in _ <= X]big_mkcond; apply: ler_sum => i _.
have hi : (size ls - i.+1 < size ls)%N by rewrite ltn_subrL (leq_ltn_trans (leq0n i) (ltn_ord i)).
case: ltnP => h.
  rewrite le_maxl lexx subr_ge0 mono // leq_sub2l //; case: k h => //= m; by rewrite /maxn; case: ifP.
rewrite le_maxl lexx subr_le0 andbT; apply: mono.
  by rewrite leq_sub2l // geq_max (leqW h).
by rewrite ltn_subrL leq_max orbT (leq_ltn_trans (leq0n i) (ltn_ord i)).
Qed.
End Weights.

(** squared coefficients of an orthonormal family in an eigenbasis *)
Section Coef.
Variables (C : numClosedFieldType) (N : nat) (H : 'M[C]_N).
Local Notation cj := (@conjC C).
Local Notation dot := (@dot C cj N).
Local Notation orthonormal := (@orthonormal C cj N).

Lemma bessel xs u : orthonormal xs -> (size xs <= N)%N -> \sum_(i < size xs) `|dot xs`_i u| ^+ 2 <= dot u u.
Proof.
move=> ox sx; have [bs ob [sb tb]] := complete ox sx.
rewrite (parseval u ob sb) (big_ord_widen N (fun i => `|dot xs`_i u| ^+ 2)) //.
rewrite big_mkcond; apply: ler_sum => i _; case: ifP => h; last by rewrite exprn_ge0.
by rewrite -tb nth_take.
Qed.

Lemma rayleigh us d x : orthonormal us -> size us = N -> (forall i, (i < N)%N -> H *m us`_i = d i *: us`_i) ->
  dot x (H *m x) = \sum_(j < N) d j * `|dot us`_j x| ^+ 2.
Proof.
move=> ou su hd; rewrite {2}(coords x ou su) mulmx_sumr dot_sumr; apply: eq_bigr => j _.
by rewrite -scalemxAr dotZr hd // dotZr (dotC us`_j x) mulrCA normCK.
Qed.

Lemma orth_size xs : orthonormal xs -> (size xs <= N)%N.
Proof.
move=> ox; have h := gram_colmx ox (leqnn _).
by rewrite -(mxrank1 C (size xs)) -h (leq_trans (mxrankM_maxr _ _)) // rank_leq_row.
Qed.
End Coef.

Section List.
Variables (R : rcfType) (C : fieldType) (inj : {rmorphism R -> C}) (cj : {rmorphism C -> C}) (e : {rmorphism C -> R[i]}) (N : nat).
Hypothesis IC : in_complex inj cj e.

Lemma orth_sub (xs : seq 'cV[C]_N) (I : seq nat) : orthonormal cj xs -> uniq I -> all (fun i => i < size xs)%N I -> orthonormal cj [seq xs`_i | i <- I].
Proof.
move=> ox uI aI i j; rewrite size_map => hi hj; rewrite !(nth_map 0%N) // ox ?nth_uniq //; by apply: (allP aI); exact: mem_nth.
Qed.

Lemma kyfan_list (H : 'M[C]_N) : hermitian cj H -> exists ls : seq R, [/\ sorted <=%R ls, char_poly H = \prod_(l <- ls) ('X - (inj l)%:P) &
  forall (xs : seq 'cV[C]_N) (v : nat -> R) (I : seq nat), orthonormal cj xs -> uniq I -> all (fun i => i < size xs)%N I ->
    (forall i, i \in I -> inj (v i) = dot cj xs`_i (H *m xs`_i)) ->
    \sum_(i < size I) ls`_i <= \sum_(i <- I) v i <= \sum_(i < size I) ls`_(N - i.+1)].
Proof.
move=> HH; have HM := herm_map IC HH.
have [us [d [su ou hd]]] := eigen_family HM (leqnn N).
have dE (j : 'I_N) : d j = (complex.Re (d j))%:C.
  rewrite RRe_real //; apply: (eig_real HM (x := us`_j)); last by apply: hd.
  by rewrite -(dot_eq0 us`_j) ou ?su // eqxx oner_eq0.
pose dR (j : 'I_N) := complex.Re (d j); pose ls := sort <=%R [seq dR j | j <- enum 'I_N].
have pl : perm_eq ls [seq dR j | j <- enum 'I_N] by rewrite perm_sort.
have sl : sorted <=%R ls by apply: sort_le_sorted.
have sz : size ls = N by rewrite (perm_size pl) size_map size_enum_ord.
exists ls; split=> //.
  rewrite (perm_big _ pl) big_map big_enum /=.
  apply: (@map_poly_inj _ _ e); rewrite map_char_poly (eigen_prod ou su hd) rmorph_prod; apply: eq_bigr => j _.
  by rewrite rmorphB /= map_polyX map_polyC /= (ic_real IC) -dE.
move=> xs v I ox uI aI hv.
pose ys := [seq map_mx e xs`_i | i <- I].
have oy : orthonormal (@conjC _) ys.
  move=> i j; rewrite size_map => hi hj; rewrite !(nth_map 0%N) // (dot_map IC).
  have := orth_sub ox uI aI (i := i) (j := j); rewrite size_map !(nth_map 0%N) // => -> //; by rewrite rmorph_nat.
have sy : (size ys <= N)%N := orth_size oy.
pose wc (j : 'I_N) : R[i] := \sum_(i < size ys) `|dot (@conjC _) us`_j ys`_i| ^+ 2.
have wc0 j : 0 <= wc j by apply: sumr_ge0 => i _; rewrite exprn_ge0.
have wc1 j : wc j <= 1.
  have := bessel us`_j oy sy; rewrite ou ?su // eqxx /=; congr (_ <= _); apply: eq_bigr => i _.
  by rewrite [X in `|X|]dotC norm_conjC.
pose w j := complex.Re (wc j).
have wE j : wc j = (w j)%:C by rewrite /w RRe_real // ger0_real.
have w0 j : 0 <= w j by have := wc0 j; rewrite wE ler0c.
have w1 j : w j <= 1 by have := wc1 j; rewrite wE -(lecR (w j) 1).
have wk : \sum_j w j = (size I)%:R.
  apply: (@complexI R); rewrite rmorph_sum rmorph_nat /=; under eq_bigr do rewrite -wE.
  rewrite /wc exchange_big /= -[size I](size_map (fun i => map_mx e xs`_i)) -/ys.
  under eq_bigr => i _ do rewrite -(parseval ys`_i ou su) oy // eqxx.
  by rewrite sumr_const card_ord.
have vE : \sum_(i <- I) v i = \sum_j w j * dR j.
  apply: (@complexI R); rewrite !rmorph_sum /=.
  transitivity (\sum_(j < N) \sum_(i < size ys) `|dot (@conjC _) us`_j ys`_i| ^+ 2 * d j); last first.
    by apply: eq_bigr => j _; rewrite rmorphM /= /dR -wE -dE mulr_suml.
  rewrite exchange_big /= -(big_mkord xpredT (fun i => \sum_(j < N) `|dot (@conjC _) us`_j ys`_i| ^+ 2 * d j)).
  rewrite -(big_nth 0 xpredT (fun y => \sum_(j < N) `|dot (@conjC _) us`_j y| ^+ 2 * d j)) big_map.
  rewrite !big_seq; apply: eq_bigr => i iI; rewrite -(ic_real IC) hv // -(dot_map IC) map_mxM.
  rewrite (rayleigh _ ou su hd); by apply: eq_bigr => j _; rewrite mulrC.
rewrite size_map in sy.
rewrite vE (weights_sorted_low w0 w1 wk sl pl) ?sz //=.
by have := weights_sorted_high w0 w1 wk sl pl; rewrite sz => ->.
Qed.
End List.

Section Solve.
Variables (R : rcfType) (C : fieldType) (inj : {rmorphism R -> C}) (cj : {rmorphism C -> C}) (N : nat) (G : Type).
Variables (fo : fops R) (bl : blas R 'cV[C]_N 'M[C]_N G C) (qe : qr_env R) (td : tridiag R) (cf : conf R) (sort_idx : list R -> list nat).
Variables (H : 'M[C]_N) (fsort : list R -> list R) (l0 : nat) (V1 : list 'cV[C]_N) (ritzv resid : list R).
Local Notation n := (Nat.add (c_nev cf) (c_nex cf)).
Local Notation nsK := (cmK fo qe td (stop_late (late_failure bl n) (colD fo bl false n)) (c_nev cf) (c_nex cf)).
Local Notation seqK := (cmK fo qe td (colD fo bl false n) (c_nev cf) (c_nex cf)).
Hypothesis Hperm : forall keys, Permutation (sort_idx keys) (List.seq 0 (length keys)).
Hypotheses (EF : exact_fops fo) (EM : exact_mv inj cj bl) (EQ : exact_qr cj bl n) (ER : exact_rr inj cj bl H n) (HH : hermitian cj H).
Hypotheses (HV : length V1 = n) (HC : conf_ok cf) (HM : le 1 (c_maxiter cf)) (HX : le (c_nex cf) (c_nev cf)).
Variable e : {rmorphism C -> R[i]}.
Hypotheses (IC : in_complex inj cj e) (EV : exact_vec inj cj bl).

Lemma seq_kyfan o s : solve fo seqK fsort sort_idx cf (mk_cm l0 (seq_state bl (c_nev cf) (c_nex cf) H V1)) ritzv resid = Ok o -> o_exit o = Some s ->
  (chol_disabled qe \/ solve fo nsK fsort sort_idx cf (mk_cm l0 (seq_state bl (c_nev cf) (c_nex cf) H V1)) ritzv resid = Ok o) ->
  exists ls : seq R, sorted <=%R ls /\ char_poly H = \prod_(l <- ls) ('X - (inj l)%:P) /\
  forall I : seq nat, uniq I -> all (fun i => i < c_nev cf)%N I ->
    \sum_(i < size I) ls`_i <= \sum_(i <- I) (o_ritz o)`_i <= \sum_(i < size I) ls`_(N - i.+1).
Proof.
move=> E Hx HN; have [sz on] := seq_orthonormal' Hperm EF EM EQ ER HH HV HC HM HX E Hx HN.
have [rs [_ X]] := seq_values' Hperm EF EM EQ ER HH HV HC HM HX IC EV E Hx HN.
have [ls [sl cp K]] := kyfan_list IC HH; exists ls; split=> //; split=> // I uI aI.
apply: (K _ (fun i => (o_ritz o)`_i) I on uI).
  by apply/allP => i /(allP aI) hi; rewrite sz (leq_trans hi) // leq_addr.
move=> i /(allP aI) hi; have [v [x [r [hv [hx [_ [_ [hr _]]]]]]]] := X _ (ssrnat.ltP hi).
by rewrite !nthE hv hx.
Qed.
End Solve.
