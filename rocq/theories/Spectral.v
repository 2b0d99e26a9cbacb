(** Orthonormal bases and the spectral theorem for Hermitian matrices over an algebraically closed field with conjugation;
    the distance from a number to the spectrum is bounded by the residual of any unit vector. *)
From mathcomp Require Import all_ssreflect all_algebra ring.
Require Import Verif.ExactSpec Verif.OrthSpec Verif.OrthProofs.
Set Implicit Arguments. Unset Strict Implicit. Unset Printing Implicit Defensive.
Import Order.TTheory GRing.Theory Num.Theory.
Local Open Scope ring_scope.

Section Basis.
Variables (C : numClosedFieldType) (N : nat).
Local Notation cj := (@conjC C).
Local Notation dot := (@dot C cj N).
Local Notation orthonormal := (@orthonormal C cj N).
Implicit Types (x y z c : 'cV[C]_N) (cs us : seq 'cV[C]_N).

Lemma dotC x y : dot y x = (dot x y)^*.
Proof. by rewrite !dotE rmorph_sum; apply: eq_bigr => i _; rewrite rmorphM /= conjCK mulrC. Qed.
Lemma dot_ge0 x : 0 <= dot x x.
Proof. by rewrite dotE sumr_ge0 // => i _; rewrite mulrC mul_conjC_ge0. Qed.
Lemma dot_eq0 x : (dot x x == 0) = (x == 0).
Proof.
apply/eqP/eqP => [h|->]; last exact: dot0r.
apply/matrixP => i j; rewrite !ord1 mxE; move: h; rewrite dotE => h.
have := psumr_eq0P (P := predT) (F := fun i => cj (x i 0) * x i 0).
move=> /(_ (fun i _ => ltac:(by rewrite mulrC mul_conjC_ge0)) h i isT) /eqP.
by rewrite mulrC mul_conjC_eq0 => /eqP.
Qed.

Lemma normalise x : x != 0 -> exists2 a, a != 0 & dot (a *: x) (a *: x) = 1.
Proof.
move=> nz; set q := sqrtC (dot x x).
have q0 : q != 0 by rewrite sqrtC_eq0 dot_eq0.
exists q^-1; first by rewrite invr_eq0.
have qr : q^* = q by apply: conj_Creal; apply: ger0_real; rewrite sqrtC_ge0 dot_ge0.
rewrite dotZl dotZr fmorphV /= qr mulrA -invfM -expr2 sqrtCK mulVf // dot_eq0 //.
Qed.

(** matrix of a list of columns *)
Definition colmx k cs : 'M[C]_(N, k) := \matrix_(i, j) cs`_j i 0.
Lemma col_colmx k cs (j : 'I_k) : col j (colmx k cs) = cs`_j.
Proof. by apply/matrixP => i l; rewrite !mxE ord1. Qed.
Lemma gram_colmx k cs : orthonormal cs -> (k <= size cs)%N -> adj cj (colmx k cs) *m colmx k cs = 1%:M.
Proof.
move=> on hk; apply/matrixP => i j; rewrite !mxE.
rewrite -(on i j) ?(leq_trans _ hk) // dotE; apply: eq_bigr => l _; by rewrite !mxE.
Qed.
Lemma mul_colmx k cs (z : 'cV[C]_k) : colmx k cs *m z = \sum_(i < k) z i 0 *: cs`_i.
Proof.
apply/matrixP => i j; rewrite !mxE summxE; apply: eq_bigr => l _; by rewrite !mxE ord1 mulrC.
Qed.

Lemma orth_snoc cs y : orthonormal cs -> dot y y = 1 -> (forall i, (i < size cs)%N -> dot cs`_i y = 0) -> orthonormal (cs ++ [:: y]).
Proof.
move=> on hy ho; apply: orth_cat => //.
- by move=> [|i] [|j] //= _ _; rewrite hy eqxx.
- by move=> i [|j] // hi _ /=; rewrite ho // dotC ho // rmorph0.
Qed.

(** a further direction *)
Lemma extend cs : orthonormal cs -> (size cs < N)%N -> exists y, orthonormal (cs ++ [:: y]).
Proof.
move=> on sz; set A := adj cj (colmx (size cs) cs).
have : kermx A^T != 0.
  by rewrite -mxrank_eq0 mxrank_ker subn_eq0 -ltnNge mxrank_tr (leq_ltn_trans (rank_leq_row _)).
case/rowV0Pn => w /sub_kermxP hw nw.
have nz : w^T != 0 by rewrite -trmx0 (inj_eq trmx_inj).
have hA : A *m w^T = 0 by rewrite -[A]trmxK -trmx_mul hw trmx0.
have [a a0 ha] := normalise nz.
exists (a *: w^T); apply: orth_snoc => // i hi.
rewrite dotZr; have -> : dot cs`_i w^T = (A *m w^T) (Ordinal hi) 0.
  by rewrite dotE !mxE; apply: eq_bigr => l _; rewrite !mxE.
by rewrite hA mxE mulr0.
Qed.

(** one step of Gram-Schmidt, completed by any further direction if the new column brings none *)
Lemma gs_step cs c : orthonormal cs -> (size cs < N)%N ->
  exists y, orthonormal (cs ++ [:: y]) /\ exists (a : nat -> C) (b : C), c = \sum_(i < size cs) a i *: cs`_i + b *: y.
Proof.
move=> on sz; pose a i := dot cs`_i c; pose r := c - \sum_(i < size cs) a i *: cs`_i.
have cE : c = \sum_(i < size cs) a i *: cs`_i + r by rewrite addrC subrK.
case: (eqVneq r 0) => [r0|nr].
  have [y hy] := extend on sz; exists y; split=> //; exists a, 0; by rewrite scale0r {1}cE r0.
have [q q0 hq] := normalise nr.
exists (q *: r); split; last by exists a, q^-1; rewrite scalerA mulVf // scale1r.
apply: orth_snoc => // i hi; rewrite dotZr (_ : dot cs`_i r = 0) ?mulr0 //.
rewrite /r dotDr -scaleN1r dotZr mulN1r dot_sumr (bigD1 (Ordinal hi)) //= dotZr on // eqxx mulr1 big1 ?addr0 ?subrr // => k ki.
by rewrite dotZr on // (_ : (i == k :> nat) = false) ?mulr0 //; apply/negbTE; rewrite eq_sym; exact: ki.
Qed.

(** every list of at most N columns has a QR factorisation *)
Lemma qr_exists cs : (size cs <= N)%N -> exists2 qs, upper_factor cs qs & orthonormal qs.
Proof.
elim/last_ind: cs => [|cs c IH]; first by move=> _; exists [::] => //; split=> //; exists (fun _ _ => 0).
rewrite size_rcons => sz; have [qs [sq [U hU]] on] := IH (ltnW sz).
have [y [oy [a [b cE]]]] := gs_step c on ltac:(by rewrite -sq).
exists (qs ++ [:: y]) => //; split; first by rewrite size_rcons size_cat /= addn1 sq.
exists (fun i j => if (j < size cs)%N then U i j else if (i < size cs)%N then a i else b) => j.
rewrite size_rcons ltnS leq_eqVlt => /orP [/eqP ->|hj].
- rewrite nth_rcons ltnn eqxx cE big_ord_recr /= ltnn nth_cat -sq ltnn subnn /=; congr (_ + _).
  by apply: eq_bigr => i _; rewrite ltn_ord nth_cat -sq ltn_ord.
- rewrite nth_rcons hj hU //; apply: eq_bigr => i _; rewrite nth_cat -sq.
  by rewrite (leq_ltn_trans _ hj) // -ltnS.
Qed.

(** completion to a basis *)
Lemma complete cs : orthonormal cs -> (size cs <= N)%N -> exists2 bs, orthonormal bs & size bs = N /\ take (size cs) bs = cs.
Proof.
move=> on sz; move: {2}(N - size cs)%N (erefl (N - size cs)%N) => m; elim: m cs on sz => [|m IH] cs on sz hm.
  exists cs => //; split; last exact: take_size.
  by apply/eqP; rewrite eqn_leq sz -subn_eq0 hm.
have lt : (size cs < N)%N by rewrite -subn_gt0 hm.
have [y oy] := extend on lt.
have [||bs ob [sb tb]] := IH _ oy; rewrite ?size_cat ?addn1 //; first by rewrite subnS hm.
exists bs => //; split=> //; move: tb; rewrite size_cat addn1 => tb.
by rewrite -(take_take (leqnSn (size cs)) bs) tb take_size_cat.
Qed.

(** coordinates in a basis *)
Lemma coords bs x : orthonormal bs -> size bs = N -> x = \sum_(i < N) dot bs`_i x *: bs`_i.
Proof.
move=> on sb; have h := mulmx1C (gram_colmx on (eq_leq (esym sb))).
rewrite -{1}[x]mul1mx -h -mulmxA mul_colmx; apply: eq_bigr => i _; congr (_ *: _).
by rewrite !mxE dotE; apply: eq_bigr => l _; rewrite !mxE.
Qed.
Lemma parseval bs x : orthonormal bs -> size bs = N -> dot x x = \sum_(i < N) `|dot bs`_i x| ^+ 2.
Proof.
move=> on sb; rewrite {1 2}(coords x on sb).
have := dot_comb (fun i => dot bs`_i x) (fun i => dot bs`_i x) on; rewrite sb => ->.
by apply: eq_bigr => i _; rewrite normCKC.
Qed.
End Basis.

(** *** inequalities *)
Section Ineq.
Variables (C : numClosedFieldType) (N : nat).
Local Notation cj := (@conjC C).
Local Notation dot := (@dot C cj N).
Implicit Types (x y : 'cV[C]_N).

Lemma dotBB x y : dot (x - y) (x - y) = dot x x - dot x y - dot y x + dot y y.
Proof.
by rewrite -(scaleN1r y) dotDr !dotDl !dotZr !dotZl rmorphN rmorph1 !mulN1r opprK addrACA addrA.
Qed.
Lemma dotDD x y : dot (x + y) (x + y) = dot x x + dot x y + dot y x + dot y y.
Proof. by rewrite dotDr !dotDl addrACA !addrA. Qed.

Lemma dot_CS x y : `|dot x y| ^+ 2 <= dot x x * dot y y.
Proof.
case: (eqVneq x 0) => [->|nx]; first by rewrite !dot0l normr0 expr0n mul0r.
have X0 : 0 < dot x x by rewrite lt0r dot_ge0 dot_eq0 nx.
have := dot_ge0 (dot x x *: y - dot x y *: x).
rewrite dotBB !dotZr !dotZl /= (conj_Creal (ger0_real (ltW X0))) -(dotC x y) (dotC x y) normCK.
set X := dot x x; set Y := dot y y; set P := dot x y => h.
rewrite -(ler_pmul2l X0) -subr_ge0; apply: le_trans h _.
by rewrite -/X le_eqVlt; apply/orP; left; apply/eqP; move: (cj P) => Q; ring.
Qed.

Lemma dot_family (T : finType) (y : T -> 'cV[C]_N) (a b : T -> C) : (forall i j, dot (y i) (y j) = (i == j)%:R) ->
  dot (\sum_i a i *: y i) (\sum_i b i *: y i) = \sum_i (a i)^* * b i.
Proof.
move=> h; rewrite dot_suml; apply: eq_bigr => i _; rewrite dotZl dot_sumr (bigD1 i) //= dotZr h eqxx mulr1 big1 ?addr0 //.
by move=> j ji; rewrite dotZr h eq_sym (negbTE ji) mulr0.
Qed.

(** (p + q)^2 <= (h + d)^2 Z *)
Lemma dot_tri p q (h d Z : C) : 0 <= h -> 0 <= d -> 0 <= Z -> dot p p <= h ^+ 2 * Z -> dot q q <= d ^+ 2 * Z ->
  dot (p + q) (p + q) <= (h + d) ^+ 2 * Z.
Proof.
move=> h0 d0 Z0 hp hq.
have zero v : dot v v <= 0 -> v = 0.
  by move=> hv; apply/eqP; rewrite -dot_eq0 eq_le hv dot_ge0.
move: h0; rewrite le_eqVlt => /orP [/eqP hz|h0].
  by move: hp; rewrite -hz expr0n mul0r => /zero ->; rewrite !add0r.
move: d0; rewrite le_eqVlt => /orP [/eqP dz|d0].
  by move: hq; rewrite -dz expr0n mul0r => /zero ->; rewrite !addr0.
have hd : 0 < h * d by apply: mulr_gt0.
have := dot_ge0 (d *: p - h *: q).
rewrite dotBB !dotZr !dotZl /= (conj_Creal (gtr0_real h0)) (conj_Creal (gtr0_real d0)) => hs.
rewrite -(ler_pmul2l hd) dotDD.
set P := dot p p in hp hs *; set Q := dot q q in hq hs *; set S := dot p q in hs *; set T := dot q p in hs *.
apply: (@le_trans _ _ (d * (h + d) * P + h * (h + d) * Q)).
  rewrite -subr_ge0; apply: le_trans hs _; rewrite le_eqVlt; apply/orP; left; apply/eqP; ring.
have hd' : 0 < h + d by apply: addr_gt0.
have A1 : d * (h + d) * P <= d * (h + d) * (h ^+ 2 * Z) by rewrite ler_pmul2l // mulr_gt0.
have A2 : h * (h + d) * Q <= h * (h + d) * (d ^+ 2 * Z) by rewrite ler_pmul2l // mulr_gt0.
apply: le_trans (ler_add A1 A2) _; rewrite le_eqVlt; apply/orP; left; apply/eqP; ring.
Qed.
End Ineq.

(** norm of a combination *)
Lemma dot_comb_le (C : numClosedFieldType) N m (z : 'I_m -> C) (r : 'I_m -> 'cV[C]_N) :
  dot (@conjC C) (\sum_i z i *: r i) (\sum_i z i *: r i) <= (\sum_i `|z i| ^+ 2) * \sum_i dot (@conjC C) (r i) (r i).
Proof.
have dE k (v : 'cV[C]_k) : dot (@conjC C) v v = \sum_l `|v l 0| ^+ 2.
  by rewrite dotE; apply: eq_bigr => l _; rewrite normCKC.
under [\sum_i dot _ _ _]eq_bigr do rewrite dE.
rewrite exchange_big mulr_sumr dE /=; apply: ler_sum => l _.
have := dot_CS (\col_i (z i)^*) (\col_i r i l 0); rewrite !dE.
rewrite (_ : dot _ _ _ = (\sum_i z i *: r i) l 0); last first.
  by rewrite dotE summxE; apply: eq_bigr => i _; rewrite !mxE conjCK.
move=> h; apply: le_trans h _; rewrite le_eqVlt; apply/orP; left; apply/eqP; congr (_ * _).
  by apply: eq_bigr => i _; rewrite mxE norm_conjC.
by apply: eq_bigr => i _; rewrite mxE.
Qed.

Lemma ker_col (C : fieldType) m n (A : 'M[C]_(m, n)) : (m < n)%N -> exists z : 'cV[C]_n, z != 0 /\ A *m z = 0.
Proof.
move=> lt; have : kermx A^T != 0.
  by rewrite -mxrank_eq0 mxrank_ker subn_eq0 -ltnNge mxrank_tr (leq_ltn_trans (rank_leq_row _)).
case/rowV0Pn => w /sub_kermxP hw nw; exists w^T; split; first by rewrite -trmx0 (inj_eq trmx_inj).
by rewrite -[A]trmxK -trmx_mul hw trmx0.
Qed.

(** *** eigenvectors *)
Lemma eig_exists (C : numClosedFieldType) m (A : 'M[C]_m.+1) : exists (l : C) (z : 'cV[C]_m.+1), z != 0 /\ A *m z = l *: z.
Proof.
have : size (char_poly A^T) != 1%N by rewrite size_char_poly.
case/closed_rootP => l; rewrite -eigenvalue_root_char => /eigenvalueP [v hv nv].
exists l, v^T; split; first by rewrite -trmx0 (inj_eq trmx_inj).
by rewrite -[A]trmxK -trmx_mul hv linearZ.
Qed.

Section Herm.
Variables (C : numClosedFieldType) (N : nat) (H : 'M[C]_N).
Hypothesis HH : hermitian conjC H.
Local Notation cj := (@conjC C).
Local Notation dot := (@dot C cj N).
Local Notation orthonormal := (@orthonormal C cj N).

Lemma dot_herm x y : dot (H *m x) y = dot x (H *m y).
Proof.
rewrite /OrthSpec.dot; have -> : adj cj (H *m x) = adj cj x *m H by rewrite /adj trmx_mul map_mxM /=; congr (_ *m _).
by rewrite mulmxA.
Qed.

(** an orthonormal family of k eigenvectors *)
Lemma eigen_family k : (k <= N)%N -> exists us (d : nat -> C), [/\ size us = k, orthonormal us &
  forall i, (i < k)%N -> H *m us`_i = d i *: us`_i].
Proof.
elim: k => [|k IH] hk; first by exists [::], (fun _ => 0); split => // i j.
have [us [d [su ou hd]]] := IH (ltnW hk).
have [bs ob [sb tb]] := complete ou ltac:(by rewrite su ltnW).
rewrite su in tb.
have [m hm] : exists m, (N - k = m.+1)%N by exists (N - k.+1)%N; rewrite subnSK.
pose B j := bs`_(k + j).
have hB j : (j < m.+1)%N -> (k + j < size bs)%N by move=> hj; rewrite sb -ltn_subRL hm.
have usB i j : (i < k)%N -> (j < m.+1)%N -> dot us`_i (B j) = 0.
  move=> hi hj; rewrite -tb nth_take // ob ?hB //; last by rewrite sb (ltn_trans hi).
  by rewrite (_ : (i == k + j)%N = false) //; apply/negbTE; rewrite neq_ltn (leq_trans hi) // leq_addr.
have inB y : (forall i, (i < k)%N -> dot us`_i y = 0) -> y = \sum_(j < m.+1) dot (B j) y *: B j.
  move=> hy; rewrite {1}(coords y ob sb); pose f i := dot bs`_i y *: bs`_i.
  rewrite -[LHS]/(\sum_(i < N) f i) -(big_mkord xpredT f) (big_cat_nat _ (n := k)) ?(ltnW hk) //=.
  rewrite big_nat_cond big1 ?add0r.
    rewrite -{1}[k]add0n big_addn hm big_mkord; apply: eq_bigr => i _; by rewrite /f addnC.
  by move=> i /andP [/andP [_ hi] _]; rewrite /f -[bs`_i](nth_take _ hi) tb hy // scale0r.
pose A : 'M[C]_m.+1 := \matrix_(j, l) dot (B j) (H *m B l).
have [l [z [nz hz]]] := eig_exists A.
pose x := \sum_(j < m.+1) z j 0 *: B j.
have Hx : H *m x = l *: x.
  rewrite /x mulmx_sumr scaler_sumr.
  transitivity (\sum_(q < m.+1) z q 0 *: \sum_(j < m.+1) A j q *: B j).
    apply: eq_bigr => q _; rewrite -scalemxAr; congr (_ *: _).
    rewrite {1}(inB (H *m B q)); first by apply: eq_bigr => j _; rewrite !mxE.
    by move=> i hi; rewrite -dot_herm hd // dotZl usB ?mulr0 //.
  transitivity (\sum_(q < m.+1) \sum_(j < m.+1) (z q 0 * A j q) *: B j).
    by apply: eq_bigr => q _; rewrite scaler_sumr; apply: eq_bigr => j _; rewrite scalerA.
  rewrite exchange_big /=; apply: eq_bigr => j _; rewrite -scaler_suml scalerA; congr (_ *: _).
  have := congr1 (fun M : 'cV[C]_m.+1 => M j 0) hz; rewrite !mxE => <-.
  by apply: eq_bigr => q _; rewrite mulrC.
have xB j : (j < m.+1)%N -> dot (B j) x = z (inord j) 0.
  move=> hj; rewrite dot_sumr (bigD1 (Ordinal hj)) //= dotZr ob ?hB // eqxx mulr1 big1 ?addr0.
    by congr (z _ 0); apply/val_inj; rewrite /= inordK.
  move=> i ij; rewrite dotZr ob ?hB // eqn_add2l (_ : (j == i :> nat) = false) ?mulr0 //.
  by apply/negbTE; rewrite eq_sym; exact: ij.
have nx : x != 0.
  apply: contra nz => /eqP x0; apply/eqP/matrixP => i j; rewrite ord1 mxE.
  have := xB i (ltn_ord i); rewrite x0 dot0r (_ : inord i = i) //; exact: inord_val.
have [a a0 ha] := normalise nx.
exists (us ++ [:: a *: x]), (fun i => if (i < k)%N then d i else l); split.
- by rewrite size_cat su addn1.
- apply: orth_snoc => // i; rewrite su => hi; rewrite dotZr dot_sumr big1 ?mulr0 // => j _.
  by rewrite dotZr usB ?mulr0.
- move=> i; rewrite ltnS leq_eqVlt => /orP [/eqP ->|hi]; rewrite nth_cat su.
  + by rewrite ltnn subnn /= -scalemxAr Hx !scalerA mulrC.
  + by rewrite hi hd.
Qed.

Lemma eig_real (x : 'cV[C]_N) l : x != 0 -> H *m x = l *: x -> l \is Num.real.
Proof.
move=> nx hx; apply/CrealP; have := dot_herm x x; rewrite hx dotZl dotZr => /eqP.
by rewrite -subr_eq0 -mulrBl mulf_eq0 dot_eq0 (negbTE nx) orbF subr_eq0 => /eqP.
Qed.

(** some eigenvalue is within the residual of the value *)
Lemma near_eigenvalue (x : 'cV[C]_N) (v : C) : v \is Num.real -> dot x x = 1 ->
  exists l : C, [/\ l \is Num.real, eigenvalue H l & `|l - v| ^+ 2 <= dot (H *m x - v *: x) (H *m x - v *: x)].
Proof.
move=> vr xx; have [us [d [su ou hd]]] := eigen_family (leqnn N).
set r := H *m x - v *: x.
have nu (i : 'I_N) : us`_i != 0 by rewrite -(dot_eq0 us`_i) ou ?su // eqxx oner_eq0.
have dr (i : 'I_N) : d i \is Num.real by apply: (@eig_real us`_i) => //; apply: hd.
have ev (i : 'I_N) : eigenvalue H (d i).
  (* row eigenvector: the adjoint *)
  apply/eigenvalueP; exists (adj conjC us`_i).
    have := congr1 (adj conjC) (hd i (ltn_ord i)); rewrite /adj trmx_mul map_mxM linearZ /= map_mxZ /= (conj_Creal (dr i)).
    by move=> <-; congr (_ *m _); symmetry; exact: HH.
  apply: contra (nu i) => /eqP h0; apply/eqP/matrixP => a b; rewrite ord1 mxE.
  have := congr1 (fun M : 'rV[C]_N => M 0 a) h0; rewrite !mxE => /eqP; by rewrite conjC_eq0 => /eqP.
case: (boolP [exists i : 'I_N, `|d i - v| ^+ 2 <= dot r r]) => [/existsP [i hi]|/existsPn hn].
  by exists (d i); split => //; exact: dr.
exfalso.
have rE (i : 'I_N) : dot us`_i r = (d i - v) * dot us`_i x.
  rewrite /r dotDr -scaleNr dotZr -dot_herm hd // dotZl /= (conj_Creal (dr i)); by rewrite mulNr mulrBl.
have P : \sum_(i < N) (`|d i - v| ^+ 2 - dot r r) * `|dot us`_i x| ^+ 2 = 0.
  under eq_bigr do rewrite mulrBl -exprMn -normrM -rE.
  by rewrite sumrB -parseval // -mulr_sumr -parseval // xx mulr1 subrr.
have ge (i : 'I_N) : 0 <= (`|d i - v| ^+ 2 - dot r r) * `|dot us`_i x| ^+ 2.
  have r1 : dot r r \is Num.real by rewrite ger0_real // dot_ge0.
  have r2 : `|d i - v| ^+ 2 \is Num.real by rewrite ger0_real // exprn_ge0.
  by rewrite mulr_ge0 ?exprn_ge0 // subr_ge0; have := hn i; rewrite -real_ltNge // => /ltW.
have z (i : 'I_N) : `|dot us`_i x| ^+ 2 = 0.
  have K := psumr_eq0P (P := predT) (F := fun i : 'I_N => (`|d i - v| ^+ 2 - dot r r) * `|dot us`_i x| ^+ 2).
  have /eqP := K (fun i _ => ge i) P i isT; rewrite mulf_eq0 => /orP [|/eqP //]; rewrite subr_eq0 => /eqP E.
  by have := hn i; rewrite E lexx.
have : dot x x = 0 by rewrite (parseval x ou su) big1 // => i _.
by rewrite xx => /eqP; rewrite oner_eq0.
Qed.
(** the eigenvalues with their multiplicities *)
Lemma eigen_prod us d : orthonormal us -> size us = N -> (forall i, (i < N)%N -> H *m us`_i = d i *: us`_i) ->
  char_poly H = \prod_(i < N) ('X - (d i)%:P).
Proof.
move=> ou su hd; set U := colmx N us; set D : 'M[C]_N := diag_mx (\row_i d i).
have g1 : adj conjC U *m U = 1%:M by apply: gram_colmx; rewrite // su.
have g2 := mulmx1C g1.
have HU : H = U *m D *m adj conjC U.
  rewrite -[LHS]mulmx1 -g2 mulmxA; congr (_ *m _); apply/matrixP => i j; rewrite mul_mx_diag !mxE.
  have := congr1 (fun M : 'cV[C]_N => M i 0) (hd j (ltn_ord j)); rewrite !mxE mulrC => <-.
  by apply: eq_bigr => k _; rewrite !mxE.
have -> : char_poly H = char_poly D.
  rewrite /char_poly.
  have -> : char_poly_mx H = map_mx polyC U *m char_poly_mx D *m map_mx polyC (adj conjC U).
    rewrite /char_poly_mx mulmxBr mulmxBl -!map_mxM -HU; congr (_ - _).
    by rewrite mul_mx_scalar -scalemxAl -map_mxM g2 map_scalar_mx /= scalemx1.
  by rewrite !det_mulmx mulrAC -det_mulmx -map_mxM g2 map_scalar_mx /= det1 mul1r.
rewrite char_poly_trig ?diag_mx_is_trig //; apply: eq_bigr => i _; by rewrite !mxE eqxx.
Qed.

(** at least as many eigenvalues as values *)
Lemma near_count us d (k : nat) (xs : seq 'cV[C]_N) (th : nat -> C) (a b dl : C) : orthonormal us -> size us = N ->
  (forall i, (i < N)%N -> H *m us`_i = d i *: us`_i) -> orthonormal xs -> (k <= size xs)%N ->
  (forall i, (i < k)%N -> th i \is Num.real) -> a \is Num.real -> b \is Num.real -> 0 <= dl ->
  \sum_(i < k) dot (H *m xs`_i - th i *: xs`_i) (H *m xs`_i - th i *: xs`_i) <= dl ^+ 2 ->
  (#|[set i : 'I_k | (a <= th i <= b)%R]| <= #|[set j : 'I_N | (a - dl <= d j <= b + dl)%R]|)%N.
Proof.
move=> ou su hd ox sx tr ar br dl0 hr; rewrite leqNgt; apply/negP.
set I := [set i : 'I_k | _]; set J := [set j : 'I_N | _] => lt.
pose y (i : 'I_#|I|) := xs`_(enum_val i); pose t (i : 'I_#|I|) := th (enum_val i).
have oy i j : dot (y i) (y j) = (i == j)%:R.
  rewrite /y ox ?(leq_trans (ltn_ord _) sx) //; congr (_%:R); congr (nat_of_bool _).
  by rewrite -(inj_eq enum_val_inj).
have [z [nz hz]] := ker_col (\matrix_(j < #|J|, i < #|I|) dot us`_(enum_val j) (y i)) lt.
pose x := \sum_i z i 0 *: y i; pose Z := \sum_i `|z i 0| ^+ 2.
have xZ : dot x x = Z.
  by rewrite /x (dot_family (fun i => z i 0) (fun i => z i 0) oy); apply: eq_bigr => i _; rewrite normCKC.
have Z0 : 0 <= Z by rewrite sumr_ge0 // => i _; rewrite exprn_ge0.
have ua (j : 'I_N) : j \in J -> dot us`_j x = 0.
  move=> jJ; have := congr1 (fun M : 'cV[C]_#|J| => M (enum_rank_in jJ j) 0) hz; rewrite !mxE => <-.
  rewrite /x dot_sumr; apply: eq_bigr => i _; by rewrite !mxE enum_rankK_in // dotZr mulrC.
have dr (i : 'I_N) : d i \is Num.real.
  by apply: (@eig_real us`_i); [rewrite -(dot_eq0 us`_i) ou ?su // eqxx oner_eq0|apply: hd].
pose m := (a + b) / 2%:R; pose h := (b - a) / 2%:R.
have mr : m \is Num.real by rewrite realM ?realD // realV realn.
have /card_gt0P [i0 i0I] : (0 < #|I|)%N by apply: leq_ltn_trans lt.
have ab : a <= b by move: i0I; rewrite inE => /andP [h1 h2]; apply: le_trans h2.
have h0 : 0 <= h by rewrite divr_ge0 ?subr_ge0 // ler0n.
have bE : b = m + h by rewrite /m /h; field.
have aE : a = m - h by rewrite /m /h; field.
have tr' i : t i \is Num.real by apply: tr.
have tb i : `|t i - m| <= h.
  have := enum_valP i; rewrite inE => /andP [h1 h2].
  by rewrite real_ler_norml ?realB //; apply/andP; split; [rewrite ler_subr_addl -aE|rewrite ler_subl_addl -bE].
pose r i := H *m y i - t i *: y i.
have hx : H *m x - m *: x = (\sum_i (z i 0 * (t i - m)) *: y i) + \sum_i z i 0 *: r i.
  rewrite /x mulmx_sumr scaler_sumr -sumrB -big_split /=; apply: eq_bigr => i _.
  by rewrite -scalemxAr scalerBr mulrBr scalerBl !scalerA [m * _]mulrC [RHS]addrC addrA subrK.
have hp : dot (\sum_i (z i 0 * (t i - m)) *: y i) (\sum_i (z i 0 * (t i - m)) *: y i) <= h ^+ 2 * Z.
  rewrite (dot_family (fun i => z i 0 * (t i - m)) (fun i => z i 0 * (t i - m)) oy) mulr_sumr; apply: ler_sum => i _.
  by rewrite -normCKC normrM exprMn mulrC ler_wpmul2r ?exprn_ge0 // ler_pexpn2r // ?nnegrE.
have hq : dot (\sum_i z i 0 *: r i) (\sum_i z i 0 *: r i) <= dl ^+ 2 * Z.
  apply: le_trans (dot_comb_le (fun i => z i 0) r) _; rewrite -/Z mulrC ler_wpmul2r //; apply: le_trans hr.
  pose f i := dot (H *m xs`_i - th i *: xs`_i) (H *m xs`_i - th i *: xs`_i).
  rewrite -(big_enum_val (A := mem I) (fun i : 'I_k => f i)) big_mkcond /=; apply: ler_sum => i _; case: ifP => _ //; exact: dot_ge0.
have := dot_tri h0 dl0 Z0 hp hq; rewrite -hx => hb.
have rE (i : 'I_N) : dot us`_i (H *m x - m *: x) = (d i - m) * dot us`_i x.
  by rewrite dotDr -scaleNr dotZr -dot_herm hd // dotZl /= (conj_Creal (dr i)) mulNr mulrBl.
have far (j : 'I_N) : j \notin J -> h + dl < `|d j - m|.
  rewrite real_ltNge ?realD ?ger0_real //; apply: contra.
  rewrite inE real_ler_norml ?realB // aE bE => /andP [h1 h2]; apply/andP; split.
    by move: h1; rewrite opprD ler_subr_addl addrA.
  by move: h2; rewrite ler_subl_addl addrA.
have ge (j : 'I_N) : 0 <= (`|d j - m| ^+ 2 - (h + dl) ^+ 2) * `|dot us`_j x| ^+ 2.
  case: (boolP (j \in J)) => [/ua ->|/far hf]; first by rewrite normr0 expr0n mulr0.
  by rewrite mulr_ge0 ?exprn_ge0 // subr_ge0 ler_pexpn2r // ?nnegrE ?addr_ge0 ?normr_ge0 // ltW.
have P : \sum_(j < N) (`|d j - m| ^+ 2 - (h + dl) ^+ 2) * `|dot us`_j x| ^+ 2 = 0.
  apply/eqP; rewrite eq_le; apply/andP; split; last by apply: sumr_ge0 => j _; exact: ge.
  under eq_bigr do rewrite mulrBl -exprMn -normrM -rE.
  by rewrite sumrB -parseval // -mulr_sumr -parseval // xZ subr_le0.
have x0 : dot x x = 0.
  rewrite (parseval x ou su) big1 // => j _; case: (boolP (j \in J)) => [/ua ->|/far hf]; first by rewrite normr0 expr0n.
  have K := psumr_eq0P (P := predT) (F := fun j : 'I_N => (`|d j - m| ^+ 2 - (h + dl) ^+ 2) * `|dot us`_j x| ^+ 2).
  have /eqP := K (fun i _ => ge i) P j isT; rewrite mulf_eq0 => /orP [|/eqP //].
  by rewrite subr_eq0 eqr_expn2 ?addr_ge0 // => /eqP E; move: hf; rewrite E ltxx.
case/negP: nz; apply/eqP/matrixP => i j; rewrite ord1 mxE.
have K := psumr_eq0P (P := predT) (F := fun i : 'I_#|I| => `|z i 0| ^+ 2).
have /eqP := K (fun i _ => exprn_ge0 2 (normr_ge0 (z i 0))) (etrans (esym xZ) x0) i isT.
by rewrite expf_eq0 /= normr_eq0 => /eqP.
Qed.
End Herm.
