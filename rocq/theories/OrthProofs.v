(** The exact oracles respect orthonormality: instance of [on_rules]. *)
From Coq Require Import Permutation.
From mathcomp Require Import all_ssreflect all_algebra all_real_closed.
Require Import Verif.Base Verif.AlgModel Verif.AlgSpec Verif.AlgProofs1 Verif.DlaModel Verif.ColModel Verif.ColSpec Verif.ExactSpec Verif.OrthSpec Verif.ColProofs3 Verif.ColOrth.
Set Implicit Arguments. Unset Strict Implicit. Unset Printing Implicit Defensive.
Import GRing.Theory Num.Theory.
Local Open Scope ring_scope.

Lemma firstnE (A : Type) k (s : seq A) : List.firstn k s = take k s.
Proof. by elim: k s => [|k IH] [|x s] //=; rewrite IH. Qed.
Lemma skipnE (A : Type) k (s : seq A) : List.skipn k s = drop k s.
Proof. by elim: k s => [|k IH] [|x s] //=. Qed.
Lemma nthE (A : Type) (x0 : A) (s : seq A) i : nth x0 s i = match List.nth_error s i with Some x => x | None => x0 end.
Proof. by elim: s i => [|x s IH] [|i] //=. Qed.

Lemma lt_take (k l m : nat) : (k < (if (l < m)%N then l else m))%N -> (k < l)%N /\ (k < m)%N.
Proof. by case: (ltnP l m) => h k1; split => //; [exact: (ltn_trans k1 h)|exact: (leq_trans k1 h)]. Qed.

Section Dot.
Variables (C : fieldType) (cj : {rmorphism C -> C}) (N : nat).
Local Notation dot := (@dot C cj N).
Implicit Types (x y z : 'cV[C]_N) (cs : seq 'cV[C]_N).

Lemma dotE x y : dot x y = \sum_i cj (x i 0) * y i 0.
Proof. by rewrite /OrthSpec.dot !mxE; apply: eq_bigr => i _; rewrite !mxE. Qed.
Lemma dotDr x y z : dot x (y + z) = dot x y + dot x z.
Proof. by rewrite !dotE -big_split; apply: eq_bigr => i _; rewrite !mxE mulrDr. Qed.
Lemma dotZr x a y : dot x (a *: y) = a * dot x y.
Proof. by rewrite !dotE mulr_sumr; apply: eq_bigr => i _; rewrite !mxE mulrCA. Qed.
Lemma dotDl x y z : dot (x + y) z = dot x z + dot y z.
Proof. by rewrite !dotE -big_split; apply: eq_bigr => i _; rewrite !mxE rmorphD mulrDl. Qed.
Lemma dotZl a x y : dot (a *: x) y = cj a * dot x y.
Proof. by rewrite !dotE mulr_sumr; apply: eq_bigr => i _; rewrite !mxE rmorphM mulrA. Qed.
Lemma dot0r x : dot x 0 = 0.
Proof. by rewrite dotE big1 // => i _; rewrite !mxE mulr0. Qed.
Lemma dot0l y : dot 0 y = 0.
Proof. by rewrite dotE big1 // => i _; rewrite !mxE rmorph0 mul0r. Qed.
Lemma dot_sumr x (I : Type) (r : seq I) (P : pred I) (f : I -> 'cV[C]_N) :
  dot x (\sum_(i <- r | P i) f i) = \sum_(i <- r | P i) dot x (f i).
Proof. by apply: (big_morph (dot x)) => [y z|]; [exact: dotDr|exact: dot0r]. Qed.
Lemma dot_suml y (I : Type) (r : seq I) (P : pred I) (f : I -> 'cV[C]_N) :
  dot (\sum_(i <- r | P i) f i) y = \sum_(i <- r | P i) dot (f i) y.
Proof. by apply: (big_morph (dot^~ y)) => [u v|]; [exact: dotDl|exact: dot0l]. Qed.

(** combinations of an orthonormal list *)
Lemma dot_comb cs (a b : nat -> C) : orthonormal cj cs ->
  dot (\sum_(i < size cs) a i *: cs`_i) (\sum_(i < size cs) b i *: cs`_i) = \sum_(i < size cs) cj (a i) * b i.
Proof.
move=> on; rewrite dot_suml; apply: eq_bigr => i _; rewrite dotZl dot_sumr; congr (_ * _).
rewrite (bigD1 i) //= dotZr on // eqxx mulr1 big1 ?addr0 // => k ki.
by rewrite dotZr on // (_ : (i == k :> nat) = false) ?mulr0 //; apply/negbTE; rewrite eq_sym.
Qed.

Lemma orth_take cs l : orthonormal cj cs -> orthonormal cj (take l cs).
Proof.
move=> on i j; rewrite size_take => hi hj.
have [i1 i2] := lt_take hi; have [j1 j2] := lt_take hj.
by rewrite !nth_take // on.
Qed.

Lemma orth_swp cs i j : orthonormal cj cs -> (i < size cs)%N -> (j < size cs)%N -> orthonormal cj (swp cs i j).
Proof.
move=> on /ltP hi /ltP hj a b.
have -> : size (swp cs i j) = size cs by exact: swp_length.
move=> /ltP ha /ltP hb; rewrite !nthE !swp_nth // -!nthE on; last 2 first.
- by apply/ltP; apply: tr_lt.
- by apply/ltP; apply: tr_lt.
case: (eqVneq a b) => [->|ne]; first by rewrite eqxx.
case: eqP => // E; case/eqP: ne; rewrite -[a](tr_inv i j) E; exact: tr_inv.
Qed.

Lemma orth_cat (cs1 cs2 : seq 'cV[C]_N) : orthonormal cj cs1 -> orthonormal cj cs2 ->
  (forall i j, (i < size cs1)%N -> (j < size cs2)%N -> dot cs1`_i cs2`_j = 0 /\ dot cs2`_j cs1`_i = 0) -> orthonormal cj (cs1 ++ cs2).
Proof.
move=> o1 o2 o12 i j; rewrite size_cat !nth_cat => hi hj.
case: ltnP => i1; case: ltnP => j1.
- by rewrite o1.
- have [-> _] := o12 i (j - size cs1)%N i1 ltac:(by rewrite ltn_subLR).
  by rewrite (_ : (i == j) = false) //; apply/negbTE/eqP => E; move: i1; rewrite E ltnNge j1.
- have [_ ->] := o12 j (i - size cs1)%N j1 ltac:(by rewrite ltn_subLR).
  by rewrite (_ : (i == j) = false) //; apply/negbTE/eqP => E; move: j1; rewrite -E ltnNge i1.
- by rewrite o2 ?ltn_subLR // -(eqn_add2r (size cs1)) !subnK.
Qed.

Lemma orth_drop cs l : orthonormal cj cs -> orthonormal cj (drop l cs).
Proof. by move=> on i j; rewrite size_drop !nth_drop !ltn_subRL => hi hj; rewrite on // eqn_add2l. Qed.

Lemma orth_join (old new : seq 'cV[C]_N) l : size old = size new -> upper_factor old new -> orthonormal cj new -> orthonormal cj (take l old) ->
  orthonormal cj (take l old ++ drop l new).
Proof.
move=> sz [_ [U hU]] on ol; apply: orth_cat => //; first exact: orth_drop.
move=> i j; rewrite size_take size_drop => hi hj.
have [il io] := lt_take hi.
have hlj : (l + j < size new)%N by rewrite -ltn_subRL.
rewrite nth_take // nth_drop hU // dot_suml dot_sumr !big1 //.
- move=> k _; rewrite dotZr on //; last by rewrite -sz; apply: leq_ltn_trans io; rewrite -ltnS.
  rewrite (_ : (l + j == k)%N = false) ?mulr0 //; apply/negbTE/eqP => E.
  by have := ltn_ord k; rewrite -E ltnNge (leq_trans il) // leq_addr.
- move=> k _; rewrite dotZl on //; last by rewrite -sz; apply: leq_ltn_trans io; rewrite -ltnS.
  rewrite (_ : (k == l + j :> nat)%N = false) ?mulr0 //; apply/negbTE/eqP => E.
  by have := ltn_ord k; rewrite E ltnNge (leq_trans il) // leq_addr.
Qed.

Lemma upper_refl cs : upper_factor cs cs.
Proof.
split => //; exists (fun i j => (i == j)%:R) => j hj.
rewrite big_ord_recr /= eqxx scale1r big1 ?add0r // => i _.
by rewrite (_ : (i == j :> nat) = false) ?scale0r //; apply/negbTE; rewrite neq_ltn ltn_ord.
Qed.

Lemma upper_trans (a b c : seq 'cV[C]_N) : upper_factor a b -> upper_factor b c -> upper_factor a c.
Proof.
case=> [s1 [U hU]] [s2 [W hW]]; split; first by rewrite s1.
exists (fun i j => \sum_(k < j.+1) (if (i <= k)%N then U k j * W i k else 0)) => j hj.
rewrite hU //; under [RHS]eq_bigr do rewrite scaler_suml.
rewrite exchange_big /=; apply: eq_bigr => k _.
have kj : (k < j.+1)%N by [].
rewrite hW; last by rewrite -s1; apply: leq_ltn_trans hj; rewrite -ltnS.
rewrite scaler_sumr (big_ord_widen j.+1 (fun i => U k j *: (W i k *: c`_i))) // big_mkcond /=.
by apply: eq_bigr => i _; rewrite ltnS; case: leqP => _; rewrite ?scale0r // scalerA.
Qed.
End Dot.

Section Rules.
Variables (R : rcfType) (C : fieldType) (inj : {rmorphism R -> C}) (cj : {rmorphism C -> C}) (N : nat) (G : Type).
Variables (fo : fops R) (bl : blas R 'cV[C]_N 'M[C]_N G C) (H : 'M[C]_N) (n : nat).
Hypotheses (EF : exact_fops fo) (EM : exact_mv inj cj bl) (EQ : exact_qr cj bl n) (ER : exact_rr inj cj bl H n) (HH : hermitian cj H).

(** the value is the Rayleigh quotient of the vector *)
Definition rayleigh (v : R) (x : 'cV[C]_N) : Prop := inj v = dot cj x (H *m x).

Lemma drift_here h : drift fo bl H h -> h = H.
Proof.
by apply: drift_exact => A c; rewrite !(em_shift EM) (ef_neg EF) rmorphN raddfN /= subrK.
Qed.

Lemma exact_rules : on_rules fo bl H n (@orthonormal C cj N) (@upper_factor C N) rayleigh.
Proof.
split.
- by move=> cs i j on /ltP hi /ltP hj; apply: orth_swp.
- by move=> cs l on; rewrite firstnE; apply: orth_take.
- by move=> i j.
- exact: upper_refl.
- exact: upper_trans.
- move=> old new l ho hn _ ut on ol; rewrite firstnE skipnE; apply: orth_join => //.
  + by change (length old = length new); rewrite ho hn.
  + by rewrite -firstnE.
- exact: (eq_hh EQ).
- exact: (eq_chol EQ).
- exact: (eq_shift EQ).
- exact: (eq_unit EQ).
- move=> h cs l /drift_here -> hn /leP hl on A.
  have szn : size cs = n by exact: hn.
  have sd : size (drop l cs) = (n - l)%N by rewrite size_drop szn.
  have od := orth_drop (l := l) on.
  have hs : (size (drop l cs) <= n)%N by rewrite sd leq_subr.
  have [Z [Zc [Zu Ze]]] := er_solve ER hs od.
  rewrite {}/A skipnE firstnE in Zc Zu Ze *.
  set A := b_gram bl (drop l cs) _ in Zc Ze *.
  have cE j : (j < n - l)%N -> b_comb bl (drop l cs) A j = \sum_(i < size (drop l cs)) Z i j *: (drop l cs)`_i.
    by move=> hj; apply: Zc; rewrite sd.
  split.
  + have E : List.map (b_comb bl (drop l cs) A) (List.seq 0 (Nat.sub n l)) = map (b_comb bl (drop l cs) A) (iota 0 (n - l)) by [].
    rewrite E; apply: orth_cat; first exact: orth_take.
    * move=> i j; rewrite size_map size_iota => hi hj.
      rewrite !(nth_map 0%N) ?size_iota // !nth_iota // !add0n !cE // (dot_comb (fun k => Z k i) (fun k => Z k j) od) Zu ?sd //.
    * move=> i j; rewrite size_take szn size_map size_iota => hi hj.
      have [il io] := lt_take hi.
      rewrite (nth_map 0%N) ?size_iota // nth_iota // add0n cE // nth_take // dot_suml dot_sumr !big1 //.
      - move=> k _; rewrite dotZl nth_drop on ?szn // -?ltn_subRL -?sd //.
        rewrite (_ : (l + k == i)%N = false) ?mulr0 //; apply/negbTE/eqP => F; by move: il; rewrite -F ltnNge leq_addr.
      - move=> k _; rewrite dotZr nth_drop on ?szn // -?ltn_subRL -?sd //.
        rewrite (_ : (i == l + k)%N = false) ?mulr0 //; apply/negbTE/eqP => F; by move: il; rewrite F ltnNge leq_addr.
  + move=> j /ltP hj; rewrite /rayleigh cE // mulmx_sumr dot_suml.
    have hj' : (j < size (drop l cs))%N by rewrite sd.
    transitivity (\sum_(i < size (drop l cs)) cj (Z i j) * (inj (b_eval bl A j) * Z i j)).
      under eq_bigr do rewrite mulrCA; rewrite -mulr_sumr Zu // eqxx mulr1 //.
    apply: eq_bigr => i _; rewrite dotZl; congr (_ * _); rewrite -Ze // dot_sumr.
    by apply: eq_bigr => k _; rewrite -scalemxAr dotZr mulrC (HH : adj cj H = H).
Qed.
End Rules.
