(** Convergence of the solver in exact arithmetic, while nothing is locked. *)
From Coq Require Import Permutation.
From mathcomp Require Import all_ssreflect all_algebra all_real_closed.
Require Import Verif.Base Verif.AlgModel Verif.AlgSpec Verif.AlgProofs1 Verif.AlgProofs4 Verif.FilterSpec Verif.DlaModel Verif.ColModel Verif.ColSpec Verif.ColProofs1 Verif.ColProofs2 Verif.ColProofs3
  Verif.ColOrth Verif.ExactSpec Verif.ExactFilter Verif.OrthSpec Verif.OrthProofs Verif.Spectral Verif.OrthSolve Verif.KyFan Verif.ConvSpec Verif.ApproxSpec Verif.AlgSpan Verif.ColSpan Verif.Conv.
Set Implicit Arguments. Unset Strict Implicit. Unset Printing Implicit Defensive.
Import Order.TTheory GRing.Theory Num.Theory.
Local Open Scope ring_scope.
Local Open Scope complex_scope.

Lemma Permutation_perm (T : eqType) (a b : seq T) : Permutation a b -> perm_eq a b.
Proof.
elim=> {a b} [|x a b _ IH|x y a|a b c _ I1 _ I2] //; first by rewrite perm_cons.
  by apply/permP => p /=; rewrite addnCA.
exact: perm_trans I1 I2.
Qed.

Section Span.
Variables (C : fieldType) (cj : {rmorphism C -> C}) (N : nat).
Implicit Types (a b cs : seq 'cV[C]_N) (x : 'cV[C]_N).

Definition sub_span a b : Prop := forall x, in_span a x -> in_span b x.
Lemma span_each a b : (forall j, (j < size a)%N -> in_span b a`_j) -> sub_span a b.
Proof.
move=> h x [c ->].
have [A hA] : exists A : nat -> nat -> C, forall j, (j < size a)%N -> a`_j = \sum_(i < size b) A j i *: b`_i.
  elim: (size a) h => [|k IH] h; first by exists (fun _ _ => 0).
  have [A hA] := IH (fun j hj => h j (ltnW hj)); have [B hB] := h k (ltnSn k).
  exists (fun j i => if j == k then B i else A j i) => j; rewrite ltnS leq_eqVlt; case: eqP => [->|_] //= ; exact: hA.
exists (fun i => \sum_(j < size a) c j * A j i).
under eq_bigr => j _ do rewrite hA // scaler_sumr.
by rewrite exchange_big; apply: eq_bigr => i _; rewrite scaler_suml; apply: eq_bigr => j _; rewrite scalerA.
Qed.
Lemma span_mem cs j : (j < size cs)%N -> in_span cs cs`_j.
Proof.
move=> hj; exists (fun i => (i == j)%:R); rewrite (bigD1 (Ordinal hj)) //= eqxx scale1r big1 ?addr0 // => i ij.
by rewrite (_ : (i == j :> nat) = false) ?scale0r //; apply/negbTE.
Qed.
Lemma upper_span a b : upper_factor a b -> sub_span a b.
Proof.
move=> [sz [U hU]]; apply: span_each => j hj; rewrite hU //.
exists (fun i => if (i <= j)%N then U i j else 0).
rewrite (big_ord_widen (size b) (fun i => U i j *: b`_i)) -?sz // big_mkcond /=.
by apply: eq_bigr => i _; rewrite ltnS; case: leqP => _ //; rewrite scale0r.
Qed.
Lemma swp_span cs i j : lt i (length cs) -> lt j (length cs) -> sub_span cs (swp cs i j).
Proof.
move=> hi hj; apply: span_each => k hk.
have szs : size (swp cs i j) = size cs by exact: swp_length.
have ht : (tr i j k < size cs)%N by apply/ssrnat.ltP; apply: tr_lt => //; exact/ssrnat.ltP.
have -> : cs`_k = (swp cs i j)`_(tr i j k).
  by rewrite !nthE swp_nth // tr_inv.
by apply: span_mem; rewrite szs.
Qed.
Lemma rotate_span cs (Z : nat -> nat -> C) (new : nat -> 'cV[C]_N) :
  (forall j, (j < size cs)%N -> new j = \sum_(i < size cs) Z i j *: cs`_i) ->
  (forall j k, (j < size cs)%N -> (k < size cs)%N -> \sum_(i < size cs) cj (Z i j) * Z i k = (j == k)%:R) ->
  sub_span cs (map new (iota 0 (size cs))).
Proof.
move=> hn hZ; apply: span_each => i hi; exists (fun j => cj (Z i j)); rewrite size_map size_iota.
pose ZM : 'M[C]_(size cs) := \matrix_(a, b) Z a b.
have ZZ : adj cj ZM *m ZM = 1%:M.
  apply/matrixP => a b; rewrite !mxE -(hZ a b) //; by apply: eq_bigr => c _; rewrite !mxE.
have ZZ' k : (k < size cs)%N -> \sum_(j < size cs) Z k j * cj (Z i j) = (k == i)%:R.
  move=> hk; have := congr1 (fun M : 'M[C]_(size cs) => M (Ordinal hk) (Ordinal hi)) (mulmx1C ZZ); rewrite !mxE => <-.
  by apply: eq_bigr => c _; rewrite !mxE.
transitivity (\sum_(j < size cs) cj (Z i j) *: \sum_(k < size cs) Z k j *: cs`_k); last first.
  by apply: eq_bigr => j _; rewrite (nth_map 0%N) ?size_iota // nth_iota // add0n hn.
under eq_bigr do rewrite scaler_sumr; rewrite exchange_big /=.
rewrite (bigD1 (Ordinal hi)) //= [X in _ + X]big1 => [|k ki].
  rewrite addr0; under eq_bigr do rewrite scalerA mulrC; rewrite -scaler_suml ZZ' // eqxx scale1r //.
under eq_bigr do rewrite scalerA mulrC; rewrite -scaler_suml ZZ' //.
by rewrite (_ : (k == i :> nat) = false) ?scale0r //; apply/negbTE.
Qed.
End Span.

Section Ritz.
Variables (R : rcfType) (C : fieldType) (inj : {rmorphism R -> C}) (cj : {rmorphism C -> C}) (N : nat) (G : Type).
Variables (bl : blas R 'cV[C]_N 'M[C]_N G C) (H : 'M[C]_N) (n : nat).
Hypotheses (EM : exact_mv inj cj bl) (ER : exact_rr inj cj bl H n) (HH : hermitian cj H).

(** Rayleigh-Ritz diagonalises H on the block *)
Lemma rr_diag cs : size cs = n -> orthonormal cj cs ->
  let A := b_gram bl cs (List.map (b_mulH bl H) cs) in let new := List.map (b_comb bl cs A) (List.seq 0 n) in
  [/\ size new = n, orthonormal cj new, sub_span cs new &
  forall i j, (i < n)%N -> (j < n)%N -> dot cj new`_i (H *m new`_j) = inj (b_eval bl A i) *+ (i == j)].
Proof.
move=> sz on A new.
have newE : new = map (b_comb bl cs A) (iota 0 n) by [].
have [Z [Zc [Zu Ze]]] := er_solve ER (eq_leq sz) on; rewrite -/A in Zc Ze.
have ne j : (j < n)%N -> new`_j = \sum_(i < size cs) Z i j *: cs`_i.
  by move=> hj; rewrite newE (nth_map 0%N) ?size_iota // nth_iota // add0n Zc // sz.
have sn : size new = n by rewrite newE size_map size_iota.
split=> //.
- move=> i j; rewrite sn => hi hj; rewrite !ne // (dot_comb (fun k => Z k i) (fun k => Z k j) on) Zu ?sz //.
- rewrite newE -sz; apply: (rotate_span (Z := Z)) => // j k; exact: Zu.
move=> i j hi hj; rewrite !ne // dot_suml.
transitivity (\sum_(a < size cs) cj (Z a i) * (inj (b_eval bl A j) * Z a j)).
  apply: eq_bigr => a _; rewrite dotZl; congr (_ * _); rewrite -Ze ?sz // mulmx_sumr dot_sumr.
  by apply: eq_bigr => k _; rewrite -scalemxAr dotZr mulrC (HH : adj cj H = H).
under eq_bigr do rewrite mulrCA; rewrite -mulr_sumr Zu ?sz //; case: eqP => [->|_]; by rewrite ?mulr1 ?mulr0.
Qed.
End Ritz.

Section Filter.
Variables (R : rcfType) (C : fieldType) (inj : {rmorphism R -> C}) (n0 : nat) (H : 'M[C]_n0.+1).

Definition flt (la lo up : R) (d : nat) (a b : seq 'cV[C]_n0.+1) : Prop :=
  (forall i, (i <= d)%N -> (chebT i).[mapto lo up la] != 0) -> size b = size a /\ forall j, (j < size a)%N -> b`_j = cheb_col inj la lo up H d a`_j.

Lemma filtered_in la lo up d t a b x : (forall i, (i <= d)%N -> (chebT i).[mapto lo up la] != 0) ->
  filtered (@sub_span C n0.+1) flt la lo up d t a b -> in_span a x -> in_span b (iter t (cheb_col inj la lo up H d) x).
Proof.
move=> hT; elim=> {t a b} [a b ab|t a b c k _ IH fl ck] hx; first exact: ab.
apply: ck; have [sz hc] := fl hT; rewrite iterS; have [y ->] := IH hx; exists y.
by rewrite cheb_col_lin sz; apply: eq_bigr => j _; rewrite hc.
Qed.
Lemma iter_eig la lo up d t (b : nat -> C) (us : seq 'cV[C]_n0.+1) (ls : nat -> R) :
  (forall j, (j < n0.+1)%N -> H *m us`_j = inj (ls j) *: us`_j) ->
  iter t (cheb_col inj la lo up H d) (\sum_(j < n0.+1) b j *: us`_j) = \sum_(j < n0.+1) (b j * inj (gain la lo up d (ls j) ^+ t)) *: us`_j.
Proof.
move=> hu; elim: t => [|t IH]; first by apply: eq_bigr => j _; rewrite expr0 rmorph1 mulr1.
rewrite iterS IH (@cheb_col_expand _ _ inj la lo up _ H d n0.+1 _ (fun j => ls j)) => [|j]; last exact: hu.
by apply: eq_bigr => j _; rewrite -mulrA -rmorphM exprSr.
Qed.
End Filter.

Section Basis.
Variables (R : rcfType) (C : fieldType) (inj : {rmorphism R -> C}) (cj : {rmorphism C -> C}) (e : {rmorphism C -> R[i]}) (N : nat).
Hypothesis IC : in_complex inj cj e.
Local Notation ec := (map (map_mx e)).

Lemma ec_nth (us : seq 'cV[C]_N) j : (j < size us)%N -> (ec us)`_j = map_mx e us`_j.
Proof. by move=> hj; rewrite (nth_map 0). Qed.
Lemma ec_orth (us : seq 'cV[C]_N) : orthonormal cj us -> orthonormal (@conjC _) (ec us).
Proof. by move=> ou i j; rewrite size_map => hi hj; rewrite !ec_nth // (dot_map IC) ou // rmorph_nat. Qed.
Lemma coordsC (us : seq 'cV[C]_N) x : orthonormal cj us -> size us = N -> x = \sum_(j < N) dot cj us`_j x *: us`_j.
Proof.
move=> ou su; apply: (@map_mx_inj _ _ e); have := coords (map_mx e x) (ec_orth ou); rewrite size_map => /(_ su) {1}->.
rewrite raddf_sum; apply: eq_bigr => j _; by rewrite /= map_mxZ ec_nth ?su // (dot_map IC).
Qed.
Lemma dist2E (x y : 'cV[C]_N) : (dist2 cj e x y)%:C = dot (@conjC _) (map_mx e (x - y)) (map_mx e (x - y)).
Proof. by rewrite (dot_map IC) /dist2 RRe_real // -(dot_map IC) ger0_real // dot_ge0. Qed.
Lemma dist2_ge0 (x y : 'cV[C]_N) : 0 <= dist2 cj e x y.
Proof. by rewrite -ler0c dist2E dot_ge0. Qed.
End Basis.

(** the combination of the starting block that approximates the i-th eigenvector, filtered t times *)
Section Near.
Variables (R : rcfType) (C : fieldType) (inj : {rmorphism R -> C}) (cj : {rmorphism C -> C}) (e : {rmorphism C -> R[i]}) (n0 : nat) (H : 'M[C]_n0.+1).
Hypothesis IC : in_complex inj cj e.
Variables (us : seq 'cV[C]_n0.+1) (ls : seq R) (m : nat) (V0 : seq 'cV[C]_n0.+1) (Y : nat -> nat -> C) (la lo up : R) (d t : nat).
Hypotheses (EB : eigenbasis inj cj H us ls) (mN : (m <= n0.+1)%N) (RE : reaches cj us V0 m Y) (h1 : la < lo) (h2 : lo < up).
Hypotheses (below : forall j, (j < m)%N -> ls`_j < lo) (inside : forall j, (m <= j < n0.+1)%N -> lo <= ls`_j <= up).

Local Notation N := n0.+1.
Lemma near_vec (k : nat) : (k < m)%N -> exists z, [/\ forall b, filtered (@sub_span C n0.+1) (flt inj H) la lo up d t V0 b -> in_span b (us`_k + z),
  forall j, (j < m)%N -> dot cj us`_j z = 0 &
  dist2 cj e (us`_k + z) us`_k <= rate lo up d ls`_k ^+ (2 * t) * dist2 cj e (combined V0 Y k) us`_k].
Proof.
move=> km; have [su ou sl so hu] := EB.
have kN : (k < N)%N := leq_trans km mN.
pose x := combined V0 Y k; pose b j := dot cj us`_j x.
have bj j : (j < m)%N -> b j = (j == k)%:R.
  by move=> jm; rewrite /b /x /combined dot_sumr -(RE jm km); apply: eq_bigr => l _; rewrite dotZr mulrC.
pose g j := gain la lo up d ls`_j.
have gk : g k != 0.
  apply: mulf_neq0; last by rewrite invr_eq0 T_la_neq0.
  rewrite -normr_gt0; case: (d) => [|q]; first by rewrite hornerC normr1.
  exact: lt_trans ltr01 (T_below h2 q (below km)).
pose r j := inj ((g j / g k) ^+ t).
pose z : 'cV[C]_N := \sum_(j < N) (if (j < m)%N then 0 else b j * r j) *: us`_j.
have xE : x = \sum_(j < N) b j *: us`_j := coordsC IC x ou su.
have uE : us`_k = \sum_(j < N) (if (j < m)%N then (j == k :> nat)%:R else 0) *: us`_j.
  rewrite (bigD1 (Ordinal kN)) //= km eqxx scale1r big1 ?addr0 // => j jk.
  by rewrite (_ : (j == k :> nat) = false) ?if_same ?scale0r //; apply/negbTE.
have gkt : inj (g k ^+ t) != 0 by rewrite fmorph_eq0 expf_neq0.
have uz : us`_k + z = (inj (g k ^+ t))^-1 *: iter t (cheb_col inj la lo up H d) x.
  rewrite xE (iter_eig la lo up d t b hu) scaler_sumr {1}uE /z -big_split /=; apply: eq_bigr => j _.
  rewrite -scalerDl scalerA; congr (_ *: _); case: ltnP => jm; rewrite ?add0r ?addr0.
    by rewrite bj //; case: eqP => [->|_]; rewrite ?mul1r ?mulVf // mul0r mulr0.
  by rewrite /r expr_div_n rmorphM fmorphV mulrA mulrC.
have zu j : (j < N)%N -> dot cj us`_j z = if (j < m)%N then 0 else b j * r j.
  move=> jN; rewrite dot_sumr (bigD1 (Ordinal jN)) //= dotZr ou ?su // eqxx mulr1 big1 ?addr0 // => i ij.
  by rewrite dotZr ou ?su // (_ : (j == i :> nat) = false) ?mulr0 //; apply/negbTE; rewrite eq_sym.
exists z; split.
- move=> B fb; rewrite uz.
  have hT i : (i <= d)%N -> (chebT i).[mapto lo up la] != 0 by move=> _; exact: T_la_neq0.
  have hx : in_span V0 x by exists (fun l => Y l k).
  have [y hy] := filtered_in hT fb hx.
  exists (fun i => (inj (g k ^+ t))^-1 * y i); rewrite hy scaler_sumr; by apply: eq_bigr => i _; rewrite scalerA.
- by move=> j jm; rewrite zu ?jm // (leq_trans jm mN).
have sue : size (map (map_mx e) us) = N by rewrite size_map.
rewrite -lecR rmorphM /= !(dist2E IC) addrAC subrr add0r.
rewrite !(parseval _ (ec_orth IC ou) sue) mulr_sumr; apply: ler_sum => j _.
rewrite !ec_nth ?su // !(dot_map IC) zu //; case: ltnP => jm.
  by rewrite rmorph0 normr0 expr0n /= mulr_ge0 ?exprn_ge0 // ler0c exprn_ge0 // invr_ge0 normr_ge0.
rewrite -/x -scaleN1r dotDr dotZr ou ?su // (_ : (j == k :> nat) = false) ?mulr0 ?addr0; last first.
  by apply/negbTE; rewrite neq_ltn (leq_trans km jm) orbT.
rewrite -/(b j) rmorphM normrM exprMn mulrC; apply: ler_wpmul2r; first exact: exprn_ge0.
rewrite /r (ic_real IC) normc_def /= expr0n /= addr0 sqrtr_sqr -rmorphX lecR normrX exprAC -exprM mulnC.
apply: ler_expn2r; rewrite ?nnegrE ?invr_ge0 ?normr_ge0 //.
rewrite /g /gain invf_div mulrA divfK ?T_la_neq0 // normrM normfV /rate.
have Tj := T_inside h2 d (inside (j := j) ltac:(by rewrite jm ltn_ord)).
by rewrite -[X in _ <= X]mul1r ler_wpmul2r // invr_ge0 normr_ge0.
Qed.
End Near.

Lemma deg_pos a m : le 1 a -> le 2 m -> le 1 (Nat.min (Nat.add a (Nat.modulo a 2)) m).
Proof. by move=> h1 h2; apply: PeanoNat.Nat.min_glb; [apply: PeanoNat.Nat.le_trans h1 _; apply: PeanoNat.Nat.le_add_r|apply: PeanoNat.Nat.le_trans h2; do ! constructor]. Qed.
Lemma args_repeat n d : le 1 n /\ le 2 d /\ Nat.even d = true -> filter_args 0 n n d (List.repeat d n).
Proof.
move=> [n1 [d2 de]]; split; first by rewrite List.repeat_length.
split=> //; split; last split.
- move=> i j a b _ ha hb; rewrite (List.repeat_spec _ _ _ (List.nth_error_In _ _ ha)) (List.repeat_spec _ _ _ (List.nth_error_In _ _ hb)); exact: PeanoNat.Nat.le_refl.
- by apply/List.Forall_forall => x hx; rewrite (List.repeat_spec _ _ _ hx); split=> //; split.
by case: n n1 => [/ssrnat.leP n1|n _]; [by []|left].
Qed.

Section Solve.
Variables (R : rcfType) (C : fieldType) (inj : {rmorphism R -> C}) (cj : {rmorphism C -> C}) (e : {rmorphism C -> R[i]}) (n0 : nat) (G : Type).
Variables (fo : fops R) (bl : blas R 'cV[C]_n0.+1 'M[C]_n0.+1 G C) (qe : qr_env R) (td : tridiag R) (cf : conf R) (sort_idx : list R -> list nat).
Variables (H : 'M[C]_n0.+1) (fsort : list R -> list R) (l0 : nat) (V1 : list 'cV[C]_n0.+1) (ritzv resid : list R).
Local Notation n := (Nat.add (c_nev cf) (c_nex cf)).
Local Notation N := n0.+1.
Local Notation nsK := (cmK fo qe td (stop_late (late_failure bl n) (colD fo bl false n)) (c_nev cf) (c_nex cf)).
Local Notation mpiK := (cmK fo qe td (colD fo bl true n) (c_nev cf) (c_nex cf)).
Hypothesis Hperm : forall keys, Permutation (sort_idx keys) (List.seq 0 (length keys)).
Hypotheses (EF : exact_fops fo) (EM : exact_mv inj cj bl) (EQ : exact_qr cj bl n) (ER : exact_rr inj cj bl H n) (HH : hermitian cj H) (IC : in_complex inj cj e).
Hypotheses (HV : length V1 = n) (HC : conf_ok cf) (HM : le 1 (c_maxiter cf)).

Lemma sc_of : scalars inj cj.
Proof.
split=> x; apply: (fmorph_inj e).
  by rewrite !(ic_conj IC) conjcK.
by rewrite (ic_conj IC) (ic_real IC) conjc_real.
Qed.

Lemma flt_of w (Hw : le n w) mp la lo up d s av s' : bJ fo bl (c_nev cf) (c_nex cf) H w (@orthonormal C cj N) 0 s -> le 2 d -> Nat.even d = true ->
  filter_ fo (cmK fo qe td (colD fo bl mp n) (c_nev cf) (c_nex cf)) n d (List.repeat d n) la lo up s = Ok (av, s') ->
  flt inj H la lo up d (cs_C (cm_dla s)) (cs_C (cm_dla s')).
Proof.
move=> [[[Hl [Lc [Dr _]]] _] Hb] d2 de E hT.
have hH := drift_here EF EM Dr.
have n1 : le 1 n by case: HC => a _; apply: PeanoNat.Nat.le_trans a _; apply: PeanoNat.Nat.le_add_r.
have FA := args_repeat (conj n1 (conj d2 de)).
have [|s1 [E1 [_ [LC X]]]] := col_filter_exact sc_of EF EM qe td hT mp Hw Lc FA Hl Hb; first by rewrite hH.
move: E; rewrite E1 => -[_ <-]; split=> [//|j hj].
have jn : lt j n by case: Lc => <- _; exact/ssrnat.ltP.
have /List.nth_error_Some : lt j (length (cs_C (cm_dla s))) by exact/ssrnat.ltP.
case E2 : (List.nth_error _ _) => [x|] // _; move: (X j x E2) => X1.
have dj : deg_of 0 (List.repeat d n) j = d.
  rewrite /deg_of /= PeanoNat.Nat.sub_0_r (List.nth_indep _ 0%N d) ?List.repeat_length //; exact: List.nth_repeat.
by rewrite !nthE X1 E2 hH dj.
Qed.

Section Core.
Variables (us : seq 'cV[C]_N) (ls : seq R) (m : nat) (V0 : seq 'cV[C]_N) (Y : nat -> nat -> C) (la lo up : R) (d t : nat).
Hypotheses (EB : eigenbasis inj cj H us ls) (mN : (m <= N)%N) (RE : reaches cj us V0 m Y) (h1 : la < lo) (h2 : lo < up).
Hypotheses (below : forall j, (j < m)%N -> ls`_j < lo) (inside : forall j, (m <= j < N)%N -> lo <= ls`_j <= up).
Local Notation err i := (rate lo up d ls`_i ^+ (2 * t) * dist2 cj e (combined V0 Y i) us`_i).

Lemma rate_lt1 k : (k < m)%N -> le 1 d -> 0 < rate lo up d ls`_k < 1.
Proof.
move=> km; case: (d) => [/ssrnat.leP //|q _]; have T := T_below h2 q (below km).
by rewrite /rate invr_gt0 (lt_trans ltr01 T) invf_lt1 // (lt_trans ltr01 T).
Qed.

Lemma vec_core b k : (k < m)%N -> filtered (@sub_span C N) (flt inj H) la lo up d t V0 b -> exists2 w, in_span b w & dist2 cj e w us`_k <= err k.
Proof. by move=> km fb; have [z [zs _ zd]] := near_vec IC d t EB mN RE h1 h2 below inside km; exists (us`_k + z) => //; apply: zs. Qed.

Lemma val_core cs rv k : ordered_rr cj bl H n -> size cs = n -> orthonormal cj cs ->
  let A := b_gram bl cs (List.map (b_mulH bl H) cs) in
  filtered (@sub_span C N) (flt inj H) la lo up d t V0 (List.map (b_comb bl cs A) (List.seq 0 n)) ->
  Permutation (List.firstn (c_nev cf) rv) (List.firstn (c_nev cf) (List.map (b_eval bl A) (List.seq 0 n))) ->
  (k < m)%N -> (k < c_nev cf)%N ->
  ls`_k <= (sort <=%R (take (c_nev cf) rv))`_k <= ls`_k + (up - ls`_k) * \sum_(i < k.+1) err i.
Proof.
move=> OR sz oc A fb pm km kn; set new := List.map (b_comb bl cs A) _ in fb.
have [su ou sl so hu] := EB.
have knn : (k < n)%N by apply: leq_trans kn _; apply/ssrnat.leP; apply: PeanoNat.Nat.le_add_r.
have -> : (sort <=%R (take (c_nev cf) rv))`_k = b_eval bl A k.
  rewrite -firstnE; move: pm; rewrite !firstnE => /Permutation_perm pm.
  have -> : sort <=%R (take (c_nev cf) rv) = take (c_nev cf) (map (b_eval bl A) (iota 0 n)).
    apply: (sorted_eq le_trans le_anti); first exact: sort_le_sorted.
      rewrite -map_take; apply/(sortedP 0) => i; rewrite size_map size_take size_iota => hi.
      have [i1 i2] : (i.+1 < n)%N /\ (i.+1 < c_nev cf)%N.
        by move: hi; case: (ltnP (c_nev cf) n) => hn hi; split=> //; [apply: ltn_trans hi hn|apply: leq_trans hi hn].
      rewrite !(nth_map 0%N) ?size_take ?size_iota ?(ltnW hi) // !nth_take ?(ltnW i2) //.
      by rewrite !nth_iota ?(ltnW i1) // !add0n; apply: OR; rewrite ?sz ?leqnSn.
    by rewrite perm_sort.
  by rewrite nth_take // (nth_map 0%N) ?size_iota // nth_iota.
have [sn on _ rn] := rr_diag ER HH sz oc; rewrite -/A -/new in sn on rn.
have [z hz] : exists z : nat -> 'cV[C]_N, forall i, (i < k.+1)%N ->
    [/\ in_span new (us`_i + z i), forall j, (j < m)%N -> dot cj us`_j (z i) = 0 & dist2 cj e (us`_i + z i) us`_i <= err i].
  elim: {1 3}k (leqnn k) => [|q IH] hq.
    have [z [zs zo zd]] := near_vec IC d t EB mN RE h1 h2 below inside (leq_ltn_trans hq km).
    by exists (fun _ => z) => -[_|//]; split=> //; apply: zs.
  have [z hz] := IH (ltnW hq); have [z' [zs zo zd]] := near_vec IC d t EB mN RE h1 h2 below inside (leq_ltn_trans hq km).
  exists (fun i => if i == q.+1 then z' else z i) => i; rewrite ltnS leq_eqVlt; case: eqP => [-> _|_ /=]; last exact: hz.
  by split=> //; apply: zs.
have lss i j : (i <= j < N)%N -> ls`_i <= ls`_j.
  by move=> /andP [ij jN]; apply: (sorted_leq_nth le_trans lexx 0 so) => //; rewrite inE sl // (leq_ltn_trans ij).
have one := ec_orth IC on; have oue := ec_orth IC ou.
have sne : size (map (map_mx e) new) = n by rewrite size_map.
have sue : size (map (map_mx e) us) = N by rewrite size_map.
have rne i j : (i < size (map (map_mx e) new))%N -> (j < size (map (map_mx e) new))%N ->
    dot (@conjC _) (map (map_mx e) new)`_i (map_mx e H *m (map (map_mx e) new)`_j) = (b_eval bl A i)%:C *+ (i == j).
  by rewrite sne => hi hj; rewrite !ec_nth ?sn // -map_mxM (dot_map IC) rn // rmorphMn /= (ic_real IC).
have hue j : (j < N)%N -> map_mx e H *m (map (map_mx e) us)`_j = (ls`_j)%:C *: (map (map_mx e) us)`_j.
  by move=> hj; rewrite !ec_nth ?su // -map_mxM hu // map_mxZ (ic_real IC).
have bev i j : (i <= j < n)%N -> b_eval bl A i <= b_eval bl A j by move=> ij; apply: OR; rewrite ?sz.
apply/andP; split.
  rewrite -lecR; apply: (@ritz_low _ _ _ _ _ (fun i => (b_eval bl A i)%:C) (fun j => (ls`_j)%:C) one rne oue sue hue).
  - by rewrite sne.
  - by move=> i ik; rewrite lecR bev // ik.
  by move=> j kj; rewrite lecR lss.
have kN : (k < N)%N := leq_trans km mN.
have lup j : (j < N)%N -> ls`_j <= up.
  by move=> jN; case: (ltnP j m) => jm; [apply/ltW/(lt_trans (below jm))|have /andP [] := @inside j ltac:(by rewrite jm)].
have step : (b_eval bl A k)%:C <= (ls`_k)%:C + ((up)%:C - (ls`_k)%:C) * \sum_(i < k.+1) dot (@conjC _) (map_mx e (z i)) (map_mx e (z i)).
  apply: (@ritz_high _ _ _ _ _ (fun i => (b_eval bl A i)%:C) (fun j => (ls`_j)%:C) one rne oue sue hue k m (fun i => map_mx e (z i))) => //.
  - by rewrite sne.
  - by move=> j; rewrite sne => kj; rewrite lecR bev.
  - by move=> i ik; rewrite lecR lss // ik.
  - by move=> j /andP [_ jN]; rewrite lecR lup.
  - by rewrite lecR lup.
  - by rewrite complex_real.
  - by rewrite complex_real.
  - move=> i ik; have [[a ha] _ _] := hz i ik; exists (fun j => e (a j)).
    rewrite ec_nth ?su ?(leq_ltn_trans ik kN) // -map_mxD ha raddf_sum (size_map (map_mx e) new); apply: eq_bigr => j _.
    by rewrite /= map_mxZ ec_nth.
  move=> i j ik jm; have [_ zo _] := hz i ik; by rewrite ec_nth ?su ?(leq_trans jm mN) // (dot_map IC) zo // rmorph0.
rewrite -lecR; apply: le_trans step _.
rewrite rmorphD rmorphM rmorphB rmorph_sum /= ler_add2l ler_wpmul2l //; first by rewrite subr_ge0 lecR lup.
apply: ler_sum => i _; have [_ _ zd] := hz i (ltn_ord i).
by move: zd; rewrite -lecR (dist2E IC) addrAC subrr add0r.
Qed.
End Core.

(** what the runs have in common *)
Definition run_facts ub (s0 s : @sstate R (@cm (@cst 'cV[C]_N 'M[C]_N))) (o : @outcome R (@cm (@cst 'cV[C]_N 'M[C]_N))) : Prop :=
  let ft := filtered (@sub_span C N) (flt inj H) (ss_lambda s0) (clamp fo ub (ss_lowerb s0)) ub (ss_d s0) (ss_iter s) (cs_C (cm_dla (ss_k s0))) in
  length (cs_C (cm_dla (ss_k s0))) = n /\ ss_d s0 = Nat.min (Nat.add (c_deg cf) (Nat.modulo (c_deg cf) 2)) (c_maxdeg cf) /\ ft (cs_C (cm_dla (o_k o))) /\
  exists h cs, drift fo bl H h /\ length cs = n /\ orthonormal cj cs /\ ft cs /\
    let A := b_gram bl cs (List.map (b_mulH bl h) cs) in
    ft (List.map (b_comb bl cs A) (List.seq 0 n)) /\ Permutation (List.firstn (c_nev cf) (o_ritz o)) (List.firstn (c_nev cf) (List.map (b_eval bl A) (List.seq 0 n))).

Lemma rr_sub h cs : drift fo bl H h -> length cs = n -> orthonormal cj cs -> sub_span cs (List.map (b_comb bl cs (b_gram bl cs (List.map (b_mulH bl h) cs))) (List.seq 0 n)).
Proof. by move=> /(drift_here EF EM) -> sz oc; have [] := rr_diag ER HH sz oc. Qed.

Lemma mpi_facts o s ub s0 : let k := mk_cm l0 (mpi_state bl (c_nev cf) (c_nex cf) H V1) in
  solve fo mpiK fsort sort_idx cf k ritzv resid = Ok o -> o_exit o = Some s -> unlocked_run fo mpiK sort_idx fsort cf k ritzv resid ub s0 s ->
  (c_opt cf = true -> le (ss_iter s) 1) -> run_facts ub s0 s o.
Proof.
move=> k E Hx HU Ho.
apply: (mpi_span fo bl qe td (c_nev cf) (c_nex cf) H n (le_n n) _ _ _ (exact_rules EF EM EQ ER HH) (@sub_span C N) _ _ _ _ _ _ _ sort_idx Hperm fsort cf k ritzv resid o s ub s0 _ _ _ _ E Hx HU Ho) => //.
- by move=> a x.
- by move=> a b c ab bc x /ab /bc.
- exact: upper_span.
- exact: swp_span.
- exact: rr_sub.
- by move=> mp la lo up d s1 av s1'; apply: flt_of.
by split=> //; apply: (mpi_J0 fo bl cf l0 H V1 HV).
Qed.

Lemma ns_facts o s ub s0 : le (c_nex cf) (c_nev cf) -> let k := mk_cm l0 (seq_state bl (c_nev cf) (c_nex cf) H V1) in
  solve fo nsK fsort sort_idx cf k ritzv resid = Ok o -> o_exit o = Some s -> unlocked_run fo nsK sort_idx fsort cf k ritzv resid ub s0 s ->
  (c_opt cf = true -> le (ss_iter s) 1) -> run_facts ub s0 s o.
Proof.
move=> HX k E Hx HU Ho.
have Hw : le n (Nat.add (c_nev cf) (c_nev cf)) by exact: (proj1 (PeanoNat.Nat.add_le_mono_l _ _ _) HX).
apply: (ns_span fo bl qe td (c_nev cf) (c_nex cf) H _ Hw _ _ _ (exact_rules EF EM EQ ER HH) (@sub_span C N) _ _ _ _ _ _ _ sort_idx Hperm fsort cf k ritzv resid o s ub s0 _ _ _ _ E Hx HU Ho) => //.
- by move=> a x.
- by move=> a b c ab bc x /ab /bc.
- exact: upper_span.
- exact: swp_span.
- exact: rr_sub.
- by move=> mp la lo up d s1 av s1'; apply: flt_of.
by split=> //; apply: (seq_J0 fo bl cf l0 H V1 HV).
Qed.

Hypothesis LT : forall x y, f_lt fo x y = (x < y).
Section Facts.
Variables (ub : R) (s0 s : @sstate R (@cm (@cst 'cV[C]_N 'M[C]_N))) (o : @outcome R (@cm (@cst 'cV[C]_N 'M[C]_N))).
Hypothesis RF : run_facts ub s0 s o.
Variables (us : seq 'cV[C]_N) (ls : seq R) (m : nat) (Y : nat -> nat -> C).
Local Notation V0 := (cs_C (cm_dla (ss_k s0))).
Local Notation d := (Nat.min (Nat.add (c_deg cf) (Nat.modulo (c_deg cf) 2)) (c_maxdeg cf)).
Hypotheses (EB : eigenbasis inj cj H us ls) (SP : splits ls m (ss_lambda s0) (ss_lowerb s0) ub) (RE : reaches cj us V0 m Y).

Lemma facts_vec i : (i < m)%N -> 0 < rate (ss_lowerb s0) ub d ls`_i < 1 /\
  exists2 w, in_span (cs_C (cm_dla (o_k o))) w & dist2 cj e w us`_i <= err cj e us ls V0 Y (ss_lowerb s0) ub d (ss_iter s) i.
Proof.
move=> im; case: SP => h1 [h2 [hm [h3 h4]]]; case: RF => _ [Ed [ft _]]; move: ft; rewrite Ed /clamp LT ltNge (ltW h2) => ft.
have sl := eb_vals EB; rewrite sl in hm h4.
split; first by apply: (rate_lt1 h2 h3 im); case: HC => a [b [c _]]; apply: deg_pos.
exact: (vec_core EB hm RE h1 h2 h3 h4 im ft).
Qed.
Lemma facts_val k : ordered_rr cj bl H n -> (k < m)%N -> (k < c_nev cf)%N ->
  ls`_k <= (sort <=%R (take (c_nev cf) (o_ritz o)))`_k <= ls`_k + (ub - ls`_k) * \sum_(i < k.+1) err cj e us ls V0 Y (ss_lowerb s0) ub d (ss_iter s) i.
Proof.
move=> OR km kn; case: SP => h1 [h2 [hm [h3 h4]]]; case: RF => _ [Ed [_ [h [cs [dr [sz [oc [_]]]]]]]]; rewrite Ed /clamp LT ltNge (ltW h2) /= => -[ft pm].
have sl := eb_vals EB; rewrite sl in hm h4.
have hH := drift_here EF EM dr; rewrite hH in ft pm.
exact: (val_core EB hm RE h1 h2 h3 h4 OR sz oc ft pm km kn).
Qed.
End Facts.
End Solve.

Section Final.
Variables (R : rcfType) (C : fieldType) (inj : {rmorphism R -> C}) (cj : {rmorphism C -> C}) (e : {rmorphism C -> R[i]}) (n0 : nat) (G : Type).
Variables (fo : fops R) (bl : blas R 'cV[C]_n0.+1 'M[C]_n0.+1 G C) (qe : qr_env R) (td : tridiag R) (cf : conf R) (sort_idx : list R -> list nat).
Variables (H : 'M[C]_n0.+1) (fsort : list R -> list R) (l0 : nat) (V1 : list 'cV[C]_n0.+1) (ritzv resid : list R).
Local Notation n := (Nat.add (c_nev cf) (c_nex cf)).
Local Notation nsK := (cmK fo qe td (stop_late (late_failure bl n) (colD fo bl false n)) (c_nev cf) (c_nex cf)).
Local Notation mpiK := (cmK fo qe td (colD fo bl true n) (c_nev cf) (c_nex cf)).
Hypothesis Hperm : forall keys, Permutation (sort_idx keys) (List.seq 0 (length keys)).
Hypotheses (EF : exact_fops fo) (LT : forall x y, f_lt fo x y = (x < y)) (EM : exact_mv inj cj bl) (EQ : exact_qr cj bl n) (ER : exact_rr inj cj bl H n).
Hypotheses (HH : hermitian cj H) (IC : in_complex inj cj e) (HV : length V1 = n) (HC : conf_ok cf) (HM : le 1 (c_maxiter cf)).
Variables (us : seq 'cV[C]_n0.+1) (ls : seq R) (m : nat) (Y : nat -> nat -> C).
Hypothesis EB : eigenbasis inj cj H us ls.
Local Notation V0 s0 := (cs_C (cm_dla (ss_k s0))).
Local Notation d := (Nat.min (Nat.add (c_deg cf) (Nat.modulo (c_deg cf) 2)) (c_maxdeg cf)).

Lemma mpi_conv_vec o s ub s0 : let k := mk_cm l0 (mpi_state bl (c_nev cf) (c_nex cf) H V1) in
  solve fo mpiK fsort sort_idx cf k ritzv resid = Ok o -> o_exit o = Some s -> unlocked_run fo mpiK sort_idx fsort cf k ritzv resid ub s0 s ->
  (c_opt cf = true -> le (ss_iter s) 1) -> splits ls m (ss_lambda s0) (ss_lowerb s0) ub -> reaches cj us (V0 s0) m Y ->
  forall i, (i < m)%N -> 0 < rate (ss_lowerb s0) ub d ls`_i < 1 /\
    exists2 w, in_span (cs_C (cm_dla (o_k o))) w & dist2 cj e w us`_i <= err cj e us ls (V0 s0) Y (ss_lowerb s0) ub d (ss_iter s) i.
Proof.
move=> k E Hx HU Ho SP RE i im.
exact: (facts_vec IC HC LT (mpi_facts Hperm EF EM EQ ER HH IC HV HC HM E Hx HU Ho) EB SP RE im).
Qed.
Lemma mpi_conv_val o s ub s0 : let k := mk_cm l0 (mpi_state bl (c_nev cf) (c_nex cf) H V1) in
  solve fo mpiK fsort sort_idx cf k ritzv resid = Ok o -> o_exit o = Some s -> unlocked_run fo mpiK sort_idx fsort cf k ritzv resid ub s0 s ->
  (c_opt cf = true -> le (ss_iter s) 1) -> splits ls m (ss_lambda s0) (ss_lowerb s0) ub -> reaches cj us (V0 s0) m Y -> ordered_rr cj bl H n ->
  forall j, (j < m)%N -> (j < c_nev cf)%N -> let v := (sort <=%R (take (c_nev cf) (o_ritz o)))`_j in
    ls`_j <= v <= ls`_j + (ub - ls`_j) * \sum_(i < j.+1) err cj e us ls (V0 s0) Y (ss_lowerb s0) ub d (ss_iter s) i.
Proof.
move=> k E Hx HU Ho SP RE OR j jm jn.
exact: (facts_val EF EM ER HH IC LT (mpi_facts Hperm EF EM EQ ER HH IC HV HC HM E Hx HU Ho) EB SP RE OR jm jn).
Qed.

Hypothesis HX : le (c_nex cf) (c_nev cf).
Lemma seq_conv_vec o s ub s0 : let k := mk_cm l0 (seq_state bl (c_nev cf) (c_nex cf) H V1) in
  solve fo nsK fsort sort_idx cf k ritzv resid = Ok o -> o_exit o = Some s -> unlocked_run fo nsK sort_idx fsort cf k ritzv resid ub s0 s ->
  (c_opt cf = true -> le (ss_iter s) 1) -> splits ls m (ss_lambda s0) (ss_lowerb s0) ub -> reaches cj us (V0 s0) m Y ->
  forall i, (i < m)%N -> 0 < rate (ss_lowerb s0) ub d ls`_i < 1 /\
    exists2 w, in_span (cs_C (cm_dla (o_k o))) w & dist2 cj e w us`_i <= err cj e us ls (V0 s0) Y (ss_lowerb s0) ub d (ss_iter s) i.
Proof.
move=> k E Hx HU Ho SP RE i im.
exact: (facts_vec IC HC LT (ns_facts Hperm EF EM EQ ER HH IC HV HC HM HX E Hx HU Ho) EB SP RE im).
Qed.
Lemma seq_conv_val o s ub s0 : let k := mk_cm l0 (seq_state bl (c_nev cf) (c_nex cf) H V1) in
  solve fo nsK fsort sort_idx cf k ritzv resid = Ok o -> o_exit o = Some s -> unlocked_run fo nsK sort_idx fsort cf k ritzv resid ub s0 s ->
  (c_opt cf = true -> le (ss_iter s) 1) -> splits ls m (ss_lambda s0) (ss_lowerb s0) ub -> reaches cj us (V0 s0) m Y -> ordered_rr cj bl H n ->
  forall j, (j < m)%N -> (j < c_nev cf)%N -> let v := (sort <=%R (take (c_nev cf) (o_ritz o)))`_j in
    ls`_j <= v <= ls`_j + (ub - ls`_j) * \sum_(i < j.+1) err cj e us ls (V0 s0) Y (ss_lowerb s0) ub d (ss_iter s) i.
Proof.
move=> k E Hx HU Ho SP RE OR j jm jn.
exact: (facts_val EF EM ER HH IC LT (ns_facts Hperm EF EM EQ ER HH IC HV HC HM HX E Hx HU Ho) EB SP RE OR jm jn).
Qed.
End Final.
