(** The element-level BLAS and LAPACK of the grid, read as operations on matrices over a field, are exact. *)
From mathcomp Require Import all_ssreflect all_algebra all_real_closed.
Require Import Verif.Base Verif.AlgModel Verif.DlaModel Verif.ColModel Verif.SpmdSpec Verif.KerModel Verif.KerSpec Verif.KerProofs1 Verif.DsModel Verif.DsSpec
  Verif.DsProofs1 Verif.DsProofs3 Verif.ColRel Verif.ExactSpec Verif.OrthSpec Verif.OrthProofs Verif.LapackSpec.
Set Implicit Arguments. Unset Strict Implicit. Unset Printing Implicit Defensive.
Import GRing.Theory Num.Theory.
Local Open Scope ring_scope.
Local Open Scope complex_scope.

Lemma lseqE a n : List.seq a n = iota a n.
Proof. by elim: n a => //= n IH a; rewrite IH. Qed.
Lemma lmapE (A B : Type) (f : A -> B) s : List.map f s = map f s. Proof. by []. Qed.
Lemma lnthE (A : Type) (x : A) s i : List.nth i s x = nth x s i.
Proof. by elim: s i => [|a s IH] [|i] //=. Qed.

Section Ent.
Variable C : fieldType.
Lemma entE m n (A : 'M[C]_(m, n)) (i : 'I_m) (j : 'I_n) : ent A i j = A i j.
Proof. by rewrite /ent !valK. Qed.
Lemma vfnE n (x : 'cV[C]_n) (i : 'I_n) : vfn x i = x i 0.
Proof. by rewrite /vfn (entE x i 0). Qed.
Lemma bsumE n (f : nat -> C) : bsum 0 +%R n f = \sum_(i < n) f i.
Proof. by elim: n => [|n IH] /=; rewrite ?big_ord0 // big_ord_recr /= IH. Qed.
End Ent.

Section Transport.
Variables (R : rcfType) (C : fieldType) (inj : {rmorphism R -> C}) (cj : {rmorphism C -> C}) (re : C -> R) (oc : oracles C) (fo : fops R).
Variables (N bs p rsrc : nat).
Local Notation V := 'cV[C]_N.
Local Notation o := (fld cj).
Definition gb := gblas o fo inj re oc N bs p rsrc.
Definition cv (v : nat -> C) : V := \col_i v i.
Definition cm (A : nat -> nat -> C) : 'M[C]_N := \matrix_(i, j) A i j.
Lemma cvE v (i : 'I_N) : vfn (cv v) i = v i.
Proof. by rewrite vfnE mxE. Qed.

Local Notation vs := (map (@vfn C N)).
Definition mblas : blas R V 'M[C]_N (nat * (nat -> nat -> C)) C := {|
  b_gemmN := fun H a b x y => cv (b_gemmN gb (ent H) a b (vfn x) (vfn y));
  b_gemmH := fun H a b x y => cv (b_gemmH gb (ent H) a b (vfn x) (vfn y));
  b_mulN := fun H x => cv (b_mulN gb (ent H) (vfn x));
  b_mulH := fun H x => cv (b_mulH gb (ent H) (vfn x));
  b_shift := fun H c => cm (b_shift gb (ent H) c);
  b_rnd := fun j => cv (b_rnd gb j); b_test := cv (b_test gb); b_veq := fun x y => b_veq gb (vfn x) (vfn y); b_zero := cv (b_zero gb);
  b_hh := fun cs c => cv (b_hh gb (vs cs) c); b_syherk := fun cs => b_syherk gb (vs cs); b_dshift := b_dshift gb; b_potrf := b_potrf gb;
  b_trsm := fun g cs c => cv (b_trsm gb g (vs cs) c); b_gram := fun ws cs => b_gram gb (vs ws) (vs cs); b_eval := b_eval gb;
  b_comb := fun cs g j => cv (b_comb gb (vs cs) g j); b_combl := fun cs rv j => cv (b_combl gb (vs cs) rv j);
  b_inj := b_inj gb; b_re := b_re gb; b_tneg := b_tneg gb;
  b_dot := fun x y => b_dot gb (vfn x) (vfn y); b_axpy := fun a x y => cv (b_axpy gb a (vfn x) (vfn y)); b_scal := fun a x => cv (b_scal gb a (vfn x));
  b_nrm2 := fun x => b_nrm2 gb (vfn x) |}.

(** ** the simulation *)
Definition RV (x : V) (v : nat -> C) : Prop := forall i : 'I_N, vfn x i = v i.
Definition RM (H : 'M[C]_N) (A : nat -> nat -> C) : Prop := forall i j : 'I_N, ent H i j = A i j.
Definition RG (A B : nat * (nat -> nat -> C)) : Prop := A.1 = B.1 /\ forall r c, A.2 r c = B.2 r c.

Lemma bsum_rel (f g : nat -> C) : (forall i : 'I_N, f i = g i) -> bsum 0 +%R N f = bsum 0 +%R N g.
Proof. by move=> h; rewrite !bsumE; apply: eq_bigr. Qed.
Lemma matvec_rel (A B : nat -> nat -> C) (v w : nat -> C) g h : (forall i : 'I_N, A g i = B h i) -> (forall i : 'I_N, v i = w i) -> matvec o N A v g = matvec o N B w h.
Proof. by move=> hA hv; apply: bsum_rel => i /=; rewrite hA hv. Qed.
Lemma gdot_rel (v w v' w' : nat -> C) : (forall i : 'I_N, v i = v' i) -> (forall i : 'I_N, w i = w' i) -> DsSpec.dot o N v w = DsSpec.dot o N v' w'.
Proof. by move=> hv hw; apply: bsum_rel => i /=; rewrite hv hw. Qed.
Lemma nth_rel cs ws k (i : 'I_N) : List.Forall2 RV cs ws -> List.nth k (vs cs) (fun _ => 0) i = List.nth k ws (fun _ => 0) i.
Proof. move=> h; elim: h k => {cs ws} [|x v cs ws hx _ IH] [|k] //=. Qed.
Lemma len_rel cs ws : List.Forall2 RV cs ws -> length (vs cs) = length ws.
Proof. by move=> h; elim: h => {cs ws} //= x v cs ws _ _ ->. Qed.
Lemma lt_ord k : (k < N)%coq_nat -> exists i : 'I_N, k = i :> nat.
Proof. by move=> /ssrnat.ltP h; exists (Ordinal h). Qed.
Lemma flat_rel cs ws : List.Forall2 RV cs ws -> flat (List.seq 0 N) (vs cs) = flat (List.seq 0 N) ws.
Proof.
move=> h; elim: h => {cs ws} //= x v cs ws hx _ IH; rewrite /flat /= in IH *; rewrite IH; congr app.
apply: List.map_ext_in => g /List.in_seq [_ /lt_ord [i ->]]; exact: hx.
Qed.
Lemma row_rel cs ws (i : 'I_N) : List.Forall2 RV cs ws -> List.map (fun v => v (nat_of_ord i)) (vs cs) = List.map (fun v => v (nat_of_ord i)) ws.
Proof. by move=> h; elim: h => {cs ws} //= x v cs ws hx _ ->; rewrite (hx i). Qed.
Lemma ent_rel keep k A B : (forall r c, A r c = B r c :> C) -> entries keep k A = entries keep k B.
Proof. by move=> h; apply: tri_ext => r c _ _ _. Qed.

Lemma sim : blas_rel mblas gb RV RM RG.
Proof.
split=> /=.
- move=> H A a b x v y w hH hx hy i; rewrite cvE /= -(hy i); congr (_ * _ + _); exact: (matvec_rel (hH i)).
- move=> H A a b x v y w hH hx hy i; rewrite cvE /= -(hy i); congr (_ * _ + _); apply: matvec_rel => // j; by rewrite /ctrans hH.
- move=> H A x v hH hx i; rewrite cvE; exact: (matvec_rel (hH i)).
- move=> H A x v hH hx i; rewrite cvE; apply: matvec_rel => // j; by rewrite /ctrans hH.
- by move=> H A c hH i j; rewrite entE mxE hH.
- by move=> j i; rewrite cvE.
- by move=> i; rewrite cvE.
- move=> x v y w hx hy; have : forall g, List.In g (List.seq 0 N) -> (g < N)%coq_nat by move=> g /List.in_seq [].
  elim: (List.seq 0 N) => //= a s IH h; rewrite IH; last by move=> g hg; apply: h; right.
  by have [i ->] := lt_ord (h a (or_introl erefl)); rewrite (hx i) (hy i).
- by move=> i; rewrite cvE.
- by move=> cs ws c h i; rewrite cvE /= (len_rel h) (flat_rel h).
- move=> cs ws h; split=> [|r c] /=; first exact: len_rel.
  by apply: gdot_rel => i; apply: nth_rel.
- move=> [k A] [k' B] [/= -> h]; split=> //= r c; rewrite /shift_diag !h; case: ifP => // _.
  by congr (_ + or_shift oc _); apply: List.map_ext.
- by move=> [k A] [k' B] [/= -> h]; rewrite (ent_rel upper k' h).
- move=> [k A] [k' B] cs ws c [/= -> h] hc i; rewrite cvE /= (ent_rel upper k' h); congr or_tri; exact: row_rel.
- move=> cs ws cs' ws' h h'; split=> [|r c] /=; first exact: len_rel.
  by apply: gdot_rel => i; apply: nth_rel.
- by move=> [k A] [k' B] i [/= -> h]; rewrite (ent_rel lower k' h).
- move=> cs ws [k A] [k' B] j hc [/= -> h] i; rewrite cvE /= (ent_rel lower k' h) (len_rel hc) !bsumE; apply: eq_bigr => l _.
  by rewrite /blk (nth_rel l i hc).
- move=> cs ws rv j hc i; rewrite cvE /= (len_rel hc) !bsumE; apply: eq_bigr => l _; by rewrite /blk (nth_rel l i hc).
- by [].
- by [].
- by [].
- by move=> x v y w hx hy; apply: gdot_rel.
- by move=> a x v y w hx hy i; rewrite cvE /= hx hy.
- by move=> a x v hx i; rewrite cvE /= hx.
- by move=> x v hx; congr (f_sqrt fo (re _)); apply: gdot_rel.
Qed.

(** ** exactness *)
Lemma eqbE a b : PeanoNat.Nat.eqb a b = (a == b).
Proof. by elim: a b => [|a IH] [|b] //=. Qed.
Lemma matvecE (H : 'M[C]_N) (x : V) (i : 'I_N) : matvec o N (ent H) (vfn x) i = (H *m x) i 0.
Proof. by rewrite mxE /matvec /= bsumE; apply: eq_bigr => j _; rewrite entE vfnE. Qed.
Lemma matvecHE (H : 'M[C]_N) (x : V) (i : 'I_N) : matvec o N (ctrans o (ent H)) (vfn x) i = (adj cj H *m x) i 0.
Proof. by rewrite mxE /matvec /= bsumE; apply: eq_bigr => j _; rewrite /ctrans entE vfnE !mxE. Qed.
Lemma gdotE (x y : V) : DsSpec.dot o N (vfn x) (vfn y) = dot cj x y.
Proof. by rewrite dotE /DsSpec.dot /= bsumE; apply: eq_bigr => j _; rewrite !vfnE. Qed.

Lemma m_mv : exact_mv inj cj mblas.
Proof.
split=> /=.
- by move=> H a b x y; apply/colP => i; rewrite !mxE /= matvecE vfnE mxE.
- by move=> H a b x y; apply/colP => i; rewrite !mxE /= matvecHE vfnE mxE.
- by move=> H x; apply/colP => i; rewrite mxE matvecE.
- by move=> H x; apply/colP => i; rewrite mxE matvecHE.
by move=> H c; apply/matrixP => i j; rewrite !mxE /= entE eqbE -(inj_eq val_inj) /=; case: eqP => _; rewrite ?mulr1n // mulr0n addr0.
Qed.

Variables (e : {rmorphism C -> R[i]}) (IC : in_complex inj cj e).
Lemma cjK z : cj (cj z) = z.
Proof. by apply: (fmorph_inj e); rewrite !(ic_conj IC) conjcK. Qed.
Lemma adjK m k (A : 'M[C]_(m, k)) : adj cj (adj cj A) = A.
Proof. by apply/matrixP => i j; rewrite !mxE cjK. Qed.
Lemma adjM m k l (A : 'M[C]_(m, k)) (B : 'M[C]_(k, l)) : adj cj (A *m B) = adj cj B *m adj cj A.
Proof. by rewrite /adj trmx_mul map_mxM. Qed.

Hypothesis (re_inj : cancel inj re).
Lemma m_vec : exact_sqrt fo -> exact_vec inj cj mblas.
Proof.
move=> SQ; split=> //= [a x y|x].
  by apply/colP => i; rewrite !mxE /= !vfnE addrC.
rewrite gdotE; set d := dot cj x x.
have [r r0 E] : exists2 r, 0 <= r & d = inj r.
  pose r := \sum_(i < N) ((complex.Re (e (x i 0))) ^+ 2 + (complex.Im (e (x i 0))) ^+ 2).
  exists r; first by apply: sumr_ge0 => i _; rewrite addr_ge0 ?sqr_ge0.
  apply: (fmorph_inj e); rewrite (ic_real IC) /d dotE rmorph_sum /r (rmorph_sum [rmorphism of real_complex R]) /=; apply: eq_bigr => i _.
  rewrite rmorphM (ic_conj IC); case: (e (x i 0)) => a b /=; apply/eqP; rewrite eq_complex /= !expr2.
  by rewrite mulNr opprK eqxx /= mulrC addrC mulNr addNr.
have [s0 s2] := SQ r r0; rewrite E re_inj; split=> //; by rewrite -rmorphX s2.
Qed.

(** blocks of columns and matrices *)
Definition mk n (W : 'M[C]_(N, n)) : seq V := mkseq (fun c => \col_g ent W g c) n.
Definition cmx n (cs : seq V) : 'M[C]_(N, n) := \matrix_(g, c) cs`_c g 0.
Lemma mk_nth n (W : 'M[C]_(N, n)) (c : 'I_n) : (mk W)`_c = col c W.
Proof. by rewrite nth_mkseq //; apply/colP => i; rewrite !mxE entE. Qed.
Lemma mk_size n (W : 'M[C]_(N, n)) : size (mk W) = n.
Proof. exact: size_mkseq. Qed.
Lemma mk_cmx n cs : size cs = n -> mk (cmx n cs) = cs.
Proof.
move=> sz; apply: (@eq_from_nth _ 0); rewrite mk_size ?sz // => c hc; rewrite (mk_nth _ (Ordinal hc)); apply/colP => i; by rewrite !mxE.
Qed.
Lemma upper_mk n (A W : 'M[C]_(N, n)) (U : 'M[C]_n) : uppertri U -> A = W *m U -> upper_factor (mk A) (mk W).
Proof.
move=> hU ->; split; first by rewrite !mk_size.
exists (ent U) => j; rewrite mk_size => hj; rewrite (mk_nth _ (Ordinal hj)).
rewrite (big_ord_widen_cond n predT (fun i => ent U i j *: (mk W)`_i)) // big_mkcond; apply/colP => g; rewrite !mxE summxE; apply: eq_bigr => i _.
rewrite -[j]/(val (Ordinal hj)) entE /=; case: ltnP => h; first by rewrite mxE mk_nth mxE mulrC.
by rewrite mxE hU ?mulr0.
Qed.
Lemma orth_mk n (W : 'M[C]_(N, n)) : adj cj W *m W = 1%:M -> orthonormal cj (mk W).
Proof.
move=> h i j; rewrite mk_size => hi hj; rewrite (mk_nth _ (Ordinal hi)) (mk_nth _ (Ordinal hj)) dotE.
have := congr1 (fun M : 'M[C]_n => M (Ordinal hi) (Ordinal hj)) h; rewrite !mxE => E; rewrite -E.
by apply: eq_bigr => k _; rewrite !mxE.
Qed.
Lemma gram_cmx n cs i j : (adj cj (cmx n cs) *m cmx n cs) i j = dot cj cs`_i cs`_j.
Proof. by rewrite dotE mxE; apply: eq_bigr => k _; rewrite !mxE. Qed.
Lemma colmajE n cs : size cs = n -> flat (List.seq 0 N) (vs cs) = colmaj (cmx n cs).
Proof.
move=> sz; rewrite /flat /colmaj -{1}(mk_cmx sz) /mk /mkseq -map_comp lseqE -lseqE.
rewrite -lmapE List.flat_map_concat_map List.map_map -List.flat_map_concat_map -lseqE.
rewrite !List.flat_map_concat_map; congr List.concat; apply: List.map_ext => c; apply: List.map_ext_in => g /List.in_seq [_ /lt_ord [i ->]].
by rewrite /= vfnE mxE.
Qed.
Lemma entryE (keep : nat -> nat -> bool) n (A : 'M[C]_n) (f : nat -> nat -> C) : (forall i j : 'I_n, keep i j -> f i j = A i j) -> entries keep n f = entries keep n (ent A).
Proof.
move=> h; apply: tri_ext => r c /ssrnat.ltP hr /ssrnat.ltP hc k; rewrite -[r]/(val (Ordinal hr)) -[c]/(val (Ordinal hc)) entE; exact: h.
Qed.
Lemma lenE cs : length (vs cs) = size cs.
Proof. exact: size_map. Qed.
Lemma vs_nth cs k : (k < size cs)%N -> List.nth k (vs cs) (fun _ => 0) = vfn cs`_k.
Proof. by move=> h; rewrite lnthE (nth_map 0). Qed.
Lemma syherkE cs n : size cs = n -> entries upper n (fun r c => DsSpec.dot o N (List.nth r (vs cs) (fun _ => 0)) (List.nth c (vs cs) (fun _ => 0))) =
  entries upper n (ent (adj cj (cmx n cs) *m cmx n cs)).
Proof. by move=> sz; apply: entryE => i j _; rewrite !vs_nth ?sz // gdotE gram_cmx. Qed.

Variables (n : nat) (XL : exact_lapack inj cj re oc N n).

Lemma trsm_cols cs (f : nat -> nat -> C) : size cs = n -> let U := \matrix_(i < n, j < n) (if (i <= j)%N then f i j else 0) in U \in unitmx ->
  exists W : 'M[C]_(N, n), map (fun c => cv (fun g => or_tri oc n (entries upper n f) (List.map (fun v => v g) (vs cs)) c)) (iota 0 n) = mk W /\ cmx n cs = W *m U.
Proof.
move=> sz U uU; have hU : uppertri U by move=> i j ij; rewrite mxE leqNgt ij.
have eU : entries upper n f = entries upper n (ent U).
  by apply: entryE => i j; rewrite /upper mxE => /PeanoNat.Nat.leb_le /ssrnat.leP ->.
exists (\matrix_(g, c) or_tri oc n (entries upper n f) (List.map (fun v => v (nat_of_ord g)) (vs cs)) c); split.
  apply: (@eq_from_nth _ 0); rewrite size_map size_iota ?mk_size // => c hc.
  rewrite (mk_nth _ (Ordinal hc)) (nth_map 0%N) ?size_iota // nth_iota // add0n; apply/colP => g; by rewrite !mxE.
apply/row_matrixP => g; rewrite row_mul -[LHS](xl_tri XL _ hU uU) -eU; congr (_ *m _); apply/rowP => c; rewrite !mxE; congr or_tri.
rewrite -[in RHS](mk_cmx sz) /mk /mkseq !lmapE -!map_comp lseqE; apply/eq_in_map => k; rewrite mem_iota add0n => /= hk.
by rewrite vfnE mxE -[k]/(val (Ordinal hk)) entE (entE _ 0) !mxE.
Qed.

Lemma m_qr : exact_qr cj mblas n.
Proof.
split=> /=.
- move=> cs sz; rewrite lenE sz (colmajE sz); have [h1 [U [hU E]]] := xl_hh XL (cmx n cs).
  set Q := \matrix_(g, c) _ in h1 E.
  have -> : map (fun c => cv (fun g => or_hh oc N n (colmaj (cmx n cs)) g c)) (iota 0 n) = mk Q.
    apply: (@eq_from_nth _ 0); rewrite size_map size_iota ?mk_size // => c hc.
    rewrite (mk_nth _ (Ordinal hc)) (nth_map 0%N) ?size_iota // nth_iota // add0n; apply/colP => g; by rewrite !mxE.
  split; last exact: orth_mk.
  rewrite -{1}(mk_cmx sz); exact: (upper_mk hU E).
- move=> cs G sz; rewrite lenE sz syherkE // => [[h <-]] /=.
  have [uU fU] := xl_po XL h; have [W [-> E]] := trsm_cols sz uU.
  set U := \matrix_(i, j) _ in uU fU E.
  have {fU} fU : adj cj U *m U = adj cj (cmx n cs) *m cmx n cs by apply: fU; rewrite /hermitian adjM adjK.
  split; first by rewrite -{1}(mk_cmx sz); apply: upper_mk E => i j ij; rewrite mxE leqNgt ij.
  apply: orth_mk; rewrite E adjM -mulmxA [adj cj W *m _]mulmxA in fU.
  have uA : adj cj U \in unitmx by rewrite /adj map_unitmx unitmx_tr.
  have {fU} fU := congr1 (mulmx (invmx (adj cj U))) fU; rewrite !mulKmx // in fU.
  by have := congr1 (mulmx^~ (invmx U)) fU; rewrite mulmxV // mulmxK.
- move=> cs sz on; rewrite lenE sz syherkE // (_ : _ *m _ = 1%:M); first exact: (xl_one XL).
  by apply/matrixP => i j; rewrite gram_cmx on ?sz // mxE -(inj_eq val_inj).
- move=> cs G sz; rewrite lenE sz; set M := shift_diag _ _ _ _.
  have -> : entries upper n M = entries upper n (ent (\matrix_(i < n, j < n) M i j)) by apply: entryE => i j _; rewrite mxE.
  move=> [h <-] /=; have [uU _] := xl_po XL h; have [W [-> E]] := trsm_cols sz uU.
  by rewrite -{1}(mk_cmx sz); apply: upper_mk E => i j ij; rewrite mxE leqNgt ij.
Qed.

Variable (H : 'M[C]_N).
Hypothesis (HH : hermitian cj H).
Definition rq (cs : seq V) : 'M[C]_(size cs) := \matrix_(i, k) dot cj cs`_i (adj cj H *m cs`_k).
Lemma dot_conj (x y : V) : cj (dot cj x y) = dot cj y x.
Proof. by rewrite /dot -[in RHS](adjK x) -adjM [RHS]mxE; congr (cj _); rewrite [RHS]mxE. Qed.
Lemma rq_herm cs : hermitian cj (rq cs).
Proof.
apply/matrixP => i k; rewrite !mxE dot_conj (HH : adj cj H = H) /dot adjM (HH : adj cj H = H); by rewrite mulmxA.
Qed.
Lemma rqE cs : entries lower (size cs) (fun r c => DsSpec.dot o N (List.nth r (vs cs) (fun _ => 0)) (List.nth c (vs (map (b_mulH mblas H) cs)) (fun _ => 0))) =
  entries lower (size cs) (ent (rq cs)).
Proof. by apply: entryE => i j _; rewrite !vs_nth ?size_map // gdotE mxE (nth_map 0) // (em_mulH m_mv). Qed.
Lemma m_rr : exact_rr inj cj mblas H n.
Proof.
split=> cs sz on /=.
rewrite !lenE size_map rqE; set f := or_ev oc _ _; have [h1 [h2 _]] := xl_ev XL sz (rq_herm cs).
rewrite -/f in h1 h2; exists (fst f); split; last split.
- move=> j hj; apply/colP => g; rewrite mxE /= bsumE summxE; apply: eq_bigr => i _.
  by rewrite /blk vs_nth // vfnE mxE mulrC.
- move=> j k hj hk; have := congr1 (fun M : 'M[C]_(size cs) => M (Ordinal hj) (Ordinal hk)) h1; rewrite !mxE => E.
  by rewrite -[(j == k)]/(Ordinal hj == Ordinal hk) -E; apply: eq_bigr => i _; rewrite !mxE.
- move=> i j hi hj; have := congr1 (fun M : 'M[C]_(size cs) => M (Ordinal hi) (Ordinal hj)) h2; rewrite mul_mx_diag !mxE mulrC => <-.
  by apply: eq_bigr => k _; rewrite !mxE.
Qed.
Lemma m_ordered : ordered_rr cj mblas H n.
Proof.
move=> cs i j sz on /andP [ij hj] /=.
rewrite !lenE size_map rqE; have [_ [_ h]] := xl_ev XL sz (rq_herm cs).
exact: (h (Ordinal (leq_ltn_trans ij hj)) (Ordinal hj) ij).
Qed.
End Transport.
