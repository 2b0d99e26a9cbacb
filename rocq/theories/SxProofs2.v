(** Exactness of the library calls on columns, read as operations on matrices. *)
From mathcomp Require Import all_ssreflect all_algebra all_real_closed.
Require Import Verif.Base Verif.AlgModel Verif.DlaModel Verif.ColModel Verif.ColRel Verif.SfModel Verif.SfSpec Verif.ExactSpec Verif.OrthSpec Verif.OrthProofs Verif.LapackSpec Verif.LapackProofs
  Verif.BackSpec Verif.SxSpec Verif.SxProofs1.
Import Verif.ExactSpec Verif.OrthSpec.
Set Implicit Arguments. Unset Strict Implicit. Unset Printing Implicit Defensive.
Import GRing.Theory Num.Theory.
Local Open Scope ring_scope.
Local Open Scope complex_scope.
Local Notation ent := LapackSpec.ent.

Section Mx.
Variables (R : rcfType) (C : fieldType) (inj : {rmorphism R -> C}) (cj : {rmorphism C -> C}) (e : {rmorphism C -> R[i]}) (IC : in_complex inj cj e).
Variables (fo : fops R) (lib : flib R C) (N n : nat) (XL : exact_lib inj cj lib N n).
Local Notation V := 'cV[C]_N.
Local Notation mb := (mxb fo lib N).
Local Notation vs := (map (@lst C N)).

Lemma lst_eq m (x : 'cV[C]_m) (f : nat -> C) : (forall i : 'I_m, f i = x i 0) -> tab m f = lst x.
Proof. by move=> h; apply: tab_eq => i; rewrite h vfnE. Qed.
Lemma cvl_tab (f : nat -> C) (x : V) : (forall i : 'I_N, f i = x i 0) -> cvl N (tab N f) = x.
Proof. by move=> h; rewrite (lst_eq h) cvl_lst. Qed.
Lemma vs_cols k cs : size cs = k -> vs cs = cols (cmx k cs).
Proof.
move=> sz; apply: (@eq_from_nth _ [::]); rewrite size_map sz ?tab_size // => j hj.
rewrite (nth_map 0) ?sz // tab_nth //; apply: tab_eq => i; by rewrite vfnE (entE _ i (Ordinal hj)) mxE.
Qed.
Lemma vs_len cs : length (vs cs) = size cs.
Proof. exact: size_map. Qed.
Lemma sent A i j : SfSpec.ent lib A i j = (nth [::] A j)`_i.
Proof. by rewrite /SfSpec.ent !lnthE (xs_zero XL). Qed.

Lemma x_mv : exact_mv inj cj mb.
Proof.
split=> /=.
- by move=> H a b x y; apply: cvl_tab => i; rewrite (xs_gemm XL).
- by move=> H a b x y; apply: cvl_tab => i; rewrite (xs_gemmH XL).
- by move=> H x; apply: cvl_tab => i; rewrite (xs_mul XL).
- by move=> H x; apply: cvl_tab => i; rewrite (xs_mulH XL).
move=> H c; apply/matrixP => i j; rewrite !mxE tab_nth // tab_nth // !sent cols_nth eqbE -(inj_eq val_inj) /=.
by case: eqP => _; rewrite ?mulr1n ?(xs_add XL) ?(xs_inj XL) // mulr0n addr0.
Qed.
Lemma zipE (A B D : Type) (a : A) (b : B) (d : D) (f : A -> B -> D) l l' i : size l = size l' -> (i < size l)%N -> nth d (ColModel.zip f l l') i = f (nth a l i) (nth b l' i).
Proof. by rewrite /ColModel.zip; elim: l l' i => [|x l IH] [|y l'] // [|i] //= [h] hi; exact: IH. Qed.
Lemma x_vec : exact_vec inj cj mb.
Proof.
split=> [x|a x y|x] /=; [exact: xs_inj XL x| |exact: (xs_nrm2 XL)].
by apply/colP => i; rewrite !mxE (zipE 0 0) ?lst_size // (xs_axpy XL) !lst_nth.
Qed.

Lemma upcolsE (A : 'M[C]_n) (f : nat -> nat -> C) : (forall i j : 'I_n, (i <= j)%N -> f i j = A i j) -> SfSpec.upper n f = upcols A.
Proof.
move=> h; apply: tab_eq => j; rewrite !tabE; apply/eq_in_map => i; rewrite mem_iota add0n ltnS => /= hi.
have iN : (i < n)%N by apply: leq_ltn_trans hi _.
by rewrite (h (Ordinal iN) j) // -(entE A (Ordinal iN) j).
Qed.
Lemma herkE cs : size cs = n -> SfSpec.upper n (l_syherk lib (vs cs)) = upcols (adj cj (cmx n cs) *m cmx n cs).
Proof. by move=> sz; apply: upcolsE => i j ij; rewrite (vs_cols sz) (xs_syherk XL). Qed.
Lemma up_len (f : nat -> nat -> C) k : length (SfSpec.upper k f) = k.
Proof. exact: tab_size. Qed.

Lemma trsm_cols' cs (f : nat -> nat -> C) : size cs = n -> let U := \matrix_(i < n, j < n) (if (i <= j)%N then f i j else 0) in U \in unitmx ->
  exists W : 'M[C]_(N, n), map (fun c => cvl N (tab N (fun i => l_trsm lib (SfSpec.upper n f) (vs cs) i c))) (iota 0 n) = mk W /\ cmx n cs = W *m U.
Proof.
move=> sz U uU; have hU : uppertri U by move=> i j ij; rewrite mxE leqNgt ij.
have eU : SfSpec.upper n f = upcols U by apply: upcolsE => i j ij; rewrite mxE ij.
rewrite eU (vs_cols sz); exists (\matrix_(i, j) l_trsm lib (upcols U) (cols (cmx n cs)) i j); split; last by rewrite (xs_tri XL).
apply: (@eq_from_nth _ 0); rewrite size_map size_iota ?mk_size // => c hc.
rewrite (mk_nth _ (Ordinal hc)) (nth_map 0%N) ?size_iota // nth_iota // add0n; apply: cvl_tab => g; by rewrite !mxE.
Qed.

Lemma x_qr : exact_qr cj mb n.
Proof.
split=> /=.
- move=> cs sz; rewrite vs_len sz (vs_cols sz); have [h1 [U [hU E]]] := xs_hh XL (cmx n cs).
  set Q := \matrix_(i, j) _ in h1 E.
  have -> : [seq cvl N (tab N (fun i => l_gqr lib (tab2 N n (l_geqrf lib (cols (cmx n cs))).1) (l_geqrf lib (cols (cmx n cs))).2 i j)) | j <- iota 0 n] = mk Q.
    apply: (@eq_from_nth _ 0); rewrite size_map size_iota ?mk_size // => c hc.
    rewrite (mk_nth _ (Ordinal hc)) (nth_map 0%N) ?size_iota // nth_iota // add0n; apply: cvl_tab => g; by rewrite !mxE.
  split; last exact: orth_mk.
  rewrite -{1}(mk_cmx sz); exact: (upper_mk hU E).
- move=> cs G sz; rewrite vs_len sz herkE // up_len => [[h <-]].
  have [uU fU] := xs_po XL h; have [W [-> E]] := trsm_cols' sz uU.
  set U := \matrix_(i, j) _ in uU fU E.
  have {fU} fU : adj cj U *m U = adj cj (cmx n cs) *m cmx n cs by apply: fU; rewrite /hermitian adjM (adjK IC).
  split; first by rewrite -{1}(mk_cmx sz); apply: upper_mk E => i j ij; rewrite mxE leqNgt ij.
  apply: orth_mk; rewrite E adjM -mulmxA [adj cj W *m _]mulmxA in fU.
  have uA : adj cj U \in unitmx by rewrite /adj map_unitmx unitmx_tr.
  have {fU} fU := congr1 (mulmx (invmx (adj cj U))) fU; rewrite !mulKmx // in fU.
  by have := congr1 (mulmx^~ (invmx U)) fU; rewrite mulmxV // mulmxK.
- move=> cs sz on; rewrite vs_len sz herkE // (_ : _ *m _ = 1%:M); first exact: (xs_one XL).
  by apply/matrixP => i j; rewrite gram_cmx on ?sz // mxE -(inj_eq val_inj).
- move=> cs G sz; rewrite vs_len sz !up_len; set f := (fun i j => if _ then _ else _).
  have -> : SfSpec.upper n f = upcols (\matrix_(i < n, j < n) f i j) by apply: upcolsE => i j _; rewrite mxE.
  move=> [h <-]; have [uU _] := xs_po XL h; have [W [-> E]] := trsm_cols' sz uU.
  by rewrite -{1}(mk_cmx sz); apply: upper_mk E => i j ij; rewrite mxE leqNgt ij.
Qed.

Lemma cols_size m k (A : 'M[C]_(m, k)) : size (cols A) = k.
Proof. exact: tab_size. Qed.
(** both orders of the factors in the small product *)
Lemma gramE k ws cs : size ws = k -> size cs = k -> List.map (fun x => tab (length (vs ws)) (l_mul lib true (vs ws) x)) (vs cs) = cols (adj cj (cmx k ws) *m cmx k cs).
Proof.
move=> sw sc; rewrite vs_len sw (vs_cols sw) [LHS]lmapE; apply: (@eq_from_nth _ [::]); first by rewrite cols_size !size_map.
rewrite !size_map sc => j hj.
rewrite (nth_map [::]) ?size_map ?sc // (nth_map 0) ?sc // tab_nth //; apply: tab_eq => i.
rewrite (xs_mulH XL) (entE _ i (Ordinal hj)) !mxE; apply: eq_bigr => l _; by rewrite !mxE.
Qed.
Lemma lowE k (A : 'M[C]_k) : SfSpec.lower lib (cols A) = lowcols A.
Proof.
rewrite /SfSpec.lower [length _]tab_size; apply: tab_eq => j; apply: tab_eq => i; rewrite sent.
have h : (j + i < k)%N by rewrite -ltn_subRL.
rewrite (_ : Nat.add j i = val (Ordinal h)) ?plusE // cols_nth.
by rewrite -(entE A (Ordinal h) j).
Qed.

Variable (H : 'M[C]_N).
Hypothesis (HH : hermitian cj H).
Lemma small_solve cs A : (size cs <= n)%N -> A = cols (rq cj H cs) ->
    exists Z : nat -> nat -> C,
      (forall j, (j < size cs)%N -> b_comb mb cs A j = \sum_(i < size cs) Z i j *: cs`_i) /\
      (forall j k, (j < size cs)%N -> (k < size cs)%N -> \sum_(i < size cs) cj (Z i j) * Z i k = (j == k)%:R) /\
      (forall i j, (i < size cs)%N -> (j < size cs)%N ->
         \sum_(k < size cs) dot cj cs`_i (adj cj H *m cs`_k) * Z k j = inj (b_eval mb A j) * Z i j).
Proof.
move=> sz -> /=; rewrite lowE [length (cols _)]tab_size; have [h1 h2] := xs_ev XL sz (rq_herm IC HH cs).
set f := l_heevd _ _ in h1 h2 *; exists (snd f); split; last split.
- move=> j hj; apply: cvl_tab => g; rewrite (vs_cols erefl).
  rewrite (@lst_eq (size cs) (\col_i snd f i j) (fun i => snd f i j)); last by move=> i; rewrite mxE.
  by rewrite (xs_mul XL) mxE summxE; apply: eq_bigr => i _; rewrite !mxE mulrC.
- move=> j k hj hk; have := congr1 (fun M : 'M[C]_(size cs) => M (Ordinal hj) (Ordinal hk)) h1; rewrite !mxE => E.
  by rewrite -[(j == k)]/(Ordinal hj == Ordinal hk) -E; apply: eq_bigr => i _; rewrite !mxE.
- move=> i j hi hj; have := congr1 (fun M : 'M[C]_(size cs) => M (Ordinal hi) (Ordinal hj)) h2; rewrite mul_mx_diag !mxE mulrC => <-.
  by apply: eq_bigr => k _; rewrite !mxE.
Qed.
Lemma mul_cmx cs : cmx (size cs) (map (b_mulH mb H) cs) = adj cj H *m cmx (size cs) cs.
Proof.
apply/matrixP => i j; rewrite mxE (nth_map 0) // (em_mulH x_mv) !mxE; by apply: eq_bigr => k _; rewrite !mxE.
Qed.
Lemma gram_rq cs : adj cj (cmx (size cs) cs) *m (adj cj H *m cmx (size cs) cs) = rq cj H cs.
Proof.
apply/matrixP => i j; rewrite !mxE dotE; apply: eq_bigr => k _; rewrite !mxE; congr (_ * _).
by apply: eq_bigr => l _; rewrite !mxE.
Qed.
Lemma x_rr : exact_rr inj cj mb H n.
Proof.
split=> cs sz on; apply: small_solve sz _ => /=.
by rewrite -[seq.map _ cs]lmapE (gramE (k := size cs)) ?lmapE ?size_map // mul_cmx gram_rq.
Qed.
Lemma x_rr' : exact_rr inj cj (gram_swapped mb) H n.
Proof.
split=> cs sz on; apply: (small_solve sz) => /=.
rewrite (gramE (k := size cs)) ?size_map // mul_cmx -gram_rq; congr cols.
by rewrite adjM (adjK IC) -mulmxA (HH : adj cj H = H).
Qed.
End Mx.
