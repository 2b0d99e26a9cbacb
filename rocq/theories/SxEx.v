(** Exact library calls on lists exist over the complex numbers of any real closed field. *)
From mathcomp Require Import all_ssreflect all_algebra all_real_closed.
Require Import Verif.AlgModel Verif.ColModel Verif.SfModel Verif.SfSpec Verif.ExactSpec Verif.ExactEx Verif.OrthSpec Verif.OrthProofs Verif.Spectral Verif.OrthEx Verif.LapackSpec Verif.LapackProofs Verif.LapackEx
  Verif.SxSpec Verif.SxProofs1.
Import Verif.ExactSpec Verif.OrthSpec.
Set Implicit Arguments. Unset Strict Implicit. Unset Printing Implicit Defensive.
Import Order.TTheory GRing.Theory Num.Theory.
Local Open Scope ring_scope.
Local Open Scope complex_scope.
Local Notation ent := LapackSpec.ent.

Section Ex.
Variables (R : rcfType) (N n : nat).
Local Notation C := (complex_numClosedFieldType R).
Local Notation cc := (cc R).
Local Notation rc := (rc R).
Definition at_ (A : seq (seq C)) i j : C := (nth [::] A j)`_i.
Definition mx_of m k (A : seq (seq C)) : 'M[C]_(m, k) := \matrix_(i, j) at_ A i j.
(** Hermitian matrix with these columns of the upper (lower) triangle, upper triangular matrix *)
Definition herm_up k (A : seq (seq C)) : 'M[C]_k := \matrix_(i, j) (if (i <= j)%N then at_ A i j else cc (at_ A j i)).
Definition herm_low k (A : seq (seq C)) : 'M[C]_k := \matrix_(i, j) (if (j <= i)%N then at_ A (i - j) j else cc (at_ A (j - i) i)).
Definition tri_up k (A : seq (seq C)) : 'M[C]_k := \matrix_(i, j) (if (i <= j)%N then at_ A i j else 0).
Definition times (t : bool) (A : seq (seq C)) (x : seq C) (i : nat) : C :=
  if t then \sum_(j < size (nth [::] A i)) cc (at_ A j i) * x`_j else \sum_(j < size A) at_ A i j * x`_j.
Arguments times : simpl never.

Definition x_flib : flib R C := {|
  l_gemm := fun t a b A x y i => rc a * times t A x i + rc b * y`_i;
  l_mul := times; l_add := +%R; l_rnd := fun i => i.+1%:R; l_eq := fun x y => x == y; l_zero := 0;
  l_geqrf := fun A => (ent (cmx n (qfac (mk (mx_of N n A)))), [::]);
  l_gqr := fun A _ i j => at_ A i j;
  l_syherk := fun A i j => \sum_(k < size (nth [::] A i)) cc (at_ A k i) * at_ A k j;
  l_abs := fun x => complex.Re `|x|; l_qshift := fun _ _ => 0;
  l_potrf := fun A => let B := herm_up n A in if posdef B then (BinNums.Z0, ent (chol B)) else (BinNums.Zpos BinNums.xH, fun _ _ => 0);
  l_trsm := fun U A => ent (mx_of N n A *m invmx (tri_up n U));
  l_heevd := fun A => let f := herm_low (size A) A in (fun j => complex.Re (eig f).2`_j, ent (zmx f));
  l_inj := rc; l_re := @complex.Re R; l_neg := -%R;
  l_dot := fun x y => \sum_(j < size x) cc x`_j * y`_j; l_axpy := fun a x y => a * x + y; l_scal := *%R;
  l_nrm2 := fun x => Num.sqrt (complex.Re (\sum_(j < size x) cc x`_j * x`_j)) |}.

Lemma mx_cols m k (A : 'M[C]_(m, k)) : mx_of m k (cols A) = A.
Proof. by apply/matrixP => i j; rewrite mxE /at_ cols_nth. Qed.
Lemma up_at k (A : 'M[C]_k) (i j : 'I_k) : (i <= j)%N -> at_ (upcols A) i j = A i j.
Proof. by move=> ij; rewrite /at_ tab_nth // tab_nth ?ltnS // entE. Qed.
Lemma low_at k (A : 'M[C]_k) (i j : 'I_k) : (j <= i)%N -> at_ (lowcols A) (i - j) j = A i j.
Proof. by move=> ij; rewrite /at_ tab_nth // tab_nth ?ltn_sub2r // ?(leq_ltn_trans ij) // subnKC // entE. Qed.
Lemma herm_upE k (A : 'M[C]_k) : hermitian cc A -> herm_up k (upcols A) = A.
Proof.
by move=> h; apply/matrixP => i j; rewrite mxE; case: leqP => ij; rewrite up_at ?herm_entry // ltnW.
Qed.
Lemma herm_lowE k (A : 'M[C]_k) : hermitian cc A -> herm_low k (lowcols A) = A.
Proof.
by move=> h; apply/matrixP => i j; rewrite mxE; case: leqP => ij; rewrite low_at ?herm_entry // ltnW.
Qed.
Lemma tri_upE k (A : 'M[C]_k) : uppertri A -> tri_up k (upcols A) = A.
Proof. by move=> h; apply/matrixP => i j; rewrite mxE; case: leqP => ij; [rewrite up_at|rewrite h]. Qed.
Lemma cols_size m k (A : 'M[C]_(m, k)) : size (cols A) = k. Proof. exact: tab_size. Qed.
Lemma col_size m k (A : 'M[C]_(m, k)) (j : 'I_k) : size (nth [::] (cols A) j) = m.
Proof. by rewrite tab_nth // tab_size. Qed.
Lemma timesE m k (A : 'M[C]_(m, k)) x (i : 'I_m) : times false (cols A) (lst x) i = (A *m x) i 0.
Proof. by rewrite /times cols_size mxE; apply: eq_bigr => j _; rewrite /at_ cols_nth lst_nth. Qed.
Lemma timesHE m k (A : 'M[C]_(k, m)) x (i : 'I_m) : times true (cols A) (lst x) i = (adj cc A *m x) i 0.
Proof. by rewrite /times col_size mxE; apply: eq_bigr => j _; rewrite /at_ cols_nth lst_nth !mxE. Qed.

Theorem x_lib : (n <= N)%N -> exact_lib rc cc x_flib N n.
Proof.
move=> nN; split=> //=.
- by move=> m k A a b x y i; rewrite timesE lst_nth !mxE.
- by move=> m k A a b x y i; rewrite timesHE lst_nth !mxE.
- by move=> m k A x i; rewrite timesE.
- by move=> m k A x i; rewrite timesHE.
- move=> m x; split; first exact: sqrtr_ge0.
  have -> : \sum_(j < size (lst x)) cc (lst x)`_j * (lst x)`_j = dot cc x x.
    by rewrite lst_size /dot; rewrite ?mxE; apply: eq_bigr => j _; rewrite ?mxE lst_nth.
  exact: ((ev_nrm2 (x_vec R m)) x).2.
- move=> V; rewrite mx_cols; have [q1 [U [hU E]]] := qfac_mx V nN.
  have -> : \matrix_(i < N, j < n) at_ (tab2 N n (ent (cmx n (qfac (mk V))))) i j = cmx n (qfac (mk V)).
    by apply/matrixP => i j; rewrite mxE /at_ tab_nth // tab_nth // entE.
  by split=> //; exists U.
- by move=> V i j _; rewrite col_size mxE; apply: eq_bigr => k _; rewrite /at_ !cols_nth !mxE.
- move=> A; case: ifP => //= pd _; have [c1 [c2 c3]] := chol_facts pd.
  have -> : \matrix_(i < n, j < n) (if (i <= j)%N then ent (chol (herm_up n (upcols A))) i j else 0) = chol (herm_up n (upcols A)).
    by apply/matrixP => i j; rewrite mxE entE; case: leqP => // ij; rewrite c1.
  by split=> // hA; rewrite c3 herm_upE.
- by rewrite herm_upE ?one_posdef // /hermitian /adj trmx1 map_mx1.
- move=> U V hU uU; rewrite (tri_upE hU) mx_cols.
  have -> : \matrix_(i < N, j < n) ent (V *m invmx U) i j = V *m invmx U by apply/matrixP => i j; rewrite mxE entE.
  by rewrite mulmxKV.
move=> k A kn hA; rewrite tab_size herm_lowE //; have [z1 [z2 [zr zo]]] := eig_facts hA.
have -> : \matrix_(i < k, j < k) ent (zmx A) i j = zmx A by apply/matrixP => i j; rewrite !mxE entE mxE.
split=> //; rewrite z2; congr (_ *m diag_mx _); apply/rowP => j; rewrite !mxE; by rewrite [RHS]RRe_real.
Qed.
End Ex.
