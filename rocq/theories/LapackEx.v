(** Exact LAPACK oracles exist over the complex numbers of any real closed field. *)
From mathcomp Require Import all_ssreflect all_algebra all_real_closed.
Require Import Verif.AlgModel Verif.ColModel Verif.DistSpec Verif.FlatSpec Verif.KerModel Verif.KerSpec Verif.KerInst Verif.KerEx Verif.DsModel Verif.DsSpec Verif.DsProofs3 Verif.ExactSpec Verif.ExactEx Verif.OrthSpec Verif.OrthProofs Verif.Spectral Verif.OrthEx Verif.LapackSpec Verif.LapackProofs.
Import Verif.ExactSpec Verif.OrthSpec.
Set Implicit Arguments. Unset Strict Implicit. Unset Printing Implicit Defensive.
Import Order.TTheory GRing.Theory Num.Theory.
Local Open Scope ring_scope.
Local Open Scope complex_scope.

Section Decode.
Variable C : fieldType.
Definition spots (keep : nat -> nat -> bool) (m n : nat) : seq (nat * nat) :=
  List.flat_map (fun c => List.map (fun r => (r, c)) (List.filter (fun r => keep r c) (List.seq 0 m))) (List.seq 0 n).
Lemma in_spots (keep : nat -> nat -> bool) m n (i : 'I_m) (j : 'I_n) : keep i j -> ((i : nat), (j : nat)) \in spots keep m n.
Proof.
move=> h; have : List.In ((i : nat), (j : nat)) (spots keep m n).
  apply/List.in_flat_map; exists (j : nat); split; first by apply/List.in_seq; split; [exact/ssrnat.leP|exact/ssrnat.ltP].
  apply/List.in_map_iff; exists (i : nat); split=> //; apply/List.filter_In; split=> //.
  by apply/List.in_seq; split; [exact/ssrnat.leP|exact/ssrnat.ltP].
elim: (spots _ _ _) => //= a s IH [->|/IH]; rewrite inE ?eqxx // => ->; exact: orbT.
Qed.
(** entry (r, c) of the matrix whose entries the array lists *)
Definition decode (keep : nat -> nat -> bool) (m n : nat) (es : seq C) (r c : nat) : C := es`_(index (r, c) (spots keep m n)).
Lemma decode_map (keep : nat -> nat -> bool) m n (f : nat -> nat -> C) (i : 'I_m) (j : 'I_n) : keep i j ->
  decode keep m n (map (fun rc => f rc.1 rc.2) (spots keep m n)) i j = f i j.
Proof. by move=> h; rewrite /decode (nth_map (0%N, 0%N)) ?index_mem ?in_spots // nth_index // in_spots. Qed.
Lemma entries_spots keep n (f : nat -> nat -> C) : entries keep n f = map (fun rc => f rc.1 rc.2) (spots keep n n).
Proof.
rewrite /entries /spots -lmapE !List.flat_map_concat_map List.concat_map List.map_map; congr List.concat; apply: List.map_ext => c.
by rewrite List.map_map.
Qed.
Lemma colmaj_spots m n (A : 'M[C]_(m, n)) : colmaj A = map (fun rc => ent A rc.1 rc.2) (spots every m n).
Proof.
rewrite /colmaj /spots -lmapE !List.flat_map_concat_map List.concat_map List.map_map; congr List.concat; apply: List.map_ext => c.
by rewrite List.map_map; congr List.map; elim: (List.seq 0 m) => //= a s <-.
Qed.
Lemma decode_entries (keep : nat -> nat -> bool) n (A : 'M[C]_n) (i j : 'I_n) : keep i j -> decode keep n n (entries keep n (ent A)) i j = A i j.
Proof. by move=> h; rewrite entries_spots decode_map ?entE. Qed.
Lemma decode_colmaj m n (A : 'M[C]_(m, n)) (i : 'I_m) (j : 'I_n) : decode every m n (colmaj A) i j = A i j.
Proof. by rewrite colmaj_spots decode_map ?entE. Qed.
End Decode.

Section Inst.
Variable R : rcfType.
Local Notation C := (complex_numClosedFieldType R).
Local Notation cc := (cc R).
Local Notation rc := (rc R).

(** the Hermitian matrix with this upper (lower) triangle, the upper triangular matrix *)
Definition of_upper n (es : seq C) : 'M[C]_n := \matrix_(i, j) (if (i <= j)%N then decode upper n n es i j else cc (decode upper n n es j i)).
Definition of_lower n (es : seq C) : 'M[C]_n := \matrix_(i, j) (if (j <= i)%N then decode lower n n es i j else cc (decode lower n n es j i)).
Definition tri_of n (es : seq C) : 'M[C]_n := \matrix_(i, j) (if (i <= j)%N then decode upper n n es i j else 0).
Lemma leP' (a b : nat) : (a <= b)%N -> PeanoNat.Nat.leb a b.
Proof. by move=> /ssrnat.leP h; apply/PeanoNat.Nat.leb_le. Qed.
Lemma herm_entry n (A : 'M[C]_n) i j : hermitian cc A -> cc (A i j) = A j i.
Proof. by move=> h; rewrite -{2}h !mxE. Qed.
Lemma of_upperE n (A : 'M[C]_n) : hermitian cc A -> of_upper n (entries upper n (ent A)) = A.
Proof.
move=> h; apply/matrixP => i j; rewrite mxE; case: leqP => ij; first by rewrite decode_entries //; exact: leP'.
by rewrite decode_entries ?herm_entry //; apply: leP'; exact: ltnW.
Qed.
Lemma of_lowerE n (A : 'M[C]_n) : hermitian cc A -> of_lower n (entries lower n (ent A)) = A.
Proof.
move=> h; apply/matrixP => i j; rewrite mxE; case: leqP => ij; first by rewrite decode_entries //; exact: leP'.
by rewrite decode_entries ?herm_entry //; apply: leP'; exact: ltnW.
Qed.
Lemma tri_ofE n (U : 'M[C]_n) : uppertri U -> tri_of n (entries upper n (ent U)) = U.
Proof.
move=> h; apply/matrixP => i j; rewrite mxE; case: leqP => ij; first by rewrite decode_entries //; exact: leP'.
by rewrite h.
Qed.

(** Cholesky factor: A = Z D Z^*, D^(1/2) Z^* = Q U, A = U^* U *)
Definition zmx n (A : 'M[C]_n) : 'M[C]_n := cmx n (eig A).1.
Definition root n (A : 'M[C]_n) : 'M[C]_n := diag_mx (\row_j sqrtC (eig A).2`_j) *m adj cc (zmx A).
Definition chol n (A : 'M[C]_n) : 'M[C]_n := adj cc (cmx n (qfac (mk (root A)))) *m root A.
Definition posdef n (A : 'M[C]_n) : bool := (adj cc A == A) && [forall j : 'I_n, 0 < (eig A).2`_j].

Definition x_oc : oracles C := {|
  or_rnd := fun _ _ => 1; or_test := fun _ _ => 1; or_far := fun x y => x != y;
  or_hh := fun N n es g c => vfn (qfac (mk (\matrix_(i < N, j < n) decode every N n es i j)))`_c g;
  or_po := fun n es => let A := of_upper n es in if posdef A then (BinNums.Z0, ent (chol A)) else (BinNums.Zpos BinNums.xH, fun _ _ => 0);
  or_tri := fun n es x c => ent ((\row_(k < n) x`_k) *m invmx (tri_of n es)) 0 c;
  or_shift := fun _ => 0;
  or_ev := fun k es => let f := eig (of_lower k es) in (fun i j => vfn f.1`_j i, fun j => f.2`_j) |}.

Lemma adj_mul m k l (A : 'M[C]_(m, k)) (B : 'M[C]_(k, l)) : adj cc B *m adj cc A = adj cc (A *m B).
Proof. by rewrite /adj trmx_mul map_mxM. Qed.
Lemma cols_on n m (cs : seq 'cV[C]_m) : size cs = n -> orthonormal cc cs -> adj cc (cmx n cs) *m cmx n cs = 1%:M.
Proof. by move=> sz on; apply/matrixP => i j; rewrite gram_cmx on ?sz // mxE -(inj_eq val_inj). Qed.
Lemma eig_facts n (A : 'M[C]_n) : hermitian cc A -> adj cc (zmx A) *m zmx A = 1%:M /\ A *m zmx A = zmx A *m diag_mx (\row_j (eig A).2`_j) /\
  (forall j : 'I_n, (eig A).2`_j \is Num.real) /\ forall i j : 'I_n, (i <= j)%N -> (eig A).2`_i <= (eig A).2`_j.
Proof.
move=> hA; have /and5P [/eqP sz /orthoP ou /allP hd /eqP s2 so] := eigP hA.
have hd' (j : 'I_n) : A *m (eig A).1`_j = (eig A).2`_j *: (eig A).1`_j by apply/eqP/hd; rewrite mem_iota /=.
split; first exact: cols_on.
split.
  apply/matrixP => i j; have E := congr1 (fun M : 'cV[C]_n => M i 0) (hd' j); rewrite !mxE in E.
  by rewrite mul_mx_diag !mxE [RHS]mulrC -E; apply: eq_bigr => k _; rewrite !mxE.
split.
  move=> j; apply: (eig_real hA (x := (eig A).1`_j)); last exact: hd'.
  by rewrite -dot_eq0 ou ?sz // eqxx oner_eq0.
move=> i j ij; have := sorted_leq_nth (@le_trans _ _) (@lexx _ _) 0 so; move=> /(_ i j); rewrite !inE s2; exact.
Qed.
Lemma qfac_mx n m (B : 'M[C]_(m, n)) : (n <= m)%N -> let Q := cmx n (qfac (mk B)) in
  adj cc Q *m Q = 1%:M /\ exists U : 'M[C]_n, uppertri U /\ B = Q *m U.
Proof.
move=> nm; have le : (size (mk B) <= m)%N by rewrite mk_size.
have [[sz [U hU]] on] := qfacP le; rewrite mk_size in sz hU; split; first exact: cols_on.
exists (\matrix_(i, j) (if (i <= j)%N then U i j else 0)); split=> [i j ij|]; first by rewrite mxE leqNgt ij.
apply/matrixP => g j; have := congr1 (fun M : 'cV[C]_m => M g 0) (hU j (ltn_ord j)); rewrite mk_nth !mxE summxE => ->.
rewrite (big_ord_widen_cond n predT (fun i => (U i j *: (qfac (mk B))`_i) g 0)) // big_mkcond; apply: eq_bigr => i _.
by rewrite !mxE ltnS /=; case: leqP => _; rewrite ?mulr0 // mulrC.
Qed.
Lemma chol_facts n (A : 'M[C]_n) : posdef A -> uppertri (chol A) /\ chol A \in unitmx /\ adj cc (chol A) *m chol A = A.
Proof.
move=> /andP [/eqP hA /forallP pos]; have [z1 [z2 [zr _]]] := eig_facts hA.
have z1' : zmx A *m adj cc (zmx A) = 1%:M by apply: mulmx1C.
pose D : 'M[C]_n := diag_mx (\row_j sqrtC (eig A).2`_j).
have sD : adj cc D *m D = diag_mx (\row_j (eig A).2`_j).
  apply/matrixP => i j; rewrite mul_mx_diag !mxE eq_sym; case: eqP => [->|_]; last by rewrite rmorph0 mul0r.
  have p0 := pos j; rewrite /= mulr1n conj_Creal; last by apply: ger0_real; rewrite sqrtC_ge0 ltW.
  by rewrite -expr2 sqrtCK mulr1n.
have rA : adj cc (root A) *m root A = A.
  rewrite /root -/D -adj_mul mulmxA -(mulmxA _ _ D) sD (_ : adj cc (adj cc (zmx A)) = zmx A); last first.
    by apply/matrixP => i j; rewrite !mxE conjCK.
  by rewrite -z2 -mulmxA z1' mulmx1.
have [q1 [U [hU E]]] := qfac_mx (root A) (leqnn n); set Q := cmx n _ in q1 E.
have cE : chol A = U by rewrite /chol -/Q E mulmxA q1 mul1mx.
have fA : adj cc U *m U = A by rewrite -rA E -[in RHS]adj_mul -mulmxA [adj cc Q *m _]mulmxA q1 mul1mx.
rewrite cE; do ! split=> //.
have uA : A \in unitmx.
  have := congr1 (mulmx^~ (adj cc (zmx A))) z2; rewrite -mulmxA z1' mulmx1 => ->; rewrite !unitmx_mul.
  rewrite !unitmxE det_diag; apply/andP; split; [apply/andP; split|].
  - by have := congr1 determinant z1; rewrite det_mulmx det1 => h; rewrite unitfE; apply/negP => /eqP h0; move: h; rewrite h0 mulr0 => /eqP; rewrite eq_sym oner_eq0.
  - rewrite unitfE; apply/prodf_neq0 => i _; by rewrite mxE gt_eqF.
  - by have := congr1 determinant z1; rewrite det_mulmx det1 => h; rewrite unitfE; apply/negP => /eqP h0; move: h; rewrite h0 mul0r => /eqP; rewrite eq_sym oner_eq0.
by move: uA; rewrite -fA unitmx_mul => /andP [].
Qed.
Lemma one_posdef n : posdef (1%:M : 'M[C]_n).
Proof.
have h1 : hermitian cc (1%:M : 'M[C]_n) by rewrite /hermitian /adj trmx1 map_mx1.
have [z1 [z2 _]] := eig_facts h1; apply/andP; split; first exact/eqP; apply/forallP => j.
suff -> : (eig (1%:M : 'M[C]_n)).2`_j = 1 by exact: ltr01.
rewrite mul1mx in z2; have := congr1 (mulmx (adj cc (zmx 1%:M))) z2; rewrite mulmxA z1 mul1mx.
by move=> /matrixP /(_ j j); rewrite !mxE eqxx !mulr1n => <-.
Qed.

Lemma x_lapack N n : (n <= N)%N -> exact_lapack rc cc (@complex.Re R) x_oc N n.
Proof.
move=> nN; split=> /=.
- move=> V; have -> : \matrix_(i < N, j < n) decode every N n (colmaj V) i j = V by apply/matrixP => i j; rewrite mxE decode_colmaj.
  have [q1 [U [hU E]]] := qfac_mx V nN.
  have -> : \matrix_(g < N, c < n) vfn (qfac (mk V))`_c g = cmx n (qfac (mk V)) by apply/matrixP => i j; rewrite !mxE vfnE.
  by split=> //; exists U.
- move=> A; case: ifP => //= pd _; have [c1 [c2 c3]] := chol_facts pd.
  have -> : \matrix_(i < n, j < n) (if (i <= j)%N then ent (chol (of_upper n (entries upper n (ent A)))) i j else 0) = chol (of_upper n (entries upper n (ent A))).
    by apply/matrixP => i j; rewrite mxE entE; case: leqP => // ij; rewrite c1.
  by split=> // hA; rewrite c3 of_upperE.
- by rewrite of_upperE ?one_posdef // /hermitian /adj trmx1 map_mx1.
- move=> U x hU uU; rewrite (tri_ofE hU).
  have -> : \row_(k < n) (List.map (ent x 0) (List.seq 0 n))`_k = x.
    by apply/rowP => k; rewrite mxE lmapE lseqE (nth_map 0%N) ?size_iota // nth_iota // add0n (entE x 0).
  have -> : \row_c ent (x *m invmx U) 0 c = x *m invmx U by apply/rowP => k; rewrite mxE (entE _ 0).
  by rewrite mulmxKV.
move=> k A kn hA; rewrite of_lowerE //; have [z1 [z2 [zr zo]]] := eig_facts hA.
have -> : \matrix_(i < k, j < k) vfn (eig A).1`_j i = zmx A by apply/matrixP => i j; rewrite !mxE vfnE.
split=> //; split; last by move=> i j /zo; rewrite lecE => /andP [].
rewrite z2; congr (_ *m diag_mx _); apply/rowP => j; rewrite !mxE; by rewrite [RHS]RRe_real.
Qed.

(** scalar operations with the square root *)
Definition s_fops : fops R := {|
  f_add := +%R; f_sub := fun x y => x - y; f_mul := *%R; f_div := fun x y => x / y; f_neg := -%R; f_abs := Num.norm; f_sqrt := Num.sqrt;
  f_log := id; f_ceil := id; f_pow := fun x n => x ^+ n; f_lt := fun x y => x < y; f_zero := 0; f_one := 1; f_two := 2%:R; f_half := 2%:R^-1;
  f_max := 0; f_of_nat := fun n => n%:R; f_threshold := 0; f_G := id; f_to_size := fun _ => None |}.
Lemma s_exact : exact_fops s_fops. Proof. by []. Qed.
Lemma s_sqrt : exact_sqrt s_fops.
Proof. by move=> x h; split; [exact: sqrtr_ge0|exact: sqr_sqrtr]. Qed.
Lemma re_rc : cancel rc (@complex.Re R).
Proof. by []. Qed.
End Inst.

(** every global state can be dealt out *)
Definition placed (D : Type) (o : sops D) (n : nat) (rows cols : list nat) (g : cst (V := nat -> D) (M := nat -> nat -> D)) : loc (D := D) :=
  mk_loc (block_of rows cols (cs_H g)) (flat rows (cs_C g)) (flat rows (cs_C2 g)) (flat cols (cs_B g)) (flat cols (cs_B2 g)) (List.repeat (s0 o) (n * n)) (cs_bAc g) (cs_bAc g).
Lemma placed_holds (D : Type) (o : sops D) n rows cols (g : cst (V := nat -> D) (M := nat -> nat -> D)) :
  length (cs_C g) = n -> length (cs_B g) = n -> length (cs_C2 g) = n -> length (cs_B2 g) = n ->
  holds_part o n rows cols (length rows) g (placed o n rows cols g).
Proof.
move=> h1 h2 h3 h4; split=> //=; try by split=> //; exists nil; rewrite List.app_nil_r.
  exact: block_stores.
by rewrite List.repeat_length.
Qed.
Lemma loaded_on_grid (C : fieldType) (cj : {rmorphism C -> C}) N p q mb nb rsrc csrc n (H : 'M[C]_N) V1 : length V1 = n ->
  on_grid (fld cj) N p q mb nb rsrc csrc n (fun i _ => length (owned N mb p rsrc i)) (loaded n H V1)
    (fun i j => placed (fld cj) n (owned N mb p rsrc i) (owned N nb q csrc j) (loaded n H V1)).
Proof. by move=> hV i j _ _; apply: placed_holds; rewrite /= ?List.repeat_length // List.map_length. Qed.
Lemma loaded_on_blocks (C : fieldType) (cj : {rmorphism C -> C}) N p q ml nl n (H : 'M[C]_N) V1 : length V1 = n ->
  on_blocks (fld cj) N p q ml nl n (fun i _ => length (piece N ml p i)) (loaded n H V1)
    (fun i j => placed (fld cj) n (piece N ml p i) (piece N nl q j) (loaded n H V1)).
Proof. by move=> hV i j _ _; apply: placed_holds; rewrite /= ?List.repeat_length // List.map_length. Qed.
