(** Exact oracles exist over the complex numbers of any real closed field, and runs on them return. *)
From Coq Require Import Permutation ZArith.
From mathcomp Require Import all_ssreflect all_algebra all_real_closed.
Require Import Verif.Base Verif.AlgModel Verif.AlgSpec Verif.DlaModel Verif.ColModel Verif.ColSpec Verif.ColProofs1 Verif.ColProofs2 Verif.ColProofs3
  Verif.ColOrth Verif.ExactSpec Verif.ExactEx Verif.OrthSpec Verif.OrthProofs Verif.Spectral Verif.OrthSolve Verif.KyFan.
Set Implicit Arguments. Unset Strict Implicit. Unset Printing Implicit Defensive.
Import Order.TTheory GRing.Theory Num.Theory.
Local Open Scope ring_scope.
Local Open Scope complex_scope.

Definition dec (b : bool) : {b} + {~~ b} := if b as b0 return {b0} + {~~ b0} then left isT else right isT.

Section Choice.
Variable C : numClosedFieldType.
Local Notation cj := (@conjC C).

(** boolean versions *)
Definition orthob k (cs : seq 'cV[C]_k) : bool :=
  all (fun i => all (fun j => dot cj cs`_i cs`_j == (i == j)%:R) (iota 0 (size cs))) (iota 0 (size cs)).
Lemma orthoP k (cs : seq 'cV[C]_k) : reflect (orthonormal cj cs) (orthob cs).
Proof.
apply: (iffP allP) => [h i j hi hj|h i].
  by move: (h i); rewrite mem_iota => /(_ hi) /allP /(_ j); rewrite mem_iota => /(_ hj) /eqP.
rewrite mem_iota => hi; apply/allP => j; rewrite mem_iota => hj; apply/eqP; exact: h.
Qed.

(** the Q factor *)
Definition is_qr k (cs qs : seq 'cV[C]_k) : bool :=
  [&& size qs == size cs, orthob qs & all (fun j => cs`_j == \sum_(i < j.+1) dot cj qs`_i cs`_j *: qs`_i) (iota 0 (size cs))].
Lemma is_qr_ex k (cs : seq 'cV[C]_k) : (size cs <= k)%N -> exists qs, is_qr cs qs.
Proof.
move=> /qr_exists [qs [sz [U hU]] on]; exists qs; apply/and3P; split; first by rewrite sz.
  exact/orthoP.
apply/allP => j; rewrite mem_iota add0n => hj; apply/eqP; rewrite {1}hU //; apply: eq_bigr => i _; congr (_ *: _).
have lt (l : 'I_j.+1) : (l < size qs)%N by rewrite -sz (leq_ltn_trans _ hj) // -ltnS.
rewrite hU // dot_sumr (bigD1 i) //= dotZr on // eqxx mulr1 big1 ?addr0 // => l li.
by rewrite dotZr on // (_ : (i == l :> nat) = false) ?mulr0 //; apply/negbTE; rewrite eq_sym; exact: li.
Qed.
Definition qfac k (cs : seq 'cV[C]_k) : seq 'cV[C]_k := match dec (size cs <= k)%N with left h => xchoose (is_qr_ex h) | right _ => [::] end.
Lemma qfacP k (cs : seq 'cV[C]_k) : (size cs <= k)%N -> upper_factor cs (qfac cs) /\ orthonormal cj (qfac cs).
Proof.
move=> sk; rewrite /qfac; case: (dec _) => [h|]; last by rewrite sk.
have /and3P [/eqP sz /orthoP on /allP hq] := xchooseP (is_qr_ex h); split=> //.
split=> //; exists (fun i j => dot cj (xchoose (is_qr_ex h))`_i cs`_j) => j hj; by apply/eqP; apply: hq; rewrite mem_iota.
Qed.

(** eigenvectors and eigenvalues *)
Definition is_eig k (A : 'M[C]_k) (p : seq 'cV[C]_k * seq C) : bool :=
  [&& size p.1 == k, orthob p.1, all (fun i => A *m p.1`_i == p.2`_i *: p.1`_i) (iota 0 k), size p.2 == k & sorted <=%R p.2].
Lemma is_eig_ex k (A : 'M[C]_k) : adj cj A == A -> exists p, is_eig A p.
Proof.
move=> /eqP hA; have [us [d [su ou hd]]] := eigen_family hA (leqnn k).
have dr i : (i < k)%N -> d i \is Num.real.
  move=> hi; apply: (eig_real hA (x := us`_i)); last exact: hd.
  by rewrite -(dot_eq0 us`_i) ou ?su // eqxx oner_eq0.
pose js := sort (fun i j => d i <= d j) (iota 0 k).
have pj : perm_eq js (iota 0 k) by rewrite perm_sort.
have sj : size js = k by rewrite (perm_size pj) size_iota.
have ju : uniq js by rewrite (perm_uniq pj) iota_uniq.
have jl i : i \in js -> (i < k)%N by rewrite (perm_mem pj) mem_iota.
exists ([seq us`_i | i <- js], [seq d i | i <- js]); apply/and5P; split=> /=; rewrite ?size_map ?sj //.
- apply/orthoP; apply: orth_sub => //; by apply/allP => i /jl; rewrite su.
- apply/allP => i; rewrite mem_iota add0n => hi; rewrite !(nth_map 0%N) ?sj // hd //; apply: jl; by rewrite mem_nth ?sj.
rewrite sorted_map; apply: (sort_sorted_in (P := [pred i | i < k]%N)) => [i j hi hj|].
  exact: (real_leVge (dr _ hi) (dr _ hj)).
by apply/allP => i; rewrite mem_iota.
Qed.
Definition eig k (A : 'M[C]_k) : seq 'cV[C]_k * seq C := match dec (adj cj A == A) with left h => xchoose (is_eig_ex h) | right _ => ([::], [::]) end.
Lemma eigP k (A : 'M[C]_k) : hermitian cj A -> is_eig A (eig A).
Proof. by move/eqP=> hA; rewrite /eig; case: (dec _) => [h|]; [exact: xchooseP|rewrite hA]. Qed.
End Choice.

Section Inst.
Variables (R : rcfType) (N : nat).
Local Notation C := (complex_numClosedFieldType R).
Local Notation V := 'cV[C]_N.
Definition rc : {rmorphism R -> C} := [rmorphism of real_complex R].
Definition cc : {rmorphism C -> C} := [rmorphism of @conjC C].
Definition ci : {rmorphism C -> R[i]} := [rmorphism of idfun].

(** a small matrix is kept as the two lists of columns it is the product of *)
Definition gr : Type := (seq V * seq V)%type.
Definition gmx (g : gr) : 'M[C]_(size g.1) := \matrix_(i, k) dot cc g.1`_i g.2`_k.

Definition xblas : blas R V 'M[C]_N gr C := {|
  b_gemmN := fun H a b x y => rc a *: (H *m x) + rc b *: y; b_gemmH := fun H a b x y => rc a *: (adj cc H *m x) + rc b *: y;
  b_mulN := fun H x => H *m x; b_mulH := fun H x => adj cc H *m x; b_shift := fun H c => H + (rc c)%:M;
  b_rnd := fun j => const_mx (j.+1)%:R; b_test := const_mx 1; b_veq := fun x y => x == y; b_zero := 0;
  b_hh := fun cs j => (qfac cs)`_j; b_syherk := fun cs => (cs, cs); b_dshift := id;
  b_potrf := fun g => (if \rank (colmx (size g.1) g.1) == size g.1 then Z0 else Zpos xH, g);
  b_trsm := fun _ cs j => (qfac cs)`_j;
  b_gram := fun cs ws => (cs, ws); b_eval := fun g j => complex.Re ((eig (gmx g)).2`_j);
  b_comb := fun cs g j => \sum_(i < size g.1) ((eig (gmx g)).1`_j i 0) *: cs`_i;
  b_combl := fun cs rs j => rc (nth 0 rs j) *: cs`_j;
  b_inj := rc; b_re := @complex.Re R; b_tneg := -%R;
  b_dot := fun x y => dot cc x y; b_axpy := fun a x y => a *: x + y; b_scal := fun a x => a *: x; b_nrm2 := fun x => Num.sqrt (complex.Re (dot cc x x)) |}.

Lemma x_complex : in_complex rc cc ci.
Proof. by []. Qed.
Lemma x_mv : exact_mv rc cc xblas.
Proof. by []. Qed.
Lemma x_vec : exact_vec rc cc xblas.
Proof.
split=> // x; split; first exact: sqrtr_ge0.
have := dot_ge0 x; case E : (dot cc x x) => [a b] /=.
rewrite lecE /= => /andP [/eqP b0 a0]; rewrite -rmorphX /= sqr_sqrtr; by [rewrite E b0|rewrite E].
Qed.

Lemma cols_qfac n (cs : seq V) : size cs = n -> (n <= N)%N -> map (fun j => (qfac cs)`_j) (iota 0 n) = qfac cs.
Proof.
move=> sz hn; have [[sq _] _] := qfacP (leq_trans (eq_leq sz) hn).
by rewrite -[RHS](mkseq_nth 0) -sq sz.
Qed.
Lemma x_qr n : (n <= N)%N -> exact_qr cc xblas n.
Proof.
move=> hn; have Q (cs : seq V) : size cs = n -> upper_factor cs (map (fun j => (qfac cs)`_j) (iota 0 n)) /\ orthonormal cc (map (fun j => (qfac cs)`_j) (iota 0 n)).
  by move=> sz; rewrite cols_qfac //; apply: qfacP; rewrite sz.
split=> /= [cs /Q //|cs U /Q //|cs sz on|cs U /Q [] //].
have g := gram_colmx on (leqnn (size cs)).
have : \rank (colmx (size cs) cs) == size cs; last by move=> ->.
rewrite eqn_leq rank_leq_col -{1}(mxrank1 C (size cs)) -g mxrankM_maxr //.
Qed.
Lemma x_rr (H : 'M[C]_N) n : hermitian cc H -> exact_rr rc cc xblas H n.
Proof.
move=> HH; split=> cs _ on /=.
set g : gr := (cs, _).
have gE (i k : 'I_(size cs)) : gmx g i k = dot cc cs`_i (H *m cs`_k).
  by rewrite mxE /= (nth_map 0) // (HH : adj cc H = H).
have A : hermitian cc (gmx g).
  by apply/matrixP => i k; rewrite mxE mxE !gE -(dot_herm HH) [RHS]dotC.
have := eigP A; rewrite /is_eig; set us := (eig (gmx g)).1; set d := (eig (gmx g)).2.
move=> /and5P [/eqP sz /orthoP ou /allP hd _ _].
have hd' j : (j < size cs)%N -> gmx g *m us`_j = d`_j *: us`_j by move=> hj; apply/eqP/hd; rewrite mem_iota.
have dr j : (j < size cs)%N -> rc (complex.Re d`_j) = d`_j.
  move=> hj; have : d`_j \is Num.real.
    by apply: (eig_real A (x := us`_j)); [rewrite -dot_eq0 ou ?sz // eqxx oner_eq0|exact: hd'].
  by move=> h; apply: RRe_real.
exists (fun i j => if insub i is Some k then us`_j k 0 else 0); split; last split.
- by move=> j hj; apply: eq_bigr => i _; rewrite valK.
- move=> j k hj hk; rewrite -(ou j k) ?sz // dotE; apply: eq_bigr => i _; by rewrite valK.
- move=> i j hi hj; rewrite dr // insubT.
  have := congr1 (fun M : 'cV[C]_(size cs) => M (Ordinal hi) 0) (hd' j hj); rewrite mxE [X in _ = X]mxE => <-.
  by apply: eq_bigr => k _; rewrite valK gE (HH : adj cc H = H).
Qed.
Lemma x_ordered (H : 'M[C]_N) n : hermitian cc H -> ordered_rr cc xblas H n.
Proof.
move=> HH cs i j _ on /andP [ij hj] /=.
set g : gr := (cs, _).
have gE (a b : 'I_(size cs)) : gmx g a b = dot cc cs`_a (H *m cs`_b).
  by rewrite mxE /= (nth_map 0) // (HH : adj cc H = H).
have A : hermitian cc (gmx g).
  by apply/matrixP => a b; rewrite mxE mxE !gE -(dot_herm HH) [RHS]dotC.
have := eigP A; rewrite /is_eig => /and5P [_ _ _ /eqP sz so].
have := sorted_leq_nth (@le_trans _ _) (@lexx _ _) 0 so; move=> /(_ i j); rewrite !inE sz => /(_ (leq_ltn_trans ij hj) hj ij).
by rewrite lecE => /andP [].
Qed.

(** a stable sort of indices *)
Definition x_sort (keys : seq R) : seq nat := sort (fun i j => keys`_i <= keys`_j) (iota 0 (size keys)).
Lemma x_sort_perm keys : Permutation (x_sort keys) (List.seq 0 (length keys)).
Proof.
have -> : List.seq 0 (length keys) = iota 0 (size keys) by rewrite -[length keys]/(size keys); elim: (size keys) 0%N => //= k IH s; rewrite IH.
have : perm_eq (x_sort keys) (iota 0 (size keys)) by rewrite perm_sort.
elim: (x_sort keys) (iota _ _) => [|x l IH] l'; first by move/perm_size; case: l'.
move=> P; have /splitPr P' : x \in l' by rewrite -(perm_mem P) mem_head.
case: P' P => a b P; apply: Permutation_cons_app; apply: IH.
by rewrite -(perm_cons x); apply: (perm_trans P); rewrite (perm_catCA a [:: x] b).
Qed.
Lemma x_sort_keeps : keeps_ascending x_sort.
Proof.
move=> keys so; apply: sorted_sort; first by move=> a b c; exact: le_trans.
apply/(sortedP 0%N) => i; rewrite size_iota => hi; rewrite !nth_iota ?add0n //; last exact: ltnW.
by move: so => /(sortedP 0) /(_ i hi).
Qed.
End Inst.

(** with Householder QR only, for any Hermitian matrix, start vectors and sizes: the run returns *)
Lemma x_run (R : rcfType) N nev nex (H : 'M[complex_numClosedFieldType R]_N) V1 td tol deg sort_idx fsort ritzv resid : hermitian (cc R) H ->
  (forall keys, Permutation (sort_idx keys) (List.seq 0 (length keys))) -> (forall l, length (fsort l) = length l) ->
  le 2 N -> le 1 nev -> le nex nev -> le 1 deg -> length V1 = Nat.add nev nex -> le (Nat.add nev nex) (length ritzv) -> le (Nat.add nev nex) (length resid) ->
  let cf := mk_conf R N nev nex tol deg 36 2 25 25 4 false true false in
  let qe := mk_qe R true (Some (Zpos xH)) None 0 0 in
  conf_ok cf /\ chol_disabled qe /\
  exists o s, solve (ex_fops R) (cmK (ex_fops R) qe td (colD (ex_fops R) (xblas R N) false (Nat.add nev nex)) nev nex) fsort sort_idx cf
    (mk_cm 0 (seq_state (xblas R N) nev nex H V1)) ritzv resid = Ok o /\ o_exit o = Some s.
Proof.
move=> HH Hp Hf h1 h2 h3 h4 hV hr hs cf qe.
have HC : conf_ok cf by do ! split=> //; do ! constructor.
split=> //; split=> //.
have X := seq_solve_safe (ex_fops R) (xblas R N) qe td cf sort_idx Hp fsort 0 H V1 ritzv resid h3 hV HC Hf hr hs h1.
case: X => [|//|[o E]|[_ [k0 [ub [s0 [t [_ [_ [_ [_ [_ []]]]]]]]]]]] //; first by do ! constructor.
exists o; case Ex : (o_exit o) => [s|]; first by exists s.
exfalso; move: E; rewrite /solve => /bind_ok [[c k0] [[<- _]]] /= /bind_ok [[ub s0] [_]] /bind_ok [s [_]] /bind_ok [[r k'] [_]].
by move=> [Eo]; rewrite -Eo in Ex.
Qed.

(** the same on the Mpi backend, with any settings of the QR selection *)
Lemma x_run_mpi (R : rcfType) N nev nex (H : 'M[complex_numClosedFieldType R]_N) V1 qe td tol deg sort_idx fsort ritzv resid : hermitian (cc R) H ->
  (forall keys, Permutation (sort_idx keys) (List.seq 0 (length keys))) -> (forall l, length (fsort l) = length l) ->
  le 2 N -> le 1 nev -> le nex nev -> le 1 deg -> length V1 = Nat.add nev nex -> le (Nat.add nev nex) (length ritzv) -> le (Nat.add nev nex) (length resid) ->
  let cf := mk_conf R N nev nex tol deg 36 2 25 25 4 false true false in
  conf_ok cf /\
  exists o s, solve (ex_fops R) (cmK (ex_fops R) qe td (colD (ex_fops R) (xblas R N) true (Nat.add nev nex)) nev nex) fsort sort_idx cf
    (mk_cm 0 (mpi_state (xblas R N) nev nex H V1)) ritzv resid = Ok o /\ o_exit o = Some s.
Proof.
move=> HH Hp Hf h1 h2 h3 h4 hV hr hs cf.
have HC : conf_ok cf by do ! split=> //; do ! constructor.
split=> //.
have X := other_solve_safe (ex_fops R) (xblas R N) qe td cf sort_idx Hp fsort 0 H V1 ritzv resid hV HC Hf hr hs h1.
case: X => [| |]; [by do ! constructor|by []|].
move=> [[o E]|[_ [k0 [ub [s0 [t [_ [_ [_ [_ [_ []]]]]]]]]]]] _ //.
exists o; case Ex : (o_exit o) => [s|]; first by exists s.
exfalso; move: E; rewrite /solve => /bind_ok [[c k0] [[<- _]]] /= /bind_ok [[ub s0] [_]] /bind_ok [s [_]] /bind_ok [[r k'] [_]].
by move=> [Eo]; rewrite -Eo in Ex.
Qed.
