(** The returned vectors are orthonormal, the returned values are their Rayleigh quotients, and an exact eigenvalue lies
    within the returned residual. *)
From Coq Require Import Permutation.
From mathcomp Require Import all_ssreflect all_algebra all_real_closed.
Require Import Verif.Base Verif.AlgModel Verif.AlgSpec Verif.AlgProofs4 Verif.DlaModel Verif.ColModel Verif.ColSpec Verif.ColProofs1 Verif.ColProofs2 Verif.ColProofs3
  Verif.ColOrth Verif.ExactSpec Verif.OrthSpec Verif.OrthProofs Verif.Spectral.
Set Implicit Arguments. Unset Strict Implicit. Unset Printing Implicit Defensive.
Import Order.TTheory GRing.Theory Num.Theory.
Local Open Scope ring_scope.
Local Open Scope complex_scope.

Section Near.
Variables (R : rcfType) (C : fieldType) (inj : {rmorphism R -> C}) (cj : {rmorphism C -> C}) (e : {rmorphism C -> R[i]}) (N : nat).
Hypothesis IC : in_complex inj cj e.

Lemma conjCc (z : R[i]) : conjC z = z^*.
Proof. by []. Qed.

Lemma dot_map (x y : 'cV[C]_N) : dot (@conjC _) (map_mx e x) (map_mx e y) = e (dot cj x y).
Proof. by rewrite !dotE rmorph_sum; apply: eq_bigr => i _; rewrite !mxE rmorphM (ic_conj IC). Qed.

Lemma herm_map (H : 'M[C]_N) : hermitian cj H -> hermitian (@conjC _) (map_mx e H).
Proof.
move=> HH; apply/matrixP => i j; rewrite !mxE conjCc -(ic_conj IC).
by have := congr1 (fun A : 'M[C]_N => A i j) HH; rewrite !mxE => ->.
Qed.

(** a Hermitian matrix has an eigenvalue within the residual norm of any unit vector and real number *)
Lemma near (H : 'M[C]_N) x v r : hermitian cj H -> dot cj x x = 1 -> 0 <= r ->
  inj r ^+ 2 = dot cj (H *m x - inj v *: x) (H *m x - inj v *: x) ->
  exists l : R, eigenvalue H (inj l) /\ `|l - v| <= r.
Proof.
move=> HH xx r0 hr.
have vr : v%:C \is Num.real by apply/Creal_ImP; rewrite -complexIm.
have x1 : dot (@conjC _) (map_mx e x) (map_mx e x) = 1 by rewrite dot_map xx rmorph1.
have [l [lr el hl]] := near_eigenvalue (herm_map HH) vr x1.
have [m lE] : exists m, l = m%:C by exists (complex.Re l); rewrite RRe_real.
rewrite {l lr}lE in el hl; exists m; split.
  by move: el; rewrite !eigenvalue_root_char -(ic_real IC) -map_char_poly fmorph_root.
move: hl; rewrite (_ : map_mx e H *m map_mx e x - _ = map_mx e (H *m x - inj v *: x)).
  rewrite dot_map -hr rmorphX (ic_real IC) -rmorphB /= normc_def /= expr0n /= addr0 sqrtr_sqr.
  have X (a : R) : a%:C ^+ 2 = (a ^+ 2)%:C by rewrite -rmorphX.
  by rewrite !X => h; move: (h : _%:C <= _%:C); rewrite lecR ler_pexpn2r // ?nnegrE ?normr_ge0.
by rewrite map_mxB map_mxM map_mxZ (ic_real IC).
Qed.

(** the eigenvalues with multiplicities are real, and any interval, widened by the joint residual, contains at least as many
    of them as the values of orthonormal vectors it contains *)
Lemma near_list (H : 'M[C]_N) : hermitian cj H -> exists d : 'I_N -> R, char_poly H = \prod_j ('X - (inj (d j))%:P) /\
  forall k (xs : seq 'cV[C]_N) (th rs : nat -> R) a b dl, orthonormal cj xs -> (k <= size xs)%N -> 0 <= dl ->
    (forall i, (i < k)%N -> inj (rs i) ^+ 2 = dot cj (H *m xs`_i - inj (th i) *: xs`_i) (H *m xs`_i - inj (th i) *: xs`_i)) ->
    \sum_(i < k) rs i ^+ 2 <= dl ^+ 2 ->
    (#|[set i : 'I_k | (a <= th i <= b)%R]| <= #|[set j : 'I_N | (a - dl <= d j <= b + dl)%R]|)%N.
Proof.
move=> HH; have HM := herm_map HH.
have [us [d [su ou hd]]] := eigen_family HM (leqnn N).
have dr (j : 'I_N) : exists m, d j = m%:C.
  exists (complex.Re (d j)); rewrite RRe_real //; apply: (eig_real HM (x := us`_j)); last by apply: hd.
  by rewrite -(dot_eq0 us`_j) ou ?su // eqxx oner_eq0.
exists (fun j => complex.Re (d j)).
have dE (j : 'I_N) : d j = (complex.Re (d j))%:C by have [m ->] := dr j.
split.
  apply: (@map_poly_inj _ _ e); rewrite map_char_poly (eigen_prod ou su hd) rmorph_prod; apply: eq_bigr => j _.
  by rewrite rmorphB /= map_polyX map_polyC /= (ic_real IC) -dE.
move=> k xs th rs a b dl ox sx dl0 hr hs.
have real (v : R) : v%:C \is Num.real by apply/Creal_ImP; rewrite -complexIm.
have xsE i : (i < k)%N -> (map (map_mx e) xs)`_i = map_mx e xs`_i.
  by move=> hi; rewrite (nth_map 0) // (leq_trans hi sx).
have hc := @near_count _ N _ HM us d k (map (map_mx e) xs) (fun i => (th i)%:C) a%:C b%:C dl%:C ou su hd.
have X1 : orthonormal (@conjC _) (map (map_mx e) xs).
  move=> i j; rewrite size_map => hi hj; rewrite !(nth_map 0) // dot_map ox // rmorph_nat //.
have X2 : \sum_(i < k) dot (@conjC _) (map_mx e H *m (map (map_mx e) xs)`_i - (th i)%:C *: (map (map_mx e) xs)`_i)
    (map_mx e H *m (map (map_mx e) xs)`_i - (th i)%:C *: (map (map_mx e) xs)`_i) <= dl%:C ^+ 2.
  have -> : dl%:C ^+ 2 = (dl ^+ 2)%:C by rewrite -rmorphX.
  move: hs; rewrite -lecR rmorph_sum; congr (_ <= _); apply: eq_bigr => i _.
  rewrite xsE // -(ic_real IC (th i)) -map_mxM -map_mxZ -map_mxB dot_map -hr //; by rewrite -(rmorphX inj) (ic_real IC).
move: (hc X1); rewrite size_map => /(_ sx (fun i _ => real (th i)) (real a) (real b)); rewrite ler0c => /(_ dl0 X2).
have E1 : [set i : 'I_k | (a%:C <= (th i)%:C <= b%:C)%R] = [set i : 'I_k | (a <= th i <= b)%R].
  by apply/setP => i; rewrite !inE !lecR.
have E2 : [set j : 'I_N | (a%:C - dl%:C <= d j <= b%:C + dl%:C)%R] = [set j : 'I_N | (a - dl <= complex.Re (d j) <= b + dl)%R].
  by apply/setP => j; rewrite !inE dE -rmorphB -rmorphD !lecR.
by rewrite E1 E2.
Qed.
End Near.

Lemma and_comm (P Q : Prop) : P /\ Q -> Q /\ P.
Proof. by case. Qed.

Lemma sum_perm (R : ringType) (f : R -> R) (l l' : list R) : Permutation l l' -> \sum_(x <- l) f x = \sum_(x <- l') f x.
Proof.
elim=> {l l'} [|x l l' _ IH|x y l|l1 l2 l3 _ I1 _ I2] //; first by rewrite !big_cons IH.
  by rewrite !big_cons addrCA.
exact: etrans I2.
Qed.
Lemma count_card (R : ringType) (p : pred R) (s : seq R) : seq.count p s = #|[set i : 'I_(size s) | p (nth 0%R s i)]|.
Proof. by rewrite -sum1_count (big_nth 0) big_mkord -sum1_card; apply: eq_bigl => i; rewrite inE. Qed.

Lemma size_some (A : Type) (l : list A) m : (forall i, lt i m -> exists a, List.nth_error l i = Some a) -> (m <= size l)%N.
Proof.
move=> h; rewrite leqNgt; apply/negP => /ssrnat.ltP hl; have [a ha] := h _ hl.
by have := proj1 (List.nth_error_Some l (size l)); rewrite ha => /(_ ltac:(discriminate)) /PeanoNat.Nat.lt_irrefl.
Qed.

Section Solve.
Variables (R : rcfType) (C : fieldType) (inj : {rmorphism R -> C}) (cj : {rmorphism C -> C}) (N : nat) (G : Type).
Variables (fo : fops R) (bl : blas R 'cV[C]_N 'M[C]_N G C) (qe : qr_env R) (td : tridiag R) (cf : conf R) (sort_idx : list R -> list nat).
Variables (H : 'M[C]_N) (fsort : list R -> list R) (l0 : nat) (V1 : list 'cV[C]_N) (ritzv resid : list R).
Local Notation n := (Nat.add (c_nev cf) (c_nex cf)).
Local Notation nsK := (cmK fo qe td (stop_late (late_failure bl n) (colD fo bl false n)) (c_nev cf) (c_nex cf)).
Local Notation seqK := (cmK fo qe td (colD fo bl false n) (c_nev cf) (c_nex cf)).
Local Notation mpiK := (cmK fo qe td (colD fo bl true n) (c_nev cf) (c_nex cf)).
Hypothesis Hperm : forall keys, Permutation (sort_idx keys) (List.seq 0 (length keys)).
Hypotheses (EF : exact_fops fo) (EM : exact_mv inj cj bl) (EQ : exact_qr cj bl n) (ER : exact_rr inj cj bl H n) (HH : hermitian cj H).
Hypotheses (HV : length V1 = n) (HC : conf_ok cf) (HM : le 1 (c_maxiter cf)).

Lemma mpi_orthonormal o s : solve fo mpiK fsort sort_idx cf (mk_cm l0 (mpi_state bl (c_nev cf) (c_nex cf) H V1)) ritzv resid = Ok o -> o_exit o = Some s ->
  size (cs_C (cm_dla (o_k o))) = n /\ orthonormal cj (cs_C (cm_dla (o_k o))).
Proof.
move=> E Hx; apply: and_comm.
apply: (mpi_end_on fo bl qe td (c_nev cf) (c_nex cf) H n (le_n n) _ _ _ (exact_rules EF EM EQ ER HH) sort_idx Hperm fsort cf _ ritzv resid o s _ _ _ _ _ E Hx) => //.
exact: (mpi_J0 fo bl cf).
Qed.

Hypothesis HX : le (c_nex cf) (c_nev cf).
Let Hw : le n (Nat.add (c_nev cf) (c_nev cf)).
Proof. exact: (proj1 (PeanoNat.Nat.add_le_mono_l _ _ _) HX). Qed.

Lemma seq_orthonormal o s : solve fo nsK fsort sort_idx cf (mk_cm l0 (seq_state bl (c_nev cf) (c_nex cf) H V1)) ritzv resid = Ok o -> o_exit o = Some s ->
  solve fo seqK fsort sort_idx cf (mk_cm l0 (seq_state bl (c_nev cf) (c_nex cf) H V1)) ritzv resid = Ok o /\
  size (cs_C (cm_dla (o_k o))) = n /\ orthonormal cj (cs_C (cm_dla (o_k o))).
Proof.
move=> E Hx; split; first by move: E; apply: stop_late_run.
apply: and_comm.
apply: (seq_end_on fo bl qe td (c_nev cf) (c_nex cf) H _ Hw _ _ _ (exact_rules EF EM EQ ER HH) sort_idx Hperm fsort cf _ ritzv resid o s _ _ _ _ _ E Hx) => //.
exact: (seq_J0 fo bl cf).
Qed.

Variable e : {rmorphism C -> R[i]}.
Hypotheses (IC : in_complex inj cj e) (EV : exact_vec inj cj bl).

Lemma seq_values o s : solve fo nsK fsort sort_idx cf (mk_cm l0 (seq_state bl (c_nev cf) (c_nex cf) H V1)) ritzv resid = Ok o -> o_exit o = Some s ->
  exists rs, Permutation rs (List.firstn (c_nev cf) (o_res o)) /\
  forall i, lt i (c_nev cf) -> exists v x r, List.nth_error (o_ritz o) i = Some v /\ List.nth_error (cs_C (cm_dla (o_k o))) i = Some x /\
    List.nth_error rs i = Some r /\ dot cj x x = 1 /\ inj v = dot cj x (H *m x) /\
    0 <= r /\ inj r ^+ 2 = dot cj (H *m x - inj v *: x) (H *m x - inj v *: x) /\
    exists l, eigenvalue H (inj l) /\ `|l - v| <= r.
Proof.
move=> E Hx; have [_ [sz on]] := seq_orthonormal E Hx.
have KC := seq_orth_cols fo bl qe td (c_nev cf) (c_nex cf) H _ Hw _ _ _ (exact_rules EF EM EQ ER HH).
have [sw [Hr [_ [Ec [Er [_ [L1 [L2 X]]]]]]]] := solve_pairs fo _ sort_idx Hperm _ _ _ _ _ _ _ _ KC fsort cf _ ritzv resid o s erefl HC (seq_J0 fo bl cf l0 H V1 HV) HM E Hx.
exists (swps sw (List.firstn (c_nev cf) (o_res o))); split; first exact/Permutation_sym/AlgProofs1.swps_perm.
move: L1 L2 X => /= L1 L2 X i hi.
have lc : length (List.firstn (c_nev cf) (cs_C (cm_dla (o_k o)))) = c_nev cf.
  by rewrite List.firstn_length_le //; change (length (cs_C (cm_dla (o_k o)))) with (size (cs_C (cm_dla (o_k o)))); rewrite sz; apply: PeanoNat.Nat.le_add_r.
have get A (l : list A) : length l = c_nev cf -> exists a, List.nth_error l i = Some a.
  by move=> hl; case Ea : (List.nth_error l i) => [a|]; [exists a|move/List.nth_error_None: Ea; rewrite hl => /PeanoNat.Nat.le_ngt; case].
have [v hv] := get _ _ (etrans L1 lc). have [x hx] := get _ _ lc. have [r hr] := get _ _ (etrans (esym L2) lc).
have [[_ hray] [h [/(drift_here EF EM) -> rE]]] := X _ _ _ _ hv hx hr.
have hx' : List.nth_error (cs_C (cm_dla (o_k o))) i = Some x by rewrite -hx AlgProofs1.nth_firstn.
have hv' : List.nth_error (o_ritz o) i = Some v by rewrite -hv AlgProofs1.nth_firstn.
have xx : dot cj x x = 1.
  have hs : (i < size (cs_C (cm_dla (o_k o))))%N by apply/ssrnat.ltP; apply/List.nth_error_Some; rewrite hx'.
  have -> : x = (cs_C (cm_dla (o_k o)))`_i by rewrite nthE hx'.
  by rewrite on // eqxx.
have rE' : r = b_nrm2 bl (H *m x - inj v *: x).
  by rewrite rE (ev_inj EV) (ev_axpy EV) (em_mulH EM) (ef_neg EF) rmorphN scaleNr addrC (HH : adj cj H = H).
have [r0 r2] := ev_nrm2 EV (H *m x - inj v *: x); rewrite -rE' in r0 r2.
exists v, x, r; do ! split=> //; exact: (near IC HH xx r0 r2).
Qed.

Lemma seq_count o s : solve fo nsK fsort sort_idx cf (mk_cm l0 (seq_state bl (c_nev cf) (c_nex cf) H V1)) ritzv resid = Ok o -> o_exit o = Some s ->
  exists d : 'I_N -> R, char_poly H = \prod_j ('X - (inj (d j))%:P) /\
  forall a b dl, 0 <= dl -> \sum_(r <- List.firstn (c_nev cf) (o_res o)) r ^+ 2 <= dl ^+ 2 ->
    (seq.count (fun v => a <= v <= b)%R (List.firstn (c_nev cf) (o_ritz o)) <= #|[set j : 'I_N | (a - dl <= d j <= b + dl)%R]|)%N.
Proof.
move=> E Hx; have [_ [sz on]] := seq_orthonormal E Hx; have [rs [Hp X]] := seq_values E Hx.
have [d [dE hd]] := near_list IC HH; exists d; split=> // a b dl dl0 hs.
pose vs := List.firstn (c_nev cf) (o_ritz o).
have sv : size vs = c_nev cf.
  rewrite /vs firstnE size_takel //; apply: size_some => i hi.
  by have [v [x [r [hv _]]]] := X _ hi; exists v.
rewrite -/vs count_card sv.
have hr i : (i < c_nev cf)%N -> inj rs`_i ^+ 2 = dot cj (H *m (cs_C (cm_dla (o_k o)))`_i - inj vs`_i *: (cs_C (cm_dla (o_k o)))`_i)
    (H *m (cs_C (cm_dla (o_k o)))`_i - inj vs`_i *: (cs_C (cm_dla (o_k o)))`_i).
  move=> hi; have [v [x [r [hv [hx [hr [_ [_ [_ [h _]]]]]]]]]] := X _ (ssrnat.ltP hi).
  by rewrite !nthE hr hx /vs AlgProofs1.nth_firstn ?hv //; exact: ssrnat.ltP.
apply: (hd _ _ (fun i => vs`_i) (fun i => rs`_i) a b dl on _ dl0 hr).
  by rewrite sz leq_addr.
have sr : size rs = c_nev cf.
  apply/eqP; rewrite eqn_leq; apply/andP; split.
    by rewrite [size rs](Permutation_length Hp); apply/ssrnat.leP; exact: List.firstn_le_length.
  by apply: size_some => i hi; have [v [x [r [_ [_ [hr' _]]]]]] := X _ hi; exists r.
by move: hs; rewrite -(sum_perm (fun r => r ^+ 2) Hp) (big_nth 0) big_mkord sr.
Qed.
End Solve.

Section Final.
Variables (R : rcfType) (C : fieldType) (inj : {rmorphism R -> C}) (cj : {rmorphism C -> C}) (N : nat) (G : Type).
Variables (fo : fops R) (bl : blas R 'cV[C]_N 'M[C]_N G C) (qe : qr_env R) (td : tridiag R) (cf : conf R) (sort_idx : list R -> list nat).
Variables (H : 'M[C]_N) (fsort : list R -> list R) (l0 : nat) (V1 : list 'cV[C]_N) (ritzv resid : list R).
Local Notation n := (Nat.add (c_nev cf) (c_nex cf)).
Local Notation nsK := (cmK fo qe td (stop_late (late_failure bl n) (colD fo bl false n)) (c_nev cf) (c_nex cf)).
Local Notation seqK := (cmK fo qe td (colD fo bl false n) (c_nev cf) (c_nex cf)).
Hypothesis Hperm : forall keys, Permutation (sort_idx keys) (List.seq 0 (length keys)).
Hypotheses (EF : exact_fops fo) (EM : exact_mv inj cj bl) (EQ : exact_qr cj bl n) (ER : exact_rr inj cj bl H n) (HH : hermitian cj H).
Hypotheses (HV : length V1 = n) (HC : conf_ok cf) (HM : le 1 (c_maxiter cf)) (HX : le (c_nex cf) (c_nev cf)).

(** the same for a run of Seq itself *)
Lemma stop_run o : solve fo seqK fsort sort_idx cf (mk_cm l0 (seq_state bl (c_nev cf) (c_nex cf) H V1)) ritzv resid = Ok o ->
  (chol_disabled qe \/ solve fo nsK fsort sort_idx cf (mk_cm l0 (seq_state bl (c_nev cf) (c_nex cf) H V1)) ritzv resid = Ok o) ->
  solve fo nsK fsort sort_idx cf (mk_cm l0 (seq_state bl (c_nev cf) (c_nex cf) H V1)) ritzv resid = Ok o.
Proof. by move=> E [Hd|//]; move: E; apply: disabled_run. Qed.

Lemma seq_orthonormal' o s : solve fo seqK fsort sort_idx cf (mk_cm l0 (seq_state bl (c_nev cf) (c_nex cf) H V1)) ritzv resid = Ok o -> o_exit o = Some s ->
  (chol_disabled qe \/ solve fo nsK fsort sort_idx cf (mk_cm l0 (seq_state bl (c_nev cf) (c_nex cf) H V1)) ritzv resid = Ok o) ->
  size (cs_C (cm_dla (o_k o))) = n /\ orthonormal cj (cs_C (cm_dla (o_k o))).
Proof. by move=> E Hx HN; have [] := seq_orthonormal Hperm EF EM EQ ER HH HV HC HM HX (stop_run E HN) Hx. Qed.

Variable e : {rmorphism C -> R[i]}.
Hypotheses (IC : in_complex inj cj e) (EV : exact_vec inj cj bl).
Lemma seq_values' o s : solve fo seqK fsort sort_idx cf (mk_cm l0 (seq_state bl (c_nev cf) (c_nex cf) H V1)) ritzv resid = Ok o -> o_exit o = Some s ->
  (chol_disabled qe \/ solve fo nsK fsort sort_idx cf (mk_cm l0 (seq_state bl (c_nev cf) (c_nex cf) H V1)) ritzv resid = Ok o) ->
  exists rs, Permutation rs (List.firstn (c_nev cf) (o_res o)) /\
  forall i, lt i (c_nev cf) -> exists v x r, List.nth_error (o_ritz o) i = Some v /\ List.nth_error (cs_C (cm_dla (o_k o))) i = Some x /\
    List.nth_error rs i = Some r /\ dot cj x x = 1 /\ inj v = dot cj x (H *m x) /\
    0 <= r /\ inj r ^+ 2 = dot cj (H *m x - inj v *: x) (H *m x - inj v *: x) /\
    exists l, eigenvalue H (inj l) /\ `|l - v| <= r.
Proof. by move=> E Hx HN; exact: (seq_values Hperm EF EM EQ ER HH HV HC HM HX IC EV (stop_run E HN) Hx). Qed.
Lemma seq_count' o s : solve fo seqK fsort sort_idx cf (mk_cm l0 (seq_state bl (c_nev cf) (c_nex cf) H V1)) ritzv resid = Ok o -> o_exit o = Some s ->
  (chol_disabled qe \/ solve fo nsK fsort sort_idx cf (mk_cm l0 (seq_state bl (c_nev cf) (c_nex cf) H V1)) ritzv resid = Ok o) ->
  exists d : 'I_N -> R, char_poly H = \prod_j ('X - (inj (d j))%:P) /\
  forall a b dl, 0 <= dl -> \sum_(r <- List.firstn (c_nev cf) (o_res o)) r ^+ 2 <= dl ^+ 2 ->
    (seq.count (fun v => a <= v <= b)%R (List.firstn (c_nev cf) (o_ritz o)) <= #|[set j : 'I_N | (a - dl <= d j <= b + dl)%R]|)%N.
Proof. by move=> E Hx HN; exact: (seq_count Hperm EF EM EQ ER HH HV HC HM HX IC EV (stop_run E HN) Hx). Qed.
End Final.
