(** In exact arithmetic the recurrence of the filter is the scaled Chebyshev polynomial. *)
From mathcomp Require Import all_ssreflect all_algebra ring.
Require Import Verif.Base Verif.AlgModel Verif.AlgSpec Verif.AlgProofs2 Verif.DlaModel Verif.ColModel Verif.ColProofs1 Verif.InplProofs Verif.FilterSpec Verif.FilterProofs
  Verif.ExactSpec Verif.ChebProofs.
Set Implicit Arguments. Unset Strict Implicit. Unset Printing Implicit Defensive.
Import Order.TTheory GRing.Theory Num.Theory.
Local Open Scope ring_scope.

Section Sig.
Variables (R : fieldType) (fo : fops R) (EF : exact_fops fo) (la lo up : R).
Local Notation t := (mapto lo up la).
Local Notation s1 := (f_s1 fo la lo up).

Lemma fc_E : f_c fo lo up = (up + lo) / 2%:R.
Proof. by rewrite /f_c (ef_div EF) (ef_add EF) (ef_two EF). Qed.
Lemma fe_E : f_e fo lo up = (up - lo) / 2%:R.
Proof. by rewrite /f_e (ef_div EF) (ef_sub EF) (ef_two EF). Qed.
Lemma s1_E : s1 = t^-1.
Proof. by rewrite /f_s1 (ef_div EF) (ef_sub EF) fe_E fc_E /mapto invf_div. Qed.

Lemma sig_E i : (forall k, (k <= i.+1)%N -> cT k t != 0) -> sig fo s1 i.+1 = cT i t / cT i.+1 t.
Proof.
elim: i => [|i IH] h; first by rewrite /= s1_E cT0 cT1 mul1r.
rewrite sig_step; last by apply/ssrnat.leP.
rewrite IH; last by move=> k hk; apply: h; apply: leqW.
rewrite !(ef_div EF) (ef_sub EF) (ef_one EF) (ef_two EF) s1_E invrK div1r.
have h1 : cT i.+1 t != 0 by apply: h.
by rewrite -[RHS]invf_div cTS mulrBl mulfK // mulr_natl.
Qed.

Lemma e_neq0 : t != 0 -> (up - lo) / 2%:R != 0 :> R.
Proof. by apply: contraNneq => h; rewrite /mapto h invr0 mulr0. Qed.
End Sig.

Section Rec.
Variables (R C : fieldType) (inj : {rmorphism R -> C}) (fo : fops R) (EF : exact_fops fo) (la lo up : R) (n : nat).
Variables (H : 'M[C]_n.+1) (op : nat -> 'cV[C]_n.+1 -> 'cV[C]_n.+1 -> 'cV[C]_n.+1).
Local Notation t := (mapto lo up la).
Local Notation c := ((up + lo) / 2%:R).
Local Notation e := ((up - lo) / 2%:R).
Local Notation Hmap := (Hmap inj lo up H).
Local Notation cheb_col := (cheb_col inj la lo up H).

Hypothesis Hop : forall i p q, (0 < i)%N ->
  op i p q = inj (f_alpha fo la lo up i) *: ((H - (inj c)%:M) *m p) + inj (f_beta fo la lo up i) *: q.

Lemma cheb_col0 x : cheb_col 0 x = x.
Proof. by rewrite /ExactSpec.cheb_col chebT0 hornerC rmorph1 invr1 scale1r horner_mx_C mul1mx. Qed.

Lemma rec_E x y d : (forall i, (i <= d)%N -> cT i t != 0) ->
  fst (three_term op x y d) = cheb_col d x /\ ((0 < d)%N -> snd (three_term op x y d) = cheb_col d.-1 x).
Proof.
elim: d => [|d IH] h; first by split=> //; rewrite cheb_col0.
have {}IH := IH (fun i hi => h i (leqW hi)). case: IH => I1 I2.
split; last by move=> _; rewrite /= I1.
have t0 : t != 0 by rewrite -[t]cT1; apply: h.
have e0 := e_neq0 t0. have ie0 : inj e != 0 by rewrite fmorph_eq0.
have HA p : (H - (inj c)%:M) *m p = inj e *: (Hmap *m p) by rewrite /ExactSpec.Hmap -scalemxAl scalerA mulfV // scale1r.
rewrite [LHS]/= Hop // HA {HA} I1 {I1} /f_alpha /f_beta /alpha_ /beta_.
case: d => [|d] in h I2 *.
  rewrite /= (ef_div EF) (ef_zero EF) rmorph0 scale0r addr0 scalerA -rmorphM (fe_E EF) divfK // (s1_E EF).
  by rewrite cheb_col0 /ExactSpec.cheb_col chebT1 horner_mx_X hornerX fmorphV.
rewrite I2 // [d.+1.-1]/=.
have -> : Nat.eqb d.+2 1 = false by [].
have -> : Nat.sub d.+2 1 = d.+1 by rewrite PeanoNat.Nat.sub_succ PeanoNat.Nat.sub_0_r.
have h0 : cT d t != 0 by apply: h; rewrite !leqW.
have h1 : cT d.+1 t != 0 by apply: h; rewrite leqW.
have h2 : cT d.+2 t != 0 by apply: h.
rewrite (sig_E EF) // (sig_E EF); last by move=> k hk; apply: h; rewrite leqW.
rewrite !(ef_div EF) !(ef_mul EF) (ef_neg EF) (ef_two EF) (fe_E EF).
have E : horner_mx Hmap (chebT d.+2) *m x = 2%:R *: (Hmap *m (horner_mx Hmap (chebT d.+1) *m x)) - horner_mx Hmap (chebT d) *m x.
  rewrite chebTS rmorphB rmorphM rmorphMn /= horner_mx_X mulmxBl; congr (_ - _).
  by rewrite mulmxA mulmxE -scaler_nat -scalerAl -scalemxAl.
rewrite /ExactSpec.cheb_col E {E} -/(cT d t) -/(cT d.+1 t) -/(cT d.+2 t) -scalemxAr scalerBr !scalerA -scaleNr.
congr (_ *: _ + _ *: _).
  rewrite -(rmorph_nat inj 2) -!fmorphV -!rmorphM; congr (inj _).
  by move: (cT d.+1 t) (cT d.+2 t) e0 h1 h2; move: (e) => e' a b e0 h1 h2; field; rewrite e0 h1 h2.
rewrite -!fmorphV -!rmorphM -rmorphN; congr (inj _).
by move: (cT d t) (cT d.+1 t) (cT d.+2 t) h0 h1 h2 => a b c' h0 h1 h2; field; rewrite h0 h1 h2.
Qed.
End Rec.

Section Adj.
Variables (C : fieldType) (cj : {rmorphism C -> C}).
Lemma adjD m n (A B : 'M[C]_(m, n)) : adj cj (A + B) = adj cj A + adj cj B.
Proof. by rewrite /adj linearD map_mxD. Qed.
Lemma adjN m n (A : 'M[C]_(m, n)) : adj cj (- A) = - adj cj A.
Proof. by rewrite /adj linearN map_mxN. Qed.
Lemma adj_scalar n (a : C) : adj cj (a%:M : 'M_n) = (cj a)%:M.
Proof. by rewrite /adj tr_scalar_mx map_scalar_mx. Qed.
Lemma adjM m n p (A : 'M[C]_(m, n)) (B : 'M[C]_(n, p)) : adj cj (A *m B) = adj cj B *m adj cj A.
Proof. by rewrite /adj trmx_mul map_mxM. Qed.
Lemma adjK m n (A : 'M[C]_(m, n)) : (forall x, cj (cj x) = x) -> adj cj (adj cj A) = A.
Proof. by move=> h; apply/matrixP=> i j; rewrite !mxE h. Qed.
End Adj.

Section Backends.
Variables (R C : fieldType) (inj : {rmorphism R -> C}) (cj : {rmorphism C -> C}) (SC : scalars inj cj).
Variables (fo : fops R) (EF : exact_fops fo) (n0 : nat) (G T : Type) (bl : blas R 'cV[C]_n0.+1 'M[C]_n0.+1 G T) (EM : exact_mv inj cj bl).
Variables (qe : qr_env R) (td : tridiag R) (nev nex : nat) (la lo up : R).
Variable deg : nat.
Hypothesis hT : forall i, (i <= deg)%N -> (chebT i).[mapto lo up la] != 0.

Lemma shift_E (H : 'M[C]_n0.+1) : b_shift bl H (f_neg fo (f_c fo lo up)) = H - (inj ((up + lo) / 2%:R))%:M.
Proof. by rewrite (em_shift EM) (ef_neg EF) (fc_E EF) rmorphN raddfN. Qed.
Lemma shift_back (H : 'M[C]_n0.+1) c : b_shift bl (b_shift bl H (f_neg fo c)) c = H.
Proof. by rewrite !(em_shift EM) (ef_neg EF) rmorphN raddfN /= addrNK. Qed.

Lemma deg_of_le l degs j : List.Forall (fun d => le d deg) degs -> (deg_of l degs j <= deg)%N.
Proof.
move=> h; rewrite /deg_of; case: (Nat.ltb _ _) => //.
case: (List.nth_in_or_default (Nat.sub j l) degs 0%N) => [hin|->] //; apply/ssrnat.leP; exact: (proj1 (List.Forall_forall _ _) h _ hin).
Qed.

Lemma col_op_E (H : 'M[C]_n0.+1) i p q : hermitian cj H ->
  col_op fo bl H la lo up i p q = inj (f_alpha fo la lo up i) *: ((H - (inj ((up + lo) / 2%:R))%:M) *m p) + inj (f_beta fo la lo up i) *: q.
Proof.
move=> hH; rewrite /col_op shift_E; case: (Nat.even i); first by rewrite (em_gemmN EM).
by rewrite (em_gemmH EM) adjD adjN adj_scalar (sc_real SC) hH.
Qed.
Lemma inpl_op_E (H : 'M[C]_n0.+1) i p q :
  inpl_op fo bl H la lo up i p q = inj (f_alpha fo la lo up i) *: ((H - (inj ((up + lo) / 2%:R))%:M) *m p) + inj (f_beta fo la lo up i) *: q.
Proof. by rewrite /inpl_op shift_E (em_gemmN EM). Qed.

Lemma nth_error_lt {A} (l : list A) j : lt j (length l) -> exists x, List.nth_error l j = Some x.
Proof. move=> h; case E : (List.nth_error l j) => [x|]; first by exists x. by move/List.nth_error_Some: h. Qed.

Lemma args_le l n degs : filter_args l (nev + nex)%coq_nat n deg degs -> List.Forall (fun d => le d deg) degs.
Proof. by case=> _ [_ [_ [h _]]]; apply: List.Forall_impl h => a [_ [_ ?]]. Qed.

Lemma col_filter_exact mpi w l n degs s : (nev + nex <= w)%coq_nat -> clen (nev + nex)%coq_nat w (cm_dla s) ->
  filter_args l (nev + nex)%coq_nat n deg degs -> cm_locked s = l -> cs_bAc (cm_dla s) = true -> hermitian cj (cs_H (cm_dla s)) ->
  exists s', filter_ fo (cmK fo qe td (colD fo bl mpi (nev + nex)%coq_nat) nev nex) n deg degs la lo up s = Ok (List.list_sum degs, s') /\
    cs_H (cm_dla s') = cs_H (cm_dla s) /\ length (cs_C (cm_dla s')) = length (cs_C (cm_dla s)) /\
    forall j x, List.nth_error (cs_C (cm_dla s)) j = Some x ->
      List.nth_error (cs_C (cm_dla s')) j = Some (cheb_col inj la lo up (cs_H (cm_dla s)) (deg_of l degs j) x).
Proof.
move=> hw hl ha hlk hb hH.
have [av [s' E]] := col_filter_total fo bl qe td mpi nev nex w l n deg degs la lo up s hw ha hlk hl.
have [Eav [_ [_ [EH [_ [_ [LC [LB X]]]]]]]] := col_filter fo bl qe td mpi nev nex l n deg degs la lo up s av s' ha hlk hb E.
exists s'; rewrite -Eav; split=> //; split; first by rewrite EH shift_back.
split=> // j x hx.
have [y hy] : exists y, List.nth_error (cs_B (cm_dla s)) j = Some y.
  apply: nth_error_lt; case: hl => LC0 [-> _]. rewrite -LC0. apply/List.nth_error_Some. by rewrite hx.
have [-> _] := X j x y hx hy.
have [|-> //] := @rec_E R C inj fo EF la lo up n0 (cs_H (cm_dla s)) (col_op fo bl (cs_H (cm_dla s)) la lo up) (fun i p q _ => col_op_E i p q hH) x y (deg_of l degs j).
move=> i hi; apply: hT; apply: leq_trans hi _. exact/deg_of_le/args_le/ha.
Qed.

Lemma inpl_filter_exact l n degs s : ilen (nev + nex)%coq_nat (cm_dla s) ->
  filter_args l (nev + nex)%coq_nat n deg degs -> cm_locked s = l ->
  exists s', filter_ fo (cmK fo qe td (inplD fo bl (nev + nex)%coq_nat) nev nex) n deg degs la lo up s = Ok (List.list_sum degs, s') /\
    is_H (cm_dla s') = is_H (cm_dla s) /\ length (is_V1 (cm_dla s')) = length (is_V1 (cm_dla s)) /\ is_sw (cm_dla s') = is_sw (cm_dla s) /\
    forall j x, List.nth_error (is_V1 (cm_dla s)) j = Some x ->
      List.nth_error (is_V1 (cm_dla s')) j = Some (cheb_col inj la lo up (is_H (cm_dla s)) (deg_of l degs j) x).
Proof.
move=> hl ha hlk.
have [av [s' E]] := inpl_filter_total fo bl qe td nev nex l n deg degs la lo up s ha hlk hl.
have [Eav [_ [Esw [EH [LC [LB X]]]]]] := inpl_filter_cols fo bl qe td nev nex l n deg degs la lo up s av s' ha hlk E.
exists s'; rewrite -Eav; split=> //; split; first by rewrite EH shift_back.
split=> //; split=> // j x hx.
have [y hy] : exists y, List.nth_error (is_V2 (cm_dla s)) j = Some y.
  apply: nth_error_lt; case: hl => LC0 ->. rewrite -LC0. apply/List.nth_error_Some. by rewrite hx.
have [-> _] := X j x y hx hy.
have [|-> //] := @rec_E R C inj fo EF la lo up n0 (is_H (cm_dla s)) (inpl_op fo bl (is_H (cm_dla s)) la lo up) (fun i p q _ => inpl_op_E _ i p q) x y (deg_of l degs j).
move=> i hi; apply: hT; apply: leq_trans hi _. exact/deg_of_le/args_le/ha.
Qed.
End Backends.

(** ** eigenvectors *)
Section Eig.
Variables (R C : fieldType) (inj : {rmorphism R -> C}) (la lo up : R) (n : nat) (H : 'M[C]_n.+1).

Lemma horner_eig (A : 'M[C]_n.+1) a u (p : {poly C}) : A *m u = a *: u :> 'cV_n.+1 -> horner_mx A p *m u = p.[a] *: u.
Proof.
move=> h; elim/poly_ind: p => [|p c IH]; first by rewrite rmorph0 mul0mx horner0 scale0r.
rewrite rmorphD rmorphM /= horner_mx_X horner_mx_C hornerMXaddC mulmxDl mul_scalar_mx scalerDl -mulmxA h.
by rewrite -scalemxAr IH scalerA mulrC.
Qed.

Lemma cheb_col_eig d x u : H *m u = inj x *: u -> cheb_col inj la lo up H d u = inj (gain la lo up d x) *: u.
Proof.
move=> h; rewrite /cheb_col (@horner_eig _ (inj (mapto lo up x))).
  by have := cT_morph inj d (mapto lo up x); rewrite /cT => <-; rewrite scalerA /gain rmorphM fmorphV mulrC.
by rewrite /Hmap -scalemxAl mulmxBl h mul_scalar_mx -scalerBl scalerA -rmorphB -fmorphV -rmorphM /mapto mulrC.
Qed.

Lemma cheb_col_lin d m (a : 'I_m -> C) (u : 'I_m -> 'cV[C]_n.+1) :
  cheb_col inj la lo up H d (\sum_k a k *: u k) = \sum_k a k *: cheb_col inj la lo up H d (u k).
Proof.
by rewrite /cheb_col mulmx_sumr scaler_sumr; apply: eq_bigr => k _; rewrite -scalemxAr !scalerA mulrC.
Qed.

Lemma cheb_col_expand d m (a : 'I_m -> C) (x : 'I_m -> R) (u : 'I_m -> 'cV[C]_n.+1) :
  (forall k, H *m u k = inj (x k) *: u k) ->
  cheb_col inj la lo up H d (\sum_k a k *: u k) = \sum_k (a k * inj (gain la lo up d (x k))) *: u k.
Proof. by move=> h; rewrite cheb_col_lin; apply: eq_bigr => k _; rewrite (cheb_col_eig _ (h k)) scalerA. Qed.
End Eig.

(** ** gain over an ordered field *)
Section Gain.
Variables (R : realFieldType) (la lo up : R).
Hypotheses (h1 : la < lo) (h2 : lo < up).

Lemma e_gt0 : 0 < (up - lo) / 2%:R. Proof. by rewrite divr_gt0 ?subr_gt0 // ltr0n. Qed.
Lemma mapto_lt x y : x < y -> mapto lo up x < mapto lo up y.
Proof. by move=> h; rewrite /mapto ltr_pmul2r ?invr_gt0 ?e_gt0 // ltr_add2r. Qed.
Lemma mapto_le x y : x <= y -> mapto lo up x <= mapto lo up y.
Proof. by move=> h; rewrite /mapto ler_pmul2r ?invr_gt0 ?e_gt0 // ler_add2r. Qed.
Lemma mapto_lo : mapto lo up lo = -1.
Proof. by rewrite /mapto; field; rewrite subr_eq0 gt_eqF // h2 pnatr_eq0. Qed.
Lemma mapto_up : mapto lo up up = 1.
Proof. by rewrite /mapto; field; rewrite subr_eq0 gt_eqF // h2 pnatr_eq0. Qed.
Lemma mapto_below x : x < lo -> mapto lo up x < -1. Proof. by rewrite -mapto_lo; apply: mapto_lt. Qed.
Lemma mapto_in x : lo <= x <= up -> -1 <= mapto lo up x <= 1.
Proof. by move=> /andP[a b]; rewrite -{1}mapto_lo (mapto_le a) /= -[leRHS]mapto_up mapto_le. Qed.

Local Notation tau := (- mapto lo up la).
Lemma tau_gt1 : 1 < tau. Proof. by rewrite ltr_oppr; apply: mapto_below. Qed.

Lemma T_la_neq0 d : (chebT d).[mapto lo up la] != 0.
Proof. by rewrite -/(cT _ _) -normr_gt0 cT_abs ?cT_gt0 ?(ltW tau_gt1) // (ltW (mapto_below h1)). Qed.

Lemma gain_norm d x : `|gain la lo up d x| = `|cT d (mapto lo up x)| / cT d tau.
Proof. by rewrite /gain normrM normfV -!/(cT _ _) (cT_abs _ (ltW (mapto_below h1))). Qed.

Lemma gain_inside d x : lo <= x <= up -> `|gain la lo up d.+1 x| <= (tau * (tau *+ 2 - 1) ^+ d)^-1.
Proof.
move=> /mapto_in h; rewrite gain_norm.
have A : 0 < tau * (tau *+ 2 - 1) ^+ d.
  have B := tau_gt1. rewrite mulr_gt0 ?exprn_gt0 ?(lt_trans _ B) ?ltr01 // subr_gt0 (lt_trans B) // mulr2n ltr_addl (lt_trans _ B) ?ltr01 //.
apply: (@le_trans _ _ (1 / cT d.+1 tau)); first by rewrite ler_pmul2r ?invr_gt0 ?cT_gt0 ?(ltW tau_gt1) // cT_bounded.
by rewrite div1r lef_pinv ?posrE ?cT_gt0 ?(ltW tau_gt1) // cT_expo // ltW // tau_gt1.
Qed.
Lemma gain_inside_lt1 d x : lo <= x <= up -> `|gain la lo up d.+1 x| < 1.
Proof.
move=> /mapto_in h; rewrite gain_norm ltr_pdivr_mulr ?mul1r ?cT_gt0 ?(ltW tau_gt1) //.
by apply: le_lt_trans (cT_bounded _ h) _; apply: cT_gt1 tau_gt1.
Qed.
Lemma gain_la d : gain la lo up d la = 1.
Proof. by rewrite /gain divff // T_la_neq0. Qed.
Lemma gain_mono d x y : x < y -> y < lo -> `|gain la lo up d.+1 y| < `|gain la lo up d.+1 x|.
Proof.
move=> hxy hy. rewrite !gain_norm ltr_pmul2r ?invr_gt0 ?cT_gt0 ?(ltW tau_gt1) //.
rewrite !cT_abs ?(ltW (mapto_below _)) // ?(lt_trans hxy) //.
apply: cT_lt_arg; last by rewrite ltr_opp2 mapto_lt.
by rewrite ler_oppr ltW // mapto_below.
Qed.
Lemma gain_dominates d x y : x < lo -> lo <= y <= up -> `|gain la lo up d.+1 y| < `|gain la lo up d.+1 x|.
Proof.
move=> hx /mapto_in hy. rewrite !gain_norm ltr_pmul2r ?invr_gt0 ?cT_gt0 ?(ltW tau_gt1) //.
rewrite (cT_abs _ (ltW (mapto_below hx))). apply: le_lt_trans (cT_bounded _ hy) _.
by apply: cT_gt1; rewrite ltr_oppr; apply: mapto_below.
Qed.
(** relative weight of a wanted component against any unwanted one, growing with the degree *)
Lemma T_degree_growth d x : x < lo -> `|(chebT d).[mapto lo up x]| < `|(chebT d.+1).[mapto lo up x]|.
Proof. by move=> hx; rewrite -!/(cT _ _) !cT_abs ?(ltW (mapto_below hx)) //; apply: cT_lt; rewrite ltr_oppr; apply: mapto_below. Qed.
Lemma T_inside d x : lo <= x <= up -> `|(chebT d).[mapto lo up x]| <= 1.
Proof. by move=> /mapto_in; apply: cT_bounded. Qed.
Lemma T_below d x : x < lo -> 1 < `|(chebT d.+1).[mapto lo up x]|.
Proof. by move=> hx; rewrite -/(cT _ _) cT_abs ?(ltW (mapto_below hx)) //; apply: cT_gt1; rewrite ltr_oppr; apply: mapto_below. Qed.
Lemma gain_even_pos d x : ~~ odd d -> x < lo -> 0 < gain la lo up d x.
Proof.
move=> hd hx.
have sg (y : R) : cT d y = cT d (- y) by rewrite cT_opp -[(-1) ^+ d]signr_odd (negbTE hd) expr0 mul1r.
rewrite /gain -/(cT d (mapto lo up x)) -/(cT d (mapto lo up la)) (sg (mapto lo up x)) (sg (mapto lo up la)).
apply: divr_gt0; apply: cT_gt0; first by rewrite ler_oppr ltW // mapto_below.
exact: ltW tau_gt1.
Qed.
End Gain.
