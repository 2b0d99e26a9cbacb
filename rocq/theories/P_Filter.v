(** Properties C11-C13: the filter and the matrix it shifts. *)
From Coq Require Import Permutation SpecFloat ZArith.
From mathcomp Require Import all_ssreflect all_algebra.
Require Import Verif.Base Verif.AlgModel Verif.AlgSpec Verif.DlaModel Verif.ColModel Verif.ColProofs1 Verif.InplProofs Verif.FilterSpec Verif.ExactSpec Verif.FilterProofs Verif.ShiftProofs
  Verif.ChebProofs Verif.ExactFilter Verif.ExactSolve Verif.FilterEx Verif.ExactEx.
Set Implicit Arguments. Unset Strict Implicit. Unset Printing Implicit Defensive.
Import Order.TTheory GRing.Theory Num.Theory.
Local Open Scope ring_scope.

(** C11, any arithmetic: the matrix after a solve is the input after one shift by -c and back per outer iteration *)
Theorem C11_matrix_changes_only_by_shift_pairs : forall (F V M G T : Type) (fo : fops F) (bl : blas F V M G T) qe td (cf : conf F) sort_idx,
  (forall keys, Permutation (sort_idx keys) (List.seq 0 (length keys))) ->
  forall fsort ritzv resid, conf_ok cf -> let n := Nat.add (c_nev cf) (c_nex cf) in
  (forall mpi k o s, solve fo (cmK fo qe td (colD fo bl mpi n) (c_nev cf) (c_nex cf)) fsort sort_idx cf k ritzv resid = Ok o -> o_exit o = Some s ->
     exists cs, length cs = ss_iter s /\
       cs_H (cm_dla (o_k o)) = List.fold_left (fun h c => b_shift bl (b_shift bl h (f_neg fo c)) c) cs (cs_H (cm_dla k))) /\
  (forall k o s, solve fo (cmK fo qe td (inplD fo bl n) (c_nev cf) (c_nex cf)) fsort sort_idx cf k ritzv resid = Ok o -> o_exit o = Some s ->
     exists cs, length cs = ss_iter s /\
       is_H (cm_dla (o_k o)) = List.fold_left (fun h c => b_shift bl (b_shift bl h (f_neg fo c)) c) cs (is_H (cm_dla k))).
Proof. exact matrix_pairs. Qed.
Print Assumptions C11_matrix_changes_only_by_shift_pairs.

(** exact arithmetic: unchanged, whether or not the matrix was accepted *)
Theorem C11_matrix_unchanged_exact : forall (R C : fieldType) (inj : {rmorphism R -> C}) (cj : {rmorphism C -> C}) (fo : fops R) n0 (G T : Type)
  (bl : blas R 'cV[C]_n0 'M[C]_n0 G T) qe td (cf : conf R) sort_idx, exact_fops fo -> exact_mv inj cj bl ->
  (forall keys, Permutation (sort_idx keys) (List.seq 0 (length keys))) ->
  forall fsort ritzv resid, conf_ok cf -> let n := Nat.add (c_nev cf) (c_nex cf) in
  (forall mpi k o, solve fo (cmK fo qe td (colD fo bl mpi n) (c_nev cf) (c_nex cf)) fsort sort_idx cf k ritzv resid = Ok o ->
     cs_H (cm_dla (o_k o)) = cs_H (cm_dla k)) /\
  (forall k o, solve fo (cmK fo qe td (inplD fo bl n) (c_nev cf) (c_nex cf)) fsort sort_idx cf k ritzv resid = Ok o ->
     is_H (cm_dla (o_k o)) = is_H (cm_dla k)).
Proof. exact matrix_exact. Qed.
Print Assumptions C11_matrix_unchanged_exact.

(** binary64: one filter call on the interval [1,3] turns the diagonal entry 2^-60 into 0 *)
Theorem C11_matrix_unchanged_ieee_refuted : exists av s', filter_ sf_fops (cmK sf_fops sf_qe sf_td (colD sf_fops sf_blas false 1) 1 0) 1 2 (2%N :: nil)
    (f64 (-1) 0) (f64 1 0) (f64 3 0) sf_st = Ok (av, s') /\
  cs_H (cm_dla sf_st) = S754_finite false (2 ^ 52) (-112) /\ cs_H (cm_dla s') = S754_zero false.
Proof. exact sf_filter. Qed.
Print Assumptions C11_matrix_unchanged_ieee_refuted.

(** C12, any arithmetic: the filter acts on each column separately, by the three-term recurrence run to the column's own
    degree; locked columns (degree 0) stay *)
Theorem C12_filter_is_columnwise_recurrence : forall (F V M G T : Type) (fo : fops F) (bl : blas F V M G T) qe td mpi nev nex l n deg degs la lo up s av s',
  filter_args l (Nat.add nev nex) n deg degs -> cm_locked s = l -> cs_bAc (cm_dla s) = true ->
  filter_ fo (cmK fo qe td (colD fo bl mpi (Nat.add nev nex)) nev nex) n deg degs la lo up s = Ok (av, s') ->
  let d := cm_dla s in let d' := cm_dla s' in let c := f_c fo lo up in
  av = List.list_sum degs /\
  cm_locked s' = l /\ cs_bAc d' = true /\ cs_H d' = b_shift bl (b_shift bl (cs_H d) (f_neg fo c)) c /\
  cs_C2 d' = cs_C2 d /\ cs_B2 d' = cs_B2 d /\
  length (cs_C d') = length (cs_C d) /\ length (cs_B d') = length (cs_B d) /\
  forall j x y, List.nth_error (cs_C d) j = Some x -> List.nth_error (cs_B d) j = Some y ->
    List.nth_error (cs_C d') j = Some (fst (three_term (col_op fo bl (cs_H d) la lo up) x y (deg_of l degs j))) /\
    List.nth_error (cs_B d') j = Some (snd (three_term (col_op fo bl (cs_H d) la lo up) x y (deg_of l degs j))).
Proof. exact @col_filter. Qed.
Print Assumptions C12_filter_is_columnwise_recurrence.

(** exact arithmetic, Seq and Mpi *)
Theorem C12_filter_is_scaled_chebyshev : forall (R C : fieldType) (inj : {rmorphism R -> C}) (cj : {rmorphism C -> C}), scalars inj cj ->
  forall (fo : fops R), exact_fops fo -> forall n0 (G T : Type) (bl : blas R 'cV[C]_n0.+1 'M[C]_n0.+1 G T), exact_mv inj cj bl ->
  forall qe td nev nex la lo up deg, (forall i, (i <= deg)%N -> (chebT i).[mapto lo up la] != 0) ->
  forall mpi w l n degs (s : cm), le (Nat.add nev nex) w -> clen (Nat.add nev nex) w (cm_dla s) ->
  filter_args l (Nat.add nev nex) n deg degs -> cm_locked s = l -> cs_bAc (cm_dla s) = true -> hermitian cj (cs_H (cm_dla s)) ->
  exists s', filter_ fo (cmK fo qe td (colD fo bl mpi (Nat.add nev nex)) nev nex) n deg degs la lo up s = Ok (List.list_sum degs, s') /\
    cs_H (cm_dla s') = cs_H (cm_dla s) /\ length (cs_C (cm_dla s')) = length (cs_C (cm_dla s)) /\
    forall j x, List.nth_error (cs_C (cm_dla s)) j = Some x ->
      List.nth_error (cs_C (cm_dla s')) j = Some (cheb_col inj la lo up (cs_H (cm_dla s)) (deg_of l degs j) x).
Proof. exact col_filter_exact. Qed.
Print Assumptions C12_filter_is_scaled_chebyshev.

(** in-place backend: the same, and the pointers are back in their original order; H need not be Hermitian *)
Theorem C12_filter_is_scaled_chebyshev_inplace : forall (R C : fieldType) (inj : {rmorphism R -> C}) (cj : {rmorphism C -> C})
  (fo : fops R), exact_fops fo -> forall n0 (G T : Type) (bl : blas R 'cV[C]_n0.+1 'M[C]_n0.+1 G T), exact_mv inj cj bl ->
  forall qe td nev nex la lo up deg, (forall i, (i <= deg)%N -> (chebT i).[mapto lo up la] != 0) ->
  forall l n degs (s : cm), ilen (Nat.add nev nex) (cm_dla s) -> filter_args l (Nat.add nev nex) n deg degs -> cm_locked s = l ->
  exists s', filter_ fo (cmK fo qe td (inplD fo bl (Nat.add nev nex)) nev nex) n deg degs la lo up s = Ok (List.list_sum degs, s') /\
    is_H (cm_dla s') = is_H (cm_dla s) /\ length (is_V1 (cm_dla s')) = length (is_V1 (cm_dla s)) /\ is_sw (cm_dla s') = is_sw (cm_dla s) /\
    forall j x, List.nth_error (is_V1 (cm_dla s)) j = Some x ->
      List.nth_error (is_V1 (cm_dla s')) j = Some (cheb_col inj la lo up (is_H (cm_dla s)) (deg_of l degs j) x).
Proof. exact inpl_filter_exact. Qed.
Print Assumptions C12_filter_is_scaled_chebyshev_inplace.

(** the hypothesis on the polynomial values holds whenever lambda_1 < lower < upper *)
Theorem C12_denominators_nonzero : forall (R : realFieldType) (la lo up : R), la < lo -> lo < up ->
  forall d, (chebT d).[mapto lo up la] != 0.
Proof. exact T_la_neq0. Qed.
Print Assumptions C12_denominators_nonzero.

(** components along eigenvectors *)
Theorem C12_eigencomponents_scaled : forall (R C : fieldType) (inj : {rmorphism R -> C}) (la lo up : R) n (H : 'M[C]_n.+1) d m
  (a : 'I_m -> C) (x : 'I_m -> R) (u : 'I_m -> 'cV[C]_n.+1), (forall k, H *m u k = inj (x k) *: u k) ->
  cheb_col inj la lo up H d (\sum_k a k *: u k) = \sum_k (a k * inj (gain la lo up d (x k))) *: u k.
Proof. exact cheb_col_expand. Qed.
Print Assumptions C12_eigencomponents_scaled.

(** hypotheses of C12 met: diag(1,6), columns of degree 2 and 4 *)
Example C12_example : forall x y : 'cV[rat]_2, let z := 0 : 'cV[rat]_2 in let two := z :: z :: nil in
  exists s', filter_ (ex_fops _) (cmK (ex_fops _) (ex_qe _) (ex_td _) (colD (ex_fops _) (ex_blas _ 2) false 2) 1 1) 2 4 (2%N :: 4%N :: nil)
      1 4%:R 8%:R (mk_cm 0 (mk_cst ex_H (x :: y :: nil) two two two true)) = Ok (6%N, s') /\
    cs_C (cm_dla s') = cheb_col (id_rm _) 1 4%:R 8%:R ex_H 2 x :: cheb_col (id_rm _) 1 4%:R 8%:R ex_H 4 y :: nil.
Proof. exact ex_filter. Qed.
Example C12_example_values : ex_H *m delta_mx ord0 ord0 = 1 *: delta_mx ord0 ord0 :> 'cV_2 /\
  gain (1 : rat) 4%:R 8%:R 2 1 = 1 /\ gain (1 : rat) 4%:R 8%:R 2 6%:R = - 2%:R / 23%:R.
Proof. exact (conj ex_u1 (conj ex_gain1 ex_gain6)). Qed.

(** C13 *)
Theorem C13_bounded_inside : forall (R : realFieldType) (lo up : R), lo < up -> forall d x, lo <= x <= up ->
  `|(chebT d).[mapto lo up x]| <= 1.
Proof. exact T_inside. Qed.
Print Assumptions C13_bounded_inside.

Theorem C13_above_one_below_interval : forall (R : realFieldType) (lo up : R), lo < up -> forall d x, x < lo ->
  1 < `|(chebT d.+1).[mapto lo up x]|.
Proof. exact T_below. Qed.
Print Assumptions C13_above_one_below_interval.

Theorem C13_grows_with_degree : forall (R : realFieldType) (lo up : R), lo < up -> forall d x, x < lo ->
  `|(chebT d).[mapto lo up x]| < `|(chebT d.+1).[mapto lo up x]|.
Proof. exact T_degree_growth. Qed.
Print Assumptions C13_grows_with_degree.

Theorem C13_grows_with_distance : forall (R : realFieldType) (la lo up : R), la < lo -> lo < up -> forall d x y, x < y -> y < lo ->
  `|gain la lo up d.+1 y| < `|gain la lo up d.+1 x|.
Proof. exact gain_mono. Qed.
Print Assumptions C13_grows_with_distance.

Theorem C13_wanted_dominates_unwanted : forall (R : realFieldType) (la lo up : R), la < lo -> lo < up -> forall d x y, x < lo -> lo <= y <= up ->
  `|gain la lo up d.+1 y| < `|gain la lo up d.+1 x|.
Proof. exact gain_dominates. Qed.
Print Assumptions C13_wanted_dominates_unwanted.

(** normalisation and geometric damping: factor 1 at lambda_1, at most 1/(t (2t-1)^d) inside, t > 1 the image of lambda_1 *)
Theorem C13_geometric_damping : forall (R : realFieldType) (la lo up : R), la < lo -> lo < up -> forall d,
  let t := - mapto lo up la in 1 < t /\ gain la lo up d.+1 la = 1 /\
  forall x, lo <= x <= up -> `|gain la lo up d.+1 x| <= (t * (t *+ 2 - 1) ^+ d)^-1 /\ `|gain la lo up d.+1 x| < 1.
Proof. exact gain_damping. Qed.
Print Assumptions C13_geometric_damping.

(** the degrees the solver uses are even: wanted components keep their sign *)
Theorem C13_even_degree_keeps_sign : forall (R : realFieldType) (la lo up : R), la < lo -> lo < up -> forall d x, ~~ odd d -> x < lo ->
  0 < gain la lo up d x.
Proof. exact gain_even_pos. Qed.
Print Assumptions C13_even_degree_keeps_sign.

Example C13_example : (1 : rat) < 4%:R /\ (4%:R : rat) < 8%:R /\ gain (1 : rat) 4%:R 8%:R 2 6%:R = - 2%:R / 23%:R.
Proof. exact (conj isT (conj isT ex_gain6)). Qed.
