(** Whole-solve consequences of exact shifts; examples for the exact filter. *)
From Coq Require Import Permutation.
From mathcomp Require Import all_ssreflect all_algebra.
Require Import Verif.Base Verif.AlgModel Verif.AlgSpec Verif.DlaModel Verif.ColModel Verif.ColProofs1 Verif.InplProofs Verif.FilterSpec Verif.ExactSpec
  Verif.FilterProofs Verif.ShiftProofs Verif.ChebProofs Verif.ExactFilter Verif.ExactEx.
Set Implicit Arguments. Unset Strict Implicit. Unset Printing Implicit Defensive.
Import Order.TTheory GRing.Theory Num.Theory.
Local Open Scope ring_scope.

Section Any.
Variables (F V M G T : Type) (fo : fops F) (bl : blas F V M G T) (qe : qr_env F) (td : tridiag F) (cf : conf F) (sort_idx : list F -> list nat).
Hypothesis Hperm : forall keys, Permutation (sort_idx keys) (List.seq 0 (length keys)).
Variables (fsort : list F -> list F) (ritzv resid : list F).
Hypothesis HC : conf_ok cf.
Local Notation n := (Nat.add (c_nev cf) (c_nex cf)).

Lemma matrix_pairs :
  (forall mpi k o s, solve fo (cmK fo qe td (colD fo bl mpi n) (c_nev cf) (c_nex cf)) fsort sort_idx cf k ritzv resid = Ok o -> o_exit o = Some s ->
     exists cs, length cs = ss_iter s /\
       cs_H (cm_dla (o_k o)) = List.fold_left (fun h c => b_shift bl (b_shift bl h (f_neg fo c)) c) cs (cs_H (cm_dla k))) /\
  (forall k o s, solve fo (cmK fo qe td (inplD fo bl n) (c_nev cf) (c_nex cf)) fsort sort_idx cf k ritzv resid = Ok o -> o_exit o = Some s ->
     exists cs, length cs = ss_iter s /\
       is_H (cm_dla (o_k o)) = List.fold_left (fun h c => b_shift bl (b_shift bl h (f_neg fo c)) c) cs (is_H (cm_dla k))).
Proof.
split=> [mpi k o s H Ho|k o s H Ho].
- exact: (solve_matrix fo bl qe td _ _ (col_keeps fo bl n mpi) _ _ _ Hperm _ _ _ _ _ _ _ HC H Ho).
- exact: (solve_matrix fo bl qe td _ _ (inpl_keeps fo bl n) _ _ _ Hperm _ _ _ _ _ _ _ HC H Ho).
Qed.

Lemma matrix_back : (forall h c, b_shift bl (b_shift bl h (f_neg fo c)) c = h) ->
  (forall mpi k o, solve fo (cmK fo qe td (colD fo bl mpi n) (c_nev cf) (c_nex cf)) fsort sort_idx cf k ritzv resid = Ok o ->
     cs_H (cm_dla (o_k o)) = cs_H (cm_dla k)) /\
  (forall k o, solve fo (cmK fo qe td (inplD fo bl n) (c_nev cf) (c_nex cf)) fsort sort_idx cf k ritzv resid = Ok o ->
     is_H (cm_dla (o_k o)) = is_H (cm_dla k)).
Proof.
move=> hx. have [A B] := matrix_pairs. split=> [mpi k o H|k o H]; case E : (o_exit o) => [s|].
- have [cs [_ ->]] := A mpi k o s H E. exact: (round_id fo bl hx).
- exact: (solve_matrix_rejected fo bl qe td _ _ (col_keeps fo bl n mpi) _ _ _ _ _ _ _ _ _ H E).
- have [cs [_ ->]] := B k o s H E. exact: (round_id fo bl hx).
- exact: (solve_matrix_rejected fo bl qe td _ _ (inpl_keeps fo bl n) _ _ _ _ _ _ _ _ _ H E).
Qed.
End Any.

Lemma matrix_exact : forall (R C : fieldType) (inj : {rmorphism R -> C}) (cj : {rmorphism C -> C}) (fo : fops R) n0 (G T : Type)
  (bl : blas R 'cV[C]_n0 'M[C]_n0 G T) qe td (cf : conf R) sort_idx, exact_fops fo -> exact_mv inj cj bl ->
  (forall keys, Permutation (sort_idx keys) (List.seq 0 (length keys))) ->
  forall fsort ritzv resid, conf_ok cf -> let n := Nat.add (c_nev cf) (c_nex cf) in
  (forall mpi k o, solve fo (cmK fo qe td (colD fo bl mpi n) (c_nev cf) (c_nex cf)) fsort sort_idx cf k ritzv resid = Ok o ->
     cs_H (cm_dla (o_k o)) = cs_H (cm_dla k)) /\
  (forall k o, solve fo (cmK fo qe td (inplD fo bl n) (c_nev cf) (c_nex cf)) fsort sort_idx cf k ritzv resid = Ok o ->
     is_H (cm_dla (o_k o)) = is_H (cm_dla k)).
Proof.
move=> R C inj cj fo n0 G T bl qe td cf sort_idx EF EM Hp fsort ritzv resid HC n.
apply: matrix_back => // h c. by rewrite !(em_shift EM) (ef_neg EF) rmorphN raddfN /= addrNK.
Qed.

Lemma gain_damping (R : realFieldType) (la lo up : R) : la < lo -> lo < up -> forall d,
  let t := - mapto lo up la in 1 < t /\ gain la lo up d.+1 la = 1 /\
  forall x, lo <= x <= up -> `|gain la lo up d.+1 x| <= (t * (t *+ 2 - 1) ^+ d)^-1 /\ `|gain la lo up d.+1 x| < 1.
Proof.
move=> h1 h2 d t; split; first exact: tau_gt1. split; first exact: gain_la.
by move=> x hx; split; [exact: gain_inside|exact: gain_inside_lt1].
Qed.

Lemma two_elems A (l : list A) a b : length l = 2%N -> List.nth_error l 0%N = Some a -> List.nth_error l 1%N = Some b -> l = a :: b :: nil.
Proof. by case: l => [|x [|y [|]]] //= _ [->] [->]. Qed.

Lemma ex_filter : forall x y : 'cV[rat]_2, let z := 0 : 'cV[rat]_2 in let two := z :: z :: nil in
  exists s', filter_ (ex_fops _) (cmK (ex_fops _) (ex_qe _) (ex_td _) (colD (ex_fops _) (ex_blas _ 2) false 2) 1 1) 2 4 (2%N :: 4%N :: nil)
      1 4%:R 8%:R (mk_cm 0 (mk_cst ex_H (x :: y :: nil) two two two true)) = Ok (6%N, s') /\
    cs_C (cm_dla s') = cheb_col (id_rm _) 1 4%:R 8%:R ex_H 2 x :: cheb_col (id_rm _) 1 4%:R 8%:R ex_H 4 y :: nil.
Proof.
move=> x y z two. set s := mk_cm _ _.
have hT i : (i <= 4)%N -> (chebT i).[mapto (4%:R : rat) 8%:R 1] != 0 by move=> _; apply: T_la_neq0.
have [s' [E [_ [L X]]]] := @col_filter_exact _ _ _ _ (ex_scalars rat_realFieldType) _ (ex_fops_exact rat_realFieldType) 1 unit rat
  (ex_blas _ 2) (ex_mv _ 2) (ex_qe _) (ex_td _) 1 1 1 4%:R 8%:R 4 hT false 2 0 2 (2%N :: 4%N :: nil) s
  (PeanoNat.Nat.le_refl 2) (conj erefl (conj erefl (conj erefl erefl))) ex_args erefl erefl ex_H_herm.
exists s'; split; first exact: E.
have X0 := X 0%N x erefl. have X1 := X 1%N y erefl. rewrite [deg_of _ _ _]/= in X0. rewrite [deg_of _ _ _]/= in X1.
exact: (two_elems L X0 X1).
Qed.
