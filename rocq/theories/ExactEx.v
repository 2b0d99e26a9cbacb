(** An exact instance over the rationals: the laws of ExactSpec are satisfiable. *)
From mathcomp Require Import all_ssreflect all_algebra ring.
Require Import Verif.Base Verif.AlgModel Verif.AlgSpec Verif.DlaModel Verif.ColModel Verif.FilterSpec Verif.ExactSpec.
Set Implicit Arguments. Unset Strict Implicit. Unset Printing Implicit Defensive.
Import Order.TTheory GRing.Theory Num.Theory.
Local Open Scope ring_scope.

Section Inst.
Variable R : realFieldType.
Definition ex_fops : fops R := {|
  f_add := +%R; f_sub := fun x y => x - y; f_mul := *%R; f_div := fun x y => x / y; f_neg := -%R; f_abs := Num.norm; f_sqrt := id;
  f_log := id; f_ceil := id; f_pow := fun x n => x ^+ n; f_lt := fun x y => x < y; f_zero := 0; f_one := 1; f_two := 2%:R; f_half := 2%:R^-1;
  f_max := 0; f_of_nat := fun n => n%:R; f_threshold := 0; f_G := id; f_to_size := fun _ => None |}.
Lemma ex_fops_exact : exact_fops ex_fops. Proof. by []. Qed.

Definition id_rm : {rmorphism R -> R} := [rmorphism of idfun].
Lemma ex_scalars : scalars id_rm id_rm. Proof. by []. Qed.

Variable n : nat.
(** real symmetric storage; oracles the filter does not use are arbitrary *)
Definition ex_blas : blas R 'cV[R]_n 'M[R]_n unit R := {|
  b_gemmN := fun H a b x y => a *: (H *m x) + b *: y; b_gemmH := fun H a b x y => a *: (adj id_rm H *m x) + b *: y;
  b_mulN := fun H x => H *m x; b_mulH := fun H x => adj id_rm H *m x; b_shift := fun H c => H + c%:M;
  b_rnd := fun _ => 0; b_test := const_mx 1; b_veq := fun x y => x == y; b_zero := 0; b_hh := fun cs j => List.nth j cs 0; b_syherk := fun _ => tt;
  b_dshift := id; b_potrf := fun g => (BinNums.Z0, g); b_trsm := fun _ cs j => List.nth j cs 0; b_gram := fun _ _ => tt; b_eval := fun _ _ => 0;
  b_comb := fun cs _ j => List.nth j cs 0; b_combl := fun cs _ j => List.nth j cs 0; b_inj := id; b_re := id; b_tneg := -%R;
  b_dot := fun x y => (x^T *m y) ord0 ord0; b_axpy := fun a x y => a *: x + y; b_scal := fun a x => a *: x; b_nrm2 := fun x => (x^T *m x) ord0 ord0 |}.
Lemma ex_mv : exact_mv id_rm id_rm ex_blas. Proof. by []. Qed.
Definition ex_qe : qr_env R := mk_qe R false None None 0 0.
Definition ex_td : tridiag R := mk_td R (fun _ _ _ => 0) (fun _ _ _ => 0).
End Inst.

(** diag(1,6) with two columns of degrees 2 and 4, wanted interval end 1, damped interval [4,8] *)
Definition ex_H : 'M[rat]_2 := diag_mx (\row_(j < 2) (if j == ord0 then 1 else 6%:R)).
Lemma ex_H_herm : hermitian (@id_rm _) ex_H.
Proof. by apply/matrixP=> i j; rewrite !mxE /= [j == i]eq_sym; case: (i =P j) => [->|]. Qed.
Lemma ex_args : filter_args 0 (Nat.add 1 1) 2 4 (2%N :: 4%N :: nil).
Proof.
split=> //; split=> //; split; last split; last by right; left.
- intros i j a b h; destruct i as [|[|[|i]]], j as [|[|[|j]]]; cbn; intros Ha Hb; try discriminate;
    injection Ha as <-; injection Hb as <-; try (by apply/ssrnat.leP); by move/ssrnat.leP: h.
- by repeat constructor.
Qed.
Lemma ex_u1 : ex_H *m delta_mx ord0 ord0 = 1 *: delta_mx ord0 ord0 :> 'cV_2.
Proof. by apply/matrixP=> i j; rewrite mul_diag_mx !mxE; case: i => -[|[|i]] hi //=; rewrite ?mul1r ?mulr0 ?mulr1. Qed.
Lemma ex_u2 : ex_H *m delta_mx (fintype.lift ord0 ord0) ord0 = 6%:R *: delta_mx (fintype.lift ord0 ord0) ord0 :> 'cV_2.
Proof. by apply/matrixP=> i j; rewrite mul_diag_mx !mxE; case: (i =P ord0) => [->|_]; rewrite /= ?mulr0. Qed.
Lemma ex_T2 (x : rat) : (chebT 2).[x] = x ^+ 2 *+ 2 - 1.
Proof. by rewrite [chebT 2]/= hornerD hornerN hornerM hornerMn hornerX hornerC; ring. Qed.
Lemma ex_gain1 : gain (1 : rat) 4%:R 8%:R 2 1 = 1.
Proof. by rewrite /gain !ex_T2 /mapto; field. Qed.
Lemma ex_gain6 : gain (1 : rat) 4%:R 8%:R 2 6%:R = - 2%:R / 23%:R.
Proof. by rewrite /gain !ex_T2 /mapto; field. Qed.
