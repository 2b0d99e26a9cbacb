(** Concrete filter calls: binary64 arithmetic (witness for C11) and a small exact case. *)
From Coq Require Import List Arith ZArith Bool SpecFloat.
Require Import Verif.Base Verif.AlgModel Verif.AlgSpec Verif.DlaModel Verif.ColModel Verif.FilterSpec.
Import ListNotations.

(** IEEE binary64 with rounding to nearest even, from the standard library's executable specification *)
Definition f64 (m e : Z) : spec_float := binary_normalize 53 1024 m e false.
Definition sf_fops : fops spec_float := {|
  f_add := SFadd 53 1024; f_sub := SFsub 53 1024; f_mul := SFmul 53 1024; f_div := SFdiv 53 1024;
  f_neg := SFopp; f_abs := SFabs; f_sqrt := SFsqrt 53 1024; f_log := fun x => x; f_ceil := fun x => x; f_pow := fun x _ => x;
  f_lt := SFltb; f_zero := f64 0 0; f_one := f64 1 0; f_two := f64 2 0; f_half := f64 1 (-1);
  f_max := f64 1 1023; f_of_nat := fun n => f64 (Z.of_nat n) 0; f_threshold := f64 1 (-7); f_G := fun x => x; f_to_size := fun _ => None |}.
(** 1 x 1 matrices: one diagonal entry; the oracles the filter does not call are arbitrary *)
Definition sf_gemm (h a b x y : spec_float) : spec_float :=
  SFadd 53 1024 (SFmul 53 1024 a (SFmul 53 1024 h x)) (SFmul 53 1024 b y).
Definition sf_blas : blas spec_float spec_float spec_float unit spec_float := {|
  b_gemmN := sf_gemm; b_gemmH := sf_gemm; b_mulN := SFmul 53 1024; b_mulH := SFmul 53 1024; b_shift := SFadd 53 1024;
  b_rnd := fun _ => f64 1 0; b_test := f64 1 0; b_veq := SFeqb; b_zero := f64 0 0; b_hh := fun _ _ => f64 1 0; b_syherk := fun _ => tt;
  b_dshift := fun g => g; b_potrf := fun g => (0%Z, g); b_trsm := fun _ _ _ => f64 1 0; b_gram := fun _ _ => tt; b_eval := fun _ _ => f64 0 0;
  b_comb := fun _ _ _ => f64 1 0; b_combl := fun _ _ _ => f64 1 0; b_inj := fun x => x; b_re := fun x => x; b_tneg := SFopp;
  b_dot := SFmul 53 1024; b_axpy := fun a x y => SFadd 53 1024 (SFmul 53 1024 a x) y; b_scal := SFmul 53 1024; b_nrm2 := SFabs |}.
Definition sf_qe : qr_env spec_float := mk_qe _ false None None (f64 1 20) (f64 20 0).
Definition sf_td : tridiag spec_float := mk_td _ (fun _ _ _ => f64 0 0) (fun _ _ _ => f64 0 0).
(** the matrix entry 2^-60 *)
Definition sf_st : cm := mk_cm 0 (seq_state sf_blas 1 0 (f64 1 (-60)) [f64 1 0]).

Lemma sf_filter_args : filter_args 0 (1 + 0) 1 2 [2].
Proof.
  split; [reflexivity|]. split; [reflexivity|]. split; [|split; [|left; reflexivity]].
  - intros [|[|i]] [|[|j]] a b Hij Ha Hb; cbn in *; try discriminate. injection Ha as <-. injection Hb as <-. auto.
  - constructor; [|constructor]. split; [auto|]. split; reflexivity.
Qed.

(** interval [1,3]: c = 2; the entry becomes 0 *)
Lemma sf_filter : exists av s', filter_ sf_fops (cmK sf_fops sf_qe sf_td (colD sf_fops sf_blas false 1) 1 0) 1 2 [2]
    (f64 (-1) 0) (f64 1 0) (f64 3 0) sf_st = Ok (av, s') /\
  cs_H (cm_dla sf_st) = S754_finite false (2 ^ 52) (-112) /\ cs_H (cm_dla s') = S754_zero false.
Proof. eexists; eexists. split; [vm_compute; reflexivity|]. split; vm_compute; reflexivity. Qed.
