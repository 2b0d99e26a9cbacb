(** binary64 instance for the drift theorem: the diagonal entry 2^-60 of an accepted matrix is 0 after one iteration. *)
From Coq Require Import List ZArith Permutation Reals Lia.
From Flocq Require Import Core BinarySingleNaN.
Require Import Verif.Base Verif.AlgModel Verif.AlgSpec Verif.DlaModel Verif.ColModel Verif.FloatSpec Verif.FloatDrift.
Import ListNotations.

Definition b64 := binary_float 53 1024.
Lemma p64 : Prec_gt_0 53.
Proof. reflexivity. Qed.
Lemma m64 : Prec_lt_emax 53 1024.
Proof. reflexivity. Qed.
#[global] Existing Instance p64.
#[global] Existing Instance m64.
Definition d64 (m e : Z) : b64 := binary_normalize 53 1024 p64 m64 mode_NE m e false.
Definition b_fops : fops b64 := {|
  f_add := @Bplus 53 1024 p64 m64 mode_NE; f_sub := @Bminus 53 1024 p64 m64 mode_NE; f_mul := @Bmult 53 1024 p64 m64 mode_NE;
  f_div := @Bdiv 53 1024 p64 m64 mode_NE; f_neg := @Bopp 53 1024; f_abs := @Babs 53 1024; f_sqrt := fun x => x; f_log := fun x => x;
  f_ceil := fun x => x; f_pow := fun x _ => x; f_lt := @Bltb 53 1024; f_zero := d64 0 0; f_one := d64 1 0; f_two := d64 2 0; f_half := d64 1 (-1);
  f_max := d64 1 1023; f_of_nat := fun n => d64 (Z.of_nat n) 0; f_threshold := d64 1 (-7); f_G := fun x => x; f_to_size := fun _ => None |}.
(** matrices are lists of diagonal entries, vectors have no content; Rayleigh-Ritz finds 1 and 2 *)
Definition b_blas : blas b64 unit (list b64) unit b64 := {|
  b_gemmN := fun _ _ _ _ _ => tt; b_gemmH := fun _ _ _ _ _ => tt; b_mulN := fun _ _ => tt; b_mulH := fun _ _ => tt;
  b_shift := fun h c => map (fun x => @Bplus 53 1024 p64 m64 mode_NE x c) h;
  b_rnd := fun _ => tt; b_test := tt; b_veq := fun _ _ => true; b_zero := tt; b_hh := fun _ _ => tt; b_syherk := fun _ => tt;
  b_dshift := fun g => g; b_potrf := fun g => (0%Z, g); b_trsm := fun _ _ _ => tt; b_gram := fun _ _ => tt; b_eval := fun _ i => d64 (Z.of_nat i + 1) 0;
  b_comb := fun _ _ _ => tt; b_combl := fun _ _ _ => tt; b_inj := fun x => x; b_re := fun x => x; b_tneg := @Bopp 53 1024;
  b_dot := fun _ _ => d64 0 0; b_axpy := fun _ _ _ => tt; b_scal := fun _ _ => tt; b_nrm2 := fun _ => d64 0 0 |}.
Definition b_qe : qr_env b64 := mk_qe _ false None None (d64 1 20) (d64 20 0).
Definition b_td : tridiag b64 := mk_td _ (fun _ _ _ => d64 9 0) (fun _ _ _ => d64 0 0).
Definition b_conf : conf b64 :=
  {| c_N := 3; c_nev := 1; c_nex := 1; c_tol := d64 1 (-20); c_deg := 4; c_maxdeg := 4; c_degextra := 2; c_maxiter := 5;
     c_lanczositer := 2; c_numlanczos := 1; c_opt := false; c_approx := true; c_symcheck := true |}.
Definition b_K := cmK b_fops b_qe b_td (colD b_fops b_blas false 2) 1 1.
Definition b_H : list b64 := [d64 1 (-60); d64 2 0; d64 9 0].
Definition b_0 := mk_cm 0 (seq_state b_blas 2 0 b_H [tt; tt]).
Definition b_sort (l : list b64) : list nat := seq 0 (length l).

(** rows beyond the size read as NaN *)
Lemma b_ieee : ieee_shift b_fops b_blas (fun h i => nth i h B754_nan) (fun h => length h).
Proof.
  split; auto.
  - intros h c i. cbn [b_blas b_shift]. destruct (Nat.lt_ge_cases i (length h)) as [Hi|Hi].
    + rewrite (nth_indep _ B754_nan (Bplus mode_NE B754_nan c)) by (rewrite map_length; assumption). now rewrite (map_nth (fun x => Bplus mode_NE x c)).
    + rewrite !nth_overflow; auto. now rewrite map_length.
  - intros h c. cbn. now rewrite map_length.
Qed.
Lemma b_sort_perm l : Permutation (b_sort l) (seq 0 (length l)).
Proof. apply Permutation_refl. Qed.
Lemma b_conf_ok : conf_ok b_conf.
Proof. repeat split; cbn; auto; lia. Qed.

Definition b_out := solve b_fops b_K (fun l => l) b_sort b_conf b_0 [d64 1 0; d64 2 0] [d64 0 0; d64 0 0].
Definition sf {p e} (x : binary_float p e) := B2SF x.
Example b_run : match b_out with
  | Ok o => match o_exit o with Some s => ss_iter s = 1%nat | None => False end /\
      map sf (cs_H (cm_dla (o_k o))) = map sf [d64 0 0; d64 2 0; d64 9 0] /\ map (@is_finite 53 1024) (cs_H (cm_dla (o_k o))) = [true; true; true]
  | _ => False end.
Proof. vm_compute. auto. Qed.
