(** IEEE binary formats as the scalars of the solver. *)
From Coq Require Import List ZArith Reals.
From Flocq Require Import Core BinarySingleNaN.
Require Import Verif.Base Verif.AlgModel Verif.AlgSpec Verif.ColModel.
Local Open Scope R_scope.

(** half an ulp of 1: 2^-53 for binary64, 2^-24 for binary32 *)
Definition unit_roundoff (prec : Z) : R := / 2 * bpow radix2 (- prec + 1).

(** negation and the shift of the matrix are those of the format; [diag h i] is the (real part of the) diagonal entry i of h,
    [off h] everything else *)
Record ieee_shift {prec emax : Z} {Hp : Prec_gt_0 prec} {Hm : Prec_lt_emax prec emax} {V M G T O : Type}
  (fo : fops (binary_float prec emax)) (bl : blas (binary_float prec emax) V M G T) (diag : M -> nat -> binary_float prec emax) (off : M -> O) : Prop := {
  is_neg : forall x, f_neg fo x = Bopp x;
  is_diag : forall h c i, diag (b_shift bl h c) i = Bplus mode_NE (diag h i) c;
  is_off : forall h c, off (b_shift bl h c) = off h
}.

(** What rounding does to the matrix over one solve ([hk] extracts it from the backend state): nothing off the diagonal; a
    diagonal entry that is still finite at the end was finite at the start, so were the centres of all damped intervals, and the
    entry has moved by at most (1+u)^(2*iterations) - 1 relative to its size plus the largest centre *)
Definition float_drift {prec emax : Z} {Hp : Prec_gt_0 prec} {Hm : Prec_lt_emax prec emax} {St M O : Type} (fo : fops (binary_float prec emax))
  (K : kernel (binary_float prec emax) St) (hk : St -> M) (diag : M -> nat -> binary_float prec emax) (off : M -> O)
  fsort sort_idx (cf : conf (binary_float prec emax)) (k : St) ritzv resid (k' : St) s : Prop :=
  exists k0 ub s0 hist, (if c_symcheck cf then k_sym K k else Ok (true, k)) = Ok (true, k0) /\
    solve_init fo K fsort cf k0 ritzv resid = Ok (ub, s0) /\ run fo K sort_idx cf ub s0 hist s /\ length hist = ss_iter s /\
    let mid t := f_div fo (f_add fo ub (ss_lowerb t)) (f_two fo) in let later := List.tl (hist ++ s :: nil) in
    off (hk k') = off (hk k) /\
    forall i, is_finite (diag (hk k') i) = true -> is_finite (diag (hk k) i) = true /\
      (forall t, In t later -> is_finite (mid t) = true) /\
      forall B, 0 <= B -> (forall t, In t later -> Rabs (B2R (mid t)) <= B) ->
        Rabs (B2R (diag (hk k') i) - B2R (diag (hk k) i)) <= ((1 + unit_roundoff prec) ^ (2 * ss_iter s) - 1) * (Rabs (B2R (diag (hk k) i)) + B).
