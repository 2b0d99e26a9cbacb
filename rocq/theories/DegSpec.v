(** Degrees in exact real arithmetic: what the degree of a Ritz pair is for. *)
From Coq Require Import List Reals ZArith Bool.
Require Import Verif.Base Verif.AlgModel Verif.AlgSpec.
Import ListNotations.
Local Open Scope R_scope.

(** Real arithmetic in place of the floating point types: [None] stands for every result that is not a finite number (x/0, log 0,
    sqrt of a negative number), and comparisons with it are false.  Infinities are not told apart from NaN; both make the conversion
    to std::size_t undefined.  The conversion drops the fraction and is undefined outside [0, 2^64). *)
Definition xr := option R.
Definition x1 (f : R -> R) (a : xr) : xr := match a with Some x => Some (f x) | None => None end.
Definition x2 (f : R -> R -> R) (a b : xr) : xr := match a, b with Some x, Some y => Some (f x y) | _, _ => None end.
Definition xif (p : bool) (a : xr) : xr := if p then a else None.
Definition rltb (x y : R) : bool := if Rlt_dec x y then true else false.
Definition reqb (x y : R) : bool := if Req_EM_T x y then true else false.
Definition rceil (x : R) : Z := (- Int_part (- x))%Z.
Definition rops (huge : R) (gauss : R -> R) : fops xr := {|
  f_add := x2 Rplus; f_sub := x2 Rminus; f_mul := x2 Rmult;
  f_div := fun a b => match b with Some y => xif (negb (reqb y 0)) (x2 Rdiv a b) | None => None end;
  f_neg := x1 Ropp; f_abs := x1 Rabs;
  f_sqrt := fun a => match a with Some x => xif (negb (rltb x 0)) (Some (sqrt x)) | None => None end;
  f_log := fun a => match a with Some x => xif (rltb 0 x) (Some (ln x)) | None => None end;
  f_ceil := x1 (fun x => IZR (rceil x)); f_pow := fun a n => x1 (fun x => x ^ n) a;
  f_lt := fun a b => match a, b with Some x, Some y => rltb x y | _, _ => false end;
  f_zero := Some 0; f_one := Some 1; f_two := Some 2; f_half := Some (1 / 2); f_max := Some huge;
  f_of_nat := fun n => Some (INR n); f_threshold := Some (2 * (1 / 4) * (1 / 4) / 10); f_G := x1 gauss;
  f_to_size := fun a => match a with
    | Some x => if (negb (rltb x 0) && rltb x (2 ^ 64))%bool then Some (Z.to_nat (Int_part x)) else None
    | None => None end |}.

(** Chebyshev polynomials *)
Fixpoint cheb_pair (n : nat) (x : R) : R * R :=
  match n with O => (1, x) | S m => let (a, b) := cheb_pair m x in (b, 2 * x * b - a) end.
Definition cheb (n : nat) (x : R) : R := fst (cheb_pair n x).
(** where a point lies when [lb, ub] is moved to [-1, 1] *)
Definition position (lb ub x : R) : R := (x - (ub + lb) / 2) / ((ub - lb) / 2).
(** how much the filter of degree d enlarges the component of a vector at the eigenvalue x; inside [lb, ub] it is at most 1 *)
Definition amplification (lb ub x : R) (d : nat) : R := Rabs (cheb d (position lb ub x)).
(** the factor per degree *)
Definition rate (lb ub x : R) : R := let t := Rabs (position lb ub x) in t + sqrt (t * t - 1).

(** the degree is cut off by MaxDeg *)
Definition cut_off {F} (cf : conf F) (d : nat) : Prop := d = round_even (c_maxdeg cf).

(** the pairs move together: what was computed for position i follows the pair that was at position i *)
Definition joint_degrees {St} (K : kernel xr St) (unc locked : nat) (wanted : list nat) (a a' : cd_arrays (F := xr) (St := St)) : Prop :=
  exists sw, in_range unc sw /\ cd_deg a' = swps sw wanted /\ cd_ritz a' = swps sw (cd_ritz a) /\ cd_res a' = swps sw (cd_res a) /\
    cd_last a' = swps sw (cd_last a) /\ kswaps K locked sw (cd_k a) = Ok (cd_k a').

(** a kernel whose operations do nothing, for examples *)
Definition idle : kernel xr unit := {|
  k_sym := fun s => Ok (true, s); k_start := fun s => Ok s; k_end := fun s => Ok s; k_init := fun _ s => Ok s;
  k_shift := fun _ _ s => Ok s; k_hemm := fun _ _ _ _ s => Ok s; k_qr := fun _ _ s => Ok s; k_rr := fun _ s => Ok ([], s);
  k_resd := fun _ _ s => Ok ([], s); k_swap := fun _ _ s => Ok s; k_lock := fun _ s => Ok s;
  k_lanczos1 := fun _ s => Ok (None, s); k_lanczos2 := fun _ _ s => Ok (None, [], [], [], s); k_dos := fun _ _ _ s => Ok s |}.

(** a state before a later iteration: some pair locked, all residuals of the others at most 1/2, the last Ritz value x *)
Definition later_state {St} (cf : conf xr) (s : sstate (F := xr) (St := St)) (x : R) : Prop :=
  (1 <= ss_iter s /\ c_nex cf < ss_unconv s < c_nev cf + c_nex cf)%nat /\
  (c_nev cf + c_nex cf <= length (whole (ss_ritz s)))%nat /\ (ss_unconv s <= length (snd (ss_res s)))%nat /\
  nth_error (snd (ss_ritz s)) (ss_unconv s - 1) = Some (Some x) /\
  (forall i r, (i < ss_unconv s)%nat -> nth_error (snd (ss_res s)) i = Some r -> exists y, r = Some y /\ y <= 1 / 2).

(** a solve comes to such a state *)
Definition comes_to {St} huge gauss (K : kernel xr St) (fsort : list xr -> list xr) (sort_idx : list xr -> list nat) (cf : conf xr) (k : St)
  (ritzv resid : list xr) (ub : xr) (t : sstate (F := xr) (St := St)) : Prop :=
  exists k0 s0, (if c_symcheck cf then k_sym K k else Ok (true, k)) = Ok (true, k0) /\
    solve_init (rops huge gauss) K fsort cf k0 ritzv resid = Ok (ub, s0) /\ reach (rops huge gauss) K sort_idx cf ub s0 t /\
    (c_nex cf < ss_unconv t)%nat /\ (ss_iter t < c_maxiter cf)%nat.
