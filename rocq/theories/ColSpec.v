(** Specification vocabulary for the column backends. *)
From Coq Require Import List Arith ZArith.
Require Import Verif.Base Verif.AlgModel Verif.AlgSpec Verif.DlaModel Verif.ColModel.
Import ListNotations.

Section Spec.
Context {F V M G T : Type} (fo : fops F) (bl : blas F V M G T) (H0 : M).

(** the matrix after some shift(-c), shift(c) rounds; with exact additions this is the input matrix *)
Inductive drift : M -> Prop :=
| drift_0 : drift H0
| drift_S h c : drift h -> drift (b_shift bl (b_shift bl h (f_neg fo c)) c).

(** v and x are the i-th value and vector of the Rayleigh-Ritz problem of one basis cs: x is the combination of cs with the
    i-th eigenvector of A = cs^H (H^H cs), v its i-th eigenvalue *)
Definition ritz_pair (v : F) (x : V) : Prop := exists h cs i, drift h /\ i < length cs /\
  x = b_comb bl cs (b_gram bl cs (map (b_mulH bl h) cs)) i /\ v = b_eval bl (b_gram bl cs (map (b_mulH bl h) cs)) i.

(** r = || H^H x - v x || *)
Definition ritz_resid (v : F) (x : V) (r : F) : Prop := exists h, drift h /\
  r = b_nrm2 bl (b_axpy bl (b_inj bl (f_neg fo v)) x (b_mulH bl h x)).

(** in-place variant: the small matrix is (H^H cs)^H cs *)
Definition ritz_pair_inpl (v : F) (x : V) : Prop := exists h cs i, drift h /\ i < length cs /\
  x = b_comb bl cs (b_gram bl (map (b_mulH bl h) cs) cs) i /\ v = b_eval bl (b_gram bl (map (b_mulH bl h) cs) cs) i.

(** once a Cholesky step succeeded, the factorisation of the improved columns succeeds too *)
Definition no_late_failure (n : nat) : Prop := forall (cs : list V) (sh : bool) (R : G), length cs = n ->
  b_potrf bl (if sh then b_dshift bl (b_syherk bl cs) else b_syherk bl cs) = (0%Z, R) ->
  fst (b_potrf bl (b_syherk bl (map (b_trsm bl R cs) (seq 0 n)))) = 0%Z.

Lemma drift_exact : (forall h c, b_shift bl (b_shift bl h (f_neg fo c)) c = h) -> forall h, drift h -> h = H0.
Proof. intros E h H. induction H; auto. now rewrite E. Qed.
End Spec.

(** ** QR variants actually called, with their info *)
Inductive qr_call := QHouse | QChol1 | QChol2 | QShifted.

Section QrLog.
Context {F D : Type} (L : dla F D).
Let T : Type := (list (qr_call * Z) * D)%type.
Definition ql {X} (t : T) (x : res (X * D)) : res (X * T) := let! (v, d) := x in Ok (v, (fst t, d)).
Definition qs (t : T) (x : res D) : res T := let! d := x in Ok (fst t, d).
Definition qi (c : qr_call) (t : T) (x : res (Z * D)) : res (Z * T) := let! (i, d) := x in Ok (i, (fst t ++ [(c, i)], d)).
(** the same backend, recording the QR variants *)
Definition qlogD : dla F T := {|
  d_sym := fun t => ql t (d_sym L (snd t)); d_start := fun t => qs t (d_start L (snd t)); d_end := fun t => qs t (d_end L (snd t));
  d_initrnd := fun t => qs t (d_initrnd L (snd t)); d_init := fun t => qs t (d_init L (snd t));
  d_shift := fun c u t => qs t (d_shift L c u (snd t)); d_apply := fun a b o n l t => qs t (d_apply L a b o n l (snd t));
  d_hhqr := fun l t => let! d := d_hhqr L l (snd t) in Ok (fst t ++ [(QHouse, 0%Z)], d);
  d_chol1 := fun l t => qi QChol1 t (d_chol1 L l (snd t)); d_chol2 := fun l t => qi QChol2 t (d_chol2 L l (snd t));
  d_schol2 := fun l t => qi QShifted t (d_schol2 L l (snd t));
  d_lockcopy := fun l h t => qs t (d_lockcopy L l h (snd t)); d_rr := fun n l t => ql t (d_rr L n l (snd t));
  d_resd := fun v l n t => ql t (d_resd L v l n (snd t)); d_swap := fun i j t => qs t (d_swap L i j (snd t));
  d_mlanczos := fun m nv t => let! (d, e, b, x) := d_mlanczos L m nv (snd t) in Ok (d, e, b, (fst t, x));
  d_dos := fun i m rv t => qs t (d_dos L i m rv (snd t)) |}.
End QrLog.

(** documented selection: the environment variable, if set, overrides the configuration *)
Definition chol_disabled {F} (qe : qr_env F) : Prop :=
  match q_disable qe with Some z => z = 1%Z | None => q_chol qe = false end.
Definition lower_threshold {F} (qe : qr_env F) : F := match q_thld qe with Some t => t | None => q_lower qe end.
Definition fallback (i : Z) : list (qr_call * Z) := if (i =? 0)%Z then [] else [(QHouse, 0%Z)].
Inductive qr_table {F} (fo : fops F) (qe : qr_env F) (cond : F) : list (qr_call * Z) -> Prop :=
| qt_house : chol_disabled qe -> qr_table fo qe cond [(QHouse, 0%Z)]
| qt_shifted i : ~ chol_disabled qe -> f_lt fo (q_upper qe) cond = true -> qr_table fo qe cond ((QShifted, i) :: fallback i)
| qt_chol1 i : ~ chol_disabled qe -> f_lt fo (q_upper qe) cond = false -> f_lt fo cond (lower_threshold qe) = true ->
    qr_table fo qe cond ((QChol1, i) :: fallback i)
| qt_chol2 i : ~ chol_disabled qe -> f_lt fo (q_upper qe) cond = false -> f_lt fo cond (lower_threshold qe) = false ->
    qr_table fo qe cond ((QChol2, i) :: fallback i).

(** the shifted factorisation of the columns succeeds, the factorisation of the improved columns does not *)
Definition late_failure {F V M G T : Type} (bl : blas F V M G T) (n : nat) (s : cst (V := V) (M := M)) : bool :=
  let (i, R) := b_potrf bl (b_dshift bl (b_syherk bl (cs_C s))) in
  andb (i =? 0)%Z (negb (fst (b_potrf bl (b_syherk bl (map (b_trsm bl R (cs_C s)) (seq 0 n)))) =? 0)%Z).

(** The same backend, except that the shifted Cholesky variant is undefined in the states [late]: a run that returns here
    returns the same on [L] and never called that variant in such a state. *)
Definition stop_late {F D : Type} (late : D -> bool) (L : dla F D) : dla F D := {|
  d_sym := d_sym L; d_start := d_start L; d_end := d_end L; d_initrnd := d_initrnd L; d_init := d_init L; d_shift := d_shift L;
  d_apply := d_apply L; d_hhqr := d_hhqr L; d_chol1 := d_chol1 L; d_chol2 := d_chol2 L;
  d_schol2 := fun l d => if late d then UB else d_schol2 L l d;
  d_lockcopy := d_lockcopy L; d_rr := d_rr L; d_resd := d_resd L; d_swap := d_swap L; d_mlanczos := d_mlanczos L; d_dos := d_dos L |}.
