(** A pair of dependent columns on which the second factorisation of shiftedcholQR2 fails.  Rational arithmetic with a
    not-a-number value; square roots are those of squares of rationals.  Used for a counterexample only. *)
From Coq Require Import List Arith ZArith QArith Bool.
Require Import Verif.Base Verif.AlgModel Verif.DlaModel Verif.ColModel Verif.ColEx.
Import ListNotations.
Local Open Scope nat_scope.

(** a number, or None for NaN and infinities *)
Definition num := option Q.
Definition nop (f : Q -> Q -> Q) (a b : num) : num := match a, b with Some x, Some y => Some (Qred (f x y)) | _, _ => None end.
Definition nmul := nop Qmult. Definition nsub := nop Qminus. Definition nadd := nop Qplus.
Definition ndiv (a b : num) : num := match b with Some y => if Qeq_bool y 0%Q then None else nop Qdiv a b | None => None end.
Definition nsqrt (a : num) : num :=
  match a with
  | Some x => let n := Z.sqrt (Qnum x) in let d := Z.sqrt (Z.pos (Qden x)) in
              if ((n * n =? Qnum x) && (d * d =? Z.pos (Qden x)))%Z then Some (Qred (Qdiv (inject_Z n) (inject_Z d))) else None
  | None => None
  end.
(** LAPACK's test for a pivot: ajj <= 0 or ajj is NaN *)
Definition bad_pivot (a : num) : bool := match a with Some x => Qle_bool x 0%Q | None => true end.

(** columns of length two, and the upper triangle of a 2x2 matrix *)
Definition nvec : Type := num * num.
Definition tri : Type := num * num * num.
Definition ndot (x y : nvec) : num := nadd (nmul (fst x) (fst y)) (nmul (snd x) (snd y)).
Definition nlin (x : nvec) (a : num) (y : nvec) : nvec := (nsub (fst x) (nmul a (fst y)), nsub (snd x) (nmul a (snd y))).
Definition nscale (x : nvec) (d : num) : nvec := (ndiv (fst x) d, ndiv (snd x) d).
Definition nz : nvec := (Some 0, Some 0)%Q.
Definition col2 (cs : list nvec) (j : nat) : nvec := nth j cs nz.

Definition n_syherk (cs : list nvec) : tri :=
  (ndot (col2 cs 0) (col2 cs 0), ndot (col2 cs 0) (col2 cs 1), ndot (col2 cs 1) (col2 cs 1)).
Definition n_shift (sh : Q) (g : tri) : tri := let '(a, b, c) := g in (nadd a (Some sh), b, nadd c (Some sh)).
(** unblocked Cholesky: stops at the first bad pivot, which stays in place *)
Definition n_potrf (g : tri) : Z * tri :=
  let '(a, b, c) := g in
  if bad_pivot a then (1%Z, g)
  else
    let r := nsqrt a in let u := ndiv b r in let t := nsub c (nmul u u) in
    if bad_pivot t then (2%Z, (r, u, t)) else (0%Z, (r, u, nsqrt t)).
(** X := C R^-1 *)
Definition n_trsm (g : tri) (cs : list nvec) (j : nat) : nvec :=
  let '(r, u, t) := g in
  let w := nscale (col2 cs 0) r in
  match j with 0 => w | _ => nscale (nlin (col2 cs 1) u w) t end.
(** Q factor of a 2x2 matrix: the first column normalised and the vector orthogonal to it *)
Definition n_hh (cs : list nvec) (j : nat) : nvec :=
  let x := col2 cs 0 in
  let q := if bad_pivot (ndot x x) then match x with (Some _, Some _) => (Some 1, Some 0)%Q | _ => (None, None) end
           else nscale x (nsqrt (ndot x x)) in
  let y := col2 cs 1 in
  match j with
  | 0 => q
  | _ => match y with (Some _, Some _) => (nsub (Some 0%Q) (snd q), fst q) | _ => (None, None) end
  end.

Definition nanB : blas Q nvec unit tri num := {|
  b_gemmN := fun _ _ _ x _ => x; b_gemmH := fun _ _ _ x _ => x; b_mulN := fun _ x => x; b_mulH := fun _ x => x;
  b_shift := fun h _ => h; b_rnd := fun _ => nz; b_test := nz; b_veq := fun _ _ => true; b_zero := nz;
  b_hh := n_hh; b_syherk := n_syherk; b_dshift := n_shift (9 # 16); b_potrf := n_potrf; b_trsm := n_trsm;
  b_gram := fun a _ => n_syherk a; b_eval := fun _ _ => 0%Q; b_comb := fun cs _ j => col2 cs j; b_combl := fun cs _ j => col2 cs j;
  b_inj := fun x => Some x; b_re := fun _ => 0%Q; b_tneg := fun x => x;
  b_dot := ndot; b_axpy := fun a x y => y; b_scal := fun a x => x; b_nrm2 := fun _ => 0%Q |}.

(** two parallel columns (1,0) and (3,0); nothing locked *)
Definition dep0 : cm (D := cst (V := nvec) (M := unit)) :=
  mk_cm 0 (mk_cst tt [(Some 1, Some 0); (Some 3, Some 0)] [nz; nz] [nz; nz] [nz; nz] true)%Q.
Definition qsh : qr_env Q := mk_qe _ true None None 100%Q 10%Q.

Lemma dep_witness :
  (exists s, cm_qr qf qsh (colD qf nanB false 2) 0 1000%Q dep0 = Ok s /\ cs_C (cm_dla s) = [(Some 1%Q, Some 0%Q); (None, None)]) /\
  (exists s, cm_qr qf qsh (colD qf nanB true 2) 0 1000%Q dep0 = Ok s /\ cs_C (cm_dla s) = [(Some 1%Q, Some 0%Q); (Some 0%Q, Some 1%Q)]) /\
  (exists s, cm_qr qf (mk_qe _ true (Some 1%Z) None 100%Q 10%Q) (colD qf nanB false 2) 0 1000%Q dep0 = Ok s /\
     cs_C (cm_dla s) = [(Some 1%Q, Some 0%Q); (Some 0%Q, Some 1%Q)]).
Proof. repeat split; eexists; split; vm_compute; reflexivity. Qed.
