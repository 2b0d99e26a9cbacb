(** Specification of the bound computed by the Lanczos routines. *)
From Coq Require Import List Arith.
Require Import Verif.Base Verif.AlgModel Verif.DlaModel.
Import ListNotations.

Definition le {F} (fo : fops F) (a b : F) : Prop := f_lt fo b a = false.
(** order laws: they hold for real numbers and for floating point numbers without NaN *)
Record ordered {F} (fo : fops F) : Prop := {
  or_total : forall a b, le fo a b \/ le fo b a;
  or_trans : forall a b c, le fo a b -> le fo b c -> le fo a c;
  or_add : forall a b, le fo (f_zero fo) b -> le fo a (f_add fo a b);
  or_abs0 : forall a, le fo (f_zero fo) (f_abs fo a);
  or_abs : forall lo x hi, le fo lo x -> le fo x hi -> le fo (f_abs fo x) (f_abs fo lo) \/ le fo (f_abs fo x) (f_abs fo hi)
}.
(** The k-th Ritz value of run i: eigenvalue k of the tridiagonal matrix of that run. *)
Definition ritz {F} (td : tridiag F) (d e : list F) (M i k : nat) : F :=
  td_val td (firstn M (skipn (i * M) d)) (firstn M (skipn (i * M) e)) k.
(** u is the maximum of |first|, |last| plus |beta| *)
Definition is_run_bound {F} (fo : fops F) (first last beta u : F) : Prop :=
  (u = f_add fo (f_abs fo first) (f_abs fo beta) /\ le fo (f_abs fo last) (f_abs fo first)) \/
  (u = f_add fo (f_abs fo last) (f_abs fo beta) /\ le fo (f_abs fo first) (f_abs fo last)).
