(** Specification of the filter, column by column: an abstract three-term recurrence. *)
From Coq Require Import List Arith Bool.
Require Import Verif.AlgModel Verif.AlgSpec Verif.ColModel.
Import ListNotations.

(** x_0 = x, x_{-1} = y, x_i = op i x_{i-1} x_{i-2}; the pair (x_i, x_{i-1}) *)
Fixpoint three_term {V} (op : nat -> V -> V -> V) (x y : V) (i : nat) : V * V :=
  match i with
  | O => (x, y)
  | S k => let p := three_term op x y k in (op (S k) (fst p) (snd p), fst p)
  end.

(** degree that the filter applies to column [j] when [l] columns are locked and [degs] are the degrees of the others *)
Definition deg_of (l : nat) (degs : list nat) (j : nat) : nat := if j <? l then 0 else nth (j - l) degs 0.

Section Params.
Context {F : Type} (fo : fops F) (la lo up : F).
Definition f_c : F := f_div fo (f_add fo up lo) (f_two fo).
Definition f_e : F := f_div fo (f_sub fo up lo) (f_two fo).
Definition f_s1 : F := f_div fo f_e (f_sub fo la f_c).
Definition f_alpha (i : nat) : F := alpha_ fo f_s1 f_e i.
Definition f_beta (i : nat) : F := beta_ fo f_s1 i.
End Params.

(** the i-th product of the filter on one column *)
Section Ops.
Context {F V M G T : Type} (fo : fops F) (bl : blas F V M G T).
(** the products: H^H in odd steps, H in even ones *)
Definition col_op (H : M) (la lo up : F) (i : nat) (p q : V) : V :=
  (if Nat.even i then b_gemmN bl else b_gemmH bl) (b_shift bl H (f_neg fo (f_c fo lo up)))
     (f_alpha fo la lo up i) (f_beta fo la lo up i) p q.

(** in-place backend *)
Definition inpl_op (H : M) (la lo up : F) (i : nat) (p q : V) : V :=
  b_gemmN bl (b_shift bl H (f_neg fo (f_c fo lo up))) (f_alpha fo la lo up i) (f_beta fo la lo up i) p q.

End Ops.
