(** Specification: the three-term recurrence of one Lanczos run, on its own. *)
From Coq Require Import List.
Require Import Verif.AlgModel Verif.ColModel.
Import ListNotations.

(** [prev] is the previous off-diagonal entry and vector, absent in the first step; the result lists the pairs
    (diagonal entry, norm of the remainder). *)
Fixpoint lanczos_steps {F V M G T} (fo : fops F) (bl : blas F V M G T) (H : M) (todo : nat) (prev : option (F * V)) (x : V) : list (F * F) :=
  match todo with
  | O => []
  | S t =>
    let w := b_mulH bl H x in
    let a := b_tneg bl (b_dot bl x w) in
    let w1 := b_axpy bl a x w in
    let w2 := match prev with None => w1 | Some (b, y) => b_axpy bl (b_inj bl (f_neg fo b)) y w1 end in
    let b := b_nrm2 bl w2 in
    (b_re bl (b_tneg bl a), b) :: lanczos_steps fo bl H t (Some (b, x)) (b_scal bl (b_inj bl (f_div fo (f_one fo) b)) w2)
  end.
