(** What the GPU backends need from cuSOLVER's answers about work areas. *)
From Coq Require Import List Arith ZArith.
Require Import Verif.AlgTrace Verif.DwModel.
Import ListNotations.

(** sizes of the projected eigenproblems in a list of calls *)
Definition rr_blocks {F} (l : list (call F)) : list nat := flat_map (fun c => match c with CRr b => [b] | _ => [] end) l.

(** a smaller eigenproblem in the same array needs no more than the full one *)
Definition heevd_grows (L : dlib) (M : nat) : Prop := forall b, b <= M -> (dl_need L (Dheevd b M) <= dl_need L (Dheevd M M))%Z.

(** largest answer for the problems of full size *)
Definition asked (L : dlib) (gk : gpus) (rows M : nat) (z : Z) : Prop :=
  In z (match gk with GOne => [dl_need L (Dgeqrf rows M rows); dl_need L (Dgqr rows M M rows)] | GMany => [0%Z] end ++
        [dl_need L (Dheevd M M); dl_need L (Dpotrf M M)]) /\
  Forall (fun y => (y <= z)%Z) (match gk with GOne => [dl_need L (Dgeqrf rows M rows); dl_need L (Dgqr rows M M rows)] | GMany => [0%Z] end ++
        [dl_need L (Dheevd M M); dl_need L (Dpotrf M M)]).
