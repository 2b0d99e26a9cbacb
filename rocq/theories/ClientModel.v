(** Calls of the dense linear algebra interface as data, and programs ("clients") that make such calls. *)
From Coq Require Import List Arith ZArith.
Require Import Verif.Base Verif.AlgModel Verif.DlaModel Verif.SpmdModel.
Import ListNotations.

(** The functions of ChaseMpiDLAInterface that ChaseMpi calls (the fields of the record [dla]), with their arguments. *)
Inductive call (F : Type) : Type :=
| QSym | QStart | QEnd | QInitRnd | QInit
| QShift (c : F) (unshift : bool)
| QApply (alpha beta : F) (offset block locked : nat)
| QHhqr (locked : nat) | QChol1 (locked : nat) | QChol2 (locked : nat) | QSchol2 (locked : nat)
| QLockCopy (locked : nat) (hh : bool)
| QRr (block locked : nat)
| QResd (ritzv : list F) (locked unconverged : nat)
| QSwap (i j : nat)
| QLanczos (M : nat) (numvec : option nat)
| QDos (idx m : nat) (ritzVc : list F).
Arguments QSym {F}. Arguments QStart {F}. Arguments QEnd {F}. Arguments QInitRnd {F}. Arguments QInit {F}.
Arguments QShift {F}. Arguments QApply {F}. Arguments QHhqr {F}. Arguments QChol1 {F}. Arguments QChol2 {F}. Arguments QSchol2 {F}.
Arguments QLockCopy {F}. Arguments QRr {F}. Arguments QResd {F}. Arguments QSwap {F}. Arguments QLanczos {F}. Arguments QDos {F}.

(** what the caller gets back *)
Definition answer {F} (c : call F) : Type :=
  match c with
  | QSym => bool
  | QChol1 _ | QChol2 _ | QSchol2 _ => Z
  | QRr _ _ | QResd _ _ _ => list F
  | QLanczos _ _ => (list F * list F * list F)%type
  | _ => unit
  end.

(** A program that makes calls, one after the other, each depending on the answers so far. [CStop]: undefined behaviour
    or lack of fuel in the program's own code. *)
Inductive client (F A : Type) : Type :=
| CRet (a : A)
| CStop (x : res Empty_set)
| CDo (c : call F) (k : answer c -> client F A).
Arguments CRet {F A} _. Arguments CStop {F A} _. Arguments CDo {F A} _ _.

Definition unit_ans {S} (x : res S) : res (unit * S) := let! s := x in Ok (tt, s).
(** one call on a backend *)
Definition exec {F S} (L : dla F S) (c : call F) : S -> res (answer c * S) :=
  match c return S -> res (answer c * S) with
  | QSym => d_sym L
  | QStart => fun s => unit_ans (d_start L s)
  | QEnd => fun s => unit_ans (d_end L s)
  | QInitRnd => fun s => unit_ans (d_initrnd L s)
  | QInit => fun s => unit_ans (d_init L s)
  | QShift c u => fun s => unit_ans (d_shift L c u s)
  | QApply a b off blk l => fun s => unit_ans (d_apply L a b off blk l s)
  | QHhqr l => fun s => unit_ans (d_hhqr L l s)
  | QChol1 l => d_chol1 L l
  | QChol2 l => d_chol2 L l
  | QSchol2 l => d_schol2 L l
  | QLockCopy l h => fun s => unit_ans (d_lockcopy L l h s)
  | QRr blk l => d_rr L blk l
  | QResd v l u => d_resd L v l u
  | QSwap i j => fun s => unit_ans (d_swap L i j s)
  | QLanczos M nv => d_mlanczos L M nv
  | QDos i m rv => fun s => unit_ans (d_dos L i m rv s)
  end.
Fixpoint run_client {F S A} (L : dla F S) (t : client F A) (s : S) : res (A * S) :=
  match t with
  | CRet a => Ok (a, s)
  | CStop x => match x with Ok e => match e with end | UB => UB | Fuel => Fuel end
  | CDo c k => let! (a, s1) := exec L c s in run_client L (k a) s1
  end.
(** the same program on one process of a grid; [ker]: the process's programs for the calls *)
Fixpoint run_proc {F D S A} (ker : forall c : call F, S -> prog D (answer c * S)) (t : client F A) (s : S) : prog D (A * S) :=
  match t with
  | CRet a => Ret (a, s)
  | CStop _ => Bad
  | CDo c k => pbind (ker c s) (fun r => run_proc ker (k (fst r)) (snd r))
  end.
