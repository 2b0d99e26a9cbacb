(** What asynchronous execution is compared with: every call takes effect when it is made. *)
From Coq Require Import List Arith ZArith Bool.
Require Import Verif.Base Verif.AlgModel Verif.DlaModel Verif.ColModel Verif.AsyncModel Verif.GpuModel.
Import ListNotations.

(** program order *)
Fixpoint in_order {D A} (p : prog D A) (d : D) : res (A * D) :=
  match p with
  | Ret a => Ok (a, d)
  | Bad => UB
  | Dev _ f k => let! d' := f d in in_order k d'
  | Get _ f k => let! x := f d in in_order (k x) d
  | Direct f k => let! d' := f d in in_order k d'
  end.
(** device memory after everything that is still waiting has run, oldest first *)
Fixpoint drained {D} (q : list (op D)) (d : D) : res D := match q with [] => Ok d | (_, f) :: q' => let! d' := f d in drained q' d' end.
Definition finished {D} (c : cfg D) : res D := drained (c_queue c) (c_mem c).

(** the program uses only streams of [U] *)
Fixpoint uses {D A} (U : stream -> Prop) (p : prog D A) : Prop :=
  match p with
  | Ret _ | Bad => True
  | Dev s _ k => U s /\ uses U k
  | Get s _ k => U s /\ forall x, uses U (k x)
  | Direct _ k => uses U k
  end.
(** device memory is accessed from outside only when nothing is waiting ([idle]: the last call waited) *)
Fixpoint guarded {D A} (idle : bool) (p : prog D A) : Prop :=
  match p with
  | Ret _ | Bad => True
  | Dev _ _ k => guarded false k
  | Get _ _ k => forall x, guarded true (k x)
  | Direct _ k => idle = true /\ guarded idle k
  end.
(** no two of the streams can run out of order *)
Definition one_line (U : stream -> Prop) : Prop := forall a b, U a -> U b -> ordered a b = true.

(** host part [h] and device memory [d] make up the object [g] of the program-order model *)
Definition makes_up {F V M G : Type} (h : hobj (V := V) (M := M)) (d : dev (F := F) (V := V) (M := M) (G := G)) (g : gst (F := F) (V := V) (M := M)) : Prop :=
  g = mk_gst (h_H h) (h_V1 h)
        (mk_ist (v_H d) (if h_sw h then v_Y d else v_X d) (if h_sw h then v_X d else v_Y d) (h_sw h)) (v_ritz d) /\
  length (v_res d) = length (v_ritz d).
(** the solver object on the asynchronous machine stands for [g]: it will be [g] once the device has finished *)
Definition stands_for {F V M G : Type} (s : ast (F := F) (V := V) (M := M) (G := G)) (g : gst (F := F) (V := V) (M := M)) : Prop :=
  exists d, finished (t_cfg s) = Ok d /\ Forall (fun o => fst o = Legacy \/ fst o = Blk 0) (c_queue (t_cfg s)) /\ makes_up (t_obj s) d g.
