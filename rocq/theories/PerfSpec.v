(** What the performance data should be, in terms of the calls made. *)
From Coq Require Import List Arith ZArith Bool.
Require Import Verif.Base Verif.AlgModel Verif.AlgSpec Verif.AlgTrace Verif.PerfModel.
Import ListNotations.
Local Open Scope Z_scope.

(** measured time of a timer: sum of its intervals (as many ends as starts) *)
Definition zsum (l : list Z) : Z := fold_right Z.add 0 l.
Definition measured (p : perf) (t : timer) : Z := zsum (p_ends p t) - zsum (p_starts p t).
Definition balanced (p : perf) : Prop := forall t, length (p_starts p t) = length (p_ends p t).

Definition monotone (clk : nat -> Z) : Prop := forall i j, (i <= j)%nat -> clk i <= clk j.

(** block sizes of the Rayleigh-Ritz calls in a log *)
Definition rr_blocks {F} (log : list (call F)) : list nat :=
  flat_map (fun c => match c with CRr n => [n] | _ => [] end) log.
Definition count_calls {F} (f : call F -> bool) (log : list (call F)) : nat := length (filter f log).
Definition is_lock {F} (c : call F) : bool := match c with CLock _ => true | _ => false end.
Definition is_rr {F} (c : call F) : bool := match c with CRr _ => true | _ => false end.
Definition is_qr {F} (c : call F) : bool := match c with CQr _ _ => true | _ => false end.
Definition is_init {F} (c : call F) : bool := match c with CInit _ => true | _ => false end.
Definition is_lanczos {F} (c : call F) : bool := match c with CLanczos1 _ | CLanczos2 _ _ | CDos _ _ => true | _ => false end.
Definition is_shift {F} (c : call F) : bool := match c with CShift _ true => true | _ => false end.
(** calls that a timer brackets *)
Definition sections {F} (t : timer) (log : list (call F)) : nat :=
  match t with
  | TAll => 1
  | TInit => count_calls is_init log
  | TLanczos => count_calls is_lanczos log
  | TFilter => count_calls is_shift log
  | TQr => count_calls is_qr log
  | TRr => count_calls is_rr log
  | TResid => count_calls is_lock log
  end.
