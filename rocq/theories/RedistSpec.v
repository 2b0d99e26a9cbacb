(** Specification of redistribution schedules. *)
From Coq Require Import List Arith.
Require Import Verif.RedistModel.
Import ListNotations.

(** What a schedule does, row by row: (destination, source, local position there, local position here). *)
Definition explode (rs : list run) : list (nat * nat * nat * nat) :=
  flat_map (fun r => map (fun t => (r_dest r, r_src r, r_dd r + t, r_sd r + t)) (seq 0 (r_len r))) rs.

(** [buf] holds, in columns off <= c < off + block, the rows [rows] of the global vectors V. *)
Definition holds {T} (rows : list nat) (off block ld : nat) (V : nat -> nat -> T) (buf : list T) : Prop :=
  forall a g c, nth_error rows a = Some g -> off <= c < off + block -> nth_error buf (a + c * ld) = Some (V g c).
