(** The offset tables of the multi-GPU shift. *)
From Coq Require Import List Arith.
Require Import Verif.Base Verif.DistModel.
Import ListNotations.

(** chase_mpidla_mgpu.hpp:346-366: the local row and column of every diagonal entry this process holds, in the order pushed *)
Definition diag_tables (R C : dim) : res (list nat * list nat) :=
  for_ (d_blocks C) 0 (fun j o =>
    for_ (d_blocks R) 0 (fun i o =>
      let! clen := rd (d_lens C) j in let! coff := rd (d_offs C) j in let! cloc := rd (d_offs_l C) j in
      let! rlen := rd (d_lens R) i in let! roff := rd (d_offs R) i in let! rloc := rd (d_offs_l R) i in
      for_ clen 0 (fun q o => for_ rlen 0 (fun p o =>
        Ok (if q + coff =? p + roff then (fst o ++ [p + rloc], snd o ++ [q + cloc]) else o)) o) o) o) ([], []).
