(** Integers stored into floating-point numbers, and the numerical libraries the templates work with. *)
From Coq Require Import List ZArith String Bool.
Require Import Verif.Base Verif.ConfigModel Verif.BlasDoc Verif.WrapModel Verif.WrapSpec.
Local Open Scope Z_scope.

(** the number with a significand of p bits that is nearest to z > 0, of two the even one *)
Definition nearest (p z : Z) : Z :=
  let u := 2 ^ Z.max 0 (Z.log2 z + 1 - p) in
  let q := z / u in let r := z mod u in
  if 2 * r <? u then q * u else if u <? 2 * r then (q + 1) * u else if Z.even q then q * u else (q + 1) * u.
(** the least such number that is not below z *)
Definition upward (p z : Z) : Z :=
  let u := 2 ^ Z.max 0 (Z.log2 z + 1 - p) in - (- z / u) * u.
Definition bits (double : bool) : Z := if double then 53 else 24.

(** The library asks for at least what it needs, and less than an int can hold. *)
Definition asks_enough (lb : lib) (r : string) : Prop := forall i w, 0 <= least lb r i w <= opt lb r i w /\ opt lb r i w < 2 ^ 31.

(** The single precision eigensolver of LAPACK, as documented: it needs and reports 1 + 6 n + 2 n^2 numbers, and 3 + 5 n integers. *)
Definition syevd_needs (lb : lib) : Prop :=
  forall i w, let n := int_of i "n" in
    let need := match w with WInt => 3 + 5 * n | _ => 1 + 6 * n + 2 * n * n end in
    least lb "ssyevd" i w = need /\ opt lb "ssyevd" i w = need.
(** nothing was computed: the program stops, or returns the status "parameter 8 is illegal" *)
Definition refused (cf : conf) (o : outcome) : Prop :=
  match o with
  | Stop v s => done s = nil /\ v = RInt (2 ^ 64 - 8) /\ ndebug cf = true
  | Abort s => done s = nil /\ ndebug cf = false
  | _ => False
  end.
