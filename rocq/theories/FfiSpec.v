(** Specification for calls from Fortran: what the caller has in memory and what the caller reads back. *)
From Coq Require Import List ZArith NArith QArith String.
Require Import Verif.Base Verif.ConfigModel Verif.FfiModel.
Import ListNotations.
Local Open Scope Z_scope.

(** the n bytes from address a on are those of w (floor division: two's complement for negative w) *)
Definition bytes_at (n : nat) (m : mem) (a w : Z) : Prop :=
  forall k, 0 <= k < Z.of_nat n -> m (a + k) = Some ((w / 256 ^ k) mod 256).
(** an INTEGER variable with value z; a real variable with bit pattern w *)
Definition int_at (m : mem) (a z : Z) : Prop := - 2 ^ 31 <= z < 2 ^ 31 /\ bytes_at 4 m a z.
Definition size_at (m : mem) (a z : Z) : Prop := 0 <= z /\ int_at m a z.
Definition word_at (n : nat) (m : mem) (a w : Z) : Prop := 0 <= w < 256 ^ Z.of_nat n /\ bytes_at n m a w.
Definition char_at (m : mem) (a c : Z) : Prop := m a = Some c.
(** n bytes that may be written *)
Definition room (n : nat) (m : mem) (a : Z) : Prop := forall k, 0 <= k < Z.of_nat n -> m (a + k) <> None.
Definition same_outside (n : nat) (a : Z) (m m' : mem) : Prop := forall x, x < a \/ a + Z.of_nat n <= x -> m' x = m x.
(** the flag is set and nothing else is touched *)
Definition flagged (z a : Z) (m m' : mem) : Prop := int_at m' a z /\ same_outside 4 a m m'.
(** characters at consecutive addresses, none of them 0 *)
Definition text_at (m : mem) (p : Z) (s : list Z) : Prop :=
  forall i c, nth_error s i = Some c -> c <> 0 /\ m (p + Z.of_nat i) = Some c.

(** the type a Fortran interface gives to one of its dummy arguments *)
Definition declared (t : scalar) (r : routine) (name : string) : option elem :=
  option_map snd (find (fun d => String.eqb (fst d) name) (f_decl t r)).

(** value of a normal IEEE number with mb mantissa bits and eb exponent bits *)
Definition ieee (mb eb w : Z) : Q :=
  let mant := w mod 2 ^ mb in let ex := (w / 2 ^ mb) mod 2 ^ eb in let s := w / 2 ^ (mb + eb) in
  (inject_Z (if s =? 0 then 1 else -1) * inject_Z (2 ^ mb + mant) * Qpower 2 (ex - (2 ^ (eb - 1) - 1) - mb))%Q.
Definition float_of (w : Z) : Q := ieee 23 8 w.
Definition double_of (w : Z) : Q := ieee 52 11 w.
