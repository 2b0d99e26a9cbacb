(** Model of ChasePerfData::get_flops and get_filter_flops (algorithm/performance.hpp:125-205).  size_t is Z modulo 2^64, double is
    IEEE binary64 with round-to-nearest-even (Flocq).  [factor]: std::pow(4, sizeof(T)/sizeof(Base<T>) - 1), 1 for real and 4 for
    complex scalars. *)
From Coq Require Import List ZArith Bool.
From Flocq Require Import Core BinarySingleNaN.
Require Import Verif.Base.
Import ListNotations.
Local Open Scope Z_scope.

Lemma p53 : Prec_gt_0 53. Proof. reflexivity. Qed.
Lemma m53 : Prec_lt_emax 53 1024. Proof. reflexivity. Qed.
Definition dbl := binary_float 53 1024.
Definition u2d (n : Z) : dbl := binary_normalize 53 1024 p53 m53 mode_NE n 0 false.      (* size_t or int to double *)
Definition dmul : dbl -> dbl -> dbl := @Bmult 53 1024 p53 m53 mode_NE.
Definition dadd : dbl -> dbl -> dbl := @Bplus 53 1024 p53 m53 mode_NE.
Definition ddiv : dbl -> dbl -> dbl := @Bdiv 53 1024 p53 m53 mode_NE.
(** double to size_t: truncation, undefined outside of the range *)
Definition d2u (d : dbl) : res Z :=
  if is_finite d && (0 <=? Btrunc d) && (Btrunc d <? 2 ^ 64) then Ok (Btrunc d) else UB.
Definition mulw (a b : Z) : Z := (a * b) mod 2 ^ 64.
Definition addw (a b : Z) : Z := (a + b) mod 2 ^ 64.

(** [flop_count += x] for a double x *)
Definition add_d (c : Z) (x : dbl) : res Z := d2u (dadd (u2d c) x).

(** performance.hpp:129-169: the body of the loop over the block sizes *)
Definition block_flops (N c b : Z) : res Z :=
  let! c := add_d c (dmul (dmul (dmul (u2d 2) (u2d N)) (u2d b)) (u2d b)) in                 (* :134 2. * N * block * block *)
  let! c := add_d c (dmul (dmul (dmul (u2d 2) (u2d b)) (u2d b)) (u2d b)) in                 (* :136 2. * block * block * block *)
  let! c := add_d c (dmul (dmul (dmul (u2d 2) (u2d N)) (u2d b)) (u2d b)) in                 (* :138 *)
  let c := addw c (mulw (mulw (mulw 2 N) b) N) in                                           (* :146 2 * N * block * N *)
  let c := addw c (mulw (mulw (mulw 2 b) b) N) in                                           (* :151 *)
  let c := addw c (mulw (mulw (mulw 4 b) b) b) in                                           (* :155 *)
  let c := addw c (mulw (mulw (mulw 2 N) b) b) in                                           (* :159 *)
  let c := addw c (mulw (mulw (mulw 2 N) b) N) in                                           (* :163 *)
  let c := addw c (mulw (mulw 3 b) N) in                                                    (* :167 *)
  Ok (addw c (mulw N b)).                                                                   (* :171 *)
Fixpoint blocks_flops (N : Z) (bs : list Z) (c : Z) : res Z :=
  match bs with [] => Ok c | b :: bs => let! c := block_flops N c b in blocks_flops N bs c end.
(** :125-182 *)
Definition get_flops (factor N : Z) (blocks : list Z) (vecs : Z) : res Z :=
  let! c := blocks_flops N blocks 0 in
  let c := addw c (mulw (mulw (mulw 2 N) vecs) N) in                                        (* :176 *)
  let c := mulw c factor in                                                                 (* :179 *)
  d2u (ddiv (u2d c) (u2d (10 ^ 9))).                                                        (* :181 *)
(** :199-205 *)
Definition get_filter_flops (factor N vecs : Z) : res Z :=
  d2u (ddiv (u2d (mulw (mulw (mulw (2 * factor) N) vecs) N)) (u2d (10 ^ 9))).
