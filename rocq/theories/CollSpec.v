(** What the users of the collectives expect, component by component. *)
From Coq Require Import List ZArith.
Require Import Verif.CollModel.
Import ListNotations.

Section Spec.
  Context {R : Type}.

  (** sum of one component over the processes *)
  Fixpoint total (z : R) (plus : R -> R -> R) (l : list R) : R := match l with [] => z | x :: l' => plus x (total z plus l') end.

  (** the first k components of every process hold the sums over the processes; nothing else changed *)
  Definition summed (z : R) (plus : R -> R -> R) (k : nat) (bufs bufs' : list (list R)) : Prop :=
    length bufs' = length bufs /\
    forall r b, nth_error bufs r = Some b ->
      exists b', nth_error bufs' r = Some b' /\ length b' = length b /\
        (forall i, (i < k)%nat -> nth_error b' i = Some (total z plus (map (fun c => nth i c z) bufs))) /\
        (forall i, (k <= i)%nat -> nth_error b' i = nth_error b i).

  (** the first k components of every process are those of the process [root] *)
  Definition broadcast (k root : nat) (bufs bufs' : list (list R)) : Prop :=
    length bufs' = length bufs /\
    forall r b s, nth_error bufs r = Some b -> nth_error bufs root = Some s ->
      exists b', nth_error bufs' r = Some b' /\ length b' = length b /\
        (forall i, (i < k)%nat -> nth_error b' i = nth_error s i) /\
        (forall i, (k <= i)%nat -> nth_error b' i = nth_error b i).

  Definition addition (z : R) (plus : R -> R -> R) : Prop :=
    (forall a, plus a z = a) /\ (forall a b c, plus a (plus b c) = plus (plus a b) c) /\ (forall a b, plus a b = plus b a).

  (** complex product of the contributions, for pairs *)
  Definition cprod (sub add mul : R -> R -> R) (a b : R * R) : R * R :=
    (sub (mul (fst a) (fst b)) (mul (snd a) (snd b)), add (mul (fst a) (snd b)) (mul (snd a) (fst b))).
End Spec.
