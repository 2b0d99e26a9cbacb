(** Programs of one MPI process that communicate through collectives on the row and column communicators of the process
    grid, and the execution of a p x q grid of such programs.  Process (i, j): i = its rank in its column communicator
    (members (0, j) .. (p-1, j)), j = its rank in its row communicator (members (i, 0) .. (i, q-1)).
    ChASE-MPI/chase_mpi_properties.hpp creates the two communicators; the collectives used by the kernels are
    AllReduce(MPI_SUM), AllReduce(MPI_LAND) and Bcast (ChASE-MPI/mpi_wrapper.hpp:86-140, MPI_Ibcast + MPI_Wait in
    ChASE-MPI/impl/chase_mpidla.hpp).
    Simplifications: a collective is synchronising (nobody proceeds before everybody arrived); this is weaker for the
    code than MPI, which may let members proceed earlier, so a program that never deadlocks here never deadlocks there.
    The reduction adds in rank order. *)
From Coq Require Import List Arith ZArith Bool.
Require Import Verif.Base.
Import ListNotations.

Inductive comm := ColC | RowC.
Definition comm_eqb (a b : comm) : bool := match a, b with ColC, ColC => true | RowC, RowC => true | _, _ => false end.

Section Spmd.
Context {D : Type}.

(** What one member contributes to a collective. *)
Inductive action := ASum (xs : list D) | ALand (b : bool) | ABcast (root count : nat) (xs : list D).
Inductive reply := RNums (xs : list D) | RFlag (b : bool).

(** [Bad]: undefined behaviour or an invalid argument in local code. *)
Inductive prog (A : Type) : Type :=
| Ret : A -> prog A
| Bad : prog A
| Call : comm -> action -> (reply -> prog A) -> prog A.
Arguments Ret {A} _.
Arguments Bad {A}.
Arguments Call {A} _ _ _.

Fixpoint pbind {A B} (x : prog A) (f : A -> prog B) : prog B :=
  match x with
  | Ret a => f a
  | Bad => Bad
  | Call c a k => Call c a (fun r => pbind (k r) f)
  end.
Definition local {A} (x : res A) : prog A := match x with Ok a => Ret a | UB => Bad | Fuel => Bad end.

(** ** The result of a collective, given the contributions in rank order; [None]: the calls do not match *)
Variable add : D -> D -> D.
Fixpoint zip_add (xs ys : list D) : list D :=
  match xs, ys with x :: xs', y :: ys' => add x y :: zip_add xs' ys' | _, _ => [] end.
Fixpoint sum_from (acc : list D) (acts : list action) : option reply :=
  match acts with
  | [] => Some (RNums acc)
  | ASum ys :: acts' => if length ys =? length acc then sum_from (zip_add acc ys) acts' else None
  | _ => None
  end.
Fixpoint land_from (acc : bool) (acts : list action) : option reply :=
  match acts with
  | [] => Some (RFlag acc)
  | ALand b :: acts' => land_from (acc && b) acts'
  | _ => None
  end.
Definition same_bcast (root count : nat) (a : action) : bool :=
  match a with ABcast r c _ => (r =? root) && (c =? count) | _ => false end.
Definition respond (acts : list action) : option reply :=
  match acts with
  | [] => None
  | ASum xs :: rest => sum_from xs rest
  | ALand b :: rest => land_from b rest
  | ABcast root count _ :: _ =>
    if forallb (same_bcast root count) acts then
      match nth_error acts root with
      | Some (ABcast _ _ xs) => if length xs =? count then Some (RNums xs) else None
      | _ => None
      end
    else None
  end.

(** ** The grid *)
Definition offer {A} (c : comm) (x : prog A) : option action :=
  match x with Call c' a _ => if comm_eqb c c' then Some a else None | _ => None end.
Fixpoint offers {A} (c : comm) (xs : list (prog A)) : option (list action) :=
  match xs with
  | [] => Some []
  | x :: xs' => match offer c x, offers c xs' with Some a, Some acts => Some (a :: acts) | _, _ => None end
  end.
Definition resume {A} (x : prog A) (r : reply) : prog A := match x with Call _ _ k => k r | _ => x end.

Definition gstate (A : Type) := nat -> nat -> prog A.
(** the members of communicator number x (a process column for [ColC], a process row for [RowC]) *)
Definition members {A} (p q : nat) (c : comm) (x : nat) (st : gstate A) : list (prog A) :=
  match c with ColC => map (fun i => st i x) (seq 0 p) | RowC => map (fun j => st x j) (seq 0 q) end.
Definition in_comm (c : comm) (x i j : nat) : bool := match c with ColC => j =? x | RowC => i =? x end.
Definition ncomm (p q : nat) (c : comm) : nat := match c with ColC => q | RowC => p end.

(** One collective completes: all members of one communicator wait in matching calls. *)
Inductive step {A} (p q : nat) : gstate A -> gstate A -> Prop :=
| fire c x acts r st st' :
    x < ncomm p q c -> offers c (members p q c x st) = Some acts -> respond acts = Some r ->
    (forall i j, i < p -> j < q -> st' i j = if in_comm c x i j then resume (st i j) r else st i j) ->
    step p q st st'.

(** ** Collectives as used by the kernels *)
(** mpi_wrapper.hpp:86-140: the element count is an [int]; size_t arguments are converted (mod 2^32, two's complement) *)
Definition cast_int (x : Z) : Z := ((x + 2 ^ 31) mod 2 ^ 32 - 2 ^ 31)%Z.
Definition mpi_count (dim : nat) : Z := cast_int (Z.of_nat dim).
(** mpi_wrapper.hpp:94,112,131: NCCL gets int(sizeof(T)/sizeof(Base<T>)) * count; [None]: signed overflow *)
Definition nccl_count (factor dim : nat) : option Z :=
  let c := (Z.of_nat factor * mpi_count dim)%Z in
  if ((- 2 ^ 31 <=? c) && (c <? 2 ^ 31))%Z then Some c else None.

(** AllReduce(MPI_SUM, in place) of dim elements at position off; a negative count is an error *)
Definition all_reduce (c : comm) (buf : list D) (off dim : nat) : prog (list D) :=
  if (mpi_count dim <? 0)%Z then Bad else
  match get_range buf off (Z.to_nat (mpi_count dim)) with
  | Ok xs => Call c (ASum xs) (fun r => match r with RNums ys => local (put_range buf off ys) | RFlag _ => Bad end)
  | _ => Bad
  end.
(** Bcast in place: the root sends [count] elements at off, the others receive there *)
Definition bcast (c : comm) (root me : nat) (buf : list D) (off dim : nat) : prog (list D) :=
  if (mpi_count dim <? 0)%Z then Bad else
  match get_range buf off (Z.to_nat (mpi_count dim)) with
  | Ok xs => Call c (ABcast root (Z.to_nat (mpi_count dim)) (if me =? root then xs else []))
      (fun r => match r with RNums ys => local (put_range buf off ys) | RFlag _ => Bad end)
  | _ => Bad
  end.
Definition all_land (c : comm) (b : bool) : prog bool :=
  Call c (ALand b) (fun r => match r with RFlag b' => Ret b' | RNums _ => Bad end).
End Spmd.
Arguments Ret {D A} _.
Arguments Bad {D A}.
Arguments Call {D A} _ _ _.
Arguments prog : clear implicits.
Arguments gstate : clear implicits.
Arguments action : clear implicits.
Arguments reply : clear implicits.

Notation "'let?' x ':=' e 'in' f" := (pbind e (fun x => f))
  (at level 200, x pattern, e at level 100, f at level 200, right associativity).
