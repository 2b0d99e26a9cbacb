(** The collectives of ChASE-MPI/mpi_wrapper.hpp.  The buffer of a process is the list of its real components (a complex number is two of
    them, real part first, as std::complex and MPI_COMPLEX lay them out), starting at the pointer handed to the call.  [Undef] is undefined
    behaviour, [Abort] an MPI error under MPI_ERRORS_ARE_FATAL, [Throw] the std::out_of_range of std::map::at. *)
From Coq Require Import List ZArith Bool.
Import ListNotations.
Local Open Scope Z_scope.

Inductive scalar := SFloat | SDouble | SComplex | SDComplex.
Inductive mpi_type := MPI_FLOAT | MPI_DOUBLE | MPI_COMPLEX | MPI_DOUBLE_COMPLEX | MPI_INT.
Inductive nccl_type := ncclFloat | ncclDouble.
Inductive mpi_op := MPI_MAX | MPI_MIN | MPI_SUM | MPI_PROD.
Inductive nccl_op := ncclMax | ncclMin | ncclSum | ncclProd.
Inductive outcome (B : Type) := Done (b : B) | Undef | Abort | Throw.
Arguments Done {B}. Arguments Undef {B}. Arguments Abort {B}. Arguments Throw {B}.

(** sizeof(T) / sizeof(Base<T>) *)
Definition parts (t : scalar) : Z := match t with SFloat | SDouble => 1 | SComplex | SDComplex => 2 end.
(** chase_mpi_properties.hpp:27-49 getMPI_Type<T> *)
Definition mpi_type_of (t : scalar) : mpi_type :=
  match t with SFloat => MPI_FLOAT | SDouble => MPI_DOUBLE | SComplex => MPI_COMPLEX | SDComplex => MPI_DOUBLE_COMPLEX end.
(** mpi_wrapper.hpp:42-49 with HAS_NCCL: the maps of Comm() *)
Definition datatype_map (d : mpi_type) : option nccl_type :=
  match d with
  | MPI_DOUBLE => Some ncclDouble
  | MPI_FLOAT => Some ncclFloat
  | MPI_COMPLEX => Some ncclFloat
  | MPI_DOUBLE_COMPLEX => Some ncclDouble
  | MPI_INT => None
  end.
Definition opt_map (o : mpi_op) : option nccl_op :=
  match o with MPI_MAX => Some ncclMax | MPI_MIN => Some ncclMin | MPI_SUM => Some ncclSum | MPI_PROD => Some ncclProd end.
(** the type of the components a buffer of T really holds *)
Definition base_is (t : scalar) (n : nccl_type) : bool :=
  match t, n with SFloat, ncclFloat | SComplex, ncclFloat | SDouble, ncclDouble | SDComplex, ncclDouble => true | _, _ => false end.

(** std::size_t -> int, at the calls of AllReduce and Bcast in chase_mpidla.hpp *)
Definition narrow (z : Z) : Z := let r := z mod 2 ^ 32 in if r <? 2 ^ 31 then r else r - 2 ^ 32.
Definition is_int (z : Z) : bool := (- 2 ^ 31 <=? z) && (z <? 2 ^ 31).

Record arith (R : Type) := Arith { zero : R; add : R -> R -> R; sub : R -> R -> R; mul : R -> R -> R; mx : R -> R -> R; mn : R -> R -> R }.
Arguments zero {R}. Arguments add {R}. Arguments sub {R}. Arguments mul {R}. Arguments mx {R}. Arguments mn {R}.

Section Coll.
  Context {R : Type} (o : arith R).

  Definition nccl_fun (p : nccl_op) : R -> R -> R :=
    match p with ncclMax => mx o | ncclMin => mn o | ncclSum => add o | ncclProd => mul o end.
  (** component-wise, as long as the shorter of the two *)
  Fixpoint zip (f : R -> R -> R) (a b : list R) : list R :=
    match a, b with x :: a', y :: b' => f x y :: zip f a' b' | _, _ => [] end.
  (** complex product of two arrays of pairs *)
  Fixpoint cmul (a b : list R) : list R :=
    match a, b with
    | x :: x' :: a', y :: y' :: b' =>
        sub o (mul o x y) (mul o x' y') :: add o (mul o x y') (mul o x' y) :: cmul a' b'
    | _, _ => []
    end.
  (** the operation of MPI on arrays of a datatype; MPI_MAX and MPI_MIN are not defined on complex numbers *)
  Definition mpi_fun (t : scalar) (p : mpi_op) : option (list R -> list R -> list R) :=
    match p, parts t with
    | MPI_SUM, _ => Some (zip (add o))
    | MPI_PROD, 1 => Some (zip (mul o))
    | MPI_PROD, _ => Some cmul
    | MPI_MAX, 1 => Some (zip (mx o))
    | MPI_MIN, 1 => Some (zip (mn o))
    | _, _ => None
    end.

  (** the contributions combined in rank order; the library may choose any order *)
  Definition combine (f : list R -> list R -> list R) (l : list (list R)) : list R :=
    match l with [] => [] | a :: l' => fold_left f l' a end.

  (** every process ends with the combination in its first k components *)
  Definition reduce_first (f : list R -> list R -> list R) (k : nat) (bufs : list (list R)) : outcome (list (list R)) :=
    if forallb (fun b => (k <=? length b)%nat) bufs
    then Done (map (fun b => combine f (map (firstn k) bufs) ++ skipn k b) bufs)
    else Undef.

  Definition MPI_Allreduce (t : scalar) (count : Z) (p : mpi_op) (bufs : list (list R)) : outcome (list (list R)) :=
    if count <? 0 then Abort
    else match mpi_fun t p with
         | None => Abort
         | Some f => reduce_first f (Z.to_nat (parts t * count)) bufs
         end.
  (** the count of ncclAllReduce is a std::size_t *)
  Definition ncclAllReduce (t : scalar) (count : Z) (d : nccl_type) (p : nccl_op) (bufs : list (list R)) : outcome (list (list R)) :=
    if base_is t d then reduce_first (zip (nccl_fun p)) (Z.to_nat (count mod 2 ^ 64)) bufs else Undef.

  Inductive backend := MPI_BACKEND | NCCL_BACKEND.

  (** mpi_wrapper.hpp:104-122 AllReduce in place; [nccl] is HAS_NCCL, [known] whether Comm::add registered the communicator.
      Without HAS_NCCL the switch has no case for another backend *)
  Definition AllReduce (nccl : bool) (be : backend) (known : bool) (t : scalar) (p : mpi_op) (count : Z) (bufs : list (list R)) :=
    match be with
    | NCCL_BACKEND =>
        if nccl then
          if is_int (parts t * count) then
            match datatype_map (mpi_type_of t), opt_map p, known with
            | Some d, Some q, true => ncclAllReduce t (parts t * count) d q bufs
            | _, _, _ => Throw
            end
          else Undef
        else Done bufs
    | MPI_BACKEND => MPI_Allreduce t count p bufs
    end.

  Definition bcast_first (k : nat) (root : Z) (bufs : list (list R)) : outcome (list (list R)) :=
    match (if root <? 0 then None else nth_error bufs (Z.to_nat root)) with
    | None => Abort
    | Some s => if forallb (fun b => (k <=? length b)%nat) bufs
                then Done (map (fun b => firstn k s ++ skipn k b) bufs) else Undef
    end.
  (** mpi_wrapper.hpp:124-141 Bcast *)
  Definition Bcast (nccl : bool) (be : backend) (known : bool) (t : scalar) (count root : Z) (bufs : list (list R)) :=
    match be with
    | NCCL_BACKEND =>
        if nccl then
          if is_int (parts t * count) then
            match datatype_map (mpi_type_of t), known with
            | Some d, true => if base_is t d then bcast_first (Z.to_nat (parts t * count mod 2 ^ 64)) root bufs else Undef
            | _, _ => Throw
            end
          else Undef
        else Done bufs
    | MPI_BACKEND => if count <? 0 then Abort else bcast_first (Z.to_nat (parts t * count)) root bufs
    end.

  (** chase_mpidla.hpp:316-345 allreduce_backend and bcast_backend *)
  Definition chosen (nccl cuda_aware : bool) : backend := if cuda_aware then if nccl then NCCL_BACKEND else MPI_BACKEND else MPI_BACKEND.

  (** a call site: the number of elements is a std::size_t, e.g. dim = n_ * block at chase_mpidla.hpp:485,494 *)
  Definition site_sum (nccl aware : bool) (t : scalar) (dim : Z) (bufs : list (list R)) :=
    AllReduce nccl (chosen nccl aware) true t MPI_SUM (narrow dim) bufs.
  Definition site_bcast (nccl aware : bool) (t : scalar) (dim root : Z) (bufs : list (list R)) :=
    Bcast nccl (chosen nccl aware) true t (narrow dim) root bufs.
End Coll.
