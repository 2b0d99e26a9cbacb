(** The templates of ChASE-MPI/blas_templates.inc that call no library routine: t_sqrt_norm, t_norm_p2 and the complex t_dot.
    Numbers are abstract ([add], [mul], [conj], [zero]: the operations of the machine); an array is a partial function from indices,
    None outside of it; reading there and the overflow of the signed loop counter are undefined behaviour. *)
From Coq Require Import List ZArith.
Require Import Verif.Base.
Local Open Scope Z_scope.

Section Norm.
  Context {T R : Type} (zero : R) (add : R -> R -> R).

  (** for (int i = 0; i < n; i++) norm += f(i);  the comparison converts i to std::size_t, i++ is signed;
      blas_templates.inc:50-52,60-62,70-72,80-82,199-201 *)
  Definition int_max : Z := 2 ^ 31 - 1.
  Fixpoint loop (fuel : nat) (n : Z) (f : Z -> option R) (i : Z) (acc : R) : res R :=
    match fuel with
    | O => Fuel
    | S k =>
        if i mod 2 ^ 64 <? n
        then match f i with
             | Some v => if i =? int_max then UB else loop k n f (i + 1) (add acc v)
             | None => UB
             end
        else Ok acc
    end.

  (** blas_templates.inc:22-44: x * x, or std::norm(x); blas_templates.inc:46-83 *)
  Definition t_norm_p2 (sqrt_norm : T -> R) (n : Z) (x : Z -> option T) : res R :=
    loop (S (Z.to_nat n)) n (fun i => match x (i mod 2 ^ 64) with Some v => Some (sqrt_norm v) | None => None end) 0 zero.
End Norm.

(** blas_templates.inc:192-204; i * incx is a product of std::size_t *)
Definition t_dot_complex {T : Type} (zero : T) (add mul : T -> T -> T) (conj : T -> T)
    (n : Z) (x : Z -> option T) (incx : Z) (y : Z -> option T) (incy : Z) : res T :=
  loop add (S (Z.to_nat n)) n
    (fun i => match x ((i * incx) mod 2 ^ 64), y ((i * incy) mod 2 ^ 64) with
              | Some v, Some w => Some (mul (conj v) w) | _, _ => None end) 0 zero.
