(** Model of the templates of ChASE-MPI/blas_templates.inc (t_scal ... t_ptranc): a small language with the statements their bodies
    consist of, and its execution against a numerical library described by BlasDoc.v.  The bodies themselves are in WrapTable.v.
    Modelled: the narrowing of std::size_t to BlasInt = int (blas_fortran.hpp:17), uninitialised locals, the positional binding of the
    actual arguments to the formal parameters of the routine that is really called (a C prototype does not change it), the workspace
    queries, heap blocks and who frees them, assert, and the conversion of the returned status.
    Not modelled: the numbers computed by the routines (the events say which routine ran on which arguments), the hidden lengths of
    character arguments (the prototypes omit them), exhaustion of memory, and the element types of array arguments (checked by the C++
    compiler against the prototypes). *)
From Coq Require Import List ZArith String Ascii Bool.
Require Import Verif.Base Verif.ConfigModel Verif.BlasDoc.
Import ListNotations.
Local Open Scope Z_scope.

(** BlasInt x = n: conversion of a 64-bit value to int, two's complement *)
Definition narrow (z : Z) : Z := let r := z mod 2 ^ 32 in if r <? 2 ^ 31 then r else r - 2 ^ 32.

(** the same for the entries of an array *)
Definition narrow_all (l : list Z) : list Z := map narrow l.
(** kinds of parameters of the templates (blas_templates.hpp:33-181): std::size_t, int, CBLAS_TRANSPOSE, char, T pointer or int
    pointer, T by value, std::size_t pointer to an array descriptor *)
Inductive pkind := KSize | KInt | KTrans | KChar | KPtr | KScal | KDesc.
(** the arguments of a call: the integers by parameter name (character codes for char) and the nine entries of each descriptor; the
    other arguments are identified by the name of the parameter *)
Record args := mk_args { num : string -> Z; desc : string -> list Z }.

(** types of local variables: BlasInt or char; pointer; a number of type T (numwork, rnumwork); a parameter *)
Inductive lty := TInt | TPtr | TNum (t : scalar) | TPar.
Inductive ptr := PArg (p : string) | PHeap (b : nat) | PNull.
(** [VScal p]: the value of parameter p of type T; [VDesc p]: the descriptor the caller passed; [VU]: indeterminate *)
Inductive val := VInt (z : Z) | VPtr (p : ptr) | VScal (p : string) | VDesc (p : string) | VU.

Inductive arg := AVal (x : string) | AAddr (x : string) | ANull.
Inductive expr := EVar (x : string) | EMin5 (p q : string) | EConst (z : Z).
Inductive stmt :=
| DeclInt (x p : string)                    (* BlasInt x = p; *)
| DeclUn (x : string) (t : lty)             (* declaration without initialiser *)
| IfEq (p : string) (v : Z) (x : string) (c : ascii)   (* if (p == v) x = 'c'; *)
| SetInt (x : string) (z : Z)               (* x = z; *)
| SetNum (x y : string)                     (* x = static_cast<std::size_t>(y);  also of real(y) *)
| SetNumI (x y : string)                    (* x = (int)y;  also of real(y) *)
| SetPtr (x y : string)                     (* x = y.get();  x = y.data(); *)
| New (x : string) (e : expr)               (* x = new E[e]; *)
| Own (x : string) (e : expr)               (* std::unique_ptr or std::vector with e elements: freed on return *)
| Delete (x : string)                       (* delete[] x; *)
| CopyDesc (x p : string)                   (* for (i < 9) x[i] = static_cast<std::size_t>(p[i]); *)
| AssertZ (x : string)                      (* assert(x == 0); *)
| Call (lo up : string) (l : list arg)      (* FC_GLOBAL(lo, up)(l); *)
| RetCall (lo up : string) (l : list arg)   (* return FC_GLOBAL(lo, up)(l); *)
| RetVar (x : string).                      (* return x; *)

(** blas_templates.hpp:19-21 *)
Definition CblasConjTrans := 1.
Definition CblasTrans := 2.
Definition CblasNoTrans := 3.

Inductive rtype := RtVoid | RtSize | RtInt | RtBase.
Record wrapper := mk_wrapper
  { w_name : string; w_type : scalar; w_ret : rtype; w_params : list (string * pkind); w_body : list stmt }.

(** fortran_mangle.h: whether the mangling of the platform uses the second (upper-case) name; NDEBUG: whether assert is removed *)
Record conf := mk_conf { upper : bool; ndebug : bool }.

(** What a routine sees of an argument: a number read through the pointer, a pointer to the caller's data, a scalar of type T, or
    an array descriptor. *)
Inductive obs := OInt (z : Z) | OPtr (p : ptr) | OScal (p : string) | ODesc (l : list Z).
Definition ins := list (string * obs).

(** The numerical library.  [opt]: the workspace length a query reports; [least]: the length below which the routine refuses to work;
    [enc double z]: the integer z as the library stores it into a real number of single or double precision; [status]: INFO of a
    computation. *)
Record lib := mk_lib
  { opt : string -> ins -> wk -> Z; least : string -> ins -> wk -> Z; enc : bool -> Z -> Z; status : string -> ins -> Z }.

Record block := mk_block { b_len : Z; b_raw : bool; b_live : bool; b_desc : option (list Z) }.
Record state := mk_state { env : list (string * (lty * val)); heap : list block; done : list (string * ins) }.

Definition lookup (s : state) (x : string) : option (lty * val) := assoc x (env s).
Definition put (s : state) (x : string) (t : lty) (v : val) : state := mk_state ((x, (t, v)) :: env s) (heap s) (done s).
Definition assign (s : state) (x : string) (v : val) : option state :=
  match lookup s x with Some (t, _) => Some (put s x t v) | None => None end.
Definition alloc (s : state) (x : string) (n : Z) (raw : bool) : state :=
  mk_state ((x, (TPtr, VPtr (PHeap (List.length (heap s))))) :: env s) (heap s ++ [mk_block n raw true None]) (done s).
Fixpoint set_nth {X} (l : list X) (i : nat) (x : X) : list X :=
  match l, i with [], _ => [] | _ :: r, O => x :: r | y :: r, S j => y :: set_nth r j x end.
Definition blk (s : state) (p : ptr) : option (nat * block) :=
  match p with
  | PHeap b => match nth_error (heap s) b with Some k => if b_live k then Some (b, k) else None | None => None end
  | _ => None
  end.
Definition set_blk (s : state) (b : nat) (k : block) : state := mk_state (env s) (set_nth (heap s) b k) (done s).

(** ASCII letters in lower case: the upper-case name denotes the same routine *)
Definition low (c : ascii) : ascii :=
  let n := N_of_ascii c in if ((65 <=? n) && (n <=? 90))%N%bool then ascii_of_N (n + 32) else c.
Fixpoint lower (s : string) : string :=
  match s with EmptyString => EmptyString | String c r => String (low c) (lower r) end.
Definition routine (cf : conf) (lo up : string) : string := if upper cf then lower up else lo.

(** actual arguments: the address of a variable or a pointer *)
Inductive act := BCell (x : string) | BPtr (p : ptr).
Definition actual (s : state) (a : arg) : option act :=
  match a with
  | AAddr x => match lookup s x with Some _ => Some (BCell x) | None => None end
  | AVal x => match lookup s x with Some (_, VPtr p) => Some (BPtr p) | _ => None end
  | ANull => Some (BPtr PNull)
  end.
Fixpoint mapo {X Y} (f : X -> option Y) (l : list X) : option (list Y) :=
  match l with
  | [] => Some []
  | x :: r => match f x, mapo f r with Some y, Some t => Some (y :: t) | _, _ => None end
  end.

Definition observe (s : state) (a : act) : option obs :=
  match a with
  | BCell x => match lookup s x with Some (_, VInt z) => Some (OInt z) | Some (_, VScal p) => Some (OScal p) | _ => None end
  | BPtr p => match blk s p with Some (_, k) => match b_desc k with Some l => Some (ODesc l) | None => Some (OPtr p) end
                               | None => match p with PHeap _ => None | _ => Some (OPtr p) end end
  end.

(** formals bound by position; more actual arguments than formals are ignored by the callee, fewer are undefined behaviour *)
Fixpoint bind_formals (fs : list formal) (l : list act) : option (list (formal * act)) :=
  match fs, l with
  | [], _ => Some []
  | f :: r, a :: t => match bind_formals r t with Some b => Some ((f, a) :: b) | None => None end
  | _ :: _, [] => None
  end.
Fixpoint inputs (s : state) (b : list (formal * act)) : option ins :=
  match b with
  | [] => Some []
  | (A f, a) :: r => match observe s a, inputs s r with Some o, Some t => Some ((f, o) :: t) | _, _ => None end
  | _ :: r => inputs s r
  end.
(** the lengths passed for the workspaces, with the position of the formal (from 1) *)
Fixpoint lengths (s : state) (i : Z) (b : list (formal * act)) : option (list (wk * Z * Z)) :=
  match b with
  | [] => Some []
  | (L w, a) :: r => match observe s a, lengths s (i + 1) r with Some (OInt z), Some t => Some ((w, z, i) :: t) | _, _ => None end
  | _ :: r => lengths s (i + 1) r
  end.
Definition wk_eqb (a b : wk) : bool := match a, b with WMain, WMain | WReal, WReal | WInt, WInt => true | _, _ => false end.
Definition is_double (t : scalar) : bool := match t with SDouble | SCDouble => true | _ => false end.
Definition base_type (t : scalar) : scalar := if is_double t then SDouble else SFloat.
Definition scal_eqb (a b : scalar) : bool :=
  match a, b with SFloat, SFloat | SDouble, SDouble | SCFloat, SCFloat | SCDouble, SCDouble => true | _, _ => false end.
(** the type of the entries of a workspace of a routine of type t *)
Definition work_type (t : scalar) (w : wk) : lty := match w with WMain => TNum t | WReal => TNum (base_type t) | WInt => TInt end.
Definition lty_eqb (a b : lty) : bool :=
  match a, b with TInt, TInt | TPtr, TPtr | TPar, TPar => true | TNum x, TNum y => scal_eqb x y | _, _ => false end.
(** the first entry of the workspace after a query *)
Definition reported (lb : lib) (r : string) (t : scalar) (i : ins) (w : wk) : Z :=
  match w with WInt => opt lb r i w | _ => enc lb (is_double t) (opt lb r i w) end.

(** a store of one element through an actual argument *)
Definition store (s : state) (a : act) (t : lty) (v : val) : option state :=
  match a with
  | BCell x => match lookup s x with Some (u, _) => Some (put s x u (if lty_eqb u t then v else VU)) | None => None end
  | BPtr p => match blk s p with
              | Some (b, k) => if 1 <=? b_len k then Some (set_blk s b (mk_block (b_len k) (b_raw k) (b_live k) None)) else None
              | None => match p with PArg _ => Some s | _ => None end
              end
  end.
Fixpoint answer_query (lb : lib) (r : string) (t : scalar) (i : ins) (b : list (formal * act)) (s : state) : option state :=
  match b with
  | [] => Some s
  | (W w, a) :: q =>
      match store s a (work_type t w) (VInt (reported lb r t i w)) with Some s' => answer_query lb r t i q s' | None => None end
  | _ :: q => answer_query lb r t i q s
  end.
Fixpoint set_info (z : Z) (b : list (formal * act)) (s : state) : option state :=
  match b with
  | [] => Some s
  | (Info, a) :: q => match store s a TInt (VInt z) with Some s' => set_info z q s' | None => None end
  | _ :: q => set_info z q s
  end.
Definition room (s : state) (a : act) (n : Z) : bool :=
  match a with BPtr p => match blk s p with Some (_, k) => n <=? b_len k | None => false end | BCell _ => false end.
Definition int_of (i : ins) (f : string) : Z := match assoc f i with Some (OInt z) => z | _ => 0 end.
(** the workspaces handed over are as long as the routine is told (or as the documentation demands) *)
Fixpoint room_all (s : state) (i : ins) (ls : list (wk * Z * Z)) (b : list (formal * act)) : bool :=
  match b with
  | [] => true
  | (W w, a) :: q =>
      match find (fun e => wk_eqb (fst (fst e)) w) ls with Some e => room s a (snd (fst e)) | None => false end && room_all s i ls q
  | (WSvd, a) :: q => room s a (5 * Z.min (int_of i "m") (int_of i "n")) && room_all s i ls q
  | (WNorm, a) :: q =>
      (if (int_of i "norm" =? 73) || (int_of i "norm" =? 105) then room s a (int_of i "m") else true) && room_all s i ls q
  | _ :: q => room_all s i ls q
  end%bool.

(** one call of a library routine; None: undefined behaviour *)
Definition call (lb : lib) (r : string) (l : list act) (s : state) : option (state * ins) :=
  match doc_of r with
  | None => None
  | Some d =>
      match bind_formals (d_sig d) l with
      | None => None
      | Some b =>
          match inputs s b, lengths s 1 b with
          | Some i, Some ls =>
              if existsb (fun e => snd (fst e) =? -1) ls
              then match answer_query lb r (d_type d) i b s with
                   | Some s1 => match set_info 0 b s1 with Some s2 => Some (s2, i) | None => None end
                   | None => None
                   end
              else match find (fun e => snd (fst e) <? least lb r i (fst (fst e))) ls with
                   | Some e => match set_info (- snd e) b s with Some s1 => Some (s1, i) | None => None end
                   | None =>
                       if room_all s i ls b
                       then match set_info (status lb r i) b (mk_state (env s) (heap s) (done s ++ [(r, i)])) with
                            | Some s1 => Some (s1, i) | None => None end
                       else None
                   end
          | _, _ => None
          end
      end
  end.

(** result types in the prototypes, blas_fortran.hpp:62-91,329-341 *)
Definition proto_ret (r : string) : fret :=
  match assoc r [("sdot", FReal false); ("ddot", FReal true); ("snrm2", FReal false); ("dnrm2", FReal true);
                 ("scnrm2", FReal false); ("dznrm2", FReal true); ("slange", FReal false); ("dlange", FReal false);
                 ("clange", FReal false); ("zlange", FReal true)]%string with
  | Some f => f | None => FNone end.
Definition fret_eqb (a b : fret) : bool :=
  match a, b with FNone, FNone => true | FReal x, FReal y => Bool.eqb x y | _, _ => false end.

(** what the template returns: nothing, an integer, the value of a Fortran function on the given arguments, or garbage *)
Inductive ret := RVoid | RInt (z : Z) | RFun (r : string) (i : ins) | RGarbage.
Inductive outcome := Next (s : state) | Stop (r : ret) (s : state) | Abort (s : state) | Undef.
Definition next (o : option state) : outcome := match o with Some s => Next s | None => Undef end.

Definition eval (a : args) (s : state) (e : expr) : option Z :=
  match e with
  | EVar x => match lookup s x with Some (_, VInt z) => Some z | _ => None end
  | EMin5 p q => Some ((5 * Z.min (num a p) (num a q)) mod 2 ^ 64)
  | EConst z => Some z
  end.
Definition exec (cf : conf) (lb : lib) (rt : rtype) (a : args) (c : stmt) (s : state) : outcome :=
  match c with
  | DeclInt x p => Next (put s x TInt (VInt (narrow (num a p))))
  | DeclUn x t => Next (put s x t VU)
  | IfEq p v x ch => if num a p =? v then next (assign s x (VInt (Z.of_N (N_of_ascii ch)))) else Next s
  | SetInt x z => next (assign s x (VInt z))
  | SetNum x y =>
      match lookup s y with
      | Some (TNum _, VInt z) => if (0 <=? z) && (z <? 2 ^ 64) then next (assign s x (VInt (narrow z))) else Undef
      | Some (TInt, VInt z) => next (assign s x (VInt (narrow (z mod 2 ^ 64))))
      | _ => Undef
      end
  | SetNumI x y =>
      match lookup s y with
      | Some (TNum _, VInt z) => if (- 2 ^ 31 <=? z) && (z <? 2 ^ 31) then next (assign s x (VInt z)) else Undef
      | _ => Undef
      end
  | SetPtr x y => match lookup s y with Some (_, VPtr p) => next (assign s x (VPtr p)) | _ => Undef end
  | New x e => match eval a s e with Some n => Next (alloc s x n true) | None => Undef end
  | Own x e =>
      match eval a s e with
      | Some n => if n <? 0 then Abort s (* std::bad_array_new_length, std::length_error *) else Next (alloc s x n false)
      | None => Undef
      end
  | Delete x =>
      match lookup s x with
      | Some (_, VPtr p) =>
          match blk s p with Some (b, k) => Next (set_blk s b (mk_block (b_len k) (b_raw k) false None)) | None => Undef end
      | _ => Undef
      end
  | CopyDesc x p =>
      match lookup s x with
      | Some (_, VPtr q) =>
          match blk s q with
          | Some (b, k) => if 9 <=? b_len k then Next (set_blk s b (mk_block (b_len k) (b_raw k) true (Some (narrow_all (desc a p)))))
                           else Undef
          | None => Undef
          end
      | _ => Undef
      end
  | AssertZ x =>
      if ndebug cf then Next s
      else match lookup s x with Some (_, VInt z) => if z =? 0 then Next s else Abort s | _ => Undef end
  | Call lo up l =>
      match mapo (actual s) l with
      | Some bs => match call lb (routine cf lo up) bs s with Some (s', _) => Next s' | None => Undef end
      | None => Undef
      end
  | RetCall lo up l =>
      match mapo (actual s) l with
      | Some bs =>
          match call lb (routine cf lo up) bs s, doc_of (routine cf lo up) with
          | Some (s', i), Some d =>
              Stop (if fret_eqb (proto_ret (routine cf lo up)) (d_ret d) then RFun (routine cf lo up) i else RGarbage) s'
          | _, _ => Undef
          end
      | None => Undef
      end
  | RetVar x =>
      match lookup s x, rt with
      | Some (_, VInt z), RtSize => Stop (RInt (z mod 2 ^ 64)) s
      | Some (_, VInt z), RtInt => Stop (RInt z) s
      | _, _ => Undef
      end
  end.
Fixpoint exec_all (cf : conf) (lb : lib) (rt : rtype) (a : args) (l : list stmt) (s : state) : outcome :=
  match l with
  | [] => Stop RVoid s
  | c :: r => match exec cf lb rt a c s with Next s' => exec_all cf lb rt a r s' | o => o end
  end.

(** the parameters as local variables *)
Definition par (a : args) (p : string * pkind) : string * (lty * val) :=
  (fst p, (TPar, match snd p with
                 | KSize | KInt | KTrans | KChar => VInt (num a (fst p))
                 | KPtr => VPtr (PArg (fst p))
                 | KScal => VScal (fst p)
                 | KDesc => VDesc (fst p) end)).
Definition run (cf : conf) (lb : lib) (w : wrapper) (a : args) : outcome :=
  exec_all cf lb (w_ret w) a (w_body w) (mk_state (map (par a) (w_params w)) [] []).
(** blocks allocated with new[] and never deleted *)
Definition leaked (s : state) : list Z := map b_len (filter (fun k => b_raw k && b_live k) (heap s)).
