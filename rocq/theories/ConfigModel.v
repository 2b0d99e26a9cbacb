(** Model of algorithm/configuration.hpp (ChaseConfig) and of the life cycle in interface/chase_c.cpp.
    std::size_t values are N below 2^64 with explicit wrap-around. The tolerance is a double; it is only stored and returned,
    so its type is a parameter with the two constants the constructors use. *)
From Coq Require Import List NArith ZArith Bool.
Require Import Verif.Base.
Import ListNotations.
Local Open Scope N_scope.

Definition W : N := 2 ^ 64.
Inductive scalar := SFloat | SDouble | SCFloat | SCDouble.
Definition scalar_eqb (a b : scalar) : bool :=
  match a, b with SFloat, SFloat | SDouble, SDouble | SCFloat, SCFloat | SCDouble, SCDouble => true | _, _ => false end.

(** configuration.hpp:33-37,61-83 *)
Definition init_maxdeg (t : scalar) : N := match t with SDouble | SCDouble => 36 | SFloat => 36 / 2 | SCFloat => 12 end.
(** configuration.hpp:39-43,85-101 *)
Definition init_deg (t : scalar) : N := match t with SDouble | SCDouble => 20 | SFloat | SCFloat => 20 / 2 end.
(** configuration.hpp:45-49,103-120 *)
Definition init_lanczos (t : scalar) : N := match t with SDouble | SCDouble => 25 | SFloat | SCFloat => 25 / 2 end.

Section Config.
Context {T : Type} (tol5 tol10 : T).   (* 1e-5 and 1e-10 *)
(** configuration.hpp:51-61,122-133 *)
Definition init_tol (t : scalar) : T := match t with SDouble | SCDouble => tol10 | SFloat | SCFloat => tol5 end.

(** configuration.hpp:446-563 *)
Record config := mk_cfg {
  g_N : N; g_nev : N; g_nex : N; g_opt : bool; g_approx : bool; g_maxiter : N; g_degextra : N; g_numlanczos : N;
  g_maxdeg : N; g_deg : N; g_lanczos : N; g_tol : T; g_cholqr : bool; g_sym : bool }.

(** x += x % 2 on size_t *)
Definition bump_even (x : N) : N := (x + x mod 2) mod W.

Inductive setter :=
| SetApprox (b : bool) | SetOpt (b : bool) | SetDeg (n : N) | SetTol (t : T) | SetMaxDeg (n : N) | SetDegExtra (n : N)
| SetMaxIter (n : N) | SetLanczosIter (n : N) | SetNumLanczos (n : N) | SetCholQR (b : bool) | EnableSymCheck (b : bool).

(** configuration.hpp:205,225,245-249,278,301-305,331,357,383-386,406,437,441 *)
Definition set (op : setter) (c : config) : config :=
  match c with mk_cfg n nev nex opt approx maxiter extra numl maxdeg deg lan tol chol sym =>
  match op with
  | SetApprox b => mk_cfg n nev nex opt b maxiter extra numl maxdeg deg lan tol chol sym
  | SetOpt b => mk_cfg n nev nex b approx maxiter extra numl maxdeg deg lan tol chol sym
  | SetDeg d => mk_cfg n nev nex opt approx maxiter extra numl maxdeg (bump_even d) lan tol chol sym
  | SetTol t => mk_cfg n nev nex opt approx maxiter extra numl maxdeg deg lan t chol sym
  | SetMaxDeg d => mk_cfg n nev nex opt approx maxiter extra numl (bump_even d) deg lan tol chol sym
  | SetDegExtra d => mk_cfg n nev nex opt approx maxiter d numl maxdeg deg lan tol chol sym
  | SetMaxIter d => mk_cfg n nev nex opt approx d extra numl maxdeg deg lan tol chol sym
  | SetLanczosIter d => mk_cfg n nev nex opt approx maxiter extra numl maxdeg deg d tol chol sym
  | SetNumLanczos d => mk_cfg n nev nex opt approx maxiter extra d maxdeg deg lan tol chol sym
  | SetCholQR b => mk_cfg n nev nex opt approx maxiter extra numl maxdeg deg lan tol b sym
  | EnableSymCheck b => mk_cfg n nev nex opt approx maxiter extra numl maxdeg deg lan tol chol b
  end end.

(** configuration.hpp:175-184,561,563; the members not in the initialiser list are set by the body *)
Definition new_config (t : scalar) (n nev nex : N) : config :=
  let c0 := mk_cfg n nev nex true false 25 2 4 0 0 0 tol5 true true in
  let c1 := set (SetDeg (init_deg t)) (set (SetMaxDeg (init_maxdeg t)) c0) in
  set (SetTol (init_tol t)) (set (SetLanczosIter (init_lanczos t)) c1).
Definition configure (ops : list setter) (c : config) : config := fold_left (fun c op => set op c) ops c.

(** ** chase_c.cpp *)
Inductive kind := Seq | Dist.                       (* ChASE_SEQ, ChASE_DIST *)
Definition handle : Type := (kind * scalar)%type.   (* the eight static pointers, chase_c.cpp:56-65,225-245 *)
Definition handle_eqb (a b : handle) : bool :=
  match fst a, fst b with Seq, Seq | Dist, Dist => scalar_eqb (snd a) (snd b) | _, _ => false end.

(** int -> std::size_t conversion *)
Definition to_size (z : Z) : N := Z.to_N (z mod 2 ^ 64)%Z.

Inductive op :=
| Init (h : handle) (n nev nex : Z)
| Solve (h : handle) (deg : Z) (tol : T) (opt approx chol : bool)   (* the characters compare equal to 'S', 'A', 'C' *)
| Ham (t : scalar)                                  (* p?chase_rdham / wrtham, chase_c.cpp:485-497: uses only the properties *)
| Finalize (h : handle).
Definition op_handle (o : op) : handle := match o with Init h _ _ _ | Solve h _ _ _ _ _ | Finalize h => h | Ham t => (Dist, t) end.

(** heap objects (a ChaseMpi together with the properties it owns: chase_mpi.hpp unique_ptr members) *)
Record obj := mk_obj { ob_cfg : config; ob_live : bool }.
(** static pointers and heap; for Dist handles the pair (handle, props) of statics is assigned together *)
Record capi := mk_capi { st_ptr : handle -> option nat; st_props : scalar -> option nat; st_heap : list obj }.
Definition capi0 : capi := mk_capi (fun _ => None) (fun _ => None) [].   (* chase_c.cpp:62-65,237-245: nullptr *)

Definition upd_obj (l : list obj) (i : nat) (x : obj) : list obj := firstn i l ++ x :: skipn (S i) l.

(** result: the configuration a solve starts with *)
Definition step_op (o : op) (s : capi) : res (option config * capi) :=
  match o with
  | Init h n nev nex =>                             (* 68-96,248-354: pointer = new ... *)
      let id := length (st_heap s) in
      let c := new_config (snd h) (to_size n) (to_size nev) (to_size nex) in
      Ok (None, mk_capi (fun h' => if handle_eqb h' h then Some id else st_ptr s h')
                        (fun t => match fst h with Dist => if scalar_eqb t (snd h) then Some id else st_props s t | Seq => st_props s t end)
                        (st_heap s ++ [mk_obj c true]))
  | Solve h deg tol opt approx chol =>              (* 160-172,442-454 *)
      match st_ptr s h with
      | None => UB                                  (* null reference *)
      | Some id => match nth_error (st_heap s) id with
          | Some x => if ob_live x then
              let c := set (SetCholQR chol) (set (SetApprox approx) (set (SetOpt opt) (set (SetDeg (to_size deg)) (set (SetTol tol) (ob_cfg x))))) in
              Ok (Some c, mk_capi (st_ptr s) (st_props s) (upd_obj (st_heap s) id (mk_obj c true)))
            else UB                                 (* use after free *)
          | None => UB end end
  | Ham t => match st_props s t with                (* 485-497 *)
      | None => UB
      | Some id => match nth_error (st_heap s) id with Some x => if ob_live x then Ok (None, s) else UB | None => UB end end
  | Finalize h => match st_ptr s h with             (* 98-120,356-378: delete pointer, not reset *)
      | None => Ok (None, s)                        (* delete nullptr *)
      | Some id => match nth_error (st_heap s) id with
          | Some x => if ob_live x then Ok (None, mk_capi (st_ptr s) (st_props s) (upd_obj (st_heap s) id (mk_obj (ob_cfg x) false)))
                      else UB                       (* double free *)
          | None => UB end end
  end.

Fixpoint run_ops (ops : list op) (s : capi) : res (list (option config) * capi) :=
  match ops with
  | [] => Ok ([], s)
  | o :: ops => let! (r, s) := step_op o s in let! (rs, s) := run_ops ops s in Ok (r :: rs, s)
  end.
End Config.
Arguments config : clear implicits. Arguments setter : clear implicits. Arguments op : clear implicits.
Arguments obj : clear implicits. Arguments capi : clear implicits.
