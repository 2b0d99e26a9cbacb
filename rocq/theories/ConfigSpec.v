(** Specification of configuration histories and of the C interface life cycle, by looking at the history of calls only. *)
From Coq Require Import List NArith ZArith Bool.
Require Import Verif.Base Verif.AlgModel Verif.ConfigModel.
Import ListNotations.
Local Open Scope N_scope.

(** the value last written by the calls [f] selects, or [d] *)
Definition last_written {T X} (f : setter T -> option X) (d : X) (ops : list (setter T)) : X :=
  last (flat_map (fun o => match f o with Some x => [x] | None => [] end) ops) d.
(** next even number, in 64 bits *)
Definition even_up (x : N) : N := if N.even x then x else if x =? 2 ^ 64 - 1 then 0 else x + 1.
(** arguments are size_t values *)
Definition setter_ok {T} (o : setter T) : Prop :=
  match o with SetDeg n | SetMaxDeg n | SetDegExtra n | SetMaxIter n | SetLanczosIter n | SetNumLanczos n => n < 2 ^ 64 | _ => True end.

(** the parameters as the solver reads them *)
Definition to_conf {T} (c : config T) : conf T := {|
  c_N := N.to_nat (g_N c); c_nev := N.to_nat (g_nev c); c_nex := N.to_nat (g_nex c); c_tol := g_tol c;
  c_deg := N.to_nat (g_deg c); c_maxdeg := N.to_nat (g_maxdeg c); c_degextra := N.to_nat (g_degextra c);
  c_maxiter := N.to_nat (g_maxiter c); c_lanczositer := N.to_nat (g_lanczos c); c_numlanczos := N.to_nat (g_numlanczos c);
  c_opt := g_opt c; c_approx := g_approx c; c_symcheck := g_sym c |}.

(** ** life cycle *)
Definition is_init {T} (o : op T) : bool := match o with Init _ _ _ _ => true | _ => false end.
Definition is_cycle {T} (o : op T) : bool := match o with Init _ _ _ _ | Finalize _ => true | _ => false end.
Definition on {T} (h : handle) (o : op T) : bool := handle_eqb (op_handle o) h.
(** Init/Finalize calls on [h], the last of them *)
Definition events {T} (h : handle) (pre : list (op T)) : list (op T) := filter (fun o => is_cycle o && on h o) pre.
Definition last_event {T} (h : handle) (pre : list (op T)) : option (op T) := last (map Some (events h pre)) None.
Definition alive {T} (h : handle) (pre : list (op T)) : Prop := exists n nev nex, last_event h pre = Some (Init h n nev nex).
Definition never_init {T} (h : handle) (pre : list (op T)) : Prop := forall n nev nex, ~ In (Init h n nev nex) pre.
(** calls allowed after [pre] *)
Definition legal {T} (pre : list (op T)) (o : op T) : Prop :=
  match o with
  | Init _ _ _ _ => True
  | Solve h _ _ _ _ _ => alive h pre
  | Ham t => alive (Dist, t) pre
  | Finalize h => never_init h pre \/ alive h pre
  end.
Definition legal_history {T} (ops : list (op T)) : Prop := forall pre o post, ops = pre ++ o :: post -> legal pre o.

Definition count_inits {T} (ops : list (op T)) : nat := length (filter is_init ops).
(** Finalize calls that had an object to delete *)
Fixpoint count_frees {T} (seen : handle -> bool) (ops : list (op T)) : nat :=
  match ops with
  | [] => 0
  | o :: ops =>
      match o with
      | Init h _ _ _ => count_frees (fun h' => handle_eqb h' h || seen h') ops
      | Finalize h => (if seen h then 1 else 0) + count_frees seen ops
      | _ => count_frees seen ops
      end
  end%nat.
Definition live_objects {T} (s : capi T) : nat := length (filter (@ob_live T) (st_heap s)).
