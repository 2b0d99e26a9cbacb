(** Observable call sequence of the solver: a kernel wrapper that records every call to the numerical interface. *)
From Coq Require Import List Arith Bool.
Require Import Verif.Base Verif.AlgModel Verif.AlgSpec.
Import ListNotations.

Inductive call (F : Type) : Type :=
| CSym | CStart | CEnd
| CInit (random : bool)
| CShift (c : F) (unshift : bool)
| CHemm (block : nat) (alpha beta : F) (offset : nat)
| CQr (fixednev : nat) (cond : F)
| CRr (block : nat)
| CResd (fixednev : nat)
| CSwap (i j : nat)
| CLock (n : nat)
| CLanczos1 (m : nat)
| CLanczos2 (m numvec : nat)
| CDos (idx m : nat).
Arguments CSym {F}. Arguments CStart {F}. Arguments CEnd {F}. Arguments CInit {F}. Arguments CShift {F}.
Arguments CHemm {F}. Arguments CQr {F}. Arguments CRr {F}. Arguments CResd {F}. Arguments CSwap {F}.
Arguments CLock {F}. Arguments CLanczos1 {F}. Arguments CLanczos2 {F}. Arguments CDos {F}.

Section Log.
Context {F St : Type} (K : kernel F St).
Let T : Type := (list (call F) * St)%type.
Definition logged (c : call F) (r : list (call F)) (x : res St) : res T := let! s := x in Ok (r ++ [c], s).
Definition logged_v {X} (c : call F) (r : list (call F)) (x : res (X * St)) : res (X * T) :=
  let! (v, s) := x in Ok (v, (r ++ [c], s)).

(** every call is recorded and passed on unchanged *)
Definition logK : kernel F T := {|
  k_sym := fun t => logged_v CSym (fst t) (k_sym K (snd t));
  k_start := fun t => logged CStart (fst t) (k_start K (snd t));
  k_end := fun t => logged CEnd (fst t) (k_end K (snd t));
  k_init := fun r t => logged (CInit r) (fst t) (k_init K r (snd t));
  k_shift := fun c u t => logged (CShift c u) (fst t) (k_shift K c u (snd t));
  k_hemm := fun n a b o t => logged (CHemm n a b o) (fst t) (k_hemm K n a b o (snd t));
  k_qr := fun l c t => logged (CQr l c) (fst t) (k_qr K l c (snd t));
  k_rr := fun n t => logged_v (CRr n) (fst t) (k_rr K n (snd t));
  k_resd := fun v l t => logged_v (CResd l) (fst t) (k_resd K v l (snd t));
  k_swap := fun i j t => logged (CSwap i j) (fst t) (k_swap K i j (snd t));
  k_lock := fun n t => logged (CLock n) (fst t) (k_lock K n (snd t));
  k_lanczos1 := fun m t => logged_v (CLanczos1 m) (fst t) (k_lanczos1 K m (snd t));
  k_lanczos2 := fun m nv t => logged_v (CLanczos2 m nv) (fst t) (k_lanczos2 K m nv (snd t));
  k_dos := fun i m rv t => logged (CDos i m) (fst t) (k_dos K i m rv (snd t)) |}.
End Log.

(** ** Expected call sequences *)
Definition swap_calls {F} (off : nat) (sw : list (nat * nat)) : list (call F) :=
  map (fun p => CSwap (fst p + off) (snd p + off)) sw.

(** the filter: shift, [deg] products over shrinking column windows, shift back *)
Definition filter_calls {F} (fo : fops F) (deg : nat) (degs : list nat) (lambda_1 lower upper : F) : list (call F) :=
  let c := f_div fo (f_add fo upper lower) (f_two fo) in
  let e := f_div fo (f_sub fo upper lower) (f_two fo) in
  let sigma_1 := f_div fo e (f_sub fo lambda_1 c) in
  CShift (f_neg fo c) false ::
  map (fun i => CHemm (count (fun d => i <=? d) degs) (alpha_ fo sigma_1 e i) (beta_ fo sigma_1 i)
                      (count (fun d => d <? i) degs)) (seq 1 deg) ++
  [CShift c true].

(** number of products that touch (unlocked) column [j] *)
Definition covers {F} (j : nat) (c : call F) : bool :=
  match c with CHemm n _ _ off => (off <=? j) && (j <? off + n) | _ => false end.
Definition products_on {F} (j : nat) (t : list (call F)) : nat := length (filter (covers j) t).
(** total number of column products *)
Definition hemm_cols {F} (c : call F) : nat := match c with CHemm n _ _ _ => n | _ => 0 end.
Definition products {F} (t : list (call F)) : nat := list_sum (map hemm_cols t).

(** one outer iteration *)
Record iter_rec (F : Type) := mk_it {
  it_locked : nat; it_unconv : nat; it_new : nat;      (* locked / unlocked columns, newly locked *)
  it_deg : nat; it_degs : list nat;
  it_lambda : F; it_lower : F; it_cond : F;
  it_sw1 : list (nat * nat); it_sw2 : list (nat * nat) }.
Arguments it_locked {F}. Arguments it_unconv {F}. Arguments it_new {F}. Arguments it_deg {F}. Arguments it_degs {F}.
Arguments it_lambda {F}. Arguments it_lower {F}. Arguments it_cond {F}. Arguments it_sw1 {F}. Arguments it_sw2 {F}.
Definition iter_calls {F} (fo : fops F) (upper : F) (r : iter_rec F) : list (call F) :=
  swap_calls (it_locked r) (it_sw1 r) ++
  filter_calls fo (it_deg r) (it_degs r) (it_lambda r) (it_lower r) upper ++
  [CQr (it_locked r) (it_cond r); CRr (it_unconv r); CResd (it_locked r)] ++
  swap_calls (it_locked r) (it_sw2 r) ++ [CLock (it_new r)].

(** per-iteration facts: the degree sort moves only unlocked columns, locking only the wanted unlocked ones *)
Definition iter_ok {F} (nev nex : nat) (r : iter_rec F) : Prop :=
  it_locked r + it_unconv r = nev + nex /\ nex < it_unconv r /\ it_new r <= it_unconv r - nex /\
  length (it_degs r) = it_unconv r /\ ascending (it_degs r) /\
  Forall (fun d => 2 <= d /\ Nat.even d = true /\ d <= it_deg r) (it_degs r) /\ In (it_deg r) (it_degs r) /\
  in_range (it_unconv r) (it_sw1 r) /\ in_range (it_unconv r - nex) (it_sw2 r).

(** consecutive iterations: each starts with what the previous ones locked *)
Inductive iters {F} (nev nex : nat) : nat -> list (iter_rec F) -> nat -> Prop :=
| iters_nil l : iters nev nex l [] l
| iters_snoc l rs l' r : iters nev nex l rs l' -> it_locked r = l' -> iter_ok nev nex r ->
    iters nev nex l (rs ++ [r]) (l' + it_new r).

(** start-up calls *)
Definition start_calls {F} (fo : fops F) (cf : conf F) (sw : list (nat * nat)) (idx : nat) : list (call F) :=
  let nevex := c_nev cf + c_nex cf in
  let m := Nat.min nevex (Nat.min (c_N cf / 2) (c_lanczositer cf)) in
  if c_approx cf then [CStart; CInit false; CLanczos1 m]
  else [CStart; CInit true; CQr 0 (f_one fo); CLanczos2 m (c_numlanczos cf)] ++
       (if 0 <? idx then [CDos idx m] else []) ++ swap_calls 0 sw.
