(** Model of algorithm/performance.hpp: ChasePerfData and PerformanceDecoratorChase.  Time points are integers (ticks)
    delivered by an arbitrary clock; the counters are natural numbers (no wrap). HAS_CUDA events are not modelled. *)
From Coq Require Import List Arith ZArith Bool.
Require Import Verif.Base Verif.AlgModel.
Import ListNotations.
Local Open Scope Z_scope.

(** performance.hpp:55-64 *)
Inductive timer := TAll | TInit | TLanczos | TFilter | TQr | TRr | TResid.
Definition timer_eqb (a b : timer) : bool :=
  match a, b with
  | TAll, TAll | TInit, TInit | TLanczos, TLanczos | TFilter, TFilter | TQr, TQr | TRr, TRr | TResid, TResid => true
  | _, _ => false
  end.
(** order in which print() shows them *)
Definition timers : list timer := [TAll; TInit; TLanczos; TFilter; TQr; TRr; TResid].

(** performance.hpp:351-358; the vectors of size 7 are functions of the enum. [p_tick]: number of clock readings so far. *)
Record perf := mk_perf {
  p_iter : nat; p_vecs : nat; p_blocks : list nat;
  p_timings : timer -> Z; p_starts : timer -> list Z; p_ends : timer -> list Z; p_nprocs : nat; p_tick : nat }.

(** performance.hpp:48-52; nprocs is uninitialised until Start (here: the argument) *)
Definition perf_new (np tick : nat) : perf := mk_perf 0 0 [] (fun _ => 0) (fun _ => []) (fun _ => []) np tick.

(** performance.hpp:66-79 *)
Definition p_reset (p : perf) : perf := mk_perf 0 0 [] (fun _ => 0) (fun _ => []) (fun _ => []) (p_nprocs p) (p_tick p).

Section Clock.
Context (clk : nat -> Z).   (* value of the n-th clock reading *)

(** performance.hpp:224-232: push_back(now()) *)
Definition start_clock (t : timer) (p : perf) : perf :=
  mk_perf (p_iter p) (p_vecs p) (p_blocks p) (p_timings p)
    (fun u => if timer_eqb u t then p_starts p u ++ [clk (p_tick p)] else p_starts p u) (p_ends p) (p_nprocs p) (S (p_tick p)).
Definition end_clock (t : timer) (p : perf) : perf :=
  mk_perf (p_iter p) (p_vecs p) (p_blocks p) (p_timings p) (p_starts p)
    (fun u => if timer_eqb u t then p_ends p u ++ [clk (p_tick p)] else p_ends p u) (p_nprocs p) (S (p_tick p)).
(** performance.hpp:213-222 *)
Definition add_iter (n : nat) (p : perf) : perf :=
  mk_perf (p_iter p + n)%nat (p_vecs p) (p_blocks p) (p_timings p) (p_starts p) (p_ends p) (p_nprocs p) (p_tick p).
Definition add_vecs (n : nat) (p : perf) : perf :=
  mk_perf (p_iter p) (p_vecs p + n)%nat (p_blocks p) (p_timings p) (p_starts p) (p_ends p) (p_nprocs p) (p_tick p).
Definition add_block (n : nat) (p : perf) : perf :=
  mk_perf (p_iter p) (p_vecs p) (p_blocks p ++ [n]) (p_timings p) (p_starts p) (p_ends p) (p_nprocs p) (p_tick p).
Definition set_nprocs (n : nat) (p : perf) : perf :=
  mk_perf (p_iter p) (p_vecs p) (p_blocks p) (p_timings p) (p_starts p) (p_ends p) n (p_tick p).

(** performance.hpp:310-323, one timer: timings[it] += end[i] - start[i] for every start; end[i] is read unchecked *)
Fixpoint sum_points (starts ends : list Z) (acc : Z) : res Z :=
  match starts with
  | [] => Ok acc
  | s :: ss => match ends with [] => UB | e :: es => sum_points ss es (acc + (e - s)) end
  end.

(** performance.hpp:310-323 *)
Definition calc_timings (p : perf) : res perf :=
  let! tm := fold_left (fun acc t => let! f := acc in
                          let! v := sum_points (p_starts p t) (p_ends p t) (f t) in
                          Ok (fun u => if timer_eqb u t then v else f u)) timers (Ok (p_timings p)) in
  Ok (mk_perf (p_iter p) (p_vecs p) (p_blocks p) tm (p_starts p) (p_ends p) (p_nprocs p) (p_tick p)).

(** performance.hpp:259-296 with N = 0: the printed row (nprocs, iterations, filtered vectors, timings) *)
Record row := mk_row { r_nprocs : nat; r_iter : nat; r_vecs : nat; r_times : list Z }.
Definition print (p : perf) : res (row * perf) :=
  let! q := calc_timings p in
  Ok (mk_row (p_nprocs q) (p_iter q) (p_vecs q) (map (p_timings q) timers), q).

(** PerformanceDecoratorChase, performance.hpp:373-492 *)
Context {F St : Type} (np : nat) (K : kernel F St).
Definition timed {X} (t : timer) (s : perf * St) (call : St -> res (X * St)) (after : perf -> perf) : res (X * (perf * St)) :=
  let p1 := start_clock t (fst s) in
  let! (x, k) := call (snd s) in
  Ok (x, (end_clock t (after p1), k)).
Definition timed_ (t : timer) (s : perf * St) (call : St -> res St) : res (perf * St) :=
  let p1 := start_clock t (fst s) in
  let! k := call (snd s) in
  Ok (end_clock t p1, k).
Definition perfK : kernel F (perf * St) := {|
  k_sym := fun s => let! (b, k) := k_sym K (snd s) in Ok (b, (fst s, k));                          (* 452-455 *)
  k_start := fun s => let! k := k_start K (snd s) in
     Ok (set_nprocs np (start_clock TAll (p_reset (fst s))), k);                                   (* 462-468 *)
  k_end := fun s => let! k := k_end K (snd s) in Ok (end_clock TAll (fst s), k);                   (* 472-476 *)
  k_init := fun r s => timed_ TInit s (k_init K r);                                                (* 379-384 *)
  k_shift := fun c u s =>                                                                          (* 386-394 *)
     let p1 := if u then end_clock TFilter (fst s) else start_clock TFilter (fst s) in
     let! k := k_shift K c u (snd s) in Ok (p1, k);
  k_hemm := fun n a b o s => let! k := k_hemm K n a b o (snd s) in Ok (add_vecs n (fst s), k);     (* 395-399 *)
  k_qr := fun l c s => timed_ TQr s (k_qr K l c);                                                  (* 401-406 *)
  k_rr := fun n s => timed TRr s (k_rr K n) (add_block n);                                         (* 408-414 *)
  k_resd := fun v l s => let p1 := start_clock TResid (fst s) in
     let! (r, k) := k_resd K v l (snd s) in Ok (r, (p1, k));                                       (* 415-420 *)
  k_swap := fun i j s => let! k := k_swap K i j (snd s) in Ok (fst s, k);                          (* 444 *)
  k_lock := fun n s => let! k := k_lock K n (snd s) in Ok (add_iter 1 (end_clock TResid (fst s)), k); (* 445-450 *)
  k_lanczos1 := fun m s => timed TLanczos s (k_lanczos1 K m) (fun p => p);                         (* 421-427 *)
  k_lanczos2 := fun m nv s => timed TLanczos s (k_lanczos2 K m nv) (fun p => p);                   (* 428-435 *)
  k_dos := fun i m rv s => timed_ TLanczos s (k_dos K i m rv) |}.                                  (* 436-442 *)
End Clock.
