(** Model of algorithm/algorithm.inc over an abstract kernel interface. *)
From Coq Require Import List Arith ZArith Bool.
Require Import Verif.Base.
Import ListNotations.

(** Floating point operations used by the algorithm layer; no laws are assumed, so NaN,
    infinities and any rounding are covered. [f_to_size] is the conversion to std::size_t, [None] when it is
    undefined behaviour (NaN, infinite, out of range). *)
Record fops (F : Type) := mk_fops {
  f_add : F -> F -> F;  f_sub : F -> F -> F;  f_mul : F -> F -> F;  f_div : F -> F -> F;
  f_neg : F -> F;       f_abs : F -> F;       f_sqrt : F -> F;      f_log : F -> F;
  f_ceil : F -> F;      f_pow : F -> nat -> F;
  f_lt : F -> F -> bool;            (* a < b *)
  f_zero : F; f_one : F; f_two : F; f_half : F (* 5e-1 *);
  f_max : F;                        (* numeric_limits::max() *)
  f_of_nat : nat -> F;              (* static_cast<double>(int) *)
  f_threshold : F;                  (* 2*sigma*sigma/10, sigma = 0.25 (algorithm.inc:233-234) *)
  f_G : F -> F;                     (* Gaussian CDF (algorithm.inc:237-239) *)
  f_to_size : F -> option nat
}.
Arguments f_add {F} _. Arguments f_sub {F} _. Arguments f_mul {F} _. Arguments f_div {F} _.
Arguments f_neg {F} _. Arguments f_abs {F} _. Arguments f_sqrt {F} _. Arguments f_log {F} _.
Arguments f_ceil {F} _. Arguments f_pow {F} _. Arguments f_lt {F} _. Arguments f_zero {F} _.
Arguments f_one {F} _. Arguments f_two {F} _. Arguments f_half {F} _. Arguments f_max {F} _.
Arguments f_of_nat {F} _. Arguments f_threshold {F} _. Arguments f_G {F} _. Arguments f_to_size {F} _.

(** The virtual interface Chase<T> (algorithm/interface.hpp); [S] is the whole state behind it. Scalars of the
    (possibly complex) type T that the algorithm passes are all conversions of real values, so F is used. *)
Record kernel (F S : Type) := mk_kernel {
  k_sym : S -> res (bool * S);                          (* checkSymmetryEasy *)
  k_start : S -> res S;
  k_end : S -> res S;
  k_init : bool -> S -> res S;                          (* initVecs(random) *)
  k_shift : F -> bool -> S -> res S;                    (* Shift(c, isunshift) *)
  k_hemm : nat -> F -> F -> nat -> S -> res S;          (* HEMM(block, alpha, beta, offset) *)
  k_qr : nat -> F -> S -> res S;                        (* QR(fixednev, cond) *)
  k_rr : nat -> S -> res (list F * S);                  (* RR(ritzv, block): values written to ritzv *)
  k_resd : list F -> nat -> S -> res (list F * S);      (* Resd(ritzv, resid, fixednev): values written to resid *)
  k_swap : nat -> nat -> S -> res S;
  k_lock : nat -> S -> res S;
  k_lanczos1 : nat -> S -> res (F * S);                 (* Lanczos(m, upperb) *)
  k_lanczos2 : nat -> nat -> S -> res (F * list F * list F * list F * S);
                                                        (* Lanczos(M, numvec, upperb, Theta, Tau, ritzV) *)
  k_dos : nat -> nat -> list F -> S -> res S            (* LanczosDos(idx, m, ritzVc) *)
}.
Arguments k_sym {F S} _. Arguments k_start {F S} _. Arguments k_end {F S} _. Arguments k_init {F S} _.
Arguments k_shift {F S} _. Arguments k_hemm {F S} _. Arguments k_qr {F S} _. Arguments k_rr {F S} _.
Arguments k_resd {F S} _. Arguments k_swap {F S} _. Arguments k_lock {F S} _.
Arguments k_lanczos1 {F S} _. Arguments k_lanczos2 {F S} _. Arguments k_dos {F S} _.

(** The configuration values solve() reads (algorithm/configuration.hpp). *)
Record conf (F : Type) := mk_conf {
  c_N : nat; c_nev : nat; c_nex : nat;
  c_tol : F; c_deg : nat; c_maxdeg : nat; c_degextra : nat; c_maxiter : nat;
  c_lanczositer : nat; c_numlanczos : nat;
  c_opt : bool; c_approx : bool; c_symcheck : bool
}.
Arguments c_N {F} _. Arguments c_nev {F} _. Arguments c_nex {F} _. Arguments c_tol {F} _.
Arguments c_deg {F} _. Arguments c_maxdeg {F} _. Arguments c_degextra {F} _. Arguments c_maxiter {F} _.
Arguments c_lanczositer {F} _. Arguments c_numlanczos {F} _. Arguments c_opt {F} _.
Arguments c_approx {F} _. Arguments c_symcheck {F} _.

(** An array together with a pointer into it: elements before the pointer, elements from it on. *)
Definition ptr (A : Type) : Type := (list A * list A)%type.
Definition whole {A} (p : ptr A) : list A := fst p ++ snd p.
(** pointer += n *)
Definition advance {A} (p : ptr A) (n : nat) : res (ptr A) :=
  if n <=? length (snd p) then Ok (fst p ++ firstn n (snd p), skipn n (snd p)) else UB.

Section Alg.
Context {F St : Type} (fo : fops F) (K : kernel F St).

(** std::max / std::min *)
Definition fmax (a b : F) : F := if f_lt fo a b then b else a.
Definition fmin (a b : F) : F := if f_lt fo b a then b else a.

(** std::max_element / std::min_element (dereferenced); UB on an empty range *)
Definition max_element (l : list F) : res F :=
  match l with [] => UB | x :: t => Ok (fold_left (fun m y => if f_lt fo m y then y else m) t x) end.
Definition min_element (l : list F) : res F :=
  match l with [] => UB | x :: t => Ok (fold_left (fun m y => if f_lt fo y m then y else m) t x) end.
Definition max_element_nat (l : list nat) : res nat :=
  match l with [] => UB | x :: t => Ok (fold_left (fun m y => if m <? y then y else m) t x) end.

(** algorithm.inc:29-30, 126-127, 496-497 centre and half width *)
Definition center (upper lower : F) : F := f_div fo (f_add fo upper lower) (f_two fo).
Definition halfw (upper lower : F) : F := f_div fo (f_sub fo upper lower) (f_two fo).

(** ** calc_degrees (algorithm.inc:19-68) *)

(** lines 35-40: requested degree of one Ritz pair before capping *)
Definition raw_degree (upperb lowerb tol ritz resid : F) : option nat :=
  let c := center upperb lowerb in
  let e := halfw upperb lowerb in
  let t := f_div fo (f_sub fo ritz c) e in
  let sq := f_sqrt fo (f_abs fo (f_sub fo (f_mul fo t t) (f_one fo))) in
  let rho := fmax (f_abs fo (f_sub fo t sq)) (f_abs fo (f_add fo t sq)) in
  f_to_size fo (f_ceil fo (f_abs fo (f_div fo (f_log fo (f_div fo resid tol)) (f_log fo rho)))).

(** arrays permuted together by the degree sort *)
Record cd_arrays := mk_cd { cd_deg : list nat; cd_ritz : list F; cd_res : list F; cd_last : list F; cd_k : St }.

(** lines 33-43 *)
Definition cd_loop1 (cf : conf F) (upperb lowerb : F) (n : nat) (ritzv resid : list F) (degrees : list nat)
  : res (list nat) :=
  for_ n 0 (fun i d =>
    let! r := rd ritzv i in
    let! s := rd resid i in
    match raw_degree upperb lowerb (c_tol cf) r s with
    | None => UB
    | Some x => wr d i (Nat.min (x + c_degextra cf) (c_maxdeg cf))
    end) degrees.

(** lines 45-48 *)
Definition cd_loop2 (unconverged nex : nat) (degrees : list nat) : res (list nat) :=
  for_ nex (unconverged - nex) (fun i d =>
    let! x := rd d (unconverged - 1 - nex) in wr d i x) degrees.

(** lines 50-53 *)
Definition cd_loop3 (unconverged : nat) (degrees : list nat) : res (list nat) :=
  for_ unconverged 0 (fun i d => let! x := rd d i in wr d i (x + x mod 2)) degrees.

(** lines 58-65: body of the exchange sort *)
Definition cd_exchange (locked j k : nat) (a : cd_arrays) : res cd_arrays :=
  let! dk := rd (cd_deg a) k in
  let! dj := rd (cd_deg a) j in
  if dk <? dj then
    let! d := swap_ (cd_deg a) k j in
    let! r := swap_ (cd_ritz a) k j in
    let! s := swap_ (cd_res a) k j in
    let! l := swap_ (cd_last a) k j in
    let! kk := k_swap K (k + locked) (j + locked) (cd_k a) in
    Ok (mk_cd d r s l kk)
  else Ok a.

(** lines 56-65 *)
Definition cd_sort (unconverged locked : nat) (a : cd_arrays) : res cd_arrays :=
  for_ (unconverged - 1) 0 (fun j a =>
    for_ (unconverged - j) j (fun k a => cd_exchange locked j k a) a) a.

(** calc_degrees; the arrays are the windows starting at the caller's pointers.  The caller guarantees
    unconverged > nex (loop condition of solve), so the unsigned subtractions do not wrap. *)
Definition calc_degrees (cf : conf F) (unconverged nex : nat) (upperb lowerb : F) (locked : nat) (a : cd_arrays)
  : res (nat * cd_arrays) :=
  let! d1 := cd_loop1 cf upperb lowerb (unconverged - nex) (cd_ritz a) (cd_res a) (cd_deg a) in
  let! d2 := cd_loop2 unconverged nex d1 in
  let! d3 := cd_loop3 unconverged d2 in
  let! a' := cd_sort unconverged locked (mk_cd d3 (cd_ritz a) (cd_res a) (cd_last a) (cd_k a)) in
  let! r := rd (cd_deg a') (unconverged - 1) in
  Ok (r, a').

(** ** locking (algorithm.inc:70-118) *)
Record lk_arrays := mk_lk { lk_ritz : list F; lk_res : list F; lk_last : list F; lk_k : St }.

(** lines 90-107: does the walk stop at a pair with this residual and previous residual? *)
Definition lk_stop (tol r last : F) : bool := f_lt fo tol r && f_lt fo r last.

(** lines 87-116; [index] is the rest of the index vector *)
Fixpoint lk_walk (tol : F) (locked : nat) (index : list nat) (converged : nat) (a : lk_arrays)
  : res (nat * lk_arrays) :=
  match index with
  | [] => Ok (converged, a)
  | j :: index' =>
    let! r := rd (lk_res a) j in
    let! l := rd (lk_last a) j in
    if lk_stop tol r l then Ok (converged, a)
    else
      let! a' :=
        (if negb (j =? converged) then
           let! s := swap_ (lk_res a) j converged in
           let! l := swap_ (lk_last a) j converged in
           let! v := swap_ (lk_ritz a) j converged in
           let! k := k_swap K (j + locked) (converged + locked) (lk_k a) in
           Ok (mk_lk v s l k)
         else Ok a) in
      lk_walk tol locked index' (converged + 1) a'
  end.

(** [sort_idx] stands for lines 78-84: std::sort of 0..unconverged-1 with the comparator Lritzv[a] < Lritzv[b].
    It may be any function of the values; theorems constrain it. (residLast[j] is only read in C++ when resid[j] > tol; an
    out-of-range j is UB in both.) *)
Definition locking (sort_idx : list F -> list nat) (unconverged : nat) (tol : F) (locked : nat) (a : lk_arrays)
  : res (nat * lk_arrays) :=
  let! keys := get_range (lk_ritz a) 0 unconverged in
  lk_walk tol locked (sort_idx keys) 0 a.

(** ** filter (algorithm.inc:120-184) *)
Record fstate := mk_fs {
  fs_k : St; fs_sigma : F; fs_off : nat (* offset / n *); fs_unproc : nat; fs_deg : list nat (* degrees pointer *);
  fs_Av : nat; fs_num : nat }.

(** lines 150-155, guard [unprocessed >= 0 && *degrees <= num_mult]; the first conjunct is always true.
    Reading past the array and decrementing 0 are UB. *)
Fixpoint retire1 (degs : list nat) (unproc off num : nat) : res (list nat * nat * nat) :=
  match degs with
  | [] => UB
  | d :: t => if d <=? num then
                match unproc with O => UB | S u => retire1 t u (off + 1) num end
              else Ok (degs, unproc, off)
  end.

(** lines 171-176, guard [unprocessed != 0 && *degrees <= num_mult] *)
Fixpoint retire2 (degs : list nat) (unproc off num : nat) : res (list nat * nat * nat) :=
  match unproc with
  | O => Ok (degs, O, off)
  | S u => match degs with
           | [] => UB
           | d :: t => if d <=? num then retire2 t u (off + 1) num else Ok (degs, unproc, off)
           end
  end.

(** lines 159-176: one pass of the three-term recurrence *)
Definition filter_step (sigma_1 e : F) (st : fstate) : res fstate :=
  let sigma_new := f_div fo (f_one fo) (f_sub fo (f_div fo (f_two fo) sigma_1) (fs_sigma st)) in
  let alpha := f_div fo (f_mul fo (f_two fo) sigma_new) e in
  let beta := f_mul fo (f_neg fo (fs_sigma st)) sigma_new in
  let! k := k_hemm K (fs_unproc st) alpha beta (fs_off st) (fs_k st) in
  let num := fs_num st + 1 in
  let! (dg, un, off) := retire2 (fs_deg st) (fs_unproc st) (fs_off st) num in
  Ok (mk_fs k sigma_new off un dg (fs_Av st + fs_unproc st) num).

(** filter; [offset] is kept in columns (n >= 1).  Returns Av and the kernel state. *)
Definition filter_ (unprocessed deg : nat) (degrees : list nat) (lambda_1 lower upper : F) (k : St)
  : res (nat * St) :=
  let c := center upper lower in
  let e := halfw upper lower in
  let sigma_1 := f_div fo e (f_sub fo lambda_1 c) in
  let! k1 := k_shift K (f_neg fo c) false k in
  let! k2 := k_hemm K unprocessed (f_div fo sigma_1 e) (f_zero fo) 0 k1 in
  let! (dg, un, off) := retire1 degrees unprocessed 0 1 in
  let! st := for_ (deg - 1) 2 (fun _ st => filter_step sigma_1 e st)
               (mk_fs k2 sigma_1 off un dg unprocessed 1) in
  let! k3 := k_shift K c true (fs_k st) in
  Ok (fs_Av st, k3).

(** ** lanczos (algorithm.inc:186-322) *)

(** checked accesses with a C++ [int] index *)
Definition rdz {A} (l : list A) (i : Z) : res A := if (i <? 0)%Z then UB else rd l (Z.to_nat i).
Definition wrz {A} (l : list A) (i : Z) (v : A) : res (list A) := if (i <? 0)%Z then UB else wr l (Z.to_nat i) v.

(** lines 243-253: cumulated density of states at x *)
Definition dos_curr (x : F) (Theta Tau : list F) (numvec : nat) : F :=
  let s := fold_left (fun curr tt =>
      let '(th, ta) := tt in
      if f_lt fo x (f_sub fo th (f_threshold fo)) then f_add fo curr (f_zero fo)
      else if f_lt fo (f_add fo th (f_threshold fo)) x then f_add fo curr (f_mul fo ta (f_one fo))
      else f_add fo curr (f_mul fo ta (f_G fo (f_sub fo x th))))
    (combine Theta Tau) (f_zero fo) in
  f_div fo s (f_of_nat fo numvec).

(** lines 241-264: search for lowerb; [None] = the variable stays uninitialised. *)
Fixpoint dos_search (todo : nat) (i : nat) (sorted Theta Tau : list F) (numvec : nat) (search prev : F)
  : res (option F) :=
  match todo with
  | O => Ok None
  | S todo' =>
    let! x := rd sorted i in
    let curr := dos_curr x Theta Tau numvec in
    if f_lt fo search curr then
      if f_lt fo (f_abs fo (f_sub fo curr search)) (f_abs fo (f_sub fo prev search))
      then Ok (Some x)
      else let! y := rdz sorted (Z.of_nat i - 1) in Ok (Some y)
    else dos_search todo' (i + 1) sorted Theta Tau numvec search curr
  end.

(** lines 267-275: index of the last run's value before the first one above lowerb (an int, may be -1) *)
Fixpoint dos_idx (todo i base : nat) (Theta : list F) (lowerb : F) : res Z :=
  match todo with
  | O => Ok 0%Z
  | S todo' =>
    let! x := rd Theta (base + i) in
    if f_lt fo lowerb x then Ok (Z.of_nat i - 1)%Z
    else dos_idx todo' (i + 1) base Theta lowerb
  end.

(** lines 297-305: initial Ritz values *)
Definition lz_fill (idx : Z) (nevex : nat) (base : nat) (Theta : list F) (lambda lowerb : F) (ritzv : list F)
  : res (list F) :=
  let! r1 := for_ (Z.to_nat idx) 0 (fun i r => let! x := rd Theta (base + i) in wr r i x) ritzv in
  (* for (i = idx; i < nevex - 1; ++i); idx may be negative *)
  let! r2 := for_ (Z.to_nat (Z.of_nat nevex - 1 - idx)) 0
               (fun t r => wrz r (idx + Z.of_nat t)%Z lambda) r1 in
  wrz r2 (Z.of_nat nevex - 1)%Z lowerb.

(** lines 308-313: intersperse the Lanczos vectors *)
Definition lz_intersperse (idx nevex : nat) (ritzv : list F) (k : St) : res (list F * St) :=
  for_ (idx - 1) 1 (fun i rk =>
    let '(r, k) := rk in
    let j := i * (nevex / idx) in
    let! k' := k_swap K i j k in
    let! r' := swap_ r i j in
    Ok (r', k')) (ritzv, k).

(** [fsort]: std::sort of a double array. The values are kept in F (the copy to double is exact).
    Returns idx, upperb, Ritz values and kernel state. *)
Definition lanczos (fsort : list F -> list F) (N numvec m nevex : nat) (mode : bool) (ritzv : list F) (k : St)
  : res (Z * F * list F * St) :=
  if m =? 0 then UB (* assert(m >= 1) *)
  else if negb mode then
    let! (ub, k1) := k_lanczos1 K m k in Ok (0%Z, ub, ritzv, k1)
  else
    let! (ub, Theta, Tau, ritzV, k1) := k_lanczos2 K m numvec k in
    let sorted := fsort Theta in
    let! lambda := rd sorted 0 in
    let search := f_div fo (f_of_nat fo nevex) (f_of_nat fo N) in
    let! lb := dos_search (numvec * m) 0 sorted Theta Tau numvec search (f_zero fo) in
    match lb with
    | None => UB (* lowerb read uninitialised *)
    | Some lowerb =>
      let base := (numvec - 1) * m in
      let! idx := dos_idx m 0 base Theta lowerb in
      let! k2 := (if (0 <? idx)%Z then k_dos K (Z.to_nat idx) m ritzV k1 else Ok k1) in
      let! r := lz_fill idx nevex base Theta lambda lowerb ritzv in
      let! (r', k3) := lz_intersperse (Z.to_nat idx) nevex r k2 in
      Ok (idx, ub, r', k3)
    end.

(** ** solve (algorithm.inc:324-572) *)
Record sstate := mk_ss {
  ss_k : St;
  ss_ritz : ptr F; ss_res : ptr F; ss_last : ptr F; ss_deg : ptr nat;
  ss_locked : nat; ss_unconv : nat; ss_iter : nat;
  ss_lowerb : F; ss_lambda : F; ss_d : nat (* deg *) }.

(** lines 426-442: new filter bounds *)
Definition update_bounds (nevex : nat) (s : sstate) : res (F * F) :=
  if ss_unconv s <? nevex then
    let! all := get_range (whole (ss_ritz s)) 0 nevex in
    let! lambda := min_element all in
    let! w := get_range (snd (ss_res s)) 0 (ss_unconv s) in
    if forallb (fun r => negb (f_lt fo (f_half fo) r)) w then
      let! lb := rd (snd (ss_ritz s)) (ss_unconv s - 1) in Ok (lb, lambda)
    else Ok (ss_lowerb s, lambda)
  else Ok (ss_lowerb s, ss_lambda s).

(** lines 502-505 *)
Definition rho_of (t : F) : F :=
  let sq := f_sqrt fo (f_sub fo (f_mul fo t t) (f_one fo)) in
  fmax (f_abs fo (f_sub fo t sq)) (f_abs fo (f_add fo t sq)).

(** lines 496-511: condition estimate; [ritz0] is GetRitzv()[0], [ritzk] is ritzv[0] *)
Definition cond_est (upperb lowerb ritz0 ritzk : F) (deg0 degmax : nat) : F :=
  let cc := center upperb lowerb in
  let ee := halfw upperb lowerb in
  let rho1 := rho_of (f_div fo (f_sub fo ritz0 cc) ee) in
  let rhok := rho_of (f_div fo (f_sub fo ritzk cc) ee) in
  f_mul fo (f_pow fo rhok deg0) (f_pow fo rho1 (degmax - deg0)).

(** lines 529-530 *)
Definition min_into (n : nat) (resid last : list F) : res (list F) :=
  for_ n 0 (fun i l => let! a := rd l i in let! b := rd resid i in wr l i (fmin a b)) last.

(** lines 424-553: one pass of the outer loop *)
Definition iterate (sort_idx : list F -> list nat) (cf : conf F) (upperb : F) (s : sstate) : res sstate :=
  let nev := c_nev cf in let nex := c_nex cf in
  let nevex := nev + nex in
  let unconverged := ss_unconv s in
  let locked := ss_locked s in
  let! (lb0, lambda) := update_bounds nevex s in
  let lowerb := if f_lt fo upperb lb0 then upperb else lb0 in
  (* degrees: lines 465-470 *)
  let! (deg, a) :=
    (if c_opt cf && negb (ss_iter s =? 0) then
       calc_degrees cf unconverged nex upperb lowerb locked
         (mk_cd (snd (ss_deg s)) (snd (ss_ritz s)) (snd (ss_res s)) (snd (ss_last s)) (ss_k s))
     else Ok (ss_d s, mk_cd (snd (ss_deg s)) (snd (ss_ritz s)) (snd (ss_res s)) (snd (ss_last s)) (ss_k s))) in
  (* filter: 488 *)
  let! (_, k1) := filter_ unconverged deg (cd_deg a) lambda lowerb upperb (cd_k a) in
  (* QR: 496-513 *)
  let! r0 := rd (fst (ss_ritz s) ++ cd_ritz a) 0 in
  let! rk := rd (cd_ritz a) 0 in
  let! d0 := rd (cd_deg a) 0 in
  let! dw := get_range (cd_deg a) 0 (nevex - locked) in
  let! dmax := max_element_nat dw in
  let! k2 := k_qr K locked (cond_est upperb lowerb r0 rk d0 dmax) k1 in
  (* RR: 520 *)
  let! (vals, k3) := k_rr K unconverged k2 in
  let! ritz := put_range (cd_ritz a) 0 vals in
  (* residuals: 529-531 *)
  let! last := min_into unconverged (cd_res a) (cd_last a) in
  let! (rs, k4) := k_resd K ritz locked k3 in
  let! resid := put_range (cd_res a) 0 rs in
  (* locking: 535-542 *)
  let! (new, l) := locking sort_idx (unconverged - nex) (c_tol cf) locked (mk_lk ritz resid last k4) in
  let! k5 := k_lock K new (lk_k l) in
  (* pointers: 544-552 *)
  let! pr := advance (fst (ss_ritz s), lk_ritz l) new in
  let! ps := advance (fst (ss_res s), lk_res l) new in
  let! pl := advance (fst (ss_last s), lk_last l) new in
  let! pd := advance (fst (ss_deg s), cd_deg a) new in
  Ok (mk_ss k5 pr ps pl pd (locked + new) (unconverged - new) (ss_iter s + 1) lowerb lambda deg).

(** the while loop; fuel = remaining iterations (MaxIter - iteration), so it never runs out *)
Fixpoint solve_loop (fuel : nat) (sort_idx : list F -> list nat) (cf : conf F) (upperb : F) (s : sstate)
  : res sstate :=
  if (c_nex cf <? ss_unconv s) && (ss_iter s <? c_maxiter cf) then
    match fuel with
    | O => Fuel
    | S fuel' => let! s' := iterate sort_idx cf upperb s in solve_loop fuel' sort_idx cf upperb s'
    end
  else Ok s.

(** lines 559-567: final selection sort of the first nev values.  nev >= 1 (for nev = 0 the bound nev - 1 wraps
    and the loop runs out of bounds: UB). *)
Definition final_exchange (i j : nat) (rk : list F * St) : res (list F * St) :=
  let '(r, k) := rk in
  let! a := rd r i in
  let! b := rd r j in
  if f_lt fo b a then
    let! r' := swap_ r i j in
    let! k' := k_swap K i j k in
    Ok (r', k')
  else Ok (r, k).

Definition final_sort (nev : nat) (ritzv : list F) (k : St) : res (list F * St) :=
  if nev =? 0 then UB
  else for_ (nev - 1) 0 (fun i rk => for_ (nev - 1 - i) (i + 1) (fun j rk => final_exchange i j rk) rk) (ritzv, k).

(** What a caller observes after solve: kernel state, ritzv and resid arrays, and (ghost) the loop exit state. *)
Record outcome := mk_out {
  o_k : St; o_ritz : list F; o_res : list F; o_exit : option sstate }.

(** lines 357-422: start-up; returns upperb and the state in which the loop is entered *)
Definition solve_init (fsort : list F -> list F) (cf : conf F) (k : St) (ritzv resid : list F)
  : res (F * sstate) :=
  let! k1 := k_start K k in
  let nevex := c_nev cf + c_nex cf in
  let! resid1 := put_range resid 0 (repeat (f_max fo) nevex) in
  let deg := Nat.min (c_deg cf + c_deg cf mod 2) (c_maxdeg cf) in
  let random := negb (c_approx cf) in
  let! k2 := k_init K random k1 in
  let! k3 := (if random then k_qr K 0 (f_one fo) k2 else Ok k2) in
  let m := Nat.min nevex (Nat.min (c_N cf / 2) (c_lanczositer cf)) in
  let! (_, upperb, ritz, k4) := lanczos fsort (c_N cf) (c_numlanczos cf) m nevex random ritzv k3 in
  let! w := get_range ritz 0 nevex in
  let! lowerb := max_element w in
  let! lambda := min_element w in
  Ok (upperb, mk_ss k4 ([], ritz) ([], resid1) ([], repeat (f_max fo) nevex) ([], repeat deg nevex)
                0 nevex 0 lowerb lambda deg).

Definition solve (fsort : list F -> list F) (sort_idx : list F -> list nat)
  (cf : conf F) (k : St) (ritzv resid : list F) : res outcome :=
  let! (cont, k0) :=
    (if c_symcheck cf then k_sym K k else Ok (true, k)) in
  if negb cont then Ok (mk_out k0 ritzv resid None)     (* lines 342-355: early return *)
  else
    let! (upperb, s0) := solve_init fsort cf k0 ritzv resid in
    let! s := solve_loop (c_maxiter cf) sort_idx cf upperb s0 in
    let! (r, k') := final_sort (c_nev cf) (whole (ss_ritz s)) (ss_k s) in
    let! k'' := k_end K k' in
    Ok (mk_out k'' r (whole (ss_res s)) (Some s)).

End Alg.
