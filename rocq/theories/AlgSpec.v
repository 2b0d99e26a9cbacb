(** Specification vocabulary for the algorithm layer. *)
From Coq Require Import List Arith Permutation.
Require Import Verif.Base Verif.AlgModel.
Import ListNotations.

(** transposition of indices *)
Definition tr (k j i : nat) : nat := if i =? k then j else if i =? j then k else i.

(** exchange two elements of a list (no effect when out of range) *)
Definition swp {A} (l : list A) (k j : nat) : list A :=
  match nth_error l k, nth_error l j with
  | Some a, Some b => upd (upd l k b) j a
  | _, _ => l
  end.

(** a sequence of exchanges, first one first *)
Definition swps {A} (sw : list (nat * nat)) (l : list A) : list A :=
  fold_left (fun l p => swp l (fst p) (snd p)) sw l.

(** the same sequence of column exchanges, shifted by [off], issued to a kernel *)
Fixpoint kswaps {F St} (K : kernel F St) (off : nat) (sw : list (nat * nat)) (s : St) : res St :=
  match sw with
  | [] => Ok s
  | (k, j) :: t => let! s' := k_swap K (k + off) (j + off) s in kswaps K off t s'
  end.

Definition in_range (n : nat) (sw : list (nat * nat)) : Prop :=
  Forall (fun p => fst p < n /\ snd p < n) sw.

(** ascending, by position *)
Definition ascending (l : list nat) : Prop :=
  forall i j a b, i <= j -> nth_error l i = Some a -> nth_error l j = Some b -> a <= b.

(** The numerical backend respects the calling convention: on states satisfying the invariant for
    the current number [l] of locked columns, every call with in-range arguments succeeds, returns arrays of
    the requested length and preserves the invariant. *)
Record kernel_safe {F St} (K : kernel F St) (nevex : nat) (I0 : St -> Prop) (I : nat -> St -> Prop) : Prop := {
  ks_sym : forall s, I0 s -> exists b s', k_sym K s = Ok (b, s') /\ I0 s';
  ks_start : forall s, I0 s -> exists s', k_start K s = Ok s' /\ I 0 s';
  ks_init : forall r s, I 0 s -> exists s', k_init K r s = Ok s' /\ I 0 s';
  ks_shift : forall l c u s, I l s -> exists s', k_shift K c u s = Ok s' /\ I l s';
  ks_hemm : forall l n a b off s, I l s -> l + off + n <= nevex ->
              exists s', k_hemm K n a b off s = Ok s' /\ I l s';
  ks_qr : forall l c s, I l s -> exists s', k_qr K l c s = Ok s' /\ I l s';
  ks_rr : forall l s, I l s -> l <= nevex ->
              exists v s', k_rr K (nevex - l) s = Ok (v, s') /\ length v = nevex - l /\ I l s';
  ks_resd : forall l v s, I l s -> l <= nevex -> nevex - l <= length v ->
              exists r s', k_resd K v l s = Ok (r, s') /\ length r = nevex - l /\ I l s';
  ks_swap : forall l i j s, I l s -> i < nevex -> j < nevex -> exists s', k_swap K i j s = Ok s' /\ I l s';
  ks_lock : forall l n s, I l s -> l + n <= nevex -> exists s', k_lock K n s = Ok s' /\ I (l + n) s';
  ks_lanczos1 : forall m s, I 0 s -> 0 < m <= nevex -> exists u s', k_lanczos1 K m s = Ok (u, s') /\ I 0 s';
  ks_lanczos2 : forall m nv s, I 0 s -> 0 < m <= nevex -> 0 < nv <= nevex -> exists u th ta rv s',
              k_lanczos2 K m nv s = Ok (u, th, ta, rv, s') /\
              length th = nv * m /\ length ta = nv * m /\ length rv = m * m /\ I 0 s';
  ks_dos : forall idx m rv s, I 0 s -> 0 < idx -> idx < m -> m <= nevex -> length rv = m * m ->
              exists s', k_dos K idx m rv s = Ok s' /\ I 0 s';
  ks_end : forall l s, I l s -> exists s', k_end K s = Ok s' /\ I l s'
}.

(** ** locking *)

(** [idx] is a possible result of std::sort of 0..n-1 by key, comparator [key a < key b] *)
Definition sorts {F} (fo : fops F) (keys : list F) (idx : list nat) : Prop :=
  Permutation idx (seq 0 (length keys)) /\
  forall p q i j ki kj, p < q -> nth_error idx p = Some i -> nth_error idx q = Some j ->
    nth_error keys i = Some ki -> nth_error keys j = Some kj -> f_lt fo kj ki = false.

Definition strictly_ascending {F} (fo : fops F) (keys : list F) : Prop :=
  forall i j a b, i < j -> nth_error keys i = Some a -> nth_error keys j = Some b -> f_lt fo a b = true.

(** The acceptance rule of a pair: not (residual above tolerance and smaller than the previous one). *)
Definition accepted {F} (fo : fops F) (tol r last : F) : Prop :=
  ~ (f_lt fo tol r = true /\ f_lt fo r last = true).

(** ** filter *)

Definition count (p : nat -> bool) (l : list nat) : nat := length (filter p l).

(** sigma_i of the scaled three-term recurrence *)
Fixpoint sig {F} (fo : fops F) (sigma_1 : F) (i : nat) : F :=
  match i with
  | O => sigma_1
  | S O => sigma_1
  | S j => f_div fo (f_one fo) (f_sub fo (f_div fo (f_two fo) sigma_1) (sig fo sigma_1 j))
  end.
Definition alpha_ {F} (fo : fops F) (sigma_1 e : F) (i : nat) : F :=
  if i =? 1 then f_div fo sigma_1 e else f_div fo (f_mul fo (f_two fo) (sig fo sigma_1 i)) e.
Definition beta_ {F} (fo : fops F) (sigma_1 : F) (i : nat) : F :=
  if i =? 1 then f_zero fo else f_mul fo (f_neg fo (sig fo sigma_1 (i - 1))) (sig fo sigma_1 i).

(** What the filter is meant to do: shift, then for i = 1..deg multiply exactly the columns whose degree is at
    least i, then shift back. *)
Definition filter_spec {F St} (fo : fops F) (K : kernel F St) (deg : nat) (degs : list nat)
  (lambda_1 lower upper : F) (k : St) : res (nat * St) :=
  let c := f_div fo (f_add fo upper lower) (f_two fo) in
  let e := f_div fo (f_sub fo upper lower) (f_two fo) in
  let sigma_1 := f_div fo e (f_sub fo lambda_1 c) in
  let! k1 := k_shift K (f_neg fo c) false k in
  let! k2 := for_ deg 1 (fun i k =>
      k_hemm K (count (fun d => i <=? d) degs) (alpha_ fo sigma_1 e i) (beta_ fo sigma_1 i)
        (count (fun d => d <? i) degs) k) k1 in
  let! k3 := k_shift K c true k2 in
  Ok (list_sum (map (Nat.min deg) degs), k3).

(** arguments of a filter call as made by solve with [l] of [nevex] columns locked *)
Definition filter_args (l nevex n deg : nat) (degs : list nat) : Prop :=
  n = length degs /\ l + n = nevex /\ ascending degs /\ Forall (fun d => 2 <= d /\ Nat.even d = true /\ d <= deg) degs /\ In deg degs.

(** ** Backend contract about vector columns.  [cols] is what the user sees as the vector buffer; [J l] an internal
    invariant with [l] locked columns, [Jf l] the weaker one between filter and QR, [Jr l] the stronger one from QR until
    the columns are locked. [Rv v x]: value v and column x were produced together by Rayleigh-Ritz; [Rr v x r]: r is the
    residual computed for them. *)
Record kernel_cols {F St V} (fo : fops F) (K : kernel F St) (nevex : nat) (cols : St -> list V)
  (J0 : St -> Prop) (J Jf Jr : nat -> St -> Prop) (Rv : F -> V -> Prop) (Rr : F -> V -> F -> Prop) : Prop := {
  kc_len : forall l s, J l s -> length (cols s) = nevex;
  kc_sub : forall l s, Jr l s -> J l s;
  kc_weak : forall l s, J l s -> Jf l s;
  kc_sym : forall s b s', J0 s -> k_sym K s = Ok (b, s') -> J0 s';
  kc_start : forall s s', J0 s -> k_start K s = Ok s' -> J 0 s';
  kc_init : forall r s s', J 0 s -> k_init K r s = Ok s' -> J 0 s';
  kc_lanczos1 : forall m s u s', J 0 s -> k_lanczos1 K m s = Ok (u, s') -> J 0 s';
  kc_lanczos2 : forall m nv s u a b c s', J 0 s -> k_lanczos2 K m nv s = Ok (u, a, b, c, s') -> J 0 s';
  kc_dos : forall idx m rv s s', J 0 s -> k_dos K idx m rv s = Ok s' -> J 0 s';
  kc_filter : forall l n deg degs la lo up s av s', J l s -> filter_args l nevex n deg degs -> filter_ fo K n deg degs la lo up s = Ok (av, s') ->
              Jf l s' /\ firstn l (cols s') = firstn l (cols s);
  kc_qr : forall l c s s', Jf l s -> k_qr K l c s = Ok s' -> Jr l s' /\ firstn l (cols s') = firstn l (cols s);
  kc_rr : forall l s v s', Jr l s -> l <= nevex -> k_rr K (nevex - l) s = Ok (v, s') ->
              Jr l s' /\ firstn l (cols s') = firstn l (cols s) /\ Forall2 Rv v (skipn l (cols s'));
  kc_resd : forall l v r s s', Jr l s -> l <= nevex -> k_resd K v l s = Ok (r, s') ->
              Jr l s' /\ cols s' = cols s /\ length r = nevex - l /\
              forall i x y z, nth_error v i = Some x -> nth_error (skipn l (cols s)) i = Some y ->
                nth_error r i = Some z -> Rr x y z;
  kc_swap : forall l i j s s', J l s -> i < nevex -> j < nevex -> k_swap K i j s = Ok s' ->
              J l s' /\ cols s' = swp (cols s) i j;
  kc_swap_r : forall l i j s s', Jr l s -> l <= i < nevex -> l <= j < nevex -> k_swap K i j s = Ok s' ->
              Jr l s' /\ cols s' = swp (cols s) i j;
  kc_lock : forall l n s s', Jr l s -> k_lock K n s = Ok s' -> J (l + n) s' /\ cols s' = cols s;
  kc_end : forall l s s', J l s -> k_end K s = Ok s' -> J l s' /\ cols s' = cols s
}.

(** ** Lanczos start-up *)

(** [k] is the first index below [n] satisfying [p] *)
Definition first_index (p : nat -> Prop) (n k : nat) : Prop := k < n /\ p k /\ forall i, i < k -> ~ p i.

(** The density-of-states search: [k] is the first sorted Ritz value whose cumulated weight exceeds the target; the
    chosen bound is that value or its predecessor, whichever weight is closer to the target. *)
Definition dos_bound {F} (fo : fops F) (sorted : list F) (curr : nat -> F) (search : F) (lb : F) : Prop :=
  exists k, first_index (fun i => f_lt fo search (curr i) = true) (length sorted) k /\
    let prev := match k with O => f_zero fo | S k' => curr k' end in
    if f_lt fo (f_abs fo (f_sub fo (curr k) search)) (f_abs fo (f_sub fo prev search))
    then nth_error sorted k = Some lb
    else 1 <= k /\ nth_error sorted (k - 1) = Some lb.

(** Ritz values before interspersing *)
Definition filled {F} (idx nevex base : nat) (Theta : list F) (lambda lowerb : F) (old new : list F) : Prop :=
  length new = length old /\
  (forall i, i < idx -> nth_error new i = nth_error Theta (base + i)) /\
  (forall i, idx <= i < nevex - 1 -> nth_error new i = Some lambda) /\
  nth_error new (nevex - 1) = Some lowerb /\
  (forall i, nevex <= i -> nth_error new i = nth_error old i).

(** cumulated spectral weight at the i-th sorted Ritz value *)
Definition curr_at {F} (fo : fops F) (sorted Theta Tau : list F) (nv : nat) (i : nat) : F :=
  match nth_error sorted i with Some x => dos_curr fo x Theta Tau nv | None => f_zero fo end.

(** the condition under which the start-up stays inside its arrays: the search finds a bound, and the smallest
    value of the last run does not exceed it *)
Definition start_ok {F} (fo : fops F) (sorted Theta Tau : list F) (N nv m nevex : nat) : Prop :=
  exists lb x, dos_bound fo sorted (curr_at fo sorted Theta Tau nv) (f_div fo (f_of_nat fo nevex) (f_of_nat fo N)) lb /\
    nth_error Theta ((nv - 1) * m) = Some x /\ f_lt fo lb x = false.

(** ** degrees *)
Definition round_even (x : nat) : nat := x + x mod 2.

(** degree needed to reduce residual [s] of Ritz value [r] to [tol]:
    ceil |log(s/tol) / log(rho)|, rho = max |t +- sqrt|t^2-1||, t = (r-c)/e *)
Definition degree_formula {F} (fo : fops F) (ub lb tol r s : F) : option nat :=
  let c := f_div fo (f_add fo ub lb) (f_two fo) in
  let e := f_div fo (f_sub fo ub lb) (f_two fo) in
  let t := f_div fo (f_sub fo r c) e in
  let w := f_sqrt fo (f_abs fo (f_sub fo (f_mul fo t t) (f_one fo))) in
  let a := f_abs fo (f_sub fo t w) in let b := f_abs fo (f_add fo t w) in
  let rho := if f_lt fo a b then b else a in
  f_to_size fo (f_ceil fo (f_abs fo (f_div fo (f_log fo (f_div fo s tol)) (f_log fo rho)))).

(** degree wanted for unlocked pair [i]; the extra pairs copy the last wanted one *)
Definition want_degree {F} (fo : fops F) (cf : conf F) (ub lb : F) (unc nex : nat) (ritzv resid : list F) (i : nat) (d : nat) : Prop :=
  let i' := if i <? unc - nex then i else unc - nex - 1 in
  exists r s x, nth_error ritzv i' = Some r /\ nth_error resid i' = Some s /\
    degree_formula fo ub lb (c_tol cf) r s = Some x /\
    d = round_even (Nat.min (x + c_degextra cf) (c_maxdeg cf)).

(** ** ordering laws, required only of the values satisfying P (e.g. not NaN) *)
Record order_on {F} (fo : fops F) (P : F -> Prop) : Prop := {
  oo_irrefl : forall a, P a -> f_lt fo a a = false;
  oo_trans : forall a b c, P a -> P b -> P c -> f_lt fo a b = false -> f_lt fo b c = false -> f_lt fo a c = false;
  oo_asym : forall a b, P a -> P b -> f_lt fo a b = true -> f_lt fo b a = false }.

(** positions below j hold the smallest values among the first n, in order *)
Definition fsorted_upto {F} (fo : fops F) (n j : nat) (r : list F) : Prop :=
  forall i i' x y, i < j -> i < i' < n -> nth_error r i = Some x -> nth_error r i' = Some y -> f_lt fo y x = false.

(** ** runs *)
(** usable configuration *)
Definition conf_ok {F} (cf : conf F) : Prop :=
  1 <= c_nev cf /\ 1 <= c_deg cf /\ 2 <= c_maxdeg cf /\ Nat.even (c_maxdeg cf) = true /\ (c_opt cf = true -> 1 <= c_degextra cf).

(** global index into an array of which a prefix is locked *)
Definition at_ {A} (p : ptr A) (g : nat) : option A := nth_error (whole p) g.

Section Runs.
Context {F St : Type} (fo : fops F) (K : kernel F St) (sort_idx : list F -> list nat).

(** states of the outer loop reachable from one another *)
Inductive reach (cf : conf F) (ub : F) : @sstate F St -> @sstate F St -> Prop :=
| reach_refl s : reach cf ub s s
| reach_step s t u : reach cf ub s t -> c_nex cf < ss_unconv t -> ss_iter t < c_maxiter cf ->
    iterate fo K sort_idx cf ub t = Ok u -> reach cf ub s u.

(** states of a run in order: [s0; s1; ...] ending in [t] *)
Inductive run (cf : conf F) (ub : F) (s0 : @sstate F St) : list (@sstate F St) -> @sstate F St -> Prop :=
| run_nil : run cf ub s0 [] s0
| run_step h t u : run cf ub s0 h t -> c_nex cf < ss_unconv t -> ss_iter t < c_maxiter cf ->
    iterate fo K sort_idx cf ub t = Ok u -> run cf ub s0 (h ++ [t]) u.

(** the degree formula of some wanted pair has no size_t value (NaN, infinite or out of range) *)
Definition undef_degree (cf : conf F) (ub : F) (s : @sstate F St) : Prop :=
  c_opt cf = true /\ 1 <= ss_iter s /\ exists lb la i r x, update_bounds fo (c_nev cf + c_nex cf) s = Ok (lb, la) /\
    i < ss_unconv s - c_nex cf /\ nth_error (snd (ss_ritz s)) i = Some r /\ nth_error (snd (ss_res s)) i = Some x /\
    degree_formula fo ub (if f_lt fo ub lb then ub else lb) (c_tol cf) r x = None.

(** this solve comes to a state whose next degree computation is undefined *)
Definition degree_overflow (fsort : list F -> list F) (cf : conf F) (k : St) (ritzv resid : list F) : Prop :=
  exists k0 ub s0 t, (if c_symcheck cf then k_sym K k else Ok (true, k)) = Ok (true, k0) /\
    solve_init fo K fsort cf k0 ritzv resid = Ok (ub, s0) /\ reach cf ub s0 t /\
    c_nex cf < ss_unconv t /\ ss_iter t < c_maxiter cf /\ undef_degree cf ub t.

(** Rayleigh-Ritz returns the requested number of values, strictly ascending (LAPACK heevd order, simple values) *)
Definition rr_ascending : Prop := forall n k v k', k_rr K n k = Ok (v, k') -> length v = n /\ strictly_ascending fo v.

(** [l] is the minimum of all residuals that global index [g] had in the states [h] *)
Definition history (h : list (@sstate F St)) (g : nat) (l : F) : Prop :=
  exists rs, Forall2 (fun s r => at_ (ss_res s) g = Some r) h rs /\ l = fold_left (fmin fo) rs (f_max fo).
End Runs.

(** value, column and residual lists agree position by position *)
Definition rel3 {F V} (Rv : F -> V -> Prop) (Rr : F -> V -> F -> Prop) (a : list F) (b : list V) (c : list F) : Prop :=
  length a = length b /\ length b = length c /\
  forall i x y z, nth_error a i = Some x -> nth_error b i = Some y -> nth_error c i = Some z -> Rv x y /\ Rr x y z.

(** Weaker column contract: nothing is said about what a column swap does beyond leaving the columns in front alone, nor
    about the numbers.  Fields as in [kernel_cols]. *)
Record kernel_keep {F St V} (fo : fops F) (K : kernel F St) (nevex : nat) (cols : St -> list V)
  (J0 : St -> Prop) (J Jf Jr : nat -> St -> Prop) : Prop := {
  kk_sub : forall l s, Jr l s -> J l s;
  kk_weak : forall l s, J l s -> Jf l s;
  kk_sym : forall s b s', J0 s -> k_sym K s = Ok (b, s') -> J0 s';
  kk_start : forall s s', J0 s -> k_start K s = Ok s' -> J 0 s';
  kk_init : forall r s s', J 0 s -> k_init K r s = Ok s' -> J 0 s';
  kk_lanczos1 : forall m s u s', J 0 s -> k_lanczos1 K m s = Ok (u, s') -> J 0 s';
  kk_lanczos2 : forall m nv s u a b c s', J 0 s -> k_lanczos2 K m nv s = Ok (u, a, b, c, s') -> J 0 s';
  kk_dos : forall idx m rv s s', J 0 s -> k_dos K idx m rv s = Ok s' -> J 0 s';
  kk_filter : forall l n deg degs la lo up s av s', J l s -> filter_args l nevex n deg degs -> filter_ fo K n deg degs la lo up s = Ok (av, s') ->
              Jf l s' /\ firstn l (cols s') = firstn l (cols s);
  kk_qr : forall l c s s', Jf l s -> k_qr K l c s = Ok s' -> Jr l s' /\ firstn l (cols s') = firstn l (cols s);
  kk_rr : forall l s v s', Jr l s -> l <= nevex -> k_rr K (nevex - l) s = Ok (v, s') ->
              Jr l s' /\ firstn l (cols s') = firstn l (cols s);
  kk_resd : forall l v r s s', Jr l s -> l <= nevex -> k_resd K v l s = Ok (r, s') ->
              Jr l s' /\ firstn l (cols s') = firstn l (cols s);
  kk_swap : forall l i j s s', J l s -> l <= i < nevex -> l <= j < nevex -> k_swap K i j s = Ok s' ->
              J l s' /\ firstn l (cols s') = firstn l (cols s);
  kk_swap_r : forall l i j s s', Jr l s -> l <= i < nevex -> l <= j < nevex -> k_swap K i j s = Ok s' ->
              Jr l s' /\ firstn l (cols s') = firstn l (cols s);
  kk_lock : forall l n s s', Jr l s -> k_lock K n s = Ok s' -> J (l + n) s' /\ cols s' = cols s
}.
