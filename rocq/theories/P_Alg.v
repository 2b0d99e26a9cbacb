(** Properties C14-C21, C31, C37, C38: the algorithm layer, for every backend. *)
From Coq Require Import List Arith ZArith Bool Lia Permutation.
Require Import Verif.Base Verif.AlgModel Verif.AlgSpec Verif.AlgProofs1 Verif.AlgProofs2 Verif.AlgProofs3 Verif.AlgProofs4
  Verif.AlgProofs5 Verif.AlgSim Verif.AlgTrace Verif.AlgTraceProofs Verif.AlgProofs6 Verif.AlgEx Verif.AlgWit.
Import ListNotations.


(** C14: number of column products of a filter call, seen through a backend that logs every call *)
Theorem C14_filter_multiplies_each_column_by_its_degree : forall (F St : Type) (fo : fops F) (K : kernel F St)
  degs deg la lo up k av log k',
  ascending degs -> Forall (fun d => 1 <= d <= deg) degs -> (exists d, In d degs /\ 2 <= d) ->
  filter_ fo (logK K) (length degs) deg degs la lo up ([], k) = Ok (av, (log, k')) ->
  filter_ fo K (length degs) deg degs la lo up k = Ok (av, k') /\
  av = list_sum degs /\ products log = list_sum degs /\
  (forall j d, nth_error degs j = Some d -> products_on j log = d) /\
  (forall j, length degs <= j -> products_on j log = 0).
Proof. exact (fun F St fo K => filter_products fo K). Qed.
Print Assumptions C14_filter_multiplies_each_column_by_its_degree.

Definition ex_script (rr rd : list (list oz)) : script := mk_script [10; 11; 12] 7 true (Some 1000%Z) ([], []) rr rd.
Example C14_example : exists log k',
  filter_ zf (logK sk) 3 6 [2; 4; 6] (Some 1%Z) (Some 500%Z) (Some 1000%Z) ([], mk_script [10; 11; 12] 0 true None ([], []) [] [])
    = Ok (12, (log, k')) /\ length log = 8.
Proof. vm_compute. eexists _, _. split; reflexivity. Qed.

(** C15 *)
Theorem C15_filter_in_bounds : forall (F St : Type) (fo : fops F) (K : kernel F St) nevex I0 I,
  kernel_safe K nevex I0 I -> forall degs deg la lo up l k,
  ascending degs -> Forall (fun d => 1 <= d) degs -> (exists d, In d degs /\ 2 <= d) -> 1 <= deg ->
  l + length degs <= nevex -> I l k ->
  exists av k', filter_ fo K (length degs) deg degs la lo up k = Ok (av, k') /\ I l k'.
Proof. exact (fun F St fo K => filter_safe fo K). Qed.
Print Assumptions C15_filter_in_bounds.

Theorem C15_filter_out_of_bounds : forall (F St : Type) (fo : fops F) (K : kernel F St) nevex I0 I,
  kernel_safe K nevex I0 I -> forall degs deg la lo up l k,
  (forall d, In d degs -> d <= 1) -> l + length degs <= nevex -> I l k ->
  filter_ fo K (length degs) deg degs la lo up k = UB.
Proof. exact (fun F St fo K => filter_oob_ub fo K). Qed.
Print Assumptions C15_filter_out_of_bounds.

(** a whole solve whose initial degree min(even(Deg), MaxDeg) is below 2 reads past the degree array *)
Theorem C15_low_degree_solve_undefined : forall (F St : Type) (fo : fops F) (K : kernel F St) sort_idx nevex I0 I,
  kernel_safe K nevex I0 I -> forall fsort cf k k0 ritzv resid ub s0,
  nevex = c_nev cf + c_nex cf -> 1 <= c_nev cf -> 1 <= c_maxiter cf ->
  Nat.min (c_deg cf + c_deg cf mod 2) (c_maxdeg cf) <= 1 ->
  (if c_symcheck cf then k_sym K k else Ok (true, k)) = Ok (true, k0) ->
  solve_init fo K fsort cf k0 ritzv resid = Ok (ub, s0) -> I 0 (ss_k s0) ->
  solve fo K fsort sort_idx cf k ritzv resid = UB.
Proof. exact (fun F St fo K sort_idx => solve_low_degree_ub fo K sort_idx). Qed.
Print Assumptions C15_low_degree_solve_undefined.

Definition ex_conf (deg maxdeg : nat) (opt approx : bool) : conf oz :=
  {| c_N := 100; c_nev := 2; c_nex := 1; c_tol := Some 1%Z; c_deg := deg; c_maxdeg := maxdeg; c_degextra := 2; c_maxiter := 5;
     c_lanczositer := 10; c_numlanczos := 2; c_opt := opt; c_approx := approx; c_symcheck := true |}.
Example C15_example_deg0 : solve zf sk fsort_ex sort_ex (ex_conf 0 8 true true) (ex_script [] []) (zs [0; 0; 0]%Z) (zs [0; 0; 0]%Z) = UB.
Proof. vm_compute. reflexivity. Qed.
Example C15_example_deg4 : exists o,
  solve zf sk fsort_ex sort_ex (ex_conf 4 8 true true) (ex_script [] []) (zs [0; 0; 0]%Z) (zs [0; 0; 0]%Z) = Ok o.
Proof. vm_compute. eexists. reflexivity. Qed.

(** C16 *)
Theorem C16_degrees_are_a_joint_permutation : forall (F St : Type) (fo : fops F) (K : kernel F St)
  cf unc nex ub lb locked a r a',
  nex < unc -> unc <= length (cd_deg a) ->
  calc_degrees fo K cf unc nex ub lb locked a = Ok (r, a') ->
  exists sw wanted,
    in_range unc sw /\ length wanted = length (cd_deg a) /\
    (forall i, i < unc -> exists d, nth_error wanted i = Some d /\ want_degree fo cf ub lb unc nex (cd_ritz a) (cd_res a) i d) /\
    cd_deg a' = swps sw wanted /\
    cd_ritz a' = swps sw (cd_ritz a) /\ cd_res a' = swps sw (cd_res a) /\ cd_last a' = swps sw (cd_last a) /\
    kswaps K locked sw (cd_k a) = Ok (cd_k a') /\
    ascending (firstn unc (cd_deg a')) /\ nth_error (cd_deg a') (unc - 1) = Some r.
Proof. exact (fun F St fo K => calc_degrees_spec fo K). Qed.
Print Assumptions C16_degrees_are_a_joint_permutation.

Theorem C16_degrees_even_bounded_and_maximum_returned : forall (F St : Type) (fo : fops F) (K : kernel F St)
  cf unc nex ub lb locked a r a',
  nex < unc -> unc <= length (cd_deg a) -> Nat.even (c_maxdeg cf) = true ->
  calc_degrees fo K cf unc nex ub lb locked a = Ok (r, a') ->
  Forall (fun d => Nat.even d = true /\ Nat.min (c_degextra cf) (c_maxdeg cf) <= d <= c_maxdeg cf) (firstn unc (cd_deg a')) /\
  (forall d, In d (firstn unc (cd_deg a')) -> d <= r) /\ In r (firstn unc (cd_deg a')).
Proof. exact (fun F St fo K => calc_degrees_bounds fo K). Qed.
Print Assumptions C16_degrees_even_bounded_and_maximum_returned.

(** residuals 100000, 16 and 10: the pair with residual 16 needs the smaller degree and moves to the front; the extra
    pair copies its degree *)
Example C16_example : exists k',
  calc_degrees zf sk (ex_conf 4 8 true true) 3 1 (Some 1000%Z) (Some 500%Z) 0
    (mk_cd [4; 4; 4] (zs [1; 2; 500]%Z) (zs [100000; 16; 10]%Z) (zs [7; 8; 9]%Z) (ex_script [] [])) =
  Ok (8, mk_cd [6; 6; 8] (zs [2; 500; 1]%Z) (zs [16; 10; 100000]%Z) (zs [8; 9; 7]%Z) k') /\ sc_cols k' = [11; 12; 10].
Proof. vm_compute. eexists. split; reflexivity. Qed.

(** C17 *)
Theorem C17_locking_longest_accepted_prefix : forall (F St : Type) (fo : fops F) (K : kernel F St) sort_idx n tol locked a,
  n <= length (lk_ritz a) -> n <= length (lk_res a) -> n <= length (lk_last a) ->
  (forall keys, sorts fo keys (sort_idx keys)) ->
  strictly_ascending fo (firstn n (lk_ritz a)) ->
  exists c, locking fo K sort_idx n tol locked a = Ok (c, a) /\ c <= n /\
    (forall i r l, i < c -> nth_error (lk_res a) i = Some r -> nth_error (lk_last a) i = Some l -> accepted fo tol r l) /\
    (c < n -> forall r l, nth_error (lk_res a) c = Some r -> nth_error (lk_last a) c = Some l -> ~ accepted fo tol r l).
Proof. exact (fun F St fo K => locking_ascending fo K). Qed.
Print Assumptions C17_locking_longest_accepted_prefix.

(** for arbitrary Ritz values the arrays are at least permuted jointly with the columns, and the count is in range *)
Theorem C17_locking_permutes_jointly : forall (F St : Type) (fo : fops F) (K : kernel F St) sort_idx n tol locked a c a',
  (forall keys, Permutation (sort_idx keys) (seq 0 (length keys))) ->
  locking fo K sort_idx n tol locked a = Ok (c, a') ->
  c <= n /\ exists sw, in_range n sw /\
    lk_ritz a' = swps sw (lk_ritz a) /\ lk_res a' = swps sw (lk_res a) /\ lk_last a' = swps sw (lk_last a) /\
    kswaps K locked sw (lk_k a) = Ok (lk_k a').
Proof. exact (fun F St fo K => locking_general fo K). Qed.
Print Assumptions C17_locking_permutes_jointly.

Example C17_example :
  locking zf sk sort_ex 3 (Some 1%Z) 0 (mk_lk (zs [1; 2; 3]%Z) (zs [0; 5; 0]%Z) (zs [9; 9; 9]%Z) (ex_script [] [])) =
  Ok (1, mk_lk (zs [1; 2; 3]%Z) (zs [0; 5; 0]%Z) (zs [9; 9; 9]%Z) (ex_script [] [])).
Proof. vm_compute. reflexivity. Qed.

(** unsorted Ritz values: the pair with value 3 (residual 100, improving from 1000, tolerance 1) is locked *)
Theorem C17_unsorted_locks_unchecked_refuted : exists sort_idx (a a' : @lk_arrays oz script) c i r l,
  sorts zf (firstn 3 (lk_ritz a)) (sort_idx (firstn 3 (lk_ritz a))) /\
  locking zf sk sort_idx 3 (Some 1%Z) 0 a = Ok (c, a') /\ i < c /\
  nth_error (lk_res a') i = Some r /\ nth_error (lk_last a') i = Some l /\ ~ accepted zf (Some 1%Z) r l.
Proof. exact locking_unsorted_witness. Qed.
Print Assumptions C17_unsorted_locks_unchecked_refuted.

(** equal Ritz values and a non-stable std::sort: same effect *)
Theorem C17_ties_lock_unchecked_refuted : exists sort_idx (a a' : @lk_arrays oz script) c i r l,
  sorts zf (firstn 2 (lk_ritz a)) (sort_idx (firstn 2 (lk_ritz a))) /\
  (forall i j x y, i <= j < 2 -> nth_error (lk_ritz a) i = Some x -> nth_error (lk_ritz a) j = Some y -> f_lt zf y x = false) /\
  locking zf sk sort_idx 2 (Some 1%Z) 0 a = Ok (c, a') /\ i < c /\
  nth_error (lk_res a') i = Some r /\ nth_error (lk_last a') i = Some l /\ ~ accepted zf (Some 1%Z) r l.
Proof. exact locking_ties_witness. Qed.
Print Assumptions C17_ties_lock_unchecked_refuted.

(** C18 *)
Theorem C18_incomparable_residuals_are_locked : forall (F St : Type) (fo : fops F) (K : kernel F St) sort_idx,
  (forall keys, Permutation (sort_idx keys) (seq 0 (length keys))) ->
  forall fsort cf k ritzv resid o s, 1 <= c_maxiter cf -> 1 <= c_nev cf ->
  (forall v l q r q', k_resd K v l q = Ok (r, q') ->
     length r = c_nev cf + c_nex cf - l /\ Forall (fun x => f_lt fo (c_tol cf) x = false) r) ->
  solve fo K fsort sort_idx cf k ritzv resid = Ok o -> o_exit o = Some s ->
  ss_iter s = 1 /\ ss_locked s = c_nev cf.
Proof. exact (fun F St fo K => solve_nan fo K). Qed.
Print Assumptions C18_incomparable_residuals_are_locked.

Example C18_example_nan : exists o s,
  solve zf sk fsort_ex sort_ex (ex_conf 4 8 true true) (ex_script [[None; None; None]] [[None; None; None]])
    (zs [0; 0; 0]%Z) (zs [0; 0; 0]%Z) = Ok o /\ o_exit o = Some s /\ ss_locked s = 2 /\ o_ritz o = [None; None; None].
Proof. vm_compute. eexists _, _. repeat split. Qed.

(** C19: with the degree optimisation off, a pair is judged against the minimum of its own earlier residuals *)
Theorem C19_own_history_without_degree_optimisation : forall (F St : Type) (fo : fops F) (K : kernel F St) sort_idx,
  (forall keys, Permutation (sort_idx keys) (seq 0 (length keys))) ->
  forall cf nr ns ub s0 h t, c_opt cf = false -> book cf nr ns s0 -> ss_iter s0 <= c_maxiter cf ->
  c_nev cf + c_nex cf <= nr -> c_nev cf + c_nex cf <= ns ->
  (forall g, g < c_nev cf + c_nex cf -> at_ (ss_last s0) g = Some (f_max fo)) ->
  (forall keys, sorts fo keys (sort_idx keys)) -> rr_ascending fo K ->
  run fo K sort_idx cf ub s0 h t ->
  (forall g, ss_locked t <= g < c_nev cf + c_nex cf -> exists l, at_ (ss_last t) g = Some l /\ history fo h g l) /\
  (forall h' p, h = h' ++ [p] -> forall g r, ss_locked p <= g < ss_locked t -> at_ (ss_res t) g = Some r ->
     exists l, history fo h g l /\ accepted fo (c_tol cf) r l).
Proof. exact (fun F St fo K => run_own_history fo K). Qed.
Print Assumptions C19_own_history_without_degree_optimisation.

(** with it on: the pair with value 1 goes from residual 100000 to 50000 (tolerance 1) and is locked *)
Theorem C19_improving_pair_locked_refuted : exists cf k ritzv resid o ub (s0 s1 s2 : @sstate oz script),
  conf_ok cf /\ solve zf sk fsort_ex sort_ex cf k ritzv resid = Ok o /\
  solve_init zf sk fsort_ex cf k ritzv resid = Ok (ub, s0) /\
  iterate zf sk sort_ex cf ub s0 = Ok s1 /\ iterate zf sk sort_ex cf ub s1 = Ok s2 /\
  ss_locked s1 = 0 /\ at_ (ss_ritz s1) 0 = Some (Some 1%Z) /\ at_ (ss_res s1) 0 = Some (Some 100000%Z) /\
  ss_locked s2 = 1 /\ at_ (ss_ritz s2) 0 = Some (Some 1%Z) /\ at_ (ss_res s2) 0 = Some (Some 50000%Z) /\ c_tol cf = Some 1%Z.
Proof. exact premature_witness. Qed.
Print Assumptions C19_improving_pair_locked_refuted.

(** C20 *)
Theorem C20_bookkeeping_at_exit : forall (F St : Type) (fo : fops F) (K : kernel F St) sort_idx,
  (forall keys, Permutation (sort_idx keys) (seq 0 (length keys))) ->
  forall fsort cf k ritzv resid o s,
  solve fo K fsort sort_idx cf k ritzv resid = Ok o -> o_exit o = Some s ->
  ss_locked s + ss_unconv s = c_nev cf + c_nex cf /\ ss_locked s <= c_nev cf /\
  ss_iter s <= c_maxiter cf /\ (ss_locked s = c_nev cf \/ ss_iter s = c_maxiter cf) /\
  length (o_ritz o) = length ritzv /\ length (o_res o) = length resid.
Proof. exact (fun F St fo K => solve_book fo K). Qed.
Print Assumptions C20_bookkeeping_at_exit.

Theorem C20_bookkeeping_in_every_state : forall (F St : Type) (fo : fops F) (K : kernel F St) sort_idx,
  (forall keys, Permutation (sort_idx keys) (seq 0 (length keys))) ->
  forall fsort cf k ritzv resid o s,
  solve fo K fsort sort_idx cf k ritzv resid = Ok o -> o_exit o = Some s ->
  exists ub s0, reach fo K sort_idx cf ub s0 s /\ ss_locked s0 = 0 /\ ss_iter s0 = 0 /\
  forall t u, reach fo K sort_idx cf ub s0 t -> reach fo K sort_idx cf ub t u ->
    ss_locked t + ss_unconv t = c_nev cf + c_nex cf /\ ss_locked t <= ss_locked u <= c_nev cf /\
    ss_iter t <= ss_iter u <= c_maxiter cf.
Proof. exact (fun F St fo K => solve_states fo K). Qed.
Print Assumptions C20_bookkeeping_in_every_state.

(** the complete call sequence of a solve; in particular Lock is called once per iteration and the counts add up *)
Theorem C20_call_protocol : forall (F St : Type) (fo : fops F) (K : kernel F St) sort_idx,
  (forall keys, Permutation (sort_idx keys) (seq 0 (length keys))) ->
  forall fsort cf t ritzv resid o s, conf_ok cf ->
  solve fo (logK K) fsort sort_idx cf t ritzv resid = Ok o -> o_exit o = Some s ->
  exists ub rs sw idx sw', iters (c_nev cf) (c_nex cf) 0 rs (ss_locked s) /\ length rs = ss_iter s /\ in_range (c_nev cf) sw' /\
    list_sum (map it_new rs) = ss_locked s /\
    fst (o_k o) = fst t ++ (if c_symcheck cf then [CSym] else []) ++ start_calls fo cf sw idx ++
                  flat_map (iter_calls fo ub) rs ++ swap_calls 0 sw' ++ [CEnd].
Proof. exact (fun F St fo K => solve_protocol fo K). Qed.
Print Assumptions C20_call_protocol.

(** logging does not change the run *)
Theorem C20_logging_is_transparent : forall (F St : Type) (fo : fops F) (K : kernel F St) fsort sort_idx cf k ritzv resid o,
  solve fo (logK K) fsort sort_idx cf ([], k) ritzv resid = Ok o ->
  exists o', solve fo K fsort sort_idx cf k ritzv resid = Ok o' /\ o_k o' = snd (o_k o) /\ o_ritz o' = o_ritz o /\ o_res o' = o_res o.
Proof. exact (fun F St fo K => log_transparent fo K). Qed.
Print Assumptions C20_logging_is_transparent.

Example C20_example : exists o s,
  solve zf (logK sk) fsort_ex sort_ex (ex_conf 4 8 true true)
    ([], ex_script [zs [1; 2; 500]%Z; zs [1; 2; 500]%Z] [zs [100000; 16; 10]%Z; zs [50000; 8; 10]%Z]) (zs [0; 0; 500]%Z) (zs [0; 0; 0]%Z)
  = Ok o /\ o_exit o = Some s /\ ss_iter s = 3 /\ ss_locked s = 2 /\ length (fst (o_k o)) = 44.
Proof. vm_compute. eexists _, _. repeat split. Qed.

(** C21: the only way a solve on a well-behaved backend can be undefined after a defined start-up is the conversion
    of the degree formula to size_t *)
Theorem C21_solve_memory_safe : forall (F St : Type) (fo : fops F) (K : kernel F St) sort_idx,
  (forall keys, Permutation (sort_idx keys) (seq 0 (length keys))) ->
  forall nevex I0 I, kernel_safe K nevex I0 I -> forall fsort cf k ritzv resid,
  conf_ok cf -> (forall l, length (fsort l) = length l) ->
  nevex = c_nev cf + c_nex cf -> nevex <= length ritzv -> nevex <= length resid ->
  2 <= c_N cf -> 1 <= c_lanczositer cf -> I0 k ->
  (c_approx cf = false -> 1 <= c_numlanczos cf <= nevex /\ forall k u Th Ta rv k',
     k_lanczos2 K (Nat.min nevex (Nat.min (c_N cf / 2) (c_lanczositer cf))) (c_numlanczos cf) k = Ok (u, Th, Ta, rv, k') ->
     start_ok fo (fsort Th) Th Ta (c_N cf) (c_numlanczos cf) (Nat.min nevex (Nat.min (c_N cf / 2) (c_lanczositer cf))) nevex) ->
  (exists o, solve fo K fsort sort_idx cf k ritzv resid = Ok o) \/
  (solve fo K fsort sort_idx cf k ritzv resid = UB /\ degree_overflow fo K sort_idx fsort cf k ritzv resid).
Proof. exact (fun F St fo K => solve_safe fo K). Qed.
Print Assumptions C21_solve_memory_safe.

Example C21_example_kernel : kernel_safe sk 3 (fun s => length (sc_cols s) = 3) (fun l s => length (sc_cols s) = 3 /\ sc_locked s = l).
Proof. exact (sk_safe 3). Qed.
(** a residual that becomes exactly 0 while an earlier pair is unconverged: log 0 *)
Example C21_example_zero_residual :
  solve zf sk fsort_ex sort_ex (ex_conf 4 8 true true) (ex_script [zs [1; 2; 500]%Z] [zs [100; 0; 10]%Z]) (zs [0; 0; 500]%Z) (zs [0; 0; 0]%Z) = UB.
Proof. vm_compute. reflexivity. Qed.

(** C31 *)
Theorem C31_rejected_matrix_untouched : forall (F St : Type) (fo : fops F) (K : kernel F St) sort_idx fsort cf k k0 ritzv resid,
  c_symcheck cf = true -> k_sym K k = Ok (false, k0) ->
  solve fo K fsort sort_idx cf k ritzv resid = Ok (mk_out k0 ritzv resid None).
Proof. exact (fun F St fo K => solve_rejected fo K). Qed.
Print Assumptions C31_rejected_matrix_untouched.

Theorem C31_early_return_iff_rejected : forall (F St : Type) (fo : fops F) (K : kernel F St) sort_idx fsort cf k ritzv resid o,
  solve fo K fsort sort_idx cf k ritzv resid = Ok o ->
  (o_exit o = None <-> c_symcheck cf = true /\ exists k0, k_sym K k = Ok (false, k0)).
Proof. exact (fun F St fo K => solve_exit fo K). Qed.
Print Assumptions C31_early_return_iff_rejected.

(** no call other than the check itself is issued *)
Theorem C31_rejected_only_checks : forall (F St : Type) (fo : fops F) (K : kernel F St) sort_idx fsort cf t ritzv resid o,
  solve fo (logK K) fsort sort_idx cf t ritzv resid = Ok o -> o_exit o = None ->
  fst (o_k o) = fst t ++ [CSym] /\ o_ritz o = ritzv /\ o_res o = resid.
Proof. exact (fun F St fo K => solve_rejected_log fo K). Qed.
Print Assumptions C31_rejected_only_checks.

Example C31_example : solve zf sk fsort_ex sort_ex (ex_conf 4 8 true true)
  (mk_script [10; 11; 12] 7 false None ([], []) [] []) (zs [7; 8; 9]%Z) (zs [4; 5; 6]%Z) =
  Ok (mk_out (mk_script [10; 11; 12] 7 false None ([], []) [] []) (zs [7; 8; 9]%Z) (zs [4; 5; 6]%Z) None).
Proof. vm_compute. reflexivity. Qed.

(** C37 *)
Theorem C37_lanczos_defined_iff : forall (F St : Type) (fo : fops F) (K : kernel F St) nevex I0 I,
  kernel_safe K nevex I0 I -> forall fsort N nv m r k u Th Ta rv k1,
  (forall l, length (fsort l) = length l) ->
  0 < m <= nevex -> 0 < nv <= nevex -> nevex <= length r -> I 0 k ->
  k_lanczos2 K m nv k = Ok (u, Th, Ta, rv, k1) ->
  (start_ok fo (fsort Th) Th Ta N nv m nevex <-> exists x, lanczos fo K fsort N nv m nevex true r k = Ok x).
Proof. exact (fun F St fo K => lanczos_iff fo K). Qed.
Print Assumptions C37_lanczos_defined_iff.

(** runs {1,4} and {2,9}; N=100 *)
Example C37_example_ok : exists x, lanczos zf sk fsort_ex 100 2 2 3 true (zs [0; 0; 0]%Z)
  (lan_script (zs [1; 4; 1; 9]%Z) (zs [1; 1; 0; 1]%Z)) = Ok x.
Proof. vm_compute. eexists. reflexivity. Qed.

(** ThetaSorted[-1] is read: the first weight already exceeds the target by at least as much as 0 misses it *)
Theorem C37_reads_before_array_refuted : exists Th Ta : list oz,
  length Th = 4 /\ length Ta = 4 /\
  dos_search zf 4 0 (fsort_ex Th) Th Ta 2 (f_div zf (f_of_nat zf 3) (f_of_nat zf 100)) (f_zero zf) = UB /\
  lanczos zf sk fsort_ex 100 2 2 3 true (zs [0; 0; 0]%Z) (lan_script Th Ta) = UB.
Proof. exact lanczos_read_witness. Qed.
Print Assumptions C37_reads_before_array_refuted.

(** ritzv[-1] is written: the last run's smallest value is above the bound *)
Theorem C37_writes_before_array_refuted : exists (Th Ta : list oz) lb,
  length Th = 4 /\ length Ta = 4 /\
  dos_search zf 4 0 (fsort_ex Th) Th Ta 2 (f_div zf (f_of_nat zf 3) (f_of_nat zf 100)) (f_zero zf) = Ok (Some lb) /\
  dos_idx zf 2 0 2 Th lb = Ok (-1)%Z /\
  lanczos zf sk fsort_ex 100 2 2 3 true (zs [0; 0; 0]%Z) (lan_script Th Ta) = UB.
Proof. exact lanczos_write_witness. Qed.
Print Assumptions C37_writes_before_array_refuted.

(** nev+nex = N: the target weight 1 is never exceeded and the bound stays uninitialised *)
Theorem C37_bound_uninitialised_refuted : exists Th Ta : list oz,
  length Th = 2 /\ length Ta = 2 /\
  dos_search zf 2 0 (fsort_ex Th) Th Ta 2 (f_div zf (f_of_nat zf 3) (f_of_nat zf 3)) (f_zero zf) = Ok None /\
  lanczos zf sk fsort_ex 3 2 1 3 true (zs [0; 0; 0]%Z) (lan_script Th Ta) = UB.
Proof. exact lanczos_uninit_witness. Qed.
Print Assumptions C37_bound_uninitialised_refuted.

(** C38 *)
Theorem C38_lanczos_initialises_and_permutes : forall (F St : Type) (fo : fops F) (K : kernel F St) nevex I0 I,
  kernel_safe K nevex I0 I -> forall fsort N nv m r k idx ub r' k',
  (forall l, length (fsort l) = length l) ->
  0 < m <= nevex -> 0 < nv <= nevex -> nevex <= length r -> I 0 k ->
  lanczos fo K fsort N nv m nevex true r k = Ok (idx, ub, r', k') ->
  exists Th Ta rv k1 k2 la lb fill sw,
    k_lanczos2 K m nv k = Ok (ub, Th, Ta, rv, k1) /\
    nth_error (fsort Th) 0 = Some la /\
    dos_bound fo (fsort Th) (curr_at fo (fsort Th) Th Ta nv) (f_div fo (f_of_nat fo nevex) (f_of_nat fo N)) lb /\
    (0 <= idx < Z.of_nat m)%Z /\
    filled (Z.to_nat idx) nevex ((nv - 1) * m) Th la lb r fill /\
    (if (0 <? idx)%Z then k_dos K (Z.to_nat idx) m rv k1 else Ok k1) = Ok k2 /\
    in_range nevex sw /\ r' = swps sw fill /\ kswaps K 0 sw k2 = Ok k'.
Proof. exact (fun F St fo K => lanczos_out fo K). Qed.
Print Assumptions C38_lanczos_initialises_and_permutes.

(** one run {1,4,9}, weight only on 9: the bound is 4, one vector is extracted; the rest get the smallest value, the
    last one the bound *)
Example C38_example : exists k', lanczos zf sk fsort_ex 100 1 3 3 true (zs [0; 0; 0]%Z)
  (mk_script [10; 11; 12] 0 true (Some 1000%Z) (zs [1; 4; 9]%Z, zs [0; 0; 1]%Z) [] []) = Ok (1%Z, Some 1000%Z, zs [1; 1; 4]%Z, k').
Proof. vm_compute. eexists. reflexivity. Qed.
