(** Properties C35, C36 and the parts of C14 and C31 about the performance decorator.
    The clock is an arbitrary sequence of readings, the backend and the previous performance data are arbitrary. *)
From Coq Require Import List Arith ZArith Bool Lia Permutation.
Require Import Verif.Base Verif.AlgModel Verif.AlgSpec Verif.AlgTrace Verif.AlgEx Verif.PerfModel Verif.PerfSpec Verif.PerfProofs Verif.PerfEx.
Import ListNotations.

(** a decorated solve has the outcome of the plain one *)
Theorem C35_decorator_transparent : forall (F St : Type) (fo : fops F) (clk : nat -> Z) (np : nat) (K : kernel F St)
  sort_idx fsort cf p0 k ritzv resid,
  match solve fo (perfK clk np K) fsort sort_idx cf (p0, k) ritzv resid, solve fo K fsort sort_idx cf k ritzv resid with
  | Ok a, Ok b => snd (o_k a) = o_k b /\ o_ritz a = o_ritz b /\ o_res a = o_res b /\ (o_exit a = None <-> o_exit b = None)
  | UB, UB => True | Fuel, Fuel => True | _, _ => False end.
Proof. exact (fun F St fo clk np K => perf_transparent fo clk np K). Qed.
Print Assumptions C35_decorator_transparent.

(** counters of a decorated run: iterations, products and Rayleigh-Ritz block sizes of exactly this run (whatever the data held
    before), against the call log of the undecorated run; the stored timings are still zero before print() *)
Theorem C35_counters_report_this_run : forall (F St : Type) (fo : fops F) (clk : nat -> Z) (np : nat) (K : kernel F St) sort_idx,
  (forall keys, Permutation (sort_idx keys) (seq 0 (length keys))) ->
  forall fsort cf p0 k ritzv resid o s, conf_ok cf ->
  solve fo (perfK clk np K) fsort sort_idx cf (p0, k) ritzv resid = Ok o -> o_exit o = Some s ->
  let p := fst (o_k o) in
  p_iter p = ss_iter s /\ p_nprocs p = np /\ (forall t, p_timings p t = 0%Z) /\
  exists o0, solve fo (logK K) fsort sort_idx cf ([], k) ritzv resid = Ok o0 /\
    snd (o_k o0) = snd (o_k o) /\ o_ritz o = o_ritz o0 /\ o_res o = o_res o0 /\
    p_vecs p = products (fst (o_k o0)) /\ p_blocks p = rr_blocks (fst (o_k o0)).
Proof. exact (fun F St fo clk np K => perf_counters fo clk np K). Qed.
Print Assumptions C35_counters_report_this_run.

(** C14: the filtered-vector counter of a run is the sum of all degrees used: one degree vector per iteration, one even degree >= 2
    per filtered column *)
Theorem C14_counter_is_sum_of_degrees : forall (F St : Type) (fo : fops F) (clk : nat -> Z) (np : nat) (K : kernel F St) sort_idx,
  (forall keys, Permutation (sort_idx keys) (seq 0 (length keys))) ->
  forall fsort cf p0 k ritzv resid o s, conf_ok cf ->
  solve fo (perfK clk np K) fsort sort_idx cf (p0, k) ritzv resid = Ok o -> o_exit o = Some s ->
  exists degss, let p := fst (o_k o) in
  length degss = ss_iter s /\ map (@length nat) degss = p_blocks p /\
  Forall (Forall (fun d => 2 <= d /\ Nat.even d = true)) degss /\ p_vecs p = list_sum (map list_sum degss).
Proof. exact (fun F St fo clk np K => perf_vecs_degrees fo clk np K). Qed.
Print Assumptions C14_counter_is_sum_of_degrees.

(** block sizes: one per iteration, first the whole search space, never growing, always more than nex *)
Theorem C35_block_sizes : forall (F St : Type) (fo : fops F) (clk : nat -> Z) (np : nat) (K : kernel F St) sort_idx,
  (forall keys, Permutation (sort_idx keys) (seq 0 (length keys))) ->
  forall fsort cf p0 k ritzv resid o s, conf_ok cf ->
  solve fo (perfK clk np K) fsort sort_idx cf (p0, k) ritzv resid = Ok o -> o_exit o = Some s ->
  let p := fst (o_k o) in
  length (p_blocks p) = ss_iter s /\ (forall b, nth_error (p_blocks p) 0 = Some b -> b = c_nev cf + c_nex cf) /\
  (forall b, In b (p_blocks p) -> c_nex cf < b <= c_nev cf + c_nex cf) /\
  (forall i j bi bj, i <= j -> nth_error (p_blocks p) i = Some bi -> nth_error (p_blocks p) j = Some bj -> bj <= bi).
Proof. exact (fun F St fo clk np K => perf_blocks fo clk np K). Qed.
Print Assumptions C35_block_sizes.

(** as many ends as starts on every timer, and how often each section ran *)
Theorem C35_timers_balanced : forall (F St : Type) (fo : fops F) (clk : nat -> Z) (np : nat) (K : kernel F St) sort_idx,
  (forall keys, Permutation (sort_idx keys) (seq 0 (length keys))) ->
  forall fsort cf p0 k ritzv resid o s, conf_ok cf ->
  solve fo (perfK clk np K) fsort sort_idx cf (p0, k) ritzv resid = Ok o -> o_exit o = Some s ->
  let p := fst (o_k o) in
  balanced p /\ length (p_starts p TAll) = 1 /\ length (p_starts p TInit) = 1 /\
  length (p_starts p TFilter) = ss_iter s /\ length (p_starts p TRr) = ss_iter s /\ length (p_starts p TResid) = ss_iter s /\
  length (p_starts p TQr) = (ss_iter s + if c_approx cf then 0 else 1) /\
  (1 <= length (p_starts p TLanczos) <= if c_approx cf then 1 else 2).
Proof. exact (fun F St fo clk np K => perf_intervals fo clk np K). Qed.
Print Assumptions C35_timers_balanced.

(** with a clock that never goes back, no section has negative time and the sections add up to at most the total *)
Theorem C35_section_times_within_total : forall (F St : Type) (fo : fops F) (clk : nat -> Z) (np : nat) (K : kernel F St) sort_idx,
  (forall keys, Permutation (sort_idx keys) (seq 0 (length keys))) ->
  forall fsort cf p0 k ritzv resid o s, conf_ok cf ->
  solve fo (perfK clk np K) fsort sort_idx cf (p0, k) ritzv resid = Ok o -> o_exit o = Some s ->
  monotone clk -> let p := fst (o_k o) in
  (forall t, 0 <= measured p t)%Z /\
  (measured p TInit + measured p TLanczos + measured p TFilter + measured p TQr + measured p TRr + measured p TResid <= measured p TAll)%Z.
Proof. exact (fun F St fo clk np K => perf_times fo clk np K). Qed.
Print Assumptions C35_section_times_within_total.

(** C31: a rejected matrix leaves the data of the previous run in place *)
Theorem C31_rejected_keeps_old_performance_data : forall (F St : Type) (fo : fops F) (clk : nat -> Z) (np : nat) (K : kernel F St)
  sort_idx fsort cf p0 k ritzv resid o,
  solve fo (perfK clk np K) fsort sort_idx cf (p0, k) ritzv resid = Ok o -> o_exit o = None -> fst (o_k o) = p0.
Proof. exact (fun F St fo clk np K => perf_rejected fo clk np K). Qed.
Print Assumptions C31_rejected_keeps_old_performance_data.

(** C36: what n consecutive print() calls report *)
Theorem C36_print_reports_accumulate : forall n p, balanced p -> exists rs q, prints n p = Ok (rs, q) /\ length rs = n /\
  (forall t, p_timings q t = p_timings p t + Z.of_nat n * measured p t)%Z /\
  (forall i r, nth_error rs i = Some r -> r_nprocs r = p_nprocs p /\ r_iter r = p_iter p /\ r_vecs r = p_vecs p /\
     r_times r = map (fun t => p_timings p t + Z.of_nat (S i) * measured p t)%Z timers).
Proof. exact prints_ok. Qed.
Print Assumptions C36_print_reports_accumulate.

(** a timer started but not ended is read past its end *)
Theorem C36_print_unbalanced_undefined : forall p t, length (p_ends p t) < length (p_starts p t) -> print p = UB.
Proof. exact print_unbalanced. Qed.
Print Assumptions C36_print_unbalanced_undefined.

(** printing twice shows the same row exactly when nothing was measured *)
Theorem C36_print_idempotent_iff_no_time : forall p, balanced p ->
  exists r1 r2 q, prints 2 p = Ok ([r1; r2], q) /\ (r1 = r2 <-> forall t, measured p t = 0%Z).
Proof. exact print_twice. Qed.
Print Assumptions C36_print_idempotent_iff_no_time.

(** one iteration of 3 columns with degree 4: 12 products *)
Example C35_example : conf_ok ex_perf_conf /\ match ex_perf_run with
  | Ok o => match o_exit o with
      | Some s => ss_iter s = 1 /\ p_iter (fst (o_k o)) = 1 /\ p_vecs (fst (o_k o)) = 12 /\ p_blocks (fst (o_k o)) = [3] /\
          map (measured (fst (o_k o))) timers = [130; 10; 10; 10; 10; 10; 10]%Z
      | None => False end
  | _ => False end.
Proof. split; [unfold conf_ok; cbn; repeat split; auto; lia|]. vm_compute. repeat split. Qed.

(** the claim "print does not change what is reported" fails already after this run *)
Theorem C36_print_idempotent_refuted :
  exists p r1 r2 q, (exists o, ex_perf_run = Ok o /\ fst (o_k o) = p) /\ prints 2 p = Ok ([r1; r2], q) /\
    r_times r1 = [130; 10; 10; 10; 10; 10; 10]%Z /\ r_times r2 = [260; 20; 20; 20; 20; 20; 20]%Z.
Proof. exact print_refuted. Qed.
Print Assumptions C36_print_idempotent_refuted.
