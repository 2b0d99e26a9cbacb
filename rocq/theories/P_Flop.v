(** Property C68: the reported operation counts.  size_t arithmetic modulo 2^64 and IEEE doubles. *)
From Coq Require Import List Arith ZArith Bool Lia Permutation.
Require Import Verif.Base Verif.AlgModel Verif.AlgSpec Verif.AlgTrace Verif.PerfModel Verif.PerfSpec Verif.FlopModel Verif.FlopSpec Verif.FlopProofs Verif.FlopSolve Verif.PerfEx Verif.AlgEx.
Import ListNotations.
Local Open Scope Z_scope.

(** the total is exact (rounded down to 10^9) as long as the number of operations is below 2^53 *)
Theorem C68_all_operations : forall factor N blocks vecs, 0 < factor -> 0 < N -> 0 <= vecs -> Forall (fun b => 0 < b) blocks ->
  all_ops factor N blocks vecs < 2 ^ 53 -> get_flops factor N blocks vecs = Ok (giga (all_ops factor N blocks vecs)).
Proof. exact flops_exact. Qed.
Print Assumptions C68_all_operations.

(** the filter's count is never undefined; it is exact below 2^53 and within one of the true count modulo 2^64 always *)
Theorem C68_filter_operations : forall factor N vecs,
  (0 <= filter_ops factor N vecs < 2 ^ 53 -> get_filter_flops factor N vecs = Ok (giga (filter_ops factor N vecs))) /\
  exists q, get_filter_flops factor N vecs = Ok q /\ Z.abs (q - giga (filter_ops factor N vecs mod 2 ^ 64)) <= 1.
Proof. exact (fun factor N vecs => conj (filter_exact factor N vecs) (filter_near factor N vecs)). Qed.
Print Assumptions C68_filter_operations.

(** the filter's share does not exceed the total *)
Theorem C68_filter_within_total : forall factor N blocks vecs a f, 0 < factor -> 0 < N -> 0 <= vecs -> Forall (fun b => 0 < b) blocks ->
  all_ops factor N blocks vecs < 2 ^ 53 -> get_flops factor N blocks vecs = Ok a -> get_filter_flops factor N vecs = Ok f -> f <= a.
Proof. exact all_ge_filter. Qed.
Print Assumptions C68_filter_within_total.

(** after a decorated solve the counts are those of the calls the solver made *)
Theorem C68_counts_of_a_solve : forall (F St : Type) (fo : fops F) (clk : nat -> Z) (np : nat) (K : kernel F St) sort_idx,
  (forall keys, Permutation (sort_idx keys) (seq 0 (length keys))) ->
  forall fsort cf p0 k ritzv resid o s factor N, conf_ok cf ->
  solve fo (perfK clk np K) fsort sort_idx cf (p0, k) ritzv resid = Ok o -> o_exit o = Some s ->
  0 < factor -> 0 < N ->
  exists o0, solve fo (logK K) fsort sort_idx cf ([], k) ritzv resid = Ok o0 /\
    let log := fst (o_k o0) in let p := fst (o_k o) in let blocks := map Z.of_nat (p_blocks p) in let vecs := Z.of_nat (p_vecs p) in
    let all := all_ops factor N (map Z.of_nat (rr_blocks log)) (Z.of_nat (products log)) in
    let filt := filter_ops factor N (Z.of_nat (products log)) in
    filt <= all /\
    (all < 2 ^ 53 -> get_flops factor N blocks vecs = Ok (giga all)) /\
    (filt < 2 ^ 53 -> get_filter_flops factor N vecs = Ok (giga filt)) /\
    (exists q, get_filter_flops factor N vecs = Ok q /\ Z.abs (q - giga (filt mod 2 ^ 64)) <= 1).
Proof. exact flops_of_solve. Qed.
Print Assumptions C68_counts_of_a_solve.

Example C68_example : get_flops 4 30000 [3000; 2600] 60000 = Ok (giga (all_ops 4 30000 [3000; 2600] 60000)) /\
  giga (all_ops 4 30000 [3000; 2600] 60000) = 528842 /\ get_filter_flops 4 30000 60000 = Ok 432000 /\ all_ops 4 30000 [3000; 2600] 60000 < 2 ^ 53.
Proof. repeat split; vm_compute; reflexivity. Qed.

(** claimed: the counts are right for every problem.  The 64-bit counters hold single operations, not 10^9: for a complex matrix of
    size 360000 the filter's count wraps after 17.8 million products, and the total before that, so that it is reported as 1/80 of
    the filter's share *)
Theorem C68_counts_of_large_problems_refuted :
  (exists N vecs, get_filter_flops 4 N vecs = Ok 2289255926 /\ giga (filter_ops 4 N vecs) = 20736000000) /\
  (exists N blocks vecs a f, Forall (fun b => 0 < b <= N / 10) blocks /\ get_flops 4 N blocks vecs = Ok a /\ get_filter_flops 4 N vecs = Ok f /\ 80 * a < f).
Proof. exact flops_large_bad. Qed.
Print Assumptions C68_counts_of_large_problems_refuted.

(** and the conversion back from double is undefined when one block alone exceeds 2^64 operations *)
Theorem C68_total_undefined_refuted : exists N b, 0 < b < N /\ N < 2 ^ 64 /\ get_flops 1 N [b] 0 = UB.
Proof. exact flops_undefined. Qed.
Print Assumptions C68_total_undefined_refuted.
