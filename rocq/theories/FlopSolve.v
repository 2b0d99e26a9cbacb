(** The operation counts reported after a decorated solve. *)
From Coq Require Import List Arith ZArith Bool Lia Permutation.
Require Import Verif.Base Verif.AlgModel Verif.AlgSpec Verif.AlgTrace Verif.PerfModel Verif.PerfSpec Verif.PerfProofs Verif.FlopModel Verif.FlopSpec Verif.FlopProofs.
Import ListNotations.

Lemma flops_of_solve : forall (F St : Type) (fo : fops F) (clk : nat -> Z) (np : nat) (K : kernel F St) sort_idx,
  (forall keys, Permutation (sort_idx keys) (seq 0 (length keys))) ->
  forall fsort cf p0 k ritzv resid o s factor N, conf_ok cf ->
  solve fo (perfK clk np K) fsort sort_idx cf (p0, k) ritzv resid = Ok o -> o_exit o = Some s ->
  (0 < factor)%Z -> (0 < N)%Z ->
  exists o0, solve fo (logK K) fsort sort_idx cf ([], k) ritzv resid = Ok o0 /\ 
    let log := fst (o_k o0) in let p := fst (o_k o) in let blocks := map Z.of_nat (p_blocks p) in let vecs := Z.of_nat (p_vecs p) in
    let all := all_ops factor N (map Z.of_nat (rr_blocks log)) (Z.of_nat (products log)) in
    let filt := filter_ops factor N (Z.of_nat (products log)) in
    (filt <= all)%Z /\
    ((all < 2 ^ 53)%Z -> get_flops factor N blocks vecs = Ok (giga all)) /\
    ((filt < 2 ^ 53)%Z -> get_filter_flops factor N vecs = Ok (giga filt)) /\
    (exists q, get_filter_flops factor N vecs = Ok q /\ Z.abs (q - giga (filt mod 2 ^ 64)) <= 1)%Z.
Proof.
  intros F St fo clk np K sort_idx Hp fsort cf p0 k ritzv resid o s factor N HC HS HE Hf HN.
  destruct (perf_counters fo clk np K sort_idx Hp fsort cf p0 k ritzv resid o s HC HS HE) as (_ & _ & _ & o0 & A & _ & _ & _ & V & B).
  destruct (perf_run fo clk np K sort_idx Hp fsort cf p0 k ritzv resid o s HC HS HE) as (o1 & ub & rs & sw & idx & sw' & A1 & _ & _ & _ & I & _ & G & _).
  assert (o1 = o0) as -> by congruence. exists o0. split; auto. cbv zeta. rewrite V, B. set (log := fst (o_k o0)) in *.
  assert (P : Forall (fun b => (0 < b)%Z) (map Z.of_nat (rr_blocks log))).
  { assert (R : rr_blocks log = map it_unconv rs).
    { rewrite G, !rr_app, rr_iters, (rr_none _ (swaps_no_rr _ _)). change (rr_blocks [CEnd]) with (@nil nat). rewrite !app_nil_r.
      replace (rr_blocks (if c_symcheck cf then [@CSym F] else [])) with (@nil nat) by now destruct (c_symcheck cf).
      rewrite rr_none; auto. unfold start_calls. cbv zeta. destruct (c_approx cf); cbn [tl app]; repeat constructor. destruct (0 <? idx)%nat; cbn [app]; repeat constructor; apply swaps_no_rr. }
    rewrite R. apply iters_blocks in I as (_ & _ & I & _). clear - I. induction I as [|r rs H _ IH]; cbn; constructor; auto. lia. }
  pose proof (sum_pos N _ HN P) as S.
  assert (F0 : (0 <= filter_ops factor N (Z.of_nat (products log)))%Z) by (unfold filter_ops; nia).
  split; [unfold all_ops; nia|]. split; [|split].
  - intros H. apply flops_exact; auto. lia.
  - intros H. apply filter_exact. lia.
  - apply filter_near.
Qed.

Local Open Scope Z_scope.
Lemma flops_large_bad :
  (exists N vecs, get_filter_flops 4 N vecs = Ok 2289255926 /\ giga (filter_ops 4 N vecs) = 20736000000) /\
  (exists N blocks vecs a f, Forall (fun b => 0 < b <= N / 10) blocks /\ get_flops 4 N blocks vecs = Ok a /\ get_filter_flops 4 N vecs = Ok f /\ 80 * a < f).
Proof.
  split; [exists 360000, 20000000; split; vm_compute; reflexivity|].
  exists 360000, [36000; 36000; 36000; 20000], 17700000, 222986455, 18351360000.
  split; [repeat constructor; vm_compute; congruence|]. split; [vm_compute; reflexivity|]. split; [vm_compute; reflexivity|]. reflexivity.
Qed.
Lemma flops_undefined : exists N b, 0 < b < N /\ N < 2 ^ 64 /\ get_flops 1 N [b] 0 = UB.
Proof. exists (2 ^ 40), (2 ^ 30). split; [lia|]. split; [lia|]. vm_compute. reflexivity. Qed.
