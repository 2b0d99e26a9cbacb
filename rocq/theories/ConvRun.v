(** Runs of one iteration from approximate vectors: the block, the bounds and the states in between. *)
From Coq Require Import List Arith ZArith Bool Lia Permutation.
Require Import Verif.Base Verif.AlgModel Verif.AlgSpec Verif.AlgProofs1 Verif.AlgProofs2 Verif.AlgProofs3 Verif.DlaModel Verif.ColModel Verif.ColSpec
  Verif.ColProofs1 Verif.ColProofs2 Verif.ColProofs3 Verif.ConvSpec Verif.AlgSpan.
Import ListNotations.

Section Run.
Context {F V M G T : Type} (fo : fops F) (bl : blas F V M G T) (qe : qr_env F) (td : tridiag F) (cf : conf F) (sort_idx : list F -> list nat).
Local Notation n := (c_nev cf + c_nex cf).
Local Notation K := (cmK fo qe td (colD fo bl true n) (c_nev cf) (c_nex cf)).

Lemma ml_loop_C H Mn numvec : forall todo k s s', ml_loop fo bl todo k H true Mn numvec s = Ok s' -> ml_C s' = ml_C s.
Proof.
  induction todo; intros k s s' E; cbn [ml_loop] in E; [now injection E as <-|].
  apply bind_ok in E as ([s1 v2] & E1 & E). unfold ml_body in E1. cbn [bind] in E1. apply bind_ok in E1 as (d & _ & E1). injection E1 as <- <-.
  destruct todo; [now injection E as <-|].
  apply bind_ok in E as (s2 & E2 & E). unfold ml_next in E2. apply bind_ok in E2 as (x & _ & E2). injection E2 as <-.
  apply IHtodo in E. exact E.
Qed.

Lemma nth_error_map_seq {A} (f : nat -> A) m i x : nth_error (map f (seq 0 m)) i = Some x -> x = f i.
Proof.
  intros E. assert (L : i < m) by (rewrite <- (seq_length m 0), <- (map_length f); apply nth_error_Some; congruence).
  rewrite nth_error_map in E. rewrite (nth_error_nth' _ 0) in E by (rewrite seq_length; lia). rewrite seq_nth in E by lia. now injection E as <-.
Qed.
Lemma approx_start fsort l0 H V1 ritzv resid o : c_approx cf = true -> c_symcheck cf = false -> c_maxiter cf = 1 -> 1 <= c_nev cf ->
  let k := mk_cm l0 (mpi_state bl (c_nev cf) (c_nex cf) H V1) in
  solve fo K fsort sort_idx cf k ritzv resid = Ok o ->
  exists s ub s0, o_exit o = Some s /\ unlocked_run fo K sort_idx fsort cf k ritzv resid ub s0 s /\ ss_iter s = 1 /\ cs_C (cm_dla (ss_k s0)) = V1 /\
    max_element fo (firstn n ritzv) = Ok (ss_lowerb s0) /\ min_element fo (firstn n ritzv) = Ok (ss_lambda s0) /\
    exists d e m b, ub = run_bound fo (td_val td d e 0) (td_val td d e m) b.
Proof.
  intros HA HS HM H1 k E. unfold solve in E. rewrite HS in E. cbn [bind negb] in E.
  apply bind_ok in E as ([ub s0] & Hi & E). apply bind_ok in E as (s & Hl & E). apply bind_ok in E as ([r k'] & _ & E).
  apply bind_ok in E as (k'' & _ & E). injection E as <-. exists s, ub, s0. split; [reflexivity|].
  pose proof (solve_init_book fo K fsort cf k ritzv resid ub s0 Hi) as (HB & Hit & Hlk & Hd & _).
  assert (C : (c_nex cf <? ss_unconv s0) && (ss_iter s0 <? c_maxiter cf) = true).
  { apply andb_true_iff. split; apply Nat.ltb_lt; [pose proof (bk_sum _ _ _ _ HB); lia|lia]. }
  pose proof C as C'. apply andb_true_iff in C' as [C1 C2]. apply Nat.ltb_lt in C1, C2.
  rewrite HM in Hl. cbn [solve_loop] in Hl. rewrite C in Hl. apply bind_ok in Hl as (t & E1 & E2).
  destruct ((c_nex cf <? ss_unconv t) && (ss_iter t <? c_maxiter cf)); [discriminate E2|injection E2 as <-].
  split; [|split].
  - exists k, ([] ++ [s0]). rewrite HS. split; [reflexivity|]. split; [exact Hi|]. split; [|repeat constructor; exact Hlk].
    econstructor; eauto. constructor.
  - apply iterate_count in E1. lia.
  - unfold solve_init in Hi. rewrite HA in Hi. cbn [negb] in Hi.
    apply bind_ok in Hi as (k1 & S1 & Hi). apply bind_ok in Hi as (r1 & _ & Hi). apply bind_ok in Hi as (k2 & S2 & Hi).
    apply bind_ok in Hi as (k3 & S3 & Hi). injection S3 as <-. apply bind_ok in Hi as ([[[ix u] ritz] k4] & S4 & Hi).
    apply bind_ok in Hi as (w & Hw & Hi). apply bind_ok in Hi as (lb & Hb & Hi). apply bind_ok in Hi as (la & Ha & Hi). injection Hi as <- <-.
    cbn [ss_k ss_lowerb ss_lambda].
    unfold lanczos in S4. destruct (_ =? 0); [discriminate|]. cbn [negb] in S4. apply bind_ok in S4 as ([u1 k5] & S4 & Q). injection Q as <- <- <- <-.
    apply get_range_inv in Hw as [_ ->]. cbn [skipn] in Hb, Ha.
    cbn [cmK k_start] in S1. cbn [colD d_start bind] in S1. injection S1 as <-.
    cbn [cmK k_init] in S2. unfold cm_init in S2. apply lift_inv in S2 as (d2 & S2 & ->). cbn [bind colD d_init] in S2. unfold c_init in S2.
    apply bind_ok in S2 as (? & _ & S2). apply bind_ok in S2 as (? & _ & S2). injection S2 as <-.
    cbn [cmK k_lanczos1] in S4. unfold cm_lanczos1 in S4. apply bind_ok in S4 as ([[[d e] b] y] & S5 & S4).
    cbn [colD d_mlanczos] in S5. unfold c_mlanczos in S5. apply bind_ok in S5 as ([[[? ?] ?] C'] & S5 & Q). injection Q as -> -> -> <-.
    unfold mlanczos in S5. apply bind_ok in S5 as (? & _ & S5). apply bind_ok in S5 as (ml & S5 & Q). cbn [bind] in Q. injection Q as <- <- <- <-.
    apply ml_loop_C in S5. cbn [ml_C] in S5.
    cbv zeta in S4. apply bind_ok in S4 as (q0 & R0 & S4). apply bind_ok in S4 as (q1 & R1 & S4). apply bind_ok in S4 as (b0 & _ & S4). injection S4 as <- <-.
    cbn [cm_dla cs_C]. rewrite S5. split; [reflexivity|]. split; [exact Hb|]. split; [exact Ha|].
    apply rd_ok in R0, R1. apply nth_error_map_seq in R0 as ->, R1 as ->. do 4 eexists. reflexivity.
Qed.
End Run.
