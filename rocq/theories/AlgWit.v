(** Witnesses used in P_Alg.v *)
From Coq Require Import List Arith ZArith Bool Lia Permutation.
Require Import Verif.Base Verif.AlgModel Verif.AlgSpec Verif.AlgProofs1 Verif.AlgProofs2 Verif.AlgProofs3 Verif.AlgProofs4
  Verif.AlgProofs5 Verif.AlgSim Verif.AlgTrace Verif.AlgTraceProofs Verif.AlgProofs6 Verif.AlgEx.
Import ListNotations.
Definition zs (l : list Z) : list oz := map Some l.
Definition wit_script (rr rd : list (list oz)) : script := mk_script [10; 11; 12] 7 true (Some 1000%Z) ([], []) rr rd.
Definition wit_conf (deg maxdeg : nat) (opt approx : bool) : conf oz :=
  {| c_N := 100; c_nev := 2; c_nex := 1; c_tol := Some 1%Z; c_deg := deg; c_maxdeg := maxdeg; c_degextra := 2; c_maxiter := 5;
     c_lanczositer := 10; c_numlanczos := 2; c_opt := opt; c_approx := approx; c_symcheck := true |}.

Ltac by_cases n := repeat match goal with
  | H : nth_error _ ?i = Some _ |- _ => destruct i as [|i]; simpl in H; try discriminate H end.

Lemma locking_unsorted_witness : exists sort_idx (a a' : @lk_arrays oz script) c i r l,
  sorts zf (firstn 3 (lk_ritz a)) (sort_idx (firstn 3 (lk_ritz a))) /\
  locking zf sk sort_idx 3 (Some 1%Z) 0 a = Ok (c, a') /\ i < c /\
  nth_error (lk_res a') i = Some r /\ nth_error (lk_last a') i = Some l /\ ~ accepted zf (Some 1%Z) r l.
Proof.
  exists sort_ex, (mk_lk (zs [3; 1; 2]%Z) (zs [100; 0; 0]%Z) (zs [1000; 9; 9]%Z) (wit_script [] [])).
  do 2 eexists. exists 0. do 2 eexists. split.
  - split; [apply sort_ex_perm|]. cbn -[f_lt]. intros p q i j ki kj Hpq Hp Hq Hi Hj.
    destruct p as [|[|[|p]]]; destruct q as [|[|[|q]]]; try lia; simpl in Hp, Hq; try discriminate;
      try (destruct q; discriminate); injection Hp as <-; injection Hq as <-; simpl in Hi, Hj;
      injection Hi as <-; injection Hj as <-; reflexivity.
  - split; [vm_compute; reflexivity|]. split; [lia|]. split; [reflexivity|]. split; [reflexivity|].
    unfold accepted. vm_compute. intros H. apply H. auto.
Qed.

Lemma locking_ties_witness : exists sort_idx (a a' : @lk_arrays oz script) c i r l,
  sorts zf (firstn 2 (lk_ritz a)) (sort_idx (firstn 2 (lk_ritz a))) /\
  (forall i j x y, i <= j < 2 -> nth_error (lk_ritz a) i = Some x -> nth_error (lk_ritz a) j = Some y -> f_lt zf y x = false) /\
  locking zf sk sort_idx 2 (Some 1%Z) 0 a = Ok (c, a') /\ i < c /\
  nth_error (lk_res a') i = Some r /\ nth_error (lk_last a') i = Some l /\ ~ accepted zf (Some 1%Z) r l.
Proof.
  exists (fun _ => [1; 0]), (mk_lk (zs [5; 5; 7]%Z) (zs [100; 0; 0]%Z) (zs [1000; 9; 9]%Z) (wit_script [] [])).
  do 2 eexists. exists 0. do 2 eexists. split; [|split].
  - split; [apply perm_swap|]. cbn -[f_lt]. intros p q i j ki kj Hpq Hp Hq Hi Hj.
    destruct p as [|[|p]]; destruct q as [|[|q]]; try lia; simpl in Hp, Hq; try discriminate;
      try (destruct q; discriminate); injection Hp as <-; injection Hq as <-; simpl in Hi, Hj;
      injection Hi as <-; injection Hj as <-; reflexivity.
  - cbn -[f_lt]. intros i j x y H Hx Hy. destruct i as [|[|i]]; destruct j as [|[|j]]; try lia; simpl in Hx, Hy;
      injection Hx as <-; injection Hy as <-; reflexivity.
  - split; [vm_compute; reflexivity|]. split; [lia|]. split; [reflexivity|]. split; [reflexivity|].
    unfold accepted. vm_compute. intros H. apply H. auto.
Qed.

Lemma premature_witness : exists cf k ritzv resid o ub (s0 s1 s2 : @sstate oz script),
  conf_ok cf /\ solve zf sk fsort_ex sort_ex cf k ritzv resid = Ok o /\
  solve_init zf sk fsort_ex cf k ritzv resid = Ok (ub, s0) /\
  iterate zf sk sort_ex cf ub s0 = Ok s1 /\ iterate zf sk sort_ex cf ub s1 = Ok s2 /\
  ss_locked s1 = 0 /\ at_ (ss_ritz s1) 0 = Some (Some 1%Z) /\ at_ (ss_res s1) 0 = Some (Some 100000%Z) /\
  ss_locked s2 = 1 /\ at_ (ss_ritz s2) 0 = Some (Some 1%Z) /\ at_ (ss_res s2) 0 = Some (Some 50000%Z) /\ c_tol cf = Some 1%Z.
Proof.
  exists (wit_conf 4 8 true true), (wit_script [zs [1; 2; 500]%Z; zs [1; 2; 500]%Z] [zs [100000; 16; 10]%Z; zs [50000; 8; 10]%Z]),
    (zs [0; 0; 500]%Z), (zs [0; 0; 0]%Z).
  do 5 eexists. split; [unfold conf_ok; cbn; repeat split; try lia; auto|].
  split; [vm_compute; reflexivity|]. split; [vm_compute; reflexivity|]. split; [vm_compute; reflexivity|].
  split; [vm_compute; reflexivity|]. repeat split; vm_compute; reflexivity.
Qed.

Definition lan_script (th ta : list oz) : script := mk_script [10; 11; 12] 0 true (Some 1000%Z) (th, ta) [] [].
Lemma lanczos_read_witness : exists Th Ta : list oz,
  length Th = 4 /\ length Ta = 4 /\
  dos_search zf 4 0 (fsort_ex Th) Th Ta 2 (f_div zf (f_of_nat zf 3) (f_of_nat zf 100)) (f_zero zf) = UB /\
  lanczos zf sk fsort_ex 100 2 2 3 true (zs [0; 0; 0]%Z) (lan_script Th Ta) = UB.
Proof. exists (zs [1; 4; 2; 9]%Z), (zs [3; 1; 3; 1]%Z). vm_compute. auto. Qed.
Lemma lanczos_write_witness : exists (Th Ta : list oz) lb,
  length Th = 4 /\ length Ta = 4 /\
  dos_search zf 4 0 (fsort_ex Th) Th Ta 2 (f_div zf (f_of_nat zf 3) (f_of_nat zf 100)) (f_zero zf) = Ok (Some lb) /\
  dos_idx zf 2 0 2 Th lb = Ok (-1)%Z /\
  lanczos zf sk fsort_ex 100 2 2 3 true (zs [0; 0; 0]%Z) (lan_script Th Ta) = UB.
Proof. exists (zs [1; 4; 5; 9]%Z), (zs [1; 1; 1; 1]%Z), (Some 1%Z). vm_compute. repeat split; auto. Qed.
Lemma lanczos_uninit_witness : exists Th Ta : list oz,
  length Th = 2 /\ length Ta = 2 /\
  dos_search zf 2 0 (fsort_ex Th) Th Ta 2 (f_div zf (f_of_nat zf 3) (f_of_nat zf 3)) (f_zero zf) = Ok None /\
  lanczos zf sk fsort_ex 3 2 1 3 true (zs [0; 0; 0]%Z) (lan_script Th Ta) = UB.
Proof. exists (zs [1; 2]%Z), (zs [1; 1]%Z). vm_compute. repeat split; auto. Qed.

(** more combined lemmas *)
Section W.
Context {F St : Type} (fo : fops F) (K : kernel F St).
Lemma solve_protocol sort_idx (Hperm : forall keys, Permutation (sort_idx keys) (seq 0 (length keys))) :
  forall fsort cf t ritzv resid o s, conf_ok cf ->
  solve fo (logK K) fsort sort_idx cf t ritzv resid = Ok o -> o_exit o = Some s ->
  exists ub rs sw idx sw', iters (c_nev cf) (c_nex cf) 0 rs (ss_locked s) /\ length rs = ss_iter s /\ in_range (c_nev cf) sw' /\
    list_sum (map it_new rs) = ss_locked s /\
    fst (o_k o) = fst t ++ (if c_symcheck cf then [CSym] else []) ++ start_calls fo cf sw idx ++
                  flat_map (iter_calls fo ub) rs ++ swap_calls 0 sw' ++ [CEnd].
Proof.
  intros fsort cf t ritzv resid o s HC H Ho.
  destruct (solve_log fo K sort_idx Hperm fsort cf t ritzv resid o s HC H Ho) as (ub & rs & sw & idx & sw' & A & B & C & D).
  exists ub, rs, sw, idx, sw'. split; auto. split; auto. split; auto. split; auto. now apply iters_sum in A.
Qed.

Lemma log_transparent fsort sort_idx cf k ritzv resid o :
  solve fo (logK K) fsort sort_idx cf ([], k) ritzv resid = Ok o ->
  exists o', solve fo K fsort sort_idx cf k ritzv resid = Ok o' /\ o_k o' = snd (o_k o) /\ o_ritz o' = o_ritz o /\ o_res o' = o_res o.
Proof.
  intros H. pose proof (solve_rel fo (logK K) K _ (log_rel K) fsort sort_idx cf ([], k) k ritzv resid eq_refl) as HR.
  destruct (rel_ok_r _ _ _ _ HR H) as (o' & Ho & E1 & E2 & E3 & _). exists o'. split; auto.
Qed.

Lemma solve_rejected_log sort_idx fsort cf t ritzv resid o :
  solve fo (logK K) fsort sort_idx cf t ritzv resid = Ok o -> o_exit o = None ->
  fst (o_k o) = fst t ++ [CSym] /\ o_ritz o = ritzv /\ o_res o = resid.
Proof.
  intros H Ho. pose proof H as H1. apply solve_exit in H1. apply H1 in Ho as (Hc & k0 & Hk).
  rewrite (solve_rejected fo (logK K) sort_idx fsort cf t k0) in H by auto. injection H as <-. cbn.
  apply logged_v_inv in Hk as (s & _ & ->). auto.
Qed.
End W.
