(** Several problems with one object of the multi-GPU backend. *)
From Coq Require Import List Arith ZArith QArith Bool Lia Permutation.
Require Import Verif.Base Verif.AlgModel Verif.AlgSpec Verif.AlgProofs1 Verif.AlgProofs3 Verif.DlaModel Verif.ColModel Verif.ColSpec Verif.ColProofs1 Verif.ColEx
  Verif.GpuEx Verif.MgpuModel Verif.MgpuSpec Verif.MgpuProofs2 Verif.MgpuProofs3 Verif.MgpuEx Verif.AsyncModel Verif.AsyncSpec Verif.AsyncProofs
  Verif.ReuseSpec Verif.ReuseSeq Verif.ReuseKeep Verif.ReuseSolve Verif.ReuseEx Verif.AmgModel Verif.AmgSpec Verif.AmgProofs Verif.AmgEx.
Import ListNotations.
Local Open Scope nat_scope.

Section P.
Context {F V M G T : Type} (fo : fops F) (bl : blas F V M G T).
Context (loc : bool -> M -> F -> F -> V -> V -> V) (locv : M -> V -> V) (locS : list V -> G) (locR : list V -> list V -> G) (red : V -> V) (redG : G -> G).
Context (HS : sums fo bl loc locv locS locR red redG) (qe : qr_env F) (td : tridiag F) (nev nex : nat).
Context (sort_idx : list F -> list nat) (Hperm : forall keys, Permutation (sort_idx keys) (seq 0 (length keys))) (fsort : list F -> list F).
Local Notation n := (nev + nex).
Context (BZ : beta_zero fo bl) (NL : no_late_failure bl n).
Local Notation K1 sch := (cmK fo qe td (amgD fo bl loc locv locS locR red redG false n sch) nev nex).
Local Notation K2 := (cmK fo qe td (mgpuD fo bl loc false n) nev nex).
Local Notation K3 := (cmK fo qe td (colD fo bl true n) nev nex).
Local Notation jobT := (job (F := F) (V := V) (M := M)).
Local Notation run K := (fun j k => solve fo K fsort sort_idx (j_conf j) k (j_ritz j) (j_resid j)).
Local Notation good s := (exists g, cm_locked s = cm_locked g /\ mstands n (cm_dla s) (cm_dla g) /\ mgpu_sizes n (cm_dla g)).

Lemma amg_step sch j s (fr : cst (V := V) (M := M)) oc : job_ok true nev nex j -> good s ->
  cs_H fr = j_H j -> (c_approx (j_conf j) = true -> cs_C fr = j_V j) -> col_sizes n n n n fr ->
  run K3 j (mk_cm 0 fr) = Ok oc ->
  exists o, run (K1 sch) j (load_amg j s) = Ok o /\ answer (fun a => y_C (mt_obj a)) o = answer cs_C oc /\ y_H (mt_obj (cm_dla (o_k o))) = j_H j /\ good (o_k o).
Proof.
  intros (CF & E1 & E2 & LV & _) (g & EL & (d & X1 & X2 & X3 & X4 & X5 & X6) & Z1 & Z2 & Z3 & Z4 & Z5 & Z6) F1 F2 (F3 & F4 & F5 & F6) H.
  set (h := mt_obj (cm_dla s)) in *.
  set (C := if c_approx (j_conf j) then j_V j else y_C h).
  assert (LC : length C = n) by (subst C; rewrite X3 in Z1; destruct (c_approx (j_conf j)); [exact LV|exact Z1]).
  set (g1 := mk_cm (cm_locked g) (mk_mst (j_H j) (x_H d) C (x_C d) (y_B h) (x_B d) (y_C2 h) (y_B2 h) (y_bAc h) (y_hh h))).
  rewrite X3 in Z1, Z2, Z3, Z4, Z5, Z6. cbn in Z1, Z2, Z3, Z4, Z5, Z6.
  assert (G1 : mgpu_sizes n (cm_dla g1)) by (repeat split; assumption).
  assert (M1 : mstands n (cm_dla (load_amg j s)) (cm_dla g1)) by (exists d; split; [exact X1|]; split; [exact X2|]; split; [reflexivity|]; auto).
  pose proof (seq_same_run fo bl qe td true (j_conf j) sort_idx fsort (j_ritz j) (j_resid j) Hperm CF BZ) as R. cbv zeta in R.
  pose proof (mgpu_same fo bl loc qe td (j_conf j) sort_idx Hperm fsort BZ) as Q.
  pose proof (amg_solve fo bl loc locv locS locR red redG HS false n sch qe td (j_conf j) fsort sort_idx (load_amg j s) g1 (j_ritz j) (j_resid j)) as W.
  rewrite E1, E2 in R, Q, W. specialize (R (mk_cm (cm_locked g1) (MgpuSpec.host (cm_dla g1))) (mk_cm 0 fr)). rewrite H in R.
  assert (SP : same_problem n (c_approx (j_conf j)) (mk_cm (cm_locked g1) (MgpuSpec.host (cm_dla g1))) (mk_cm 0 fr)).
  { unfold same_problem. cbn. rewrite F1, F3, F4, F5, F6. repeat split; auto. intros EA. rewrite F2 by exact EA. subst C. now rewrite EA. }
  specialize (R SP). specialize (Q NL g1 (j_ritz j) (j_resid j) G1).
  destruct (solve fo K3 fsort sort_idx (j_conf j) (mk_cm (cm_locked g1) (MgpuSpec.host (cm_dla g1))) (j_ritz j) (j_resid j)) as [o3| |] eqn:E3; cbn in R; try contradiction.
  destruct (solve fo K2 fsort sort_idx (j_conf j) g1 (j_ritz j) (j_resid j)) as [o2| |] eqn:E4; cbn in Q; try contradiction.
  destruct (W o2 EL M1 eq_refl) as (o & E5 & A1 & A2 & A3 & A4 & A5 & A6 & A7). destruct Q as (Q1 & Q2 & Q3 & Q4 & Q5 & Q6). destruct R as (R1 & R2 & R3 & _ & R5).
  exists o. split; [exact E5|]. split; [|split].
  - unfold answer. rewrite A1, A2, Q1, Q2, R1, R2, A4, Q3. f_equal.
    destruct (o_exit o) eqn:Eo, (o_exit oc) eqn:Ec; auto.
    + rewrite R5; [reflexivity|]. intros N. apply R3 in N. congruence.
    + exfalso. assert (N : o_exit o3 = None) by (apply R3; reflexivity). apply Q4, A3 in N. congruence.
    + exfalso. assert (N : o_exit o3 = None) by (apply Q4, A3; reflexivity). apply R3 in N. congruence.
  - rewrite A5, Q5. reflexivity.
  - exists (o_k o2). auto.
Qed.
Lemma amg_session sch jobs : forall s (fr : jobT -> cst (V := V) (M := M)),
  good s -> Forall (job_ok true nev nex) jobs ->
  (forall j, In j jobs -> cs_H (fr j) = j_H j /\ (c_approx (j_conf j) = true -> cs_C (fr j) = j_V j) /\ col_sizes n n n n (fr j)) ->
  (forall j, In j jobs -> exists o, run K3 j (mk_cm 0 (fr j)) = Ok o) ->
  session (fun a => y_C (mt_obj a)) (fun j k => run (K1 sch) j (load_amg j k)) jobs s = apart cs_C (fun j => run K3 j (mk_cm 0 (fr j))) jobs.
Proof.
  induction jobs as [|j r IH]; intros s fr HG HJ HF HO; [reflexivity|]. inversion HJ; subst.
  destruct (HF j (or_introl eq_refl)) as (F1 & F2 & F3). destruct (HO j (or_introl eq_refl)) as (oc & E).
  destruct (amg_step sch j s (fr j) oc H1 HG F1 F2 F3 E) as (o & E' & EA & _ & HG'). cbn [session apart]. rewrite E, E', EA. f_equal.
  apply IH; auto; intros j' Hj; [apply HF|apply HO]; now right.
Qed.
End P.

(** diag(1, 2, 3), then diag(3, 1, 2) with one object *)
Definition crun sch (j : job (F := Q) (V := qv) (M := qv)) k := solve qf (amgQ sch) qfs qsort (j_conf j) k (j_ritz j) (j_resid j).
Definition crun0 (j : job (F := Q) (V := qv) (M := qv)) k := solve qf cpuM qfs qsort (j_conf j) k (j_ritz j) (j_resid j).
Definition mfr (j : job (F := Q) (V := qv) (M := qv)) := mk_cst (j_H j) (j_V j) junk junk junk true.
Lemma amg_sess_ex sch : exists r1 v1 r2 v2, session (fun a => y_C (mt_obj a)) (fun j k => crun sch j (load_amg j k)) [jobA; jobB] amg_used =
  [Ok ([1; 2]%Q, r1, Some v1); Ok ([1; 2]%Q, r2, Some v2)] /\ v1 <> v2.
Proof.
  assert (X : exists r1 v1 r2 v2, apart cs_C (fun j => crun0 j (mk_cm 0 (mfr j))) [jobA; jobB] = [Ok ([1; 2]%Q, r1, Some v1); Ok ([1; 2]%Q, r2, Some v2)] /\ v1 <> v2).
  { do 4 eexists. split; [vm_compute; reflexivity|]. vm_compute. discriminate. }
  destruct X as (r1 & v1 & r2 & v2 & X & D). exists r1, v1, r2, v2. split; [|exact D]. rewrite <- X.
  apply (amg_session qf mB nloc nlocv nlocS nlocR (map Qopp) swp q_sums qcholon qtd 2 0 qsort qsort_perm qfs mB_beta (mB_no_late 2) sch).
  - exists mgpu_used. split; [reflexivity|]. split; [exact amg_used_stands|]. repeat split.
  - repeat constructor; cbn; try lia; try discriminate.
  - intros j [<-|[<-|[]]]; repeat split.
  - intros j [<-|[<-|[]]]; eexists; vm_compute; reflexivity.
Qed.
