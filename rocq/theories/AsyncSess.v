(** Several problems with one object of the single-GPU backend. *)
From Coq Require Import List Arith ZArith QArith Bool Lia Permutation.
Require Import Verif.Base Verif.AlgModel Verif.AlgSpec Verif.AlgProofs1 Verif.AlgProofs3 Verif.DlaModel Verif.ColModel Verif.ColSpec Verif.ColProofs1 Verif.ColEx
  Verif.GpuModel Verif.GpuSpec Verif.GpuEx Verif.MgpuSpec Verif.AsyncModel Verif.AsyncSpec Verif.AsyncProofs Verif.AsyncGpu Verif.AsyncSolve
  Verif.ReuseSpec Verif.ReuseSolve Verif.ReuseEx Verif.AmgSpec.
Import ListNotations.
Local Open Scope nat_scope.

Section P.
Context {F V M G T : Type} (fo : fops F) (bl : blas F V M G T) (trace : G -> F) (gshift : G -> F -> G) (HT : forall A, b_dshift bl A = gshift A (trace A)).
Context (qe : qr_env F) (td : tridiag F) (nev nex : nat).
Context (sort_idx : list F -> list nat) (Hperm : forall keys, Permutation (sort_idx keys) (seq 0 (length keys))) (fsort : list F -> list F).
Local Notation n := (nev + nex).
Context (BZ : beta_zero fo bl).
Local Notation K1 sch := (cmK fo qe td (asyncD fo bl n trace gshift sch) nev nex).
Local Notation K2 := (cmK fo qe td (gpuD fo bl n) nev nex).
Local Notation jobT := (job (F := F) (V := V) (M := M)).
Local Notation run K := (fun j k => solve fo K fsort sort_idx (j_conf j) k (j_ritz j) (j_resid j)).
Local Notation good s := (exists g, cm_locked s = cm_locked g /\ stands_for (cm_dla s) (cm_dla g) /\ gpu_sizes n (cm_dla g)).

Lemma async_step sch j s (fr : gst (F := F) (V := V) (M := M)) oc : job_ok false nev nex j -> good s ->
  g_H fr = j_H j -> gpu_sizes n fr -> run K2 j (mk_cm 0 fr) = Ok oc ->
  exists o, run (K1 sch) j (load_async j s) = Ok o /\ answer (fun a => h_V1 (t_obj a)) o = answer g_V1 oc /\ h_H (t_obj (cm_dla (o_k o))) = j_H j /\ good (o_k o).
Proof.
  intros (CF & E1 & E2 & LV & EA) (g & EL & (d & X1 & X2 & X3 & X4) & Z1 & Z2 & Z3 & Z4) F1 F2 H. specialize (EA eq_refl).
  set (h := t_obj (cm_dla s)) in *.
  set (g1 := mk_cm (cm_locked g) (mk_gst (j_H j) (h_V1 h) (g_dev (cm_dla g)) (g_ritz (cm_dla g)))).
  assert (EV : g_V1 (cm_dla g) = h_V1 h) by (rewrite X3; reflexivity).
  assert (G1 : gpu_sizes n (cm_dla g1)) by (rewrite EV in Z1; repeat split; assumption).
  assert (M1 : stands_for (cm_dla (load_async j s)) (cm_dla g1)).
  { exists d. split; [exact X1|]. split; [exact X2|]. split; [|exact X4]. subst g1. cbn [cm_dla]. rewrite X3. reflexivity. }
  pose proof (gpu_same_run fo bl qe td (j_conf j) sort_idx Hperm CF BZ fsort (j_ritz j) (j_resid j) g1 (mk_cm 0 fr)) as R.
  pose proof (gpu_bare_run fo bl qe td (j_conf j) sort_idx Hperm fsort (j_ritz j) (j_resid j) g1) as Q.
  pose proof (async_solve fo bl n trace gshift HT sch qe td (j_conf j) fsort sort_idx (load_async j s) g1 (j_ritz j) (j_resid j)) as W.
  rewrite E1, E2 in R, Q, W. rewrite H in R. specialize (R G1 F2 (eq_sym F1)).
  assert (R' := R (fun X => ltac:(congruence))). clear R. destruct (Q G1) as [_ Q2].
  destruct (solve fo K2 fsort sort_idx (j_conf j) g1 (j_ritz j) (j_resid j)) as [o2| |] eqn:E4; cbn in R'; try contradiction.
  destruct (W o2 EL M1 eq_refl) as (o & E5 & A1 & A2 & A3 & A4 & A5 & A6 & A7). destruct (Q2 o2 eq_refl) as (Q3 & Q4). destruct R' as (R1 & R2 & R3 & R5).
  exists o. split; [exact E5|]. split; [|split].
  - unfold answer. rewrite A1, A2, R1, R2, A4. f_equal.
    destruct (o_exit o) eqn:Eo, (o_exit oc) eqn:Ec; auto.
    + rewrite R5; [reflexivity|]. intros N. apply A3 in N. congruence.
    + exfalso. assert (N : o_exit o2 = None) by (apply R3; reflexivity). apply A3 in N. congruence.
    + exfalso. assert (N : o_exit o2 = None) by (apply A3; reflexivity). apply R3 in N. congruence.
  - rewrite A5, Q4. reflexivity.
  - exists (o_k o2). auto.
Qed.
Lemma async_session sch jobs : forall s (fr : jobT -> gst (F := F) (V := V) (M := M)),
  good s -> Forall (job_ok false nev nex) jobs ->
  (forall j, In j jobs -> g_H (fr j) = j_H j /\ gpu_sizes n (fr j)) ->
  (forall j, In j jobs -> exists o, run K2 j (mk_cm 0 (fr j)) = Ok o) ->
  session (fun a => h_V1 (t_obj a)) (fun j k => run (K1 sch) j (load_async j k)) jobs s = apart g_V1 (fun j => run K2 j (mk_cm 0 (fr j))) jobs.
Proof.
  induction jobs as [|j r IH]; intros s fr HG HJ HF HO; [reflexivity|]. inversion HJ; subst.
  destruct (HF j (or_introl eq_refl)) as (F1 & F2). destruct (HO j (or_introl eq_refl)) as (oc & E).
  destruct (async_step sch j s (fr j) oc H1 HG F1 F2 E) as (o & E' & EA & _ & HG'). cbn [session apart]. rewrite E, E', EA. f_equal.
  apply IH; auto; intros j' Hj; [apply HF|apply HO]; now right.
Qed.
End P.

(** two problems with random start vectors on an object with two operations waiting *)
Definition gsh (A : list qv * list qv) (_ : Q) := b_dshift symB A.
Definition asyncR sch := cmK qf qhh rtd (asyncD qf symB 3 (fun _ => 0%Q) gsh sch) 2 1.
Definition gpuR := cmK qf qhh rtd (gpuD qf symB 3) 2 1.
Definition rdev : dev (F := Q) (V := qv) (M := qv) (G := list qv * list qv) :=
  mk_dev [7; 7; 7]%Q junk3 junk3 [] [9; 9; 9]%Q (AL []) 0 [5; 5; 5]%Q 0%Q (fun _ => []).
Definition rasync := mk_cm 2 (mk_ast (mk_hobj [4; 4; 4]%Q junk3 true) 4
  (mk_cfg rdev [(Blk 0, fun d => Ok (set_Y d [[9; 9; 9]; [9; 9; 9]; [9; 9; 9]]%Q)); (Legacy, fun d => Ok (set_Y d (v_X d)))])).
Definition rfr (j : job (F := Q) (V := qv) (M := qv)) := mk_gst (j_H j) junk3 (mk_ist [0; 0; 0]%Q junk3 junk3 false) [0; 0; 0]%Q.
Definition arun sch (j : job (F := Q) (V := qv) (M := qv)) k := solve qf (asyncR sch) qfs qsort (j_conf j) k (j_ritz j) (j_resid j).
Definition arun0 (j : job (F := Q) (V := qv) (M := qv)) k := solve qf gpuR qfs qsort (j_conf j) k (j_ritz j) (j_resid j).
Lemma rasync_good : exists g, cm_locked rasync = cm_locked g /\ stands_for (cm_dla rasync) (cm_dla g) /\ gpu_sizes 3 (cm_dla g).
Proof.
  eexists (mk_cm 2 _). split; [reflexivity|]. split.
  - eexists. split; [reflexivity|]. split; [constructor; [now right|]; constructor; [now left|constructor]|]. split; reflexivity.
  - repeat split.
Qed.
Lemma async_sess_ex sch : exists a b, session (fun a => h_V1 (t_obj a)) (fun j k => arun sch j (load_async j k)) [jobR H3; jobR [3; 1; 2]%Q] rasync = [Ok a; Ok b] /\
  fst (fst a) <> fst (fst b) /\ snd a <> None /\ snd b <> None.
Proof.
  assert (X : exists a b, apart g_V1 (fun j => arun0 j (mk_cm 0 (rfr j))) [jobR H3; jobR [3; 1; 2]%Q] = [Ok a; Ok b] /\ fst (fst a) <> fst (fst b) /\ snd a <> None /\ snd b <> None).
  { do 2 eexists. split; [vm_compute; reflexivity|]. repeat split; vm_compute; discriminate. }
  destruct X as (a & b & X & D). exists a, b. split; [|exact D]. rewrite <- X.
  apply (async_session qf symB (fun _ => 0%Q) gsh (fun _ => eq_refl) qhh rtd 2 1 qsort qsort_perm qfs symB_beta sch).
  - exact rasync_good.
  - repeat constructor; cbn; try lia; try discriminate.
  - intros j [<-|[<-|[]]]; repeat split.
  - intros j [<-|[<-|[]]]; eexists; vm_compute; reflexivity.
Qed.
