(** Property C99: one GPU solver object for several problems, whatever the timing of the GPUs. *)
From Coq Require Import List Arith ZArith QArith Bool Permutation.
Require Import Verif.Base Verif.AlgModel Verif.AlgSpec Verif.AlgProofs3 Verif.DlaModel Verif.ColModel Verif.ColSpec Verif.ColProofs1 Verif.ColEx
  Verif.GpuEx Verif.MgpuModel Verif.MgpuSpec Verif.MgpuEx Verif.AsyncModel Verif.AsyncSpec Verif.ReuseSpec Verif.ReuseKeep Verif.ReuseEx
  Verif.AmgModel Verif.AmgSpec Verif.AmgEx Verif.AmgSess Verif.GpuModel Verif.GpuSpec Verif.AsyncSess.
Import ListNotations.
Local Open Scope nat_scope.

Notation amgK fo bl loc locv locS locR red redG sch qe td nev nex := (cmK fo qe td (amgD fo bl loc locv locS locR red redG false (nev + nex) sch) nev nex).
Notation mpiK fo bl qe td nev nex := (cmK fo qe td (colD fo bl true (nev + nex)) nev nex).
Notation gpuK fo bl qe td nev nex := (cmK fo qe td (gpuD fo bl (nev + nex)) nev nex).
Notation asyncK fo bl trace gshift sch qe td nev nex := (cmK fo qe td (asyncD fo bl (nev + nex) trace gshift sch) nev nex).

(** [s]: any object, used before, with operations waiting; [fr j]: a new CPU object for the problem [j] *)
Theorem C99_session : forall (F V M G T : Type) (fo : fops F) (bl : blas F V M G T) loc locv locS locR red redG,
  sums fo bl loc locv locS locR red redG -> forall qe td nev nex sort_idx,
  (forall keys, Permutation (sort_idx keys) (seq 0 (length keys))) -> forall fsort,
  let n := nev + nex in beta_zero fo bl -> no_late_failure bl n -> forall sch jobs s (fr : job (F := F) (V := V) (M := M) -> cst),
  let run {D} (L : kernel F (cm (D := D))) j k := solve fo L fsort sort_idx (j_conf j) k (j_ritz j) (j_resid j) in
  (exists g, cm_locked s = cm_locked g /\ mstands n (cm_dla s) (cm_dla g) /\ mgpu_sizes n (cm_dla g)) -> Forall (job_ok true nev nex) jobs ->
  (forall j, In j jobs -> cs_H (fr j) = j_H j /\ (c_approx (j_conf j) = true -> cs_C (fr j) = j_V j) /\ col_sizes n n n n (fr j)) ->
  (forall j, In j jobs -> exists o, run (mpiK fo bl qe td nev nex) j (mk_cm 0 (fr j)) = Ok o) ->
  session (fun a => y_C (mt_obj a)) (fun j k => run (amgK fo bl loc locv locS locR red redG sch qe td nev nex) j (load_amg j k)) jobs s =
  apart cs_C (fun j => run (mpiK fo bl qe td nev nex) j (mk_cm 0 (fr j))) jobs.
Proof.
  exact (fun F V M G T fo bl loc locv locS locR red redG HS qe td nev nex si HP fs BZ NL =>
    amg_session fo bl loc locv locS locR red redG HS qe td nev nex si HP fs BZ NL).
Qed.
Print Assumptions C99_session.

(** two problems on an object with three operations waiting; the values agree, the vectors differ *)
Example C99_example sch : Forall (job_ok true 2 0) [jobA; jobB] /\ j_H jobA <> j_H jobB /\
  exists r1 v1 r2 v2, session (fun a => y_C (mt_obj a)) (fun j k => crun sch j (load_amg j k)) [jobA; jobB] amg_used =
    [Ok ([1; 2]%Q, r1, Some v1); Ok ([1; 2]%Q, r2, Some v2)] /\ v1 <> v2.
Proof. split; [repeat constructor; cbn; try discriminate; auto with arith|]. split; [discriminate|exact (amg_sess_ex sch)]. Qed.

(** the single-GPU backend, problems with random start vectors (what it does with the caller's is in C54); [fr j]: a new GPU object *)
Theorem C99_single_gpu_session : forall (F V M G T : Type) (fo : fops F) (bl : blas F V M G T) trace gshift,
  (forall A, b_dshift bl A = gshift A (trace A)) -> forall qe td nev nex sort_idx,
  (forall keys, Permutation (sort_idx keys) (seq 0 (length keys))) -> forall fsort,
  let n := nev + nex in beta_zero fo bl -> forall sch jobs s (fr : job (F := F) (V := V) (M := M) -> gst),
  let run {D} (L : kernel F (cm (D := D))) j k := solve fo L fsort sort_idx (j_conf j) k (j_ritz j) (j_resid j) in
  (exists g, cm_locked s = cm_locked g /\ stands_for (cm_dla s) (cm_dla g) /\ gpu_sizes n (cm_dla g)) -> Forall (job_ok false nev nex) jobs ->
  (forall j, In j jobs -> g_H (fr j) = j_H j /\ gpu_sizes n (fr j)) ->
  (forall j, In j jobs -> exists o, run (gpuK fo bl qe td nev nex) j (mk_cm 0 (fr j)) = Ok o) ->
  session (fun a => h_V1 (t_obj a)) (fun j k => run (asyncK fo bl trace gshift sch qe td nev nex) j (load_async j k)) jobs s =
  apart g_V1 (fun j => run (gpuK fo bl qe td nev nex) j (mk_cm 0 (fr j))) jobs.
Proof.
  exact (fun F V M G T fo bl trace gshift HT qe td nev nex si HP fs BZ => async_session fo bl trace gshift HT qe td nev nex si HP fs BZ).
Qed.
Print Assumptions C99_single_gpu_session.
Example C99_single_gpu_example sch : length (c_queue (t_cfg (cm_dla rasync))) = 2 /\
  (exists g, cm_locked rasync = cm_locked g /\ stands_for (cm_dla rasync) (cm_dla g) /\ gpu_sizes 3 (cm_dla g)) /\
  exists a b, session (fun a => h_V1 (t_obj a)) (fun j k => arun sch j (load_async j k)) [jobR H3; jobR [3; 1; 2]%Q] rasync = [Ok a; Ok b] /\
    fst (fst a) <> fst (fst b) /\ snd a <> None /\ snd b <> None.
Proof. exact (conj eq_refl (conj rasync_good (async_sess_ex sch))). Qed.
