(** Property C98: a whole solve on the multi-GPU backend does not depend on the timing of the GPUs. *)
From Coq Require Import List Arith ZArith QArith Bool Permutation.
Require Import Verif.Base Verif.AlgModel Verif.AlgSpec Verif.AlgProofs3 Verif.DlaModel Verif.ColModel Verif.ColSpec Verif.ColProofs1 Verif.ColEx
  Verif.GpuEx Verif.MgpuModel Verif.MgpuSpec Verif.MgpuProofs2 Verif.MgpuEx Verif.AsyncModel Verif.AsyncSpec Verif.AsyncEx Verif.AmgModel Verif.AmgSpec Verif.AmgProofs Verif.AmgEx.
Import ListNotations.
Local Open Scope nat_scope.

Notation amgK fo bl loc locv locS locR red redG scal sch qe td cf :=
  (cmK fo qe td (amgD fo bl loc locv locS locR red redG scal (c_nev cf + c_nex cf) sch) (c_nev cf) (c_nex cf)).
Notation mgpuK fo bl loc scal qe td cf := (cmK fo qe td (mgpuD fo bl loc scal (c_nev cf + c_nex cf)) (c_nev cf) (c_nex cf)).
Notation mpiK fo bl qe td cf := (cmK fo qe td (colD fo bl true (c_nev cf + c_nex cf)) (c_nev cf) (c_nex cf)).

(** [s]: the object, possibly with operations of earlier calls still waiting on the devices; [g]: what it is when they have run.
    Both builds ([scal]); every schedule *)
Theorem C98_async_solve : forall (F V M G T : Type) (fo : fops F) (bl : blas F V M G T) loc locv locS locR red redG,
  sums fo bl loc locv locS locR red redG -> forall scal sch qe td (cf : conf F) fsort si s g ritzv resid o,
  cm_locked s = cm_locked g -> mstands (c_nev cf + c_nex cf) (cm_dla s) (cm_dla g) ->
  solve fo (mgpuK fo bl loc scal qe td cf) fsort si cf g ritzv resid = Ok o ->
  exists o', solve fo (amgK fo bl loc locv locS locR red redG scal sch qe td cf) fsort si cf s ritzv resid = Ok o' /\
    o_ritz o' = o_ritz o /\ o_res o' = o_res o /\ (o_exit o' = None <-> o_exit o = None) /\
    y_C (mt_obj (cm_dla (o_k o'))) = m_C (cm_dla (o_k o)) /\ y_H (mt_obj (cm_dla (o_k o'))) = m_H (cm_dla (o_k o)) /\
    cm_locked (o_k o') = cm_locked (o_k o) /\ mstands (c_nev cf + c_nex cf) (cm_dla (o_k o')) (cm_dla (o_k o)).
Proof.
  exact (fun F V M G T fo bl loc locv locS locR red redG HS scal sch qe td cf =>
    amg_solve fo bl loc locv locS locR red redG HS scal (c_nev cf + c_nex cf) sch qe td cf).
Qed.
Print Assumptions C98_async_solve.

(** hence what the CPU backend computes from the same host data *)
Theorem C98_same_as_cpu : forall (F V M G T : Type) (fo : fops F) (bl : blas F V M G T) loc locv locS locR red redG,
  sums fo bl loc locv locS locR red redG -> forall qe td (cf : conf F) sort_idx,
  (forall keys, Permutation (sort_idx keys) (seq 0 (length keys))) -> forall fsort,
  let n := c_nev cf + c_nex cf in beta_zero fo bl -> no_late_failure bl n -> forall sch s g ritzv resid o,
  cm_locked s = cm_locked g -> mstands n (cm_dla s) (cm_dla g) -> mgpu_sizes n (cm_dla g) ->
  solve fo (mpiK fo bl qe td cf) fsort sort_idx cf (mk_cm (cm_locked g) (MgpuSpec.host (cm_dla g))) ritzv resid = Ok o ->
  exists o', solve fo (amgK fo bl loc locv locS locR red redG false sch qe td cf) fsort sort_idx cf s ritzv resid = Ok o' /\
    o_ritz o' = o_ritz o /\ o_res o' = o_res o /\ (o_exit o' = None <-> o_exit o = None) /\
    y_C (mt_obj (cm_dla (o_k o'))) = cs_C (cm_dla (o_k o)) /\ y_H (mt_obj (cm_dla (o_k o'))) = y_H (mt_obj (cm_dla s)).
Proof.
  exact (fun F V M G T fo bl loc locv locS locR red redG HS qe td cf si HP fs BZ NL =>
    amg_cpu fo bl loc locv locS locR red redG HS qe td cf si HP fs BZ NL).
Qed.
Print Assumptions C98_same_as_cpu.

Theorem C98_schedules_agree : forall (F V M G T : Type) (fo : fops F) (bl : blas F V M G T) loc locv locS locR red redG,
  sums fo bl loc locv locS locR red redG -> forall qe td (cf : conf F) sort_idx,
  (forall keys, Permutation (sort_idx keys) (seq 0 (length keys))) -> forall fsort,
  let n := c_nev cf + c_nex cf in beta_zero fo bl -> no_late_failure bl n -> forall s g ritzv resid,
  cm_locked s = cm_locked g -> mstands n (cm_dla s) (cm_dla g) -> mgpu_sizes n (cm_dla g) ->
  conf_ok cf -> (forall l, length (fsort l) = length l) ->
  n <= length ritzv -> n <= length resid -> 2 <= c_N cf -> 1 <= c_lanczositer cf -> c_approx cf = true ->
  degree_overflow fo (mpiK fo bl qe td cf) sort_idx fsort cf (mk_cm (cm_locked g) (MgpuSpec.host (cm_dla g))) ritzv resid \/
  exists values residuals vectors, forall sch, exists o,
    solve fo (amgK fo bl loc locv locS locR red redG false sch qe td cf) fsort sort_idx cf s ritzv resid = Ok o /\
    o_ritz o = values /\ o_res o = residuals /\ y_C (mt_obj (cm_dla (o_k o))) = vectors.
Proof.
  exact (fun F V M G T fo bl loc locv locS locR red redG HS qe td cf si HP fs BZ NL =>
    amg_agree fo bl loc locv locS locR red redG HS qe td cf si HP fs BZ NL).
Qed.
Print Assumptions C98_schedules_agree.

(** three operations are waiting when the solve starts; the devices hold local parts that are not the sums; under every schedule the
    solve finds 1 and 2 *)
Example C98_example sch : sums qf mB nloc nlocv nlocS nlocR (map Qopp) swp /\ mstands 2 (cm_dla amg_used) (cm_dla mgpu_used) /\
  length (c_queue (mt_cfg (cm_dla amg_used))) = 3 /\
  exists o o', solve qf cpuM qfs qsort (qconf 2 0) (mk_cm 0 (MgpuSpec.host (cm_dla mgpu_used))) rv0 rs0 = Ok o /\
    o_exit o <> None /\ nth_error (o_ritz o) 1 = Some 2%Q /\ cs_C (cm_dla (o_k o)) <> W3 /\
    solve qf (amgQ sch) qfs qsort (qconf 2 0) amg_used rv0 rs0 = Ok o' /\
    o_exit o' <> None /\ o_ritz o' = o_ritz o /\ y_C (mt_obj (cm_dla (o_k o'))) = cs_C (cm_dla (o_k o)).
Proof. exact (conj q_sums (conj amg_used_stands (conj eq_refl (amg_run sch)))). Qed.
