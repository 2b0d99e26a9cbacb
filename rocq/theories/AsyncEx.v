(** Concrete schedules. *)
From Coq Require Import List Arith ZArith QArith Bool Permutation.
Require Import Verif.Base Verif.AlgModel Verif.AlgSpec Verif.AlgProofs1 Verif.AlgProofs3 Verif.DlaModel Verif.ColModel Verif.ColSpec Verif.ColEx
  Verif.GpuModel Verif.GpuSpec Verif.GpuProofs1 Verif.GpuProofs3 Verif.GpuEx Verif.AsyncModel Verif.AsyncSpec Verif.AsyncProofs Verif.AsyncGpu Verif.AsyncSolve.
Import ListNotations.
Local Open Scope nat_scope.

(** the device does nothing until the host waits; it runs two operations (if any can run) before each step of the host;
    it prefers later operations *)
Definition lazy (_ : nat) : list nat := [].
Definition eager (_ : nat) : list nat := [0; 0].
Definition odd_ (t : nat) : list nat := if Nat.even t then [3; 2; 1] else [0; 5].

(** the shift does not depend on the trace *)
Definition asyncQ sch nev nex :=
  cmK qf qhh qtd (asyncD qf inpB (nev + nex) (fun _ => 0%Q) (fun A _ => b_dshift inpB A) sch) nev nex.
(** an object with operations still waiting on both streams: when they have run it is [gpu_used] *)
Definition dev_used : dev (F := Q) (V := qv) (M := qv) (G := list qv * list qv) :=
  mk_dev [7; 7; 7]%Q [[0; 0; 0]; [0; 0; 0]]%Q [[8; 8; 8]; [8; 8; 8]]%Q [] [9; 9]%Q (AL []) 0 [5; 5]%Q 0%Q (fun _ => []).
Definition async_used := mk_cm 0 (mk_ast (mk_hobj H3 W3 true) 4
  (mk_cfg dev_used [(Blk 0, fun d => Ok (set_Y d [[9; 9; 9]; [9; 9; 9]]%Q)); (Legacy, fun d => Ok (set_Y d W3))])).

Lemma used_stands : stands_for (cm_dla async_used) (cm_dla gpu_used).
Proof. eexists. split; [reflexivity|]. split; [constructor; [now right|]; constructor; [now left|constructor]|]. split; reflexivity. Qed.

Lemma async_run sch : exists o o', solve qf (gpuQ 2 0) qfs qsort (qconf 2 0) gpu_used rv0 rs0 = Ok o /\ o_exit o <> None /\
  solve qf (asyncQ sch 2 0) qfs qsort (qconf 2 0) async_used rv0 rs0 = Ok o' /\
  o_ritz o' = o_ritz o /\ h_V1 (t_obj (cm_dla (o_k o'))) = g_V1 (cm_dla (o_k o)).
Proof.
  destruct gpu_run as (k0 & ub & s0 & s1 & s2 & o & _ & _ & _ & _ & _ & _ & E & EX & _).
  destruct (async_solve qf inpB (2 + 0) (fun _ => 0%Q) (fun A _ => b_dshift inpB A) (fun _ => eq_refl) sch qhh qtd (qconf 2 0) qfs qsort async_used gpu_used rv0 rs0 o eq_refl used_stands E)
    as (o' & E' & R1 & _ & _ & R2 & _).
  exists o, o'. split; [exact E|]. split; [congruence|]. split; [exact E'|]. split; assumption.
Qed.

(** a device-aware MPI library that starts before the product has run *)
Lemma mpi_race : exists t c,
  exec lazy (hemm_mpi (fun _ => 6%Z) (fun x => (x + 5)%Z)) 0 (mk_cfg 0%Z []) = Ok (tt, (t, c)) /\ finished c = Ok 6%Z /\
  exists t' c', exec eager (hemm_mpi (fun _ => 6%Z) (fun x => (x + 5)%Z)) 0 (mk_cfg 0%Z []) = Ok (tt, (t', c')) /\ finished c' = Ok 11%Z.
Proof. do 2 eexists. split; [reflexivity|]. split; [reflexivity|]. do 2 eexists. split; reflexivity. Qed.
Lemma stream_race : let p := Dev (NonBlk 1) (fun _ : Z => Ok 7%Z) (Get Legacy (fun d => Ok d) Ret) in
  in_order p 0%Z = Ok (7%Z, 7%Z) /\ (exists t c, exec lazy p 0 (mk_cfg 0%Z []) = Ok (0%Z, (t, c))) /\
  exists t c, exec eager p 0 (mk_cfg 0%Z []) = Ok (7%Z, (t, c)).
Proof. cbn zeta. split; [reflexivity|]. split; do 2 eexists; reflexivity. Qed.
