(** A concrete decorated run: scripted backend, a clock of 10 ticks per reading. *)
From Coq Require Import List Arith ZArith Bool Lia Permutation.
Require Import Verif.Base Verif.AlgModel Verif.AlgEx Verif.PerfModel Verif.PerfProofs.
Import ListNotations.

Definition ex_perf_conf : conf oz :=
  {| c_N := 100; c_nev := 2; c_nex := 1; c_tol := Some 1%Z; c_deg := 4; c_maxdeg := 8; c_degextra := 2; c_maxiter := 5;
     c_lanczositer := 10; c_numlanczos := 2; c_opt := true; c_approx := true; c_symcheck := true |}.
Definition ex_perf_run := solve zf (perfK (fun n => Z.of_nat (10 * n)) 3 sk) fsort_ex sort_ex ex_perf_conf
  (perf_new 0 0, mk_script [10; 11; 12] 7 true (Some 1000%Z) ([], []) [] []) (map Some [0; 0; 0]%Z) (map Some [0; 0; 0]%Z).

Lemma print_refuted : exists p r1 r2 q, (exists o, ex_perf_run = Ok o /\ fst (o_k o) = p) /\ prints 2 p = Ok ([r1; r2], q) /\
    r_times r1 = [130; 10; 10; 10; 10; 10; 10]%Z /\ r_times r2 = [260; 20; 20; 20; 20; 20; 20]%Z.
Proof.
  destruct ex_perf_run as [o| |] eqn:E; [|vm_compute in E; discriminate E|vm_compute in E; discriminate E].
  vm_compute in E. injection E as <-. eexists. do 3 eexists. split; [eexists; split; reflexivity|]. split; [vm_compute; reflexivity|]. split; vm_compute; reflexivity.
Qed.
