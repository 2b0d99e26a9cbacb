(** The whole solver on a grid. *)
From Coq Require Import List Arith Bool ZArith Lia.
Require Import Verif.Base Verif.AlgModel Verif.DlaModel Verif.ColModel Verif.DistSpec Verif.SpmdModel Verif.SpmdSpec Verif.KerModel Verif.KerSpec.
Require Import Verif.ClientModel Verif.DsModel Verif.DsSpec Verif.DsProofs7 Verif.SolveClient.

Theorem solve_on_grid {F D} (o : sops D) (fo : fops F) inj re oc qe td N p q mb nb rsrc csrc nev nex ldh tab fsort si cf l ritzv resid t g s out :
  is_solver fo qe td nev nex fsort si cf l ritzv resid t ->
  is_ring o -> embeds o fo inj re -> layout N p q mb nb rsrc csrc -> packable N p q mb nb rsrc csrc ->
  counts_fit N p q mb nb rsrc csrc (nev + nex) -> 0 < nev + nex ->
  (forall i j, i < p -> j < q -> length (owned N mb p rsrc i) <= ldh i j /\ grid_tab N p q mb nb rsrc csrc i j = Ok (tab i j)) ->
  on_grid o N p q mb nb rsrc csrc (nev + nex) ldh g s ->
  solve fo (cmK fo qe td (colD fo (gblas o fo inj re oc N mb p rsrc) true (nev + nex)) nev nex) fsort si cf (mk_cm l g) ritzv resid = Ok out ->
  completes (sadd o) p q
    (fun i j r => fst r = (o_ritz out, o_res out, cm_locked (o_k out)) /\
       holds_part o (nev + nex) (owned N mb p rsrc i) (owned N nb q csrc j) (ldh i j) (cm_dla (o_k out)) (snd r))
    (fun i j => run_proc (ker o fo inj re oc (bc_env N p q mb nb rsrc csrc (ldh i j) (nev + nex) i j) (tab i j)) t (s i j)).
Proof.
  intros HT RT HE HL HP Hc Hn Ht HS E.
  pose proof (HT _ (colD fo (gblas o fo inj re oc N mb p rsrc) true (nev + nex)) g) as R. rewrite E in R. cbn [bind seen] in R.
  symmetry in R. apply bind_ok in R as ([[[r sd] m] g'] & R1 & R2). injection R2 as E1 E2 E3. rewrite <- E1, <- E2, <- E3. cbn [cm_locked cm_dla].
  eapply client_on_grid; eauto. 
Qed.
Theorem solver_exists {F} (fo : fops F) qe td nev nex fsort si cf l ritzv resid : exists t, is_solver fo qe td nev nex fsort si cf l ritzv resid t.
Proof. eexists. apply solver_program_ok. Qed.
