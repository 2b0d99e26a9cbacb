(** Sessions on grids: block-cyclic and block distributions, and eigenpairs. *)
From Coq Require Import Permutation Lia.
From mathcomp Require Import all_ssreflect all_algebra all_real_closed.
Require Import Verif.Base Verif.AlgModel Verif.AlgSpec Verif.DlaModel Verif.ColModel Verif.ColSpec Verif.ReuseSpec Verif.ExactSpec Verif.OrthSpec.
Require Import Verif.DistSpec Verif.DistProofs2 Verif.RedistSpec Verif.FlatSpec Verif.SpmdModel Verif.SpmdSpec Verif.SpmdProofs Verif.SpmdProofs2 Verif.KerModel Verif.KerSpec Verif.KerProofs9 Verif.ClientModel Verif.DsModel Verif.DsSpec Verif.DsProofs1 Verif.DsProofs8
  Verif.DistModel Verif.RedistModel Verif.BlkSolve Verif.LapackSpec Verif.LapackProofs Verif.LapackSolve Verif.RgSpec Verif.RgSpec2 Verif.RgProofs.
Import Verif.ExactSpec Verif.OrthSpec Verif.ColSpec.
Set Implicit Arguments. Unset Strict Implicit. Unset Printing Implicit Defensive.
Import GRing.Theory Num.Theory.
Local Open Scope ring_scope.
Local Open Scope complex_scope.

Lemma piece_in N ml p i g : in_blocks N ml p -> lt i p -> List.In g (piece N ml p i) -> lt g N.
Proof.
move=> [h1 [h2 [h3 _]]] Hi; rewrite /piece => /List.in_seq; case: PeanoNat.Nat.eqb_spec => [->|ne] [a1 a2]; first by lia.
have : le ((i + 1) * ml) ((p - 1) * ml) by apply: PeanoNat.Nat.mul_le_mono_r; lia.
by rewrite -!multE -!plusE -!minusE in h3 a1 a2 *; nia.
Qed.

Section Inst.
Variables (R : rcfType) (C : fieldType) (inj : {rmorphism R -> C}) (cj : {rmorphism C -> C}) (re : C -> R).
Variables (fo : fops R) (oc : oracles C) (qe : qr_env R) (td : tridiag R) (nev nex N : nat).
Variables (fsort : list R -> list R) (si : list R -> list nat).
Local Notation n := (Nat.add nev nex).
Local Notation o := (fld cj).
Local Notation jobT := (job (F := R) (V := 'cV[C]_N) (M := 'M[C]_N)).
Local Notation fresh bs pr rsrc J := (solve fo (cmK fo qe td (colD fo (gblas o fo inj re oc N bs pr rsrc) true n) nev nex) fsort si (j_conf J)
  (mk_cm 0 (loaded n (j_H J) (j_V J))) (j_ritz J) (j_resid J)).
Hypotheses (EF : exact_fops fo) (RI : cancel inj re) (Hperm : forall keys, Permutation (si keys) (List.seq 0 (length keys))).
Variables (solver : jobT -> nat -> client R (list R * list R * nat)) (Hp Cp : nat -> nat -> jobT -> list C) (jobs : list jobT).
Hypothesis (HT : forall J l, List.In J jobs -> is_solver fo qe td nev nex fsort si (j_conf J) l (j_ritz J) (j_resid J) (solver J l)).

Lemma grid_session p q mb nb rsrc csrc ldh tab l g s :
  List.Forall (job_ok true nev nex) jobs ->
  layout N p q mb nb rsrc csrc -> packable N p q mb nb rsrc csrc -> counts_fit N p q mb nb rsrc csrc n -> lt 0 n ->
  (forall i j, lt i p -> lt j q -> le (length (owned N mb p rsrc i)) (ldh i j) /\ grid_tab N p q mb nb rsrc csrc i j = Ok (tab i j)) ->
  on_grid o N p q mb nb rsrc csrc n ldh g s ->
  (forall i k, lt i p -> lt k q -> parts_of (@ent C N N) (@vfn C N) (owned N mb p rsrc i) (owned N nb q csrc k) (ldh i k) jobs (Hp i k) (Cp i k)) ->
  (forall J, List.In J jobs -> exists out, fresh mb p rsrc J = Ok out) ->
  completes +%R p q (fun i k r => List.Forall2 (fun J a => reports (owned N mb p rsrc i) (fresh mb p rsrc J) a) jobs r)
    (fun i k => proc_session (ker o fo inj re oc (bc_env N p q mb nb rsrc csrc (ldh i k) n i k) (tab i k)) (parts solver (Hp i k) (Cp i k) jobs) l (s i k)).
Proof.
move=> HJ HL HP Hc n0 Ht HS Hpa HF.
have [p0 [q0 _]] := lay_pos _ _ _ _ _ _ _ HL.
apply: good_completes => //.
apply: (@session_good R C inj cj re fo oc qe td nev nex N mb p rsrc fsort si EF Hperm p q (owned N mb p rsrc) (owned N nb q csrc) ldh
  (fun i k => ker o fo inj re oc (bc_env N p q mb nb rsrc csrc (ldh i k) n i k) (tab i k)) p0 q0 _ (fun _ => Logic.True) (fun _ _ _ _ => I) _ solver Hp Cp jobs HJ HT Hpa HF l g s HS I).
- by move=> i g' hi /in_owned [].
- move=> J l' t g' s' out hT hJ hS _ hE; split=> //.
  exact: (solve_on_grid o fo inj re oc qe td N p q mb nb rsrc csrc nev nex ldh tab fsort si (j_conf J) l' (j_ritz J) (j_resid J) t g' s' out
    hT (fld_ring cj) (fld_embeds cj EF RI) HL HP Hc n0 Ht hS hE).
Qed.

Lemma block_session p q ml nl ldh l g s :
  List.Forall (job_ok true nev nex) jobs ->
  in_blocks N ml p -> in_blocks N nl q -> blocks_packable N p q ml nl -> block_counts_fit N p q ml nl n -> lt 0 n ->
  (forall i j, lt i p -> lt j q -> le (length (piece N ml p i)) (ldh i j)) ->
  on_blocks o N p q ml nl n ldh g s ->
  (forall i k, lt i p -> lt k q -> parts_of (@ent C N N) (@vfn C N) (piece N ml p i) (piece N nl q k) (ldh i k) jobs (Hp i k) (Cp i k)) ->
  (forall J, List.In J jobs -> exists out, fresh (blk_mb N ml p 0) p 0%N J = Ok out) ->
  completes +%R p q (fun i k r => List.Forall2 (fun J a => reports (piece N ml p i) (fresh (blk_mb N ml p 0) p 0%N J) a) jobs r)
    (fun i k => proc_session (ker o fo inj re oc (blk_env N p q ml nl (ldh i k) n i k) (blk_tab N p q ml nl i k)) (parts solver (Hp i k) (Cp i k) jobs) l (s i k)).
Proof.
move=> HJ HR HC HP Hc n0 Ht HS Hpa HF.
have p0 : lt 0 p by case: HR. have q0 : lt 0 q by case: HC.
apply: good_completes => //.
apply: (@session_good R C inj cj re fo oc qe td nev nex N (blk_mb N ml p 0) p 0 fsort si EF Hperm p q (piece N ml p) (piece N nl q) ldh
  (fun i k => ker o fo inj re oc (blk_env N p q ml nl (ldh i k) n i k) (blk_tab N p q ml nl i k)) p0 q0 _ (fun _ => Logic.True) (fun _ _ _ _ => I) _ solver Hp Cp jobs HJ HT Hpa HF l g s HS I).
- by move=> i g' hi; apply: piece_in.
- move=> J l' t g' s' out hT hJ hS _ hE; split=> //.
  exact: (solve_on_blocks o fo inj re oc qe td N p q ml nl nev nex ldh fsort si (j_conf J) l' (j_ritz J) (j_resid J) t g' s' out
    hT (fld_ring cj) (fld_embeds cj EF RI) HR HC HP Hc n0 Ht hS hE).
Qed.

(** exact library calls *)
Variable (e : {rmorphism C -> R[i]}).
Hypotheses (SQ : exact_sqrt fo) (IC : in_complex inj cj e) (XL : exact_lapack inj cj re oc N n) (Hasc : keeps_ascending si) (Hf : forall l, length (fsort l) = length l).
Hypothesis (HJ : List.Forall (hjob_ok cj nev nex) jobs).

Lemma job_answer bs pr rsrc J : hjob_ok cj nev nex J -> exists out st X, fresh bs pr rsrc J = Ok out /\ o_exit out = Some st /\
  List.Forall2 (@RV C N) X (cs_C (cm_dla (o_k out))) /\ solves_job inj cj nev nex J (o_ritz out, o_res out, X).
Proof.
move=> [[CF [E1 [E2 [LV _]]]] [HH [HM [Ho [Hs [Ha [L1 [L2 [HN HLz]]]]]]]]].
have A := @global_returns R C inj cj re fo oc qe td (j_conf J) N bs pr rsrc fsort si 0 (j_ritz J) (j_resid J) (j_H J) (j_V J).
have B := @global_run R C inj cj e re fo oc qe td (j_conf J) N bs pr rsrc fsort si 0 (j_ritz J) (j_resid J) (j_H J) (j_V J) EF SQ IC RI.
rewrite E1 E2 in A B.
have [out [st [E Ex]]] := A LV CF Hperm Ho Hs Ha Hf L1 L2 HN HLz.
by have [X [HX [sz [on [sp sb]]]]] := B XL HH LV CF HM Hperm Hasc _ _ E Ex; exists out, st, X.
Qed.
Lemma answers bs pr rsrc (js : list jobT) : List.Forall (hjob_ok cj nev nex) js -> exists ans, List.Forall2 (solves_job inj cj nev nex) js ans /\
  (forall J, List.In J js -> exists out, fresh bs pr rsrc J = Ok out) /\
  forall rows r, (forall g, List.In g rows -> lt g N) -> List.Forall2 (fun J a => reports rows (fresh bs pr rsrc J) a) js r -> List.Forall2 (reports_part rows) ans r.
Proof.
elim=> {js} [|J l hJ _ [ans [A1 [A2 A3]]]].
  by exists nil; split=> //; split=> // rows r _ h; inversion h; constructor.
have [out [st [X [E [Ex [HX S]]]]]] := job_answer bs pr rsrc hJ.
exists ((o_ritz out, o_res out, X) :: ans); split; first by constructor.
split; first by move=> J' [<-|/A2 //]; exists out.
move=> rows r hr h; inversion h as [|? a ? r' h1 h2]; subst; constructor; last exact: A3.
have [B1 B2] := h1 _ E; split=> //=.
by apply: (carries_rel hr HX); apply: B2; rewrite Ex.
Qed.
Lemma hjobs : List.Forall (job_ok true nev nex) jobs.
Proof. by apply: List.Forall_impl HJ => J []. Qed.

Lemma grid_session_exact p q mb nb rsrc csrc ldh tab l g s :
  layout N p q mb nb rsrc csrc -> packable N p q mb nb rsrc csrc -> counts_fit N p q mb nb rsrc csrc n -> lt 0 n ->
  (forall i j, lt i p -> lt j q -> le (length (owned N mb p rsrc i)) (ldh i j) /\ grid_tab N p q mb nb rsrc csrc i j = Ok (tab i j)) ->
  on_grid o N p q mb nb rsrc csrc n ldh g s ->
  (forall i k, lt i p -> lt k q -> parts_of (@ent C N N) (@vfn C N) (owned N mb p rsrc i) (owned N nb q csrc k) (ldh i k) jobs (Hp i k) (Cp i k)) ->
  exists ans, List.Forall2 (solves_job inj cj nev nex) jobs ans /\
  completes +%R p q (fun i k r => List.Forall2 (reports_part (owned N mb p rsrc i)) ans r)
    (fun i k => proc_session (ker o fo inj re oc (bc_env N p q mb nb rsrc csrc (ldh i k) n i k) (tab i k)) (parts solver (Hp i k) (Cp i k) jobs) l (s i k)).
Proof.
move=> HL HP Hc n0 Ht HS Hpa; have [ans [A1 [A2 A3]]] := answers mb p rsrc HJ; exists ans; split=> //.
apply: completes_mono (grid_session l hjobs HL HP Hc n0 Ht HS Hpa A2) => i k r hi hk.
by apply: A3 => g' /in_owned [].
Qed.
Lemma block_session_exact p q ml nl ldh l g s :
  in_blocks N ml p -> in_blocks N nl q -> blocks_packable N p q ml nl -> block_counts_fit N p q ml nl n -> lt 0 n ->
  (forall i j, lt i p -> lt j q -> le (length (piece N ml p i)) (ldh i j)) ->
  on_blocks o N p q ml nl n ldh g s ->
  (forall i k, lt i p -> lt k q -> parts_of (@ent C N N) (@vfn C N) (piece N ml p i) (piece N nl q k) (ldh i k) jobs (Hp i k) (Cp i k)) ->
  exists ans, List.Forall2 (solves_job inj cj nev nex) jobs ans /\
  completes +%R p q (fun i k r => List.Forall2 (reports_part (piece N ml p i)) ans r)
    (fun i k => proc_session (ker o fo inj re oc (blk_env N p q ml nl (ldh i k) n i k) (blk_tab N p q ml nl i k)) (parts solver (Hp i k) (Cp i k) jobs) l (s i k)).
Proof.
move=> HR HC HP Hc n0 Ht HS Hpa; have [ans [A1 [A2 A3]]] := answers (blk_mb N ml p 0) p 0 HJ; exists ans; split=> //.
apply: completes_mono (block_session l hjobs HR HC HP Hc n0 Ht HS Hpa A2) => i k r hi hk.
by apply: A3 => g'; apply: piece_in.
Qed.
End Inst.
