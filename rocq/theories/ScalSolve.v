(** The eigenpairs of a grid of processes whose library is built with ScaLAPACK (see LapackSolve for the other build). *)
From Coq Require Import Permutation Lia.
From mathcomp Require Import all_ssreflect all_algebra all_real_closed.
Require Import Verif.Base Verif.AlgModel Verif.AlgSpec Verif.AlgProofs1 Verif.AlgProofs2 Verif.AlgSim Verif.AlgSim2 Verif.DlaModel Verif.DlaSim Verif.ColModel Verif.ColSpec Verif.ColProofs1 Verif.ColProofs2 Verif.ColProofs3
  Verif.ColRel Verif.ExactSpec Verif.OrthSpec Verif.OrthProofs Verif.OrthSolve Verif.OrthMpi.
Require Import Verif.DistSpec Verif.DistProofs2 Verif.RedistSpec Verif.SpmdModel Verif.SpmdSpec Verif.KerModel Verif.KerSpec Verif.KerProofs9 Verif.ClientModel Verif.DsModel Verif.DsSpec Verif.DsProofs8
  Verif.DistModel Verif.RedistModel Verif.BlkSolve Verif.LapackSpec Verif.LapackProofs Verif.LapackSolve Verif.ScalModel Verif.ScalProofs3.
Import Verif.ExactSpec Verif.OrthSpec Verif.ColSpec.
Set Implicit Arguments. Unset Strict Implicit. Unset Printing Implicit Defensive.
Import GRing.Theory Num.Theory.
Local Open Scope ring_scope.
Local Open Scope complex_scope.

Section Grids.
Variables (R : rcfType) (C : fieldType) (inj : {rmorphism R -> C}) (cj : {rmorphism C -> C}) (e : {rmorphism C -> R[i]}) (re : C -> R).
Variables (fo : fops R) (oc : oracles C) (qe : qr_env R) (td : tridiag R) (cf : conf R) (N : nat).
Variables (fsort : list R -> list R) (si : list R -> list nat) (l0 : nat) (ritzv resid : list R) (t : client R (list R * list R * nat)).
Variables (H : 'M[C]_N) (V1 : seq 'cV[C]_N).
Local Notation n := (Nat.add (c_nev cf) (c_nex cf)).
Local Notation o := (fld cj).
Hypotheses (EF : exact_fops fo) (SQ : exact_sqrt fo) (IC : in_complex inj cj e) (RI : cancel inj re) (XL : exact_lapack inj cj re oc N n).
Hypotheses (HH : hermitian cj H) (HV : length V1 = n) (HC : conf_ok cf) (HM : le 1 (c_maxiter cf)).
Hypotheses (Hperm : forall keys, Permutation (si keys) (List.seq 0 (length keys))) (Hasc : keeps_ascending si).
Hypotheses (HT : is_solver fo qe td (c_nev cf) (c_nex cf) fsort si cf l0 ritzv resid t).


Lemma grid_run_sl p q mb nb rsrc csrc ldh tab s out st :
  layout N p q mb nb rsrc csrc -> packable N p q mb nb rsrc csrc -> counts_fit N p q mb nb rsrc csrc n ->
  (forall i j, lt i p -> lt j q -> le (length (owned N mb p rsrc i)) (ldh i j) /\ grid_tab N p q mb nb rsrc csrc i j = Ok (tab i j)) ->
  on_grid o N p q mb nb rsrc csrc n ldh (loaded n H V1) s ->
  solve fo (cmK fo qe td (colD fo (gblas o fo inj re oc N mb p rsrc) true n) (c_nev cf) (c_nex cf)) fsort si cf (mk_cm l0 (loaded n H V1)) ritzv resid = Ok out ->
  o_exit out = Some st ->
  exists X, size X = n /\ orthonormal cj X /\ spectral_pairs inj cj H (c_nev cf) (o_ritz out) (o_res out) X /\ sums_bounded inj H (c_nev cf) (o_ritz out) /\
  completes +%R p q (fun i j r => (fst (fst (fst r)), snd (fst (fst r))) = (o_ritz out, o_res out) /\ carries (owned N mb p rsrc i) (map (@vfn C N) X) (l_C (snd r)))
    (fun i j => run_proc (ker_sl o fo inj re oc p (bc_env N p q mb nb rsrc csrc (ldh i j) n i j) (tab i j) (snd (bc_desc N p mb rsrc n i))) t (s i j)).
Proof.
move=> HL HP Hcnt Htab HS E Ex.
have [X [HX [sz [on [sp sb]]]]] := global_run EF SQ IC RI XL HH HV HC HM Hperm Hasc E Ex.
exists X; do ! split=> //.
have S := solve_on_grid_sl o fo inj re oc qe td N p q mb nb rsrc csrc ldh tab fsort si cf l0 ritzv resid t (loaded n H V1) s out
  HT HC Hperm (fld_ring cj) (fld_embeds cj EF RI) HL HP Hcnt Htab HS erefl E.
apply: completes_mono S => i j [[[r rs] l] a] Hi Hj /= [[-> -> _] hp]; split=> //.
apply: (carries_rel _ HX (proj2 (hp_C _ _ _ _ _ _ _ hp))) => g /in_owned [] //.
Qed.

Lemma block_run_sl p q ml nl ldh s out st :
  in_blocks N ml p -> in_blocks N nl q -> blocks_packable N p q ml nl -> block_counts_fit N p q ml nl n ->
  (forall i j, lt i p -> lt j q -> le (length (piece N ml p i)) (ldh i j)) ->
  on_blocks o N p q ml nl n ldh (loaded n H V1) s ->
  solve fo (cmK fo qe td (colD fo (gblas o fo inj re oc N (blk_mb N ml p 0) p 0) true n) (c_nev cf) (c_nex cf)) fsort si cf (mk_cm l0 (loaded n H V1)) ritzv resid = Ok out ->
  o_exit out = Some st ->
  exists X, size X = n /\ orthonormal cj X /\ spectral_pairs inj cj H (c_nev cf) (o_ritz out) (o_res out) X /\ sums_bounded inj H (c_nev cf) (o_ritz out) /\
  completes +%R p q (fun i j r => (fst (fst (fst r)), snd (fst (fst r))) = (o_ritz out, o_res out) /\ carries (piece N ml p i) (map (@vfn C N) X) (l_C (snd r)))
    (fun i j => run_proc (ker_sl o fo inj re oc p (blk_env N p q ml nl (ldh i j) n i j) (blk_tab N p q ml nl i j) (snd (blk_desc N p ml n i))) t (s i j)).
Proof.
move=> HL1 HL2 HP Hcnt Htab HS E Ex.
have [X [HX [sz [on [sp sb]]]]] := global_run EF SQ IC RI XL HH HV HC HM Hperm Hasc E Ex.
exists X; do ! split=> //.
have S := solve_on_blocks_sl o fo inj re oc qe td N p q ml nl ldh fsort si cf l0 ritzv resid t (loaded n H V1) s out
  HT HC Hperm (fld_ring cj) (fld_embeds cj EF RI) HL1 HL2 HP Hcnt Htab HS erefl E.
apply: completes_mono S => i j [[[r rs] l] a] Hi Hj /= [[-> -> _] hp]; split=> //.
apply: (carries_rel _ HX (proj2 (hp_C _ _ _ _ _ _ _ hp))) => g.
case: HL1 => h1 [h2 [h3 _]]; rewrite /piece => /List.in_seq; case: PeanoNat.Nat.eqb_spec => [->|ne] [a1 a2]; first by lia.
have : le ((i + 1) * ml) ((p - 1) * ml) by apply: PeanoNat.Nat.mul_le_mono_r; lia.
by rewrite -!multE -!plusE -!minusE in h3 a1 a2 *; nia.
Qed.

(** no run has to be assumed if the degree is fixed and the symmetry test is off *)
Hypotheses (Ho : c_opt cf = false) (Hs : c_symcheck cf = false) (Ha : c_approx cf = true) (Hf : forall l, length (fsort l) = length l).
Hypotheses (L1 : le n (length ritzv)) (L2 : le n (length resid)) (HN : le 2 (c_N cf)) (HL : le 1 (c_lanczositer cf)).
Lemma grid_run_sl_total p q mb nb rsrc csrc ldh tab s :
  layout N p q mb nb rsrc csrc -> packable N p q mb nb rsrc csrc -> counts_fit N p q mb nb rsrc csrc n ->
  (forall i j, lt i p -> lt j q -> le (length (owned N mb p rsrc i)) (ldh i j) /\ grid_tab N p q mb nb rsrc csrc i j = Ok (tab i j)) ->
  on_grid o N p q mb nb rsrc csrc n ldh (loaded n H V1) s ->
  exists vals res X, size X = n /\ orthonormal cj X /\ spectral_pairs inj cj H (c_nev cf) vals res X /\ sums_bounded inj H (c_nev cf) vals /\
  completes +%R p q (fun i j r => (fst (fst (fst r)), snd (fst (fst r))) = (vals, res) /\ carries (owned N mb p rsrc i) (map (@vfn C N) X) (l_C (snd r)))
    (fun i j => run_proc (ker_sl o fo inj re oc p (bc_env N p q mb nb rsrc csrc (ldh i j) n i j) (tab i j) (snd (bc_desc N p mb rsrc n i))) t (s i j)).
Proof.
move=> HLy HP Hcnt Htab HS.
have [out [st [E Ex]]] := global_returns inj cj re fo oc qe td mb p rsrc l0 H HV HC Hperm Ho Hs Ha Hf L1 L2 HN HL.
exists (o_ritz out), (o_res out); exact: (grid_run_sl HLy HP Hcnt Htab HS E Ex).
Qed.
Lemma block_run_sl_total p q ml nl ldh s :
  in_blocks N ml p -> in_blocks N nl q -> blocks_packable N p q ml nl -> block_counts_fit N p q ml nl n ->
  (forall i j, lt i p -> lt j q -> le (length (piece N ml p i)) (ldh i j)) ->
  on_blocks o N p q ml nl n ldh (loaded n H V1) s ->
  exists vals res X, size X = n /\ orthonormal cj X /\ spectral_pairs inj cj H (c_nev cf) vals res X /\ sums_bounded inj H (c_nev cf) vals /\
  completes +%R p q (fun i j r => (fst (fst (fst r)), snd (fst (fst r))) = (vals, res) /\ carries (piece N ml p i) (map (@vfn C N) X) (l_C (snd r)))
    (fun i j => run_proc (ker_sl o fo inj re oc p (blk_env N p q ml nl (ldh i j) n i j) (blk_tab N p q ml nl i j) (snd (blk_desc N p ml n i))) t (s i j)).
Proof.
move=> HL1 HL2 HP Hcnt Htab HS.
have [out [st [E Ex]]] := global_returns inj cj re fo oc qe td (blk_mb N ml p 0) p 0 l0 H HV HC Hperm Ho Hs Ha Hf L1 L2 HN HL.
exists (o_ritz out), (o_res out); exact: (block_run_sl HL1 HL2 HP Hcnt Htab HS E Ex).
Qed.
End Grids.
