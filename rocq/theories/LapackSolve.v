(** The solver on a grid of processes with exact LAPACK: the processes end with the rows of orthonormal vectors and with values
    that belong to them. *)
From Coq Require Import Permutation Lia.
From mathcomp Require Import all_ssreflect all_algebra all_real_closed.
Require Import Verif.Base Verif.AlgModel Verif.AlgSpec Verif.AlgProofs1 Verif.AlgProofs2 Verif.AlgSim Verif.AlgSim2 Verif.DlaModel Verif.DlaSim Verif.ColModel Verif.ColSpec Verif.ColProofs1 Verif.ColProofs2 Verif.ColProofs3
  Verif.ColRel Verif.ExactSpec Verif.OrthSpec Verif.OrthProofs Verif.OrthSolve Verif.OrthMpi.
Require Import Verif.DistSpec Verif.DistProofs2 Verif.RedistSpec Verif.SpmdModel Verif.SpmdSpec Verif.KerModel Verif.KerSpec Verif.KerProofs9 Verif.ClientModel Verif.DsModel Verif.DsSpec Verif.DsProofs8
  Verif.DistModel Verif.RedistModel Verif.BlkSolve Verif.LapackSpec Verif.LapackProofs.
Import Verif.ExactSpec Verif.OrthSpec Verif.ColSpec.
Set Implicit Arguments. Unset Strict Implicit. Unset Printing Implicit Defensive.
Import GRing.Theory Num.Theory.
Local Open Scope ring_scope.
Local Open Scope complex_scope.

Lemma fld_ring (C : fieldType) (cj : {rmorphism C -> C}) : is_ring (fld cj).
Proof.
split=> /=; [exact: add0r|exact: addrC|exact: addrA|exact: mul1r|exact: mulrC|exact: mulrA|exact: mulrDl|by []|exact: subrr].
Qed.
Lemma fld_embeds (R : rcfType) (C : fieldType) (inj : {rmorphism R -> C}) (cj : {rmorphism C -> C}) re (fo : fops R) :
  exact_fops fo -> cancel inj re -> embeds (fld cj) fo inj re.
Proof. by move=> EF h; split=> // x; rewrite (ef_neg EF) rmorphN. Qed.

Section Solve.
Variables (R : rcfType) (C : fieldType) (inj : {rmorphism R -> C}) (cj : {rmorphism C -> C}) (e : {rmorphism C -> R[i]}) (re : C -> R).
Variables (fo : fops R) (oc : oracles C) (qe : qr_env R) (td : tridiag R) (cf : conf R) (N bs p rsrc : nat).
Variables (fsort : list R -> list R) (si : list R -> list nat) (l0 : nat) (ritzv resid : list R) (H : 'M[C]_N) (V1 : seq 'cV[C]_N).
Local Notation n := (Nat.add (c_nev cf) (c_nex cf)).
Local Notation o := (fld cj).
Hypotheses (EF : exact_fops fo) (SQ : exact_sqrt fo) (IC : in_complex inj cj e) (RI : cancel inj re) (XL : exact_lapack inj cj re oc N n).
Hypotheses (HH : hermitian cj H) (HV : length V1 = n) (HC : conf_ok cf) (HM : le 1 (c_maxiter cf)).
Hypotheses (Hperm : forall keys, Permutation (si keys) (List.seq 0 (length keys))) (Hasc : keeps_ascending si).

Lemma global_run out st :
  solve fo (cmK fo qe td (colD fo (gblas o fo inj re oc N bs p rsrc) true n) (c_nev cf) (c_nex cf)) fsort si cf (mk_cm l0 (loaded n H V1)) ritzv resid = Ok out ->
  o_exit out = Some st ->
  exists X, List.Forall2 (@RV C N) X (cs_C (cm_dla (o_k out))) /\ size X = n /\ orthonormal cj X /\
    spectral_pairs inj cj H (c_nev cf) (o_ritz out) (o_res out) X /\ sums_bounded inj H (c_nev cf) (o_ritz out).
Proof.
move=> E Ex.
have S := cm_rel fo _ _ _ _ _ (sim inj cj re oc fo N bs p rsrc) true n qe td (c_nev cf) (c_nex cf).
have S0 : cmR (cstR (@RV C N) (@RM C N)) (mk_cm l0 (mpi_state (mblas inj cj re oc fo N bs p rsrc) (c_nev cf) (c_nex cf) H V1)) (mk_cm l0 (loaded n H V1)).
  have z : List.Forall2 (@RV C N) (List.repeat (cv N (fun _ => 0)) n) (List.repeat (fun _ => 0) n) by apply: f2_repeat => i; rewrite cvE.
  do ! split=> //=; by elim: (V1) => //= x l IH; constructor.
have [a [Ea [[Rk [_ [HCa _]]] [Er [Es Rx]]]]] := rel_ok_l _ _ _ _ (solve_rel fo _ _ _ S fsort si cf _ _ ritzv resid S0) E.
rewrite Ex in Rx; case Exa : (o_exit a) Rx => [sa|] // _.
have EM := m_mv inj cj re oc fo N bs p rsrc; have EQ := m_qr fo bs p rsrc IC XL.
have ER := m_rr fo bs p rsrc IC XL HH; have OR := m_ordered fo bs p rsrc IC XL HH; have EV := m_vec oc N bs p rsrc IC RI SQ.
have [sz on] := mpi_orthonormal Hperm EF EM EQ ER HH HV HC HM Ea Exa.
have V := mpi_values Hperm EF EM EQ ER HH HV HC HM Hasc OR IC EV Ea Exa.
have K := mpi_kyfan Hperm EF EM EQ ER HH HV HC HM Hasc OR IC EV Ea Exa.
exists (cs_C (cm_dla (o_k a))); rewrite -Er -Es; do ! split=> //.
Qed.

Lemma carries_rel rows X (vs : list (nat -> C)) buf : (forall g, List.In g rows -> lt g N) -> List.Forall2 (@RV C N) X vs ->
  carries rows vs buf -> carries rows (map (@vfn C N) X) buf.
Proof.
move=> hr h [rest ->]; exists rest; congr app; elim: h => {X vs} //= x v X vs hx _ IH; rewrite /flat /= in IH *; rewrite IH; congr app.
apply: List.map_ext_in => g /hr /lt_ord [i ->]; by rewrite hx.
Qed.

(** with a fixed degree and no symmetry test the run on the whole matrix returns *)
Lemma global_returns : c_opt cf = false -> c_symcheck cf = false -> c_approx cf = true -> (forall l, length (fsort l) = length l) ->
  le n (length ritzv) -> le n (length resid) -> le 2 (c_N cf) -> le 1 (c_lanczositer cf) ->
  exists out st, solve fo (cmK fo qe td (colD fo (gblas o fo inj re oc N bs p rsrc) true n) (c_nev cf) (c_nex cf)) fsort si cf (mk_cm l0 (loaded n H V1)) ritzv resid = Ok out /\
    o_exit out = Some st.
Proof.
move=> Ho Hs Ha Hf L1 L2 HN HL.
have [X _] := other_solve_safe fo (gblas o fo inj re oc N bs p rsrc) qe td cf si Hperm fsort l0 (ent H) (map (@vfn C N) V1) ritzv resid (etrans (List.map_length _ _) HV) HC Hf L1 L2 HN HL Ha.
case: X => [[out E]|[_ [k0 [ub [s0 [t [_ [_ [_ [_ [_ [Hc _]]]]]]]]]]]]; last by rewrite Ho in Hc.
exists out; case Ex : (o_exit out) => [s|]; first by exists s.
exfalso; move: E; rewrite /solve Hs => /bind_ok [[c k0] [[<- _]]] /= /bind_ok [[ub s0] [_]] /bind_ok [s [_]] /bind_ok [[r k'] [_]].
by move=> [Eo]; rewrite -Eo in Ex.
Qed.
End Solve.

Section Grids.
Variables (R : rcfType) (C : fieldType) (inj : {rmorphism R -> C}) (cj : {rmorphism C -> C}) (e : {rmorphism C -> R[i]}) (re : C -> R).
Variables (fo : fops R) (oc : oracles C) (qe : qr_env R) (td : tridiag R) (cf : conf R) (N : nat).
Variables (fsort : list R -> list R) (si : list R -> list nat) (l0 : nat) (ritzv resid : list R) (t : client R (list R * list R * nat)).
Variables (H : 'M[C]_N) (V1 : seq 'cV[C]_N).
Local Notation n := (Nat.add (c_nev cf) (c_nex cf)).
Local Notation o := (fld cj).
Hypotheses (EF : exact_fops fo) (SQ : exact_sqrt fo) (IC : in_complex inj cj e) (RI : cancel inj re) (XL : exact_lapack inj cj re oc N n).
Hypotheses (HH : hermitian cj H) (HV : length V1 = n) (HC : conf_ok cf) (HM : le 1 (c_maxiter cf)).
Hypotheses (Hperm : forall keys, Permutation (si keys) (List.seq 0 (length keys))) (Hasc : keeps_ascending si).
Hypotheses (HT : is_solver fo qe td (c_nev cf) (c_nex cf) fsort si cf l0 ritzv resid t).

Lemma n_pos : lt 0 n.
Proof. case: HC => h _; lia. Qed.

Lemma grid_run p q mb nb rsrc csrc ldh tab s out st :
  layout N p q mb nb rsrc csrc -> packable N p q mb nb rsrc csrc -> counts_fit N p q mb nb rsrc csrc n ->
  (forall i j, lt i p -> lt j q -> le (length (owned N mb p rsrc i)) (ldh i j) /\ grid_tab N p q mb nb rsrc csrc i j = Ok (tab i j)) ->
  on_grid o N p q mb nb rsrc csrc n ldh (loaded n H V1) s ->
  solve fo (cmK fo qe td (colD fo (gblas o fo inj re oc N mb p rsrc) true n) (c_nev cf) (c_nex cf)) fsort si cf (mk_cm l0 (loaded n H V1)) ritzv resid = Ok out ->
  o_exit out = Some st ->
  exists X, size X = n /\ orthonormal cj X /\ spectral_pairs inj cj H (c_nev cf) (o_ritz out) (o_res out) X /\ sums_bounded inj H (c_nev cf) (o_ritz out) /\
  completes +%R p q (fun i j r => (fst (fst (fst r)), snd (fst (fst r))) = (o_ritz out, o_res out) /\ carries (owned N mb p rsrc i) (map (@vfn C N) X) (l_C (snd r)))
    (fun i j => run_proc (ker o fo inj re oc (bc_env N p q mb nb rsrc csrc (ldh i j) n i j) (tab i j)) t (s i j)).
Proof.
move=> HL HP Hcnt Htab HS E Ex.
have [X [HX [sz [on [sp sb]]]]] := global_run EF SQ IC RI XL HH HV HC HM Hperm Hasc E Ex.
exists X; do ! split=> //.
have S := solve_on_grid o fo inj re oc qe td N p q mb nb rsrc csrc (c_nev cf) (c_nex cf) ldh tab fsort si cf l0 ritzv resid t (loaded n H V1) s out
  HT (fld_ring cj) (fld_embeds cj EF RI) HL HP Hcnt n_pos Htab HS E.
apply: completes_mono S => i j [[[r rs] l] a] Hi Hj /= [[-> -> _] hp]; split=> //.
apply: (carries_rel _ HX (proj2 (hp_C _ _ _ _ _ _ _ hp))) => g /in_owned [] //.
Qed.

Lemma block_run p q ml nl ldh s out st :
  in_blocks N ml p -> in_blocks N nl q -> blocks_packable N p q ml nl -> block_counts_fit N p q ml nl n ->
  (forall i j, lt i p -> lt j q -> le (length (piece N ml p i)) (ldh i j)) ->
  on_blocks o N p q ml nl n ldh (loaded n H V1) s ->
  solve fo (cmK fo qe td (colD fo (gblas o fo inj re oc N (blk_mb N ml p 0) p 0) true n) (c_nev cf) (c_nex cf)) fsort si cf (mk_cm l0 (loaded n H V1)) ritzv resid = Ok out ->
  o_exit out = Some st ->
  exists X, size X = n /\ orthonormal cj X /\ spectral_pairs inj cj H (c_nev cf) (o_ritz out) (o_res out) X /\ sums_bounded inj H (c_nev cf) (o_ritz out) /\
  completes +%R p q (fun i j r => (fst (fst (fst r)), snd (fst (fst r))) = (o_ritz out, o_res out) /\ carries (piece N ml p i) (map (@vfn C N) X) (l_C (snd r)))
    (fun i j => run_proc (ker o fo inj re oc (blk_env N p q ml nl (ldh i j) n i j) (blk_tab N p q ml nl i j)) t (s i j)).
Proof.
move=> HL1 HL2 HP Hcnt Htab HS E Ex.
have [X [HX [sz [on [sp sb]]]]] := global_run EF SQ IC RI XL HH HV HC HM Hperm Hasc E Ex.
exists X; do ! split=> //.
have S := solve_on_blocks o fo inj re oc qe td N p q ml nl (c_nev cf) (c_nex cf) ldh fsort si cf l0 ritzv resid t (loaded n H V1) s out
  HT (fld_ring cj) (fld_embeds cj EF RI) HL1 HL2 HP Hcnt n_pos Htab HS E.
apply: completes_mono S => i j [[[r rs] l] a] Hi Hj /= [[-> -> _] hp]; split=> //.
apply: (carries_rel _ HX (proj2 (hp_C _ _ _ _ _ _ _ hp))) => g.
case: HL1 => h1 [h2 [h3 _]]; rewrite /piece => /List.in_seq; case: PeanoNat.Nat.eqb_spec => [->|ne] [a1 a2]; first by lia.
have : le ((i + 1) * ml) ((p - 1) * ml) by apply: PeanoNat.Nat.mul_le_mono_r; lia.
by rewrite -!multE -!plusE -!minusE in h3 a1 a2 *; nia.
Qed.

(** no run has to be assumed if the degree is fixed and the symmetry test is off *)
Hypotheses (Ho : c_opt cf = false) (Hs : c_symcheck cf = false) (Ha : c_approx cf = true) (Hf : forall l, length (fsort l) = length l).
Hypotheses (L1 : le n (length ritzv)) (L2 : le n (length resid)) (HN : le 2 (c_N cf)) (HL : le 1 (c_lanczositer cf)).
Lemma grid_run_total p q mb nb rsrc csrc ldh tab s :
  layout N p q mb nb rsrc csrc -> packable N p q mb nb rsrc csrc -> counts_fit N p q mb nb rsrc csrc n ->
  (forall i j, lt i p -> lt j q -> le (length (owned N mb p rsrc i)) (ldh i j) /\ grid_tab N p q mb nb rsrc csrc i j = Ok (tab i j)) ->
  on_grid o N p q mb nb rsrc csrc n ldh (loaded n H V1) s ->
  exists vals res X, size X = n /\ orthonormal cj X /\ spectral_pairs inj cj H (c_nev cf) vals res X /\ sums_bounded inj H (c_nev cf) vals /\
  completes +%R p q (fun i j r => (fst (fst (fst r)), snd (fst (fst r))) = (vals, res) /\ carries (owned N mb p rsrc i) (map (@vfn C N) X) (l_C (snd r)))
    (fun i j => run_proc (ker o fo inj re oc (bc_env N p q mb nb rsrc csrc (ldh i j) n i j) (tab i j)) t (s i j)).
Proof.
move=> HLy HP Hcnt Htab HS.
have [out [st [E Ex]]] := global_returns inj cj re fo oc qe td mb p rsrc l0 H HV HC Hperm Ho Hs Ha Hf L1 L2 HN HL.
exists (o_ritz out), (o_res out); exact: (grid_run HLy HP Hcnt Htab HS E Ex).
Qed.
Lemma block_run_total p q ml nl ldh s :
  in_blocks N ml p -> in_blocks N nl q -> blocks_packable N p q ml nl -> block_counts_fit N p q ml nl n ->
  (forall i j, lt i p -> lt j q -> le (length (piece N ml p i)) (ldh i j)) ->
  on_blocks o N p q ml nl n ldh (loaded n H V1) s ->
  exists vals res X, size X = n /\ orthonormal cj X /\ spectral_pairs inj cj H (c_nev cf) vals res X /\ sums_bounded inj H (c_nev cf) vals /\
  completes +%R p q (fun i j r => (fst (fst (fst r)), snd (fst (fst r))) = (vals, res) /\ carries (piece N ml p i) (map (@vfn C N) X) (l_C (snd r)))
    (fun i j => run_proc (ker o fo inj re oc (blk_env N p q ml nl (ldh i j) n i j) (blk_tab N p q ml nl i j)) t (s i j)).
Proof.
move=> HL1 HL2 HP Hcnt Htab HS.
have [out [st [E Ex]]] := global_returns inj cj re fo oc qe td (blk_mb N ml p 0) p 0 l0 H HV HC Hperm Ho Hs Ha Hf L1 L2 HN HL.
exists (o_ritz out), (o_res out); exact: (block_run HL1 HL2 HP Hcnt Htab HS E Ex).
Qed.
End Grids.
