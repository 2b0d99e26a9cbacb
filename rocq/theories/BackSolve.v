(** The in-place, single-GPU and multi-GPU backends in exact arithmetic: orthonormal vectors, Rayleigh quotients, distance of the
    returned values from the spectrum. *)
From Coq Require Import Permutation.
From mathcomp Require Import all_ssreflect all_algebra all_real_closed.
Require Import Verif.Base Verif.AlgModel Verif.AlgSpec Verif.AlgProofs4 Verif.DlaModel Verif.ColModel Verif.ColSpec Verif.ColProofs1 Verif.ColProofs2 Verif.ColProofs3
  Verif.InplProofs Verif.GpuModel Verif.GpuSpec Verif.GpuProofs1 Verif.GpuProofs2 Verif.GpuProofs3 Verif.MgpuModel Verif.MgpuSpec Verif.MgpuProofs2
  Verif.AlgSim Verif.AlgSim2 Verif.DlaSim
  Verif.ColOrth Verif.InplOrth Verif.ExactSpec Verif.OrthSpec Verif.OrthProofs Verif.Spectral Verif.OrthSolve Verif.KyFan Verif.OrthMpi Verif.LapackSpec Verif.BackSpec Verif.BackSpec2.
Import Verif.ExactSpec Verif.OrthSpec Verif.ColSpec.
Set Implicit Arguments. Unset Strict Implicit. Unset Printing Implicit Defensive.
Import Order.TTheory GRing.Theory Num.Theory.
Local Open Scope ring_scope.
Local Open Scope complex_scope.

Section Answer.
Variables (R : rcfType) (C : fieldType) (inj : {rmorphism R -> C}) (cj : {rmorphism C -> C}) (e : {rmorphism C -> R[i]}) (N : nat).
Variables (H : 'M[C]_N) (nev n : nat) (vals res : list R) (cols : list 'cV[C]_N).
Hypotheses (IC : in_complex inj cj e) (HH : hermitian cj H) (hn : (nev <= n)%N).

Lemma answer_of_pairs : size cols = n -> orthonormal cj cols -> pairs_ok inj cj H nev vals cols res -> eigen_answer inj cj H nev n vals cols res.
Proof.
move=> sz on X; split=> //.
- have [rs [Hp {}X]] := X.
  have [d [dE hd]] := near_list IC HH; exists d; split=> // a b dl dl0 hs.
  pose vs := List.firstn nev vals.
  have sv : size vs = nev.
    rewrite /vs firstnE size_takel //; apply: size_some => i hi.
    by have [v [x [r [hv _]]]] := X _ hi; exists v.
  rewrite -/vs count_card sv.
  have hr i : (i < nev)%N -> inj rs`_i ^+ 2 = dot cj (H *m cols`_i - inj vs`_i *: cols`_i) (H *m cols`_i - inj vs`_i *: cols`_i).
    move=> hi; have [v [x [r [hv [hx [hr [_ [_ [_ [h _]]]]]]]]]] := X _ (ssrnat.ltP hi).
    by rewrite !nthE hr hx /vs AlgProofs1.nth_firstn ?hv //; exact: ssrnat.ltP.
  apply: (hd _ _ (fun i => vs`_i) (fun i => rs`_i) a b dl on _ dl0 hr); first by rewrite sz.
  have sr : size rs = nev.
    apply/eqP; rewrite eqn_leq; apply/andP; split.
      by rewrite [size rs](Permutation_length Hp); apply/ssrnat.leP; exact: List.firstn_le_length.
    by apply: size_some => i hi; have [v [x [r [_ [_ [hr' _]]]]]] := X _ hi; exists r.
  by move: hs; rewrite -(sum_perm (fun r => r ^+ 2) Hp) (big_nth 0) big_mkord sr.
- have [rs [_ {}X]] := X.
  have [ls [sl cp K]] := kyfan_list IC HH; exists ls; split=> //; split=> // I uI aI.
  apply: (K _ (fun i => vals`_i) I on uI).
    by apply/allP => i /(allP aI) hi; rewrite sz (leq_trans hi hn).
  move=> i /(allP aI) hi; have [v [x [r [hv [hx [_ [_ [hr _]]]]]]]] := X _ (ssrnat.ltP hi).
  by rewrite !nthE hv hx.
Qed.
End Answer.

Section Ist.
Variables (R : rcfType) (C : fieldType) (inj : {rmorphism R -> C}) (cj : {rmorphism C -> C}) (N : nat) (G : Type).
Variables (fo : fops R) (bl : blas R 'cV[C]_N 'M[C]_N G C) (qe : qr_env R) (td : tridiag R) (cf : conf R) (sort_idx : list R -> list nat).
Variables (H : 'M[C]_N) (fsort : list R -> list R) (ritzv resid : list R) (e : {rmorphism C -> R[i]}).
Local Notation n := (Nat.add (c_nev cf) (c_nex cf)).
Hypothesis Hperm : forall keys, Permutation (sort_idx keys) (List.seq 0 (length keys)).
Hypotheses (EF : exact_fops fo) (EM : exact_mv inj cj bl) (EQ : exact_qr cj bl n) (ER : exact_rr inj cj (gram_swapped bl) H n) (HH : hermitian cj H).
Hypotheses (HC : conf_ok cf) (HM : le 1 (c_maxiter cf)) (IC : in_complex inj cj e) (EV : exact_vec inj cj bl).

Lemma swapped_rules : on_rules fo (gram_swapped bl) H n (@orthonormal C cj N) (@upper_factor C N) (OrthProofs.rayleigh inj cj H).
Proof.
apply: (exact_rules EF _ _ ER HH); first by case: EM.
by case: EQ.
Qed.

(** any backend on the state of the in-place one *)
Lemma ist_answer (L : dla R (ist (V := 'cV[C]_N) (M := 'M[C]_N))) k o s : ist_rules bl (c_nev cf) (c_nex cf) (@orthonormal C cj N) (@upper_factor C N) L ->
  kernel_cols fo (cmK fo qe td L (c_nev cf) (c_nex cf)) n (fun s => is_V1 (cm_dla s)) (iJ0 fo bl (c_nev cf) (c_nex cf) H) (iJ fo bl (c_nev cf) (c_nex cf) H)
    (iJ fo bl (c_nev cf) (c_nex cf) H) (iJr fo bl (c_nev cf) (c_nex cf) H) (ritz_pair_inpl fo bl H) (ritz_resid fo bl H) ->
  iJ0 fo bl (c_nev cf) (c_nex cf) H k ->
  solve fo (cmK fo qe td L (c_nev cf) (c_nex cf)) fsort sort_idx cf k ritzv resid = Ok o -> o_exit o = Some s ->
  eigen_answer inj cj H (c_nev cf) n (o_ritz o) (is_V1 (cm_dla (o_k o))) (o_res o).
Proof.
move=> IL KC0 HJ E Hx; have RU := swapped_rules.
have [on sz] := ist_end_on fo bl qe td (c_nev cf) (c_nex cf) H _ _ _ RU sort_idx Hperm L fsort cf k ritzv resid o s erefl erefl IL KC0 HC HJ HM E Hx.
have KC := ist_orth_cols fo bl qe td (c_nev cf) (c_nex cf) H _ _ _ RU L IL KC0.
apply: (answer_of_pairs IC HH) => //; first exact: leq_addr.
have [sw [Hr [_ [Ec [Er [_ [L1 [L2 X]]]]]]]] := solve_pairs fo _ sort_idx Hperm _ _ _ _ _ _ _ _ KC fsort cf _ ritzv resid o s erefl HC HJ HM E Hx.
exists (swps sw (List.firstn (c_nev cf) (o_res o))); split; first exact/Permutation_sym/AlgProofs1.swps_perm.
move: L1 L2 X => /= L1 L2 X i hi.
have lc : length (List.firstn (c_nev cf) (is_V1 (cm_dla (o_k o)))) = c_nev cf.
  by rewrite List.firstn_length_le // sz; apply: PeanoNat.Nat.le_add_r.
have get A (l : list A) : length l = c_nev cf -> exists a, List.nth_error l i = Some a.
  by move=> hl; case Ea : (List.nth_error l i) => [a|]; [exists a|move/List.nth_error_None: Ea; rewrite hl => /PeanoNat.Nat.le_ngt; case].
have [v hv] := get _ _ (etrans L1 lc). have [x hx] := get _ _ lc. have [r hr] := get _ _ (etrans (esym L2) lc).
have [[_ hray] [h [/(drift_here EF EM) -> rE]]] := X _ _ _ _ hv hx hr.
have hx' : List.nth_error (is_V1 (cm_dla (o_k o))) i = Some x by rewrite -hx AlgProofs1.nth_firstn.
have hv' : List.nth_error (o_ritz o) i = Some v by rewrite -hv AlgProofs1.nth_firstn.
have xx : dot cj x x = 1.
  have hs : (i < size (is_V1 (cm_dla (o_k o))))%N by apply/ssrnat.ltP; apply/List.nth_error_Some; rewrite hx'.
  have -> : x = (is_V1 (cm_dla (o_k o)))`_i by rewrite nthE hx'.
  by rewrite on // eqxx.
have rE' : r = b_nrm2 bl (H *m x - inj v *: x).
  by rewrite rE (ev_inj EV) (ev_axpy EV) (em_mulH EM) (ef_neg EF) rmorphN scaleNr addrC (HH : adj cj H = H).
have [r0 r2] := ev_nrm2 EV (H *m x - inj v *: x); rewrite -rE' in r0 r2.
exists v, x, r; do ! split=> //; exact: (near IC HH xx r0 r2).
Qed.

Local Notation inplK := (cmK fo qe td (inplD fo bl n) (c_nev cf) (c_nex cf)).
Local Notation inplN := (cmK fo qe td (stop_late (late_ist bl n) (inplD fo bl n)) (c_nev cf) (c_nex cf)).
Local Notation gpuK := (cmK fo qe td (gpuD fo bl n) (c_nev cf) (c_nex cf)).
Local Notation gpuN := (cmK fo qe td (stop_late (late_gst bl n) (gpuD fo bl n)) (c_nev cf) (c_nex cf)).

Lemma inpl_answer l0 V1 o s : length V1 = n -> let k := mk_cm l0 (inpl_state bl (c_nev cf) (c_nex cf) H V1) in
  solve fo inplK fsort sort_idx cf k ritzv resid = Ok o -> o_exit o = Some s ->
  (chol_disabled qe \/ no_late_failure bl n \/ solve fo inplN fsort sort_idx cf k ritzv resid = Ok o) ->
  eigen_answer inj cj H (c_nev cf) n (o_ritz o) (is_V1 (cm_dla (o_k o))) (o_res o).
Proof.
move=> HV k E Hx HN; have RU := swapped_rules; have HJ := inpl_J0 fo bl cf l0 H V1 HV.
have stop : solve fo inplN fsort sort_idx cf k ritzv resid = Ok o -> eigen_answer inj cj H (c_nev cf) n (o_ritz o) (is_V1 (cm_dla (o_k o))) (o_res o).
  by move=> {}E; apply: (ist_answer _ _ HJ E Hx); [exact: inpl_ist_rules RU|exact: inpl_stop_cols RU].
case: HN => [Hd|[NL|]]; [|by apply: (ist_answer _ _ HJ E Hx); [exact: inpl_nl_rules RU NL|exact: inpl_nl_cols RU NL]|exact: stop].
by apply: stop; move: E; apply: disabled_run.
Qed.

Lemma gpu_answer g o s : g_H (cm_dla g) = H -> gpu_sizes n (cm_dla g) ->
  solve fo gpuK fsort sort_idx cf g ritzv resid = Ok o -> o_exit o = Some s ->
  (chol_disabled qe \/ no_late_failure bl n \/ solve fo gpuN fsort sort_idx cf g ritzv resid = Ok o) ->
  eigen_answer inj cj H (c_nev cf) n (o_ritz o) (g_V1 (cm_dla (o_k o))) (o_res o).
Proof.
move=> EH HG E Hx HN; have RU := swapped_rules.
have HG' : glen n (cm_dla g) by apply/sizes_glen.
have HJ : iJ0 fo bl (c_nev cf) (c_nex cf) H (bare g) by rewrite -EH; exact: bare_J0.
have stop : solve fo gpuN fsort sort_idx cf g ritzv resid = Ok o -> eigen_answer inj cj H (c_nev cf) n (o_ritz o) (g_V1 (cm_dla (o_k o))) (o_res o).
  move=> {}E; have [o' [E' [E1 [E2 EX]]]] := stop_to_bare fo bl qe td cf sort_idx Hperm fsort g HG' ritzv resid o E.
  rewrite Hx in EX; case Hx' : (o_exit o') EX => [s'|//] [_ [_ [_ EV']]]; rewrite EV' E1 E2.
  by apply: (ist_answer _ _ HJ E' Hx'); [exact: dev_ist_rules RU|exact: dev_stop_cols RU].
case: HN => [Hd|[NL|]]; [by apply: stop; move: E; apply: disabled_run| |exact: stop].
have [o' [E' [E1 [E2 EX]]]] := gpu_to_bare fo bl qe td cf sort_idx Hperm fsort g HG' ritzv resid o E.
rewrite Hx in EX; case Hx' : (o_exit o') EX => [s'|//] [_ [_ [_ EV']]]; rewrite EV' E1 E2.
by apply: (ist_answer _ _ HJ E' Hx'); [exact: dev_nl_rules RU NL|exact: dev_nl_cols RU NL].
Qed.
End Ist.

Section Mgpu.
Variables (R : rcfType) (C : fieldType) (inj : {rmorphism R -> C}) (cj : {rmorphism C -> C}) (N : nat) (G : Type).
Variables (fo : fops R) (bl : blas R 'cV[C]_N 'M[C]_N G C) (loc : bool -> 'M[C]_N -> R -> R -> 'cV[C]_N -> 'cV[C]_N -> 'cV[C]_N).
Variables (qe : qr_env R) (td : tridiag R) (cf : conf R) (sort_idx : list R -> list nat).
Variables (H : 'M[C]_N) (fsort : list R -> list R) (ritzv resid : list R) (e : {rmorphism C -> R[i]}).
Local Notation n := (Nat.add (c_nev cf) (c_nex cf)).
Hypothesis Hperm : forall keys, Permutation (sort_idx keys) (List.seq 0 (length keys)).
Hypotheses (EF : exact_fops fo) (EM : exact_mv inj cj bl) (EQ : exact_qr cj bl n) (ER : exact_rr inj cj bl H n) (HH : hermitian cj H).
Hypotheses (HC : conf_ok cf) (HM : le 1 (c_maxiter cf)) (HA : keeps_ascending sort_idx) (OR : ordered_rr cj bl H n).
Hypotheses (IC : in_complex inj cj e) (EV : exact_vec inj cj bl) (NL : no_late_failure bl n).

Lemma exact_beta : beta_zero fo bl.
Proof. by move=> h a x y y'; rewrite !(em_gemmH EM) !(em_gemmN EM) (ef_zero EF) rmorph0 !scale0r !addr0. Qed.

Lemma mgpu_answer g o s : m_H (cm_dla g) = H -> mgpu_sizes n (cm_dla g) ->
  solve fo (cmK fo qe td (mgpuD fo bl loc false n) (c_nev cf) (c_nex cf)) fsort sort_idx cf g ritzv resid = Ok o -> o_exit o = Some s ->
  [/\ size (m_C (cm_dla (o_k o))) = n, orthonormal cj (m_C (cm_dla (o_k o))),
      spectral_pairs inj cj H (c_nev cf) (o_ritz o) (o_res o) (m_C (cm_dla (o_k o))),
      counts_ok inj H (c_nev cf) (o_ritz o) (o_res o) & sums_ok inj H (c_nev cf) (o_ritz o)].
Proof.
move=> EH HG E Hx.
have := mgpu_same fo bl loc qe td cf sort_idx Hperm fsort exact_beta NL g ritzv resid HG; rewrite E.
case Eo : (solve fo _ fsort sort_idx cf (mk_cm _ (host _)) ritzv resid) => [o'| |] //= [E1 [E2 [E3 [E4 _]]]].
have [s' Hx'] : exists s', o_exit o' = Some s' by case Ex : (o_exit o') E4 => [s'|]; [exists s'|rewrite Hx => - [_ /(_ erefl)]].
have HJ : sJ0 fo bl (c_nev cf) (c_nex cf) H n (mk_cm (cm_locked g) (host (cm_dla g))).
  by case: HG => [A1 [A2 [A3 [A4 _]]]]; split; [split; [|split; [|split]] |rewrite -EH; constructor].
have [sz on] := mpi_orthonormal_from Hperm EF EM EQ ER HH HJ HC HM Eo Hx'.
rewrite E1 E2 E3; split=> //.
- exact: (mpi_values_from Hperm EF EM EQ ER HH HJ HC HM HA OR IC EV Eo Hx').
- exact: (mpi_count_from Hperm EF EM EQ ER HH HJ HC HM HA OR IC EV Eo Hx').
- exact: (mpi_kyfan_from Hperm EF EM EQ ER HH HJ HC HM HA OR IC EV Eo Hx').
Qed.
End Mgpu.
