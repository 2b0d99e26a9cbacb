(** The solver stops: residuals after t iterations, and the number of iterations. *)
From Coq Require Import Permutation.
From mathcomp Require Import all_ssreflect all_algebra all_real_closed.
Require Import Verif.Base Verif.AlgModel Verif.AlgSpec Verif.AlgProofs1 Verif.AlgProofs4 Verif.AlgProofs6 Verif.FilterSpec Verif.DlaModel Verif.ColModel Verif.ColSpec Verif.ColProofs1 Verif.ColProofs2 Verif.ColProofs3
  Verif.ColOrth Verif.ExactSpec Verif.ExactFilter Verif.OrthSpec Verif.OrthProofs Verif.Spectral Verif.OrthSolve Verif.KyFan Verif.ConvSpec Verif.ApproxSpec Verif.AlgSpan Verif.ColSpan Verif.Conv Verif.ConvSolve
  Verif.StopSpec Verif.ResidSpec Verif.Stop Verif.AlgStop Verif.ColStop.
Set Implicit Arguments. Unset Strict Implicit. Unset Printing Implicit Defensive.
Import Order.TTheory GRing.Theory Num.Theory.
Local Open Scope ring_scope.
Local Open Scope complex_scope.

Lemma fin_choose (T : Type) (P : nat -> T -> Prop) k (t0 : T) : (forall i, (i < k)%N -> exists z, P i z) -> exists z : nat -> T, forall i, (i < k)%N -> P i (z i).
Proof.
elim: k => [|k IH] h; first by exists (fun _ => t0).
have [z hz] := IH (fun i ik => h i (ltnW ik)); have [z' hz'] := h k (ltnSn k).
exists (fun i => if i == k then z' else z i) => i; rewrite ltnS leq_eqVlt; case: eqP => [-> _|_ /=] //; exact: hz.
Qed.

Section Solve.
Variables (R : rcfType) (C : fieldType) (inj : {rmorphism R -> C}) (cj : {rmorphism C -> C}) (e : {rmorphism C -> R[i]}) (n0 : nat) (G : Type).
Variables (fo : fops R) (bl : blas R 'cV[C]_n0.+1 'M[C]_n0.+1 G C) (qe : qr_env R) (td : tridiag R) (cf : conf R) (sort_idx : list R -> list nat).
Variables (H : 'M[C]_n0.+1) (fsort : list R -> list R) (l0 : nat) (V1 : list 'cV[C]_n0.+1) (ritzv resid : list R).
Local Notation n := (Nat.add (c_nev cf) (c_nex cf)).
Local Notation N := n0.+1.
Local Notation nsK := (cmK fo qe td (stop_late (late_failure bl n) (colD fo bl false n)) (c_nev cf) (c_nex cf)).
Local Notation mpiK := (cmK fo qe td (colD fo bl true n) (c_nev cf) (c_nex cf)).
Hypothesis Hperm : forall keys, Permutation (sort_idx keys) (List.seq 0 (length keys)).
Hypotheses (EF : exact_fops fo) (EM : exact_mv inj cj bl) (EQ : exact_qr cj bl n) (ER : exact_rr inj cj bl H n) (HH : hermitian cj H) (IC : in_complex inj cj e).
Hypotheses (EV : exact_vec inj cj bl) (OR : ordered_rr cj bl H n).
Hypotheses (HV : length V1 = n) (HC : conf_ok cf) (HM : le 1 (c_maxiter cf)).

Section Core.
Variables (us : seq 'cV[C]_N) (ls : seq R) (m : nat) (V0 : seq 'cV[C]_N) (Y : nat -> nat -> C) (la lo up : R) (d t : nat).
Hypotheses (EB : eigenbasis inj cj H us ls) (m0 : (0 < m)%N) (mn : (m <= n)%N) (mN : (m <= N)%N) (RE : reaches cj us V0 m Y) (h1 : la < lo) (h2 : lo < up).
Hypotheses (below : forall j, (j < m)%N -> ls`_j < lo) (inside : forall j, (m <= j < N)%N -> lo <= ls`_j <= up).

Lemma resid_core cs k : size cs = n -> orthonormal cj cs -> (k < m)%N ->
  let A := b_gram bl cs (List.map (b_mulH bl H) cs) in
  filtered (@sub_span C N) (flt inj H) la lo up d t V0 (List.map (b_comb bl cs A) (List.seq 0 n)) ->
  let r := rnorm fo bl H (b_eval bl A k) (b_comb bl cs A k) in
  0 <= r /\ r ^+ 2 <= budget ls m lo up (total_err cj e us ls V0 Y lo up d t m).
Proof.
move=> sz oc km A fb r; set new := List.map (b_comb bl cs A) _ in fb.
have [su ou sl so hu] := EB.
have [sn on _ rn] := rr_diag ER HH sz oc; rewrite -/A -/new in sn on rn.
have kn : (k < n)%N := leq_trans km mn.
have newk : new`_k = b_comb bl cs A k.
  by rewrite /new -[List.map _ _]/(map (b_comb bl cs A) (iota 0 n)) (nth_map 0%N) ?size_iota // nth_iota.
have rE : r = b_nrm2 bl (H *m new`_k - inj (b_eval bl A k) *: new`_k).
  by rewrite /r /rnorm newk (ev_inj EV) (ev_axpy EV) (em_mulH EM) (ef_neg EF) rmorphN scaleNr addrC (HH : adj cj H = H).
have [r0 r2] := ev_nrm2 EV (H *m new`_k - inj (b_eval bl A k) *: new`_k); rewrite -rE in r0 r2; split=> //.
have [z hz] : exists z : nat -> 'cV[C]_N, forall i, (i < m)%N ->
    [/\ in_span new (us`_i + z i), forall j, (j < m)%N -> dot cj us`_j (z i) = 0 & dist2 cj e (us`_i + z i) us`_i <= err cj e us ls V0 Y lo up d t i].
  apply: (@fin_choose _ (fun i z => [/\ in_span new (us`_i + z), forall j, (j < m)%N -> dot cj us`_j z = 0 & dist2 cj e (us`_i + z) us`_i <= err cj e us ls V0 Y lo up d t i]) m 0) => i im; have [z [zs zo zd]] := near_vec IC d t EB mN RE h1 h2 below inside im.
  by exists z; split=> //; apply: zs.
have lss i j : (i <= j < N)%N -> ls`_i <= ls`_j.
  by move=> /andP [ij jN]; apply: (sorted_leq_nth le_trans lexx 0 so) => //; rewrite inE sl // (leq_ltn_trans ij).
have lup j : (j < N)%N -> ls`_j <= up.
  by move=> jN; case: (ltnP j m) => jm; [apply/ltW/(lt_trans (below jm))|have /andP [] := @inside j ltac:(by rewrite jm)].
have one := ec_orth IC on; have oue := ec_orth IC ou.
have sne : size (map (map_mx e) new) = n by rewrite size_map.
have sue : size (map (map_mx e) us) = N by rewrite size_map.
have rne i j : (i < size (map (map_mx e) new))%N -> (j < size (map (map_mx e) new))%N ->
    dot (@conjC _) (map (map_mx e) new)`_i (map_mx e H *m (map (map_mx e) new)`_j) = (b_eval bl A i)%:C *+ (i == j).
  by rewrite sne => hi hj; rewrite !ec_nth ?sn // -map_mxM (dot_map IC) rn // rmorphMn /= (ic_real IC).
have hue j : (j < N)%N -> map_mx e H *m (map (map_mx e) us)`_j = (ls`_j)%:C *: (map (map_mx e) us)`_j.
  by move=> hj; rewrite !ec_nth ?su // -map_mxM hu // map_mxZ (ic_real IC).
have N0 : (0 < N)%N by [].
have pm : (m.-1 < m)%N by rewrite prednK.
pose D := up - ls`_0; pose g := lo - ls`_m.-1.
have D0 : 0 <= D by rewrite subr_ge0 lup.
have g0 : 0 < g by rewrite subr_gt0 below.
have := @ritz_resid _ _ (map_mx e H) _ _ (fun i => (b_eval bl A i)%:C) (fun j => (ls`_j)%:C) one rne oue sue hue m (fun i => map_mx e (z i)) lo%:C up%:C m0.
rewrite sne => /(_ mn) step.
have {step} : (r ^+ 2)%:C <= (D%:C) ^+ 2 * (\sum_(i < m) dot (@conjC _) (map_mx e (z i)) (map_mx e (z i))) * (1 + m%:R * D%:C / g%:C) *+ 2.
  have -> : (r ^+ 2)%:C = dot (@conjC _) (map_mx e (H *m new`_k - inj (b_eval bl A k) *: new`_k)) (map_mx e (H *m new`_k - inj (b_eval bl A k) *: new`_k)).
    by rewrite (dot_map IC) -r2 -rmorphX (ic_real IC).
  rewrite /D /g !rmorphB /=; apply: (step _ _ _ _ _ _ _ _ _ k) => //.
  - by move=> i j ij; rewrite lecR; apply: OR; rewrite ?sz.
  - by move=> i j ij; rewrite lecR lss.
  - by move=> j jN; rewrite lecR lup.
  - by move=> j; rewrite complex_real.
  - by move=> j; rewrite complex_real.
  - by rewrite ltcR below.
  - by move=> j mj; rewrite lecR; have /andP [] := inside mj.
  - move=> i im; have [[a ha] _ _] := hz i im; exists (fun j => e (a j)).
    rewrite ec_nth ?su ?(leq_trans im mN) // -map_mxD ha raddf_sum sn; apply: eq_bigr => j _.
    by rewrite /= map_mxZ ec_nth // sn.
  - move=> i j im jm; have [_ zo _] := hz i im; by rewrite ec_nth ?su ?(leq_trans jm mN) // (dot_map IC) zo // rmorph0.
  by rewrite ec_nth ?sn // map_mxB map_mxM map_mxZ (ic_real IC).
have -> : \sum_(i < m) dot (@conjC _) (map_mx e (z i)) (map_mx e (z i)) = (\sum_(i < m) dist2 cj e (us`_i + z i) us`_i)%:C.
  by rewrite rmorph_sum; apply: eq_bigr => i _; rewrite /= (dist2E IC) addrAC subrr add0r.
set E := \sum_(i < m) dist2 _ _ _ _.
have -> : D%:C ^+ 2 * E%:C * (1 + m%:R * D%:C / g%:C) *+ 2 = (D ^+ 2 * E * (1 + m%:R * D / g) *+ 2)%:C.
  by rewrite !(rmorphMn, rmorphM, rmorphD, rmorphX, rmorph1, rmorph_nat, fmorphV).
rewrite lecR => h.
apply: le_trans h _; rewrite /budget -/D -/g ler_muln2r /=; apply: ler_wpmul2r.
  by rewrite addr_ge0 ?ler01 // mulr_ge0 ?mulr_ge0 ?ler0n // invr_ge0 ltW.
apply: ler_wpmul2l; first exact: exprn_ge0.
by apply: ler_sum => i _; have [_ _ zd] := hz i (ltn_ord i).
Qed.
End Core.

Hypothesis LT : forall x y, f_lt fo x y = (x < y).
Variables (us : seq 'cV[C]_N) (ls : seq R) (m : nat) (Y : nat -> nat -> C).
Hypothesis EB : eigenbasis inj cj H us ls.
Hypotheses (nm : (c_nev cf <= m)%N) (mn : (m <= n)%N) (tol0 : 0 <= c_tol cf).
Local Notation V0 s0 := (cs_C (cm_dla (ss_k s0))).
Local Notation d := (Nat.min (Nat.add (c_deg cf) (Nat.modulo (c_deg cf) 2)) (c_maxdeg cf)).
Local Notation total s0 ub t := (total_err cj e us ls (V0 s0) Y (ss_lowerb s0) ub d t m).
Local Notation sst := (@sstate R (@cm (@cst 'cV[C]_N 'M[C]_N))).

Lemma facts_stop ub (s0 s : sst) t : stop_facts fo bl (c_nev cf) (c_nex cf) H (@orthonormal C cj N) (@sub_span C N) (flt inj H) cf ub s0 s t ->
  splits ls m (ss_lambda s0) (ss_lowerb s0) ub -> reaches cj us (V0 s0) m Y -> budget ls m (ss_lowerb s0) ub (total s0 ub t) <= c_tol cf ^+ 2 ->
  converged fo cf s.
Proof.
move=> [_ [Ed [h [cs [h3 [rs [dr [dr3 [sz [oc [ft [sr [rE sc]]]]]]]]]]]]] [h1 [h2 [hm [h3' h4]]]] RE hb; apply: sc.
have sl := eb_vals EB; rewrite sl in hm h4.
move: ft rE; rewrite (drift_here EF EM dr) (drift_here EF EM dr3) Ed /clamp LT ltNge (ltW h2) /= => ft rE i x hi hx.
have im : (i < m)%N by apply: leq_trans nm; exact/ssrnat.ltP.
have hin : lt i n by apply: PeanoNat.Nat.lt_le_trans hi _; exact: PeanoNat.Nat.le_add_r.
have m0 : (0 < m)%N by exact: leq_ltn_trans im.
have [r0 r2] := resid_core EB m0 mn hm RE h1 h2 h3' h4 sz oc im ft.
move: (rE i hin); rewrite hx => -[->]; rewrite LT ltNge; apply/negbTE; rewrite negbK.
rewrite -(@ler_pexpn2r _ 2) // ?nnegrE //; exact: le_trans hb.
Qed.

Lemma mpi_run_stop ub s0 h s : let k := mk_cm l0 (mpi_state bl (c_nev cf) (c_nex cf) H V1) in
  entered fo mpiK fsort cf k ritzv resid ub s0 -> run fo mpiK sort_idx cf ub s0 h s -> List.Forall (fun t => ss_locked t = 0%N) h -> (c_opt cf = true -> le (length h) 1) -> h <> nil ->
  splits ls m (ss_lambda s0) (ss_lowerb s0) ub -> reaches cj us (V0 s0) m Y -> budget ls m (ss_lowerb s0) ub (total s0 ub (length h)) <= c_tol cf ^+ 2 ->
  converged fo cf s.
Proof.
move=> k He HR HU Ho Hh SP RE; apply: facts_stop SP RE.
apply: (mpi_stop fo bl qe td (c_nev cf) (c_nex cf) H n (le_n n) _ _ _ (exact_rules EF EM EQ ER HH) (@sub_span C N) _ _ _ _ _ _ _ sort_idx Hperm fsort cf k ritzv resid ub s0 h s _ _ _ _ He HR HU Ho Hh) => //.
- by move=> a x.
- by move=> a b c ab bc x /ab /bc.
- exact: upper_span.
- exact: swp_span.
- exact: (rr_sub EF EM ER HH).
- by move=> mp la lo up d' s1 av s1'; apply: (flt_of EF EM HH IC HC).
by split=> //; apply: (mpi_J0 fo bl cf l0 H V1 HV).
Qed.
Lemma ns_run_stop ub s0 h s : le (c_nex cf) (c_nev cf) -> let k := mk_cm l0 (seq_state bl (c_nev cf) (c_nex cf) H V1) in
  entered fo nsK fsort cf k ritzv resid ub s0 -> run fo nsK sort_idx cf ub s0 h s -> List.Forall (fun t => ss_locked t = 0%N) h -> (c_opt cf = true -> le (length h) 1) -> h <> nil ->
  splits ls m (ss_lambda s0) (ss_lowerb s0) ub -> reaches cj us (V0 s0) m Y -> budget ls m (ss_lowerb s0) ub (total s0 ub (length h)) <= c_tol cf ^+ 2 ->
  converged fo cf s.
Proof.
move=> HX k He HR HU Ho Hh SP RE; apply: facts_stop SP RE.
have Hw : le n (Nat.add (c_nev cf) (c_nev cf)) by exact: (proj1 (PeanoNat.Nat.add_le_mono_l _ _ _) HX).
apply: (ns_stop fo bl qe td (c_nev cf) (c_nex cf) H _ Hw _ _ _ (exact_rules EF EM EQ ER HH) (@sub_span C N) _ _ _ _ _ _ _ sort_idx Hperm fsort cf k ritzv resid ub s0 h s _ _ _ _ He HR HU Ho Hh) => //.
- by move=> a x.
- by move=> a b c ab bc x /ab /bc.
- exact: upper_span.
- exact: swp_span.
- exact: (rr_sub EF EM ER HH).
- by move=> mp la lo up d' s1 av s1'; apply: (flt_of EF EM HH IC HC).
by split=> //; apply: (seq_J0 fo bl cf l0 H V1 HV).
Qed.

Lemma to_le (l : list R) : List.Forall (fun r => f_lt fo (c_tol cf) r = false) l -> {in l, forall r, r <= c_tol cf}.
Proof.
elim: l => [_ r //|x l IH] hl r; rewrite inE => /orP [/eqP ->|hr]; last by apply: IH hr; exact: (List.Forall_inv_tail hl).
by move: (List.Forall_inv hl); rewrite LT leNgt => ->.
Qed.
Let nev1 : le 1 (c_nev cf). Proof. by case: HC. Qed.

Lemma mpi_stops ub s0 o s T : let k := mk_cm l0 (mpi_state bl (c_nev cf) (c_nex cf) H V1) in
  entered fo mpiK fsort cf k ritzv resid ub s0 -> splits ls m (ss_lambda s0) (ss_lowerb s0) ub -> reaches cj us (V0 s0) m Y ->
  le 1 T -> le T (c_maxiter cf) -> (c_opt cf = true -> T = 1%N) -> budget ls m (ss_lowerb s0) ub (total s0 ub T) <= c_tol cf ^+ 2 ->
  (forall h t, run fo mpiK sort_idx cf ub s0 h t -> lt (length h) T -> ss_locked t = 0%N \/ ss_locked t = c_nev cf) ->
  solve fo mpiK fsort sort_idx cf k ritzv resid = Ok o -> o_exit o = Some s ->
  ss_locked s = c_nev cf /\ le (ss_iter s) T /\ (ss_iter s = T -> {in take (c_nev cf) (o_res o), forall r, r <= c_tol cf}).
Proof.
move=> k He SP RE T1 TM To hb hp E Hx.
have [|a [b c]] := @solve_stops _ _ fo mpiK sort_idx Hperm fsort cf k ritzv resid ub s0 o s T (conj T1 TM) nev1 E Hx He hp.
  move=> h t HR hT HU; apply: (mpi_run_stop He HR HU) => //; rewrite ?hT //; first by move=> /To ->.
  by move=> h0; move: T1; rewrite -hT h0 => /ssrnat.leP.
by split=> //; split=> // /c; rewrite firstnE; exact: to_le.
Qed.
Lemma ns_stops ub s0 o s T : le (c_nex cf) (c_nev cf) -> let k := mk_cm l0 (seq_state bl (c_nev cf) (c_nex cf) H V1) in
  entered fo nsK fsort cf k ritzv resid ub s0 -> splits ls m (ss_lambda s0) (ss_lowerb s0) ub -> reaches cj us (V0 s0) m Y ->
  le 1 T -> le T (c_maxiter cf) -> (c_opt cf = true -> T = 1%N) -> budget ls m (ss_lowerb s0) ub (total s0 ub T) <= c_tol cf ^+ 2 ->
  (forall h t, run fo nsK sort_idx cf ub s0 h t -> lt (length h) T -> ss_locked t = 0%N \/ ss_locked t = c_nev cf) ->
  solve fo nsK fsort sort_idx cf k ritzv resid = Ok o -> o_exit o = Some s ->
  ss_locked s = c_nev cf /\ le (ss_iter s) T /\ (ss_iter s = T -> {in take (c_nev cf) (o_res o), forall r, r <= c_tol cf}).
Proof.
move=> HX k He SP RE T1 TM To hb hp E Hx.
have [|a [b c]] := @solve_stops _ _ fo nsK sort_idx Hperm fsort cf k ritzv resid ub s0 o s T (conj T1 TM) nev1 E Hx He hp.
  move=> h t HR hT HU; apply: (ns_run_stop HX He HR HU) => //; rewrite ?hT //; first by move=> /To ->.
  by move=> h0; move: T1; rewrite -hT h0 => /ssrnat.leP.
by split=> //; split=> // /c; rewrite firstnE; exact: to_le.
Qed.

(** one iteration is enough if the first filtered block is near enough *)
Lemma run0_locked K fo' k ub (s0 : sst) : entered fo' K fsort cf k ritzv resid ub s0 ->
  forall h t, run fo' K sort_idx cf ub s0 h t -> lt (length h) 1 -> ss_locked t = 0%N \/ ss_locked t = c_nev cf.
Proof.
move=> He h t HR hl; left; case: HR hl => [_|h' u v _ _ _ _]; last by rewrite List.app_length PeanoNat.Nat.add_comm => /ssrnat.ltP.
by have [nr [ns [_ [_ ->]]]] := entered_book fo' K fsort cf k ritzv resid ub s0 He.
Qed.
Lemma iter1 K k ub (s0 : sst) o s : solve fo K fsort sort_idx cf k ritzv resid = Ok o -> o_exit o = Some s -> entered fo K fsort cf k ritzv resid ub s0 -> le (ss_iter s) 1 -> ss_iter s = 1%N.
Proof. by move=> E Hx He h; apply: PeanoNat.Nat.le_antisymm => //; exact: (first_iteration fo K sort_idx Hperm fsort cf k ritzv resid ub s0 o s E Hx He). Qed.

Lemma mpi_stops1 ub s0 o s : let k := mk_cm l0 (mpi_state bl (c_nev cf) (c_nex cf) H V1) in
  entered fo mpiK fsort cf k ritzv resid ub s0 -> splits ls m (ss_lambda s0) (ss_lowerb s0) ub -> reaches cj us (V0 s0) m Y ->
  budget ls m (ss_lowerb s0) ub (total s0 ub 1) <= c_tol cf ^+ 2 ->
  solve fo mpiK fsort sort_idx cf k ritzv resid = Ok o -> o_exit o = Some s ->
  ss_locked s = c_nev cf /\ ss_iter s = 1%N /\ {in take (c_nev cf) (o_res o), forall r, r <= c_tol cf}.
Proof.
move=> k He SP RE hb E Hx.
have [a [b c]] := mpi_stops He SP RE (le_n 1) HM (fun _ => erefl) hb (run0_locked He) E Hx.
by split=> //; have i1 := iter1 E Hx He b; split=> //; exact: c.
Qed.
Lemma ns_stops1 ub s0 o s : le (c_nex cf) (c_nev cf) -> let k := mk_cm l0 (seq_state bl (c_nev cf) (c_nex cf) H V1) in
  entered fo nsK fsort cf k ritzv resid ub s0 -> splits ls m (ss_lambda s0) (ss_lowerb s0) ub -> reaches cj us (V0 s0) m Y ->
  budget ls m (ss_lowerb s0) ub (total s0 ub 1) <= c_tol cf ^+ 2 ->
  solve fo nsK fsort sort_idx cf k ritzv resid = Ok o -> o_exit o = Some s ->
  ss_locked s = c_nev cf /\ ss_iter s = 1%N /\ {in take (c_nev cf) (o_res o), forall r, r <= c_tol cf}.
Proof.
move=> HX k He SP RE hb E Hx.
have [a [b c]] := ns_stops HX He SP RE (le_n 1) HM (fun _ => erefl) hb (run0_locked He) E Hx.
by split=> //; have i1 := iter1 E Hx He b; split=> //; exact: c.
Qed.
End Solve.
