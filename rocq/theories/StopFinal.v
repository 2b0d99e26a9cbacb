(** Consequences: one wanted pair, any number field without infinitesimals, restarts from exact results. *)
From Coq Require Import Permutation.
From mathcomp Require Import all_ssreflect all_algebra all_real_closed.
Require Import Verif.Base Verif.AlgModel Verif.AlgSpec Verif.AlgProofs1 Verif.DlaModel Verif.ColModel Verif.ColSpec Verif.ExactSpec Verif.ExactFilter Verif.OrthSpec Verif.OrthProofs Verif.OrthSolve
  Verif.ConvSpec Verif.ApproxSpec Verif.ConvSolve Verif.StopSpec Verif.ResidSpec Verif.AlgStop Verif.ColStop Verif.StopSolve.
Set Implicit Arguments. Unset Strict Implicit. Unset Printing Implicit Defensive.
Import Order.TTheory GRing.Theory Num.Theory.
Local Open Scope ring_scope.

Section Geom.
Variable R : rcfType.
Hypothesis AR : archimedean R.
Lemma bernoulli (a : R) n : 0 <= a -> 1 + n%:R * a <= (1 + a) ^+ n.
Proof.
move=> a0; elim: n => [|n IH]; first by rewrite mul0r addr0 expr0.
rewrite exprSr; apply: le_trans (ler_wpmul2r _ IH); last by rewrite addr_ge0 ?ler01.
rewrite mulrDr mulr1 -addrA ler_add2l mulrDl mul1r -[n.+1]addn1 natrD mulrDl mul1r ler_add2l ler_addl.
by rewrite mulr_ge0 // mulr_ge0 ?ler0n.
Qed.
Lemma geom (q c eps : R) : 0 < q < 1 -> 0 <= c -> 0 < eps -> exists T, forall t, (T <= t)%N -> q ^+ t * c <= eps.
Proof.
move=> /andP [q0 q1] c0 e0; pose a := q^-1 - 1.
have a0 : 0 < a by rewrite subr_gt0 invf_gt1.
have [T hT] := AR (c / (a * eps)); exists T => t Tt.
have qi : 0 < q^-1 by rewrite invr_gt0.
rewrite -(ler_pmul2l (exprn_gt0 t qi)) mulrA -exprMn mulVf ?gt_eqF // expr1n mul1r.
have -> : q^-1 = 1 + a by rewrite addrC subrK.
move: hT; rewrite ltr_pdivr_mulr ?mulr_gt0 // => /ltW hT; apply: le_trans hT _.
rewrite mulrA ler_pmul2r //; apply: le_trans (bernoulli t (ltW a0)).
apply: le_trans (_ : t%:R * a <= _); last by rewrite ler_addr ler01.
by rewrite ler_pmul2r // ler_nat.
Qed.
Lemma geom_sum m (q c : nat -> R) eps : (forall i, (i < m)%N -> 0 < q i < 1 /\ 0 <= c i) -> 0 < eps ->
  exists T, forall t, (T <= t)%N -> \sum_(i < m) q i ^+ t * c i <= eps.
Proof.
elim: m eps => [|m IH] eps h e0; first by exists 0%N => t _; rewrite big_ord0 ltW.
have e2 : 0 < eps / 2%:R by rewrite divr_gt0 ?ltr0n.
have [T1 h1] := IH _ (fun i im => h i (ltnW im)) e2; have [[q0 c0]] := conj (h m (ltnSn m)) I => _.
have [T2 h2] := geom q0 c0 e2; exists (maxn T1 T2) => t; rewrite geq_max => /andP [a b].
rewrite big_ord_recr /= (_ : eps = eps / 2%:R + eps / 2%:R); last by rewrite -mulr2n -mulr_natr divfK ?pnatr_eq0.
by apply: ler_add; [exact: h1|exact: h2].
Qed.
End Geom.

Section Final.
Variables (R : rcfType) (C : fieldType) (inj : {rmorphism R -> C}) (cj : {rmorphism C -> C}) (e : {rmorphism C -> R[i]}) (n0 : nat) (G : Type).
Variables (fo : fops R) (bl : blas R 'cV[C]_n0.+1 'M[C]_n0.+1 G C) (qe : qr_env R) (td : tridiag R) (cf : conf R) (sort_idx : list R -> list nat).
Variables (H : 'M[C]_n0.+1) (fsort : list R -> list R) (l0 : nat) (V1 : list 'cV[C]_n0.+1) (ritzv resid : list R).
Local Notation n := (Nat.add (c_nev cf) (c_nex cf)).
Local Notation N := n0.+1.
Local Notation nsK := (cmK fo qe td (stop_late (late_failure bl n) (colD fo bl false n)) (c_nev cf) (c_nex cf)).
Local Notation mpiK := (cmK fo qe td (colD fo bl true n) (c_nev cf) (c_nex cf)).
Hypothesis Hperm : forall keys, Permutation (sort_idx keys) (List.seq 0 (length keys)).
Hypotheses (EF : exact_fops fo) (LT : forall x y, f_lt fo x y = (x < y)) (EM : exact_mv inj cj bl) (EQ : exact_qr cj bl n) (ER : exact_rr inj cj bl H n) (EV : exact_vec inj cj bl) (OR : ordered_rr cj bl H n).
Hypotheses (HH : hermitian cj H) (IC : in_complex inj cj e) (HV : length V1 = n) (HC : conf_ok cf).
Variables (us : seq 'cV[C]_N) (ls : seq R) (m : nat) (Y : nat -> nat -> C).
Hypothesis EB : eigenbasis inj cj H us ls.
Hypotheses (nm : (c_nev cf <= m)%N) (mn : (m <= n)%N).
Local Notation V0 s0 := (cs_C (cm_dla (ss_k s0))).
Local Notation d := (Nat.min (Nat.add (c_deg cf) (Nat.modulo (c_deg cf) 2)) (c_maxdeg cf)).
Local Notation total s0 ub t := (total_err cj e us ls (V0 s0) Y (ss_lowerb s0) ub d t m).
Local Notation sst := (@sstate R (@cm (@cst 'cV[C]_N 'M[C]_N))).

Lemma one_locked K k ub (s0 : sst) : c_nev cf = 1%N -> entered fo K fsort cf k ritzv resid ub s0 ->
  forall T h t, run fo K sort_idx cf ub s0 h t -> lt (length h) T -> ss_locked t = 0%N \/ ss_locked t = c_nev cf.
Proof.
move=> n1 He T h t HR _; have := run_locked fo K sort_idx Hperm fsort cf k ritzv resid ub s0 h t He HR; rewrite n1.
by case: (ss_locked t) => [|[|a]] hl; [left|right|case/ssrnat.leP: hl].
Qed.

Section Cf.
Hypothesis tol0 : 0 <= c_tol cf.
Hypothesis HM : le 1 (c_maxiter cf).
Lemma mpi_stops_one ub s0 o s T : let k := mk_cm l0 (mpi_state bl (c_nev cf) (c_nex cf) H V1) in c_nev cf = 1%N ->
  entered fo mpiK fsort cf k ritzv resid ub s0 -> splits ls m (ss_lambda s0) (ss_lowerb s0) ub -> reaches cj us (V0 s0) m Y ->
  le 1 T -> le T (c_maxiter cf) -> (c_opt cf = true -> T = 1%N) -> budget ls m (ss_lowerb s0) ub (total s0 ub T) <= c_tol cf ^+ 2 ->
  solve fo mpiK fsort sort_idx cf k ritzv resid = Ok o -> o_exit o = Some s ->
  ss_locked s = 1%N /\ le (ss_iter s) T /\ (ss_iter s = T -> {in take (c_nev cf) (o_res o), forall r, r <= c_tol cf}).
Proof.
move=> k n1 He SP RE T1 TM To hb E Hx.
have [a b] := (mpi_stops Hperm EF EM EQ ER HH IC EV OR HV HC HM LT EB nm mn tol0 He SP RE T1 TM To hb (one_locked n1 He (T := T)) E Hx).
by split; [rewrite a; exact: n1|exact: b].
Qed.
Lemma ns_stops_one ub s0 o s T : le (c_nex cf) (c_nev cf) -> let k := mk_cm l0 (seq_state bl (c_nev cf) (c_nex cf) H V1) in c_nev cf = 1%N ->
  entered fo nsK fsort cf k ritzv resid ub s0 -> splits ls m (ss_lambda s0) (ss_lowerb s0) ub -> reaches cj us (V0 s0) m Y ->
  le 1 T -> le T (c_maxiter cf) -> (c_opt cf = true -> T = 1%N) -> budget ls m (ss_lowerb s0) ub (total s0 ub T) <= c_tol cf ^+ 2 ->
  solve fo nsK fsort sort_idx cf k ritzv resid = Ok o -> o_exit o = Some s ->
  ss_locked s = 1%N /\ le (ss_iter s) T /\ (ss_iter s = T -> {in take (c_nev cf) (o_res o), forall r, r <= c_tol cf}).
Proof.
move=> HX k n1 He SP RE T1 TM To hb E Hx.
have [a b] := (ns_stops Hperm EF EM EQ ER HH IC EV OR HV HC HM LT EB nm mn tol0 HX He SP RE T1 TM To hb (one_locked n1 He (T := T)) E Hx).
by split; [rewrite a; exact: n1|exact: b].
Qed.
End Cf.

(** enough iterations make the bound as small as wanted *)
Lemma enough (V : seq 'cV[C]_N) la lo up (tol : R) : archimedean R -> 0 < tol -> splits ls m la lo up ->
  exists T, forall t, (T <= t)%N -> budget ls m lo up (total_err cj e us ls V Y lo up d t m) <= tol ^+ 2.
Proof.
move=> AR tol0 [h1 [h2 [hm [h3 h4]]]].
have m0 : (0 < m)%N by apply: leq_trans nm; case: HC => /ssrnat.leP.
pose D := up - ls`_0; pose g := lo - ls`_m.-1; pose B := D ^+ 2 * (1 + m%:R * D / g) *+ 2.
have g0 : 0 < g by rewrite subr_gt0 h3 // prednK.
have D0 : 0 < D by rewrite subr_gt0; apply: lt_trans h2; exact: h3.
have B0 : 0 < B by rewrite pmulrn_lgt0 // mulr_gt0 ?exprn_gt0 // addr_gt0 ?ltr01 // divr_gt0 // mulr_gt0 // ltr0n.
have e0 : 0 < tol ^+ 2 / B by rewrite divr_gt0 // exprn_gt0.
have d1 : le 1 d by case: HC => a [b [c _]]; exact: deg_pos.
have [|T hT] := @geom_sum R AR m (fun i => rate lo up d ls`_i ^+ 2) (fun i => dist2 cj e (combined V Y i) us`_i) _ _ e0.
  move=> i im; split; last exact: (dist2_ge0 IC).
  have /andP [r0 r1] := rate_lt1 h2 h3 im d1.
  by rewrite exprn_gt0 //= expr_lt1 // ltW.
exists T => t Tt; have := hT t Tt; rewrite ler_pdivl_mulr // => hb.
rewrite /budget -/D -/g (_ : _ *+ 2 = total_err cj e us ls V Y lo up d t m * B); last first.
  by rewrite /B -mulrnAr mulrAC [RHS]mulrC mulrnAr mulrnAl.
apply: le_trans hb; rewrite ler_pmul2r // le_eqVlt; apply/orP; left; apply/eqP.
by apply: eq_bigr => i _; rewrite /err exprM.
Qed.
End Final.

Section Eventually.
Variables (R : rcfType) (C : fieldType) (inj : {rmorphism R -> C}) (cj : {rmorphism C -> C}) (e : {rmorphism C -> R[i]}) (n0 : nat) (G : Type).
Variables (fo : fops R) (bl : blas R 'cV[C]_n0.+1 'M[C]_n0.+1 G C) (qe : qr_env R) (td : tridiag R) (cf : conf R) (sort_idx : list R -> list nat).
Variables (H : 'M[C]_n0.+1) (fsort : list R -> list R) (l0 : nat) (V1 : list 'cV[C]_n0.+1) (ritzv resid : list R).
Local Notation n := (Nat.add (c_nev cf) (c_nex cf)).
Local Notation N := n0.+1.
Local Notation nsK := (cmK fo qe td (stop_late (late_failure bl n) (colD fo bl false n)) (c_nev cf) (c_nex cf)).
Local Notation mpiK := (cmK fo qe td (colD fo bl true n) (c_nev cf) (c_nex cf)).
Hypothesis Hperm : forall keys, Permutation (sort_idx keys) (List.seq 0 (length keys)).
Hypotheses (EF : exact_fops fo) (LT : forall x y, f_lt fo x y = (x < y)) (EM : exact_mv inj cj bl) (EQ : exact_qr cj bl n) (ER : exact_rr inj cj bl H n) (EV : exact_vec inj cj bl) (OR : ordered_rr cj bl H n).
Hypotheses (HH : hermitian cj H) (IC : in_complex inj cj e) (HV : length V1 = n) (HC : conf_ok cf).
Variables (us : seq 'cV[C]_N) (ls : seq R) (m : nat) (Y : nat -> nat -> C).
Hypothesis EB : eigenbasis inj cj H us ls.
Hypotheses (nm : (c_nev cf <= m)%N) (mn : (m <= n)%N).
Local Notation V0 s0 := (cs_C (cm_dla (ss_k s0))).
Local Notation d := (Nat.min (Nat.add (c_deg cf) (Nat.modulo (c_deg cf) 2)) (c_maxdeg cf)).
Local Notation total s0 ub t := (total_err cj e us ls (V0 s0) Y (ss_lowerb s0) ub d t m).
Local Notation sst := (@sstate R (@cm (@cst 'cV[C]_N 'M[C]_N))).

Lemma mpi_eventually ub s0 : let k := mk_cm l0 (mpi_state bl (c_nev cf) (c_nex cf) H V1) in archimedean R -> 0 < c_tol cf -> c_nev cf = 1%N -> c_opt cf = false ->
  entered fo mpiK fsort cf k ritzv resid ub s0 -> splits ls m (ss_lambda s0) (ss_lowerb s0) ub -> reaches cj us (V0 s0) m Y ->
  exists T, forall M o s, le T M -> solve fo mpiK fsort sort_idx (with_maxiter cf M) k ritzv resid = Ok o -> o_exit o = Some s -> ss_locked s = 1%N /\ le (ss_iter s) T.
Proof.
move=> k AR tol0 n1 op He SP RE; have [T0 hT] := enough IC HC us Y nm (V0 s0) AR tol0 SP.
exists T0.+1 => M o s TM E Hx.
have M1 : le 1 M by apply: PeanoNat.Nat.le_trans TM; apply/ssrnat.leP.
have [a [b _]] := @mpi_stops_one R C inj cj e n0 G fo bl qe td (with_maxiter cf M) sort_idx H fsort l0 V1 ritzv resid Hperm EF LT EM EQ ER EV OR HH IC HV HC us ls m Y EB nm mn (ltW tol0) M1 ub s0 o s T0.+1 n1 He SP RE
  (le_n_S _ _ (le_0_n _)) TM (fun h => ltac:(by rewrite /= op in h)) (hT _ (leqnSn _)) E Hx.
by [].
Qed.
Lemma ns_eventually ub s0 : le (c_nex cf) (c_nev cf) -> let k := mk_cm l0 (seq_state bl (c_nev cf) (c_nex cf) H V1) in archimedean R -> 0 < c_tol cf -> c_nev cf = 1%N -> c_opt cf = false ->
  entered fo nsK fsort cf k ritzv resid ub s0 -> splits ls m (ss_lambda s0) (ss_lowerb s0) ub -> reaches cj us (V0 s0) m Y ->
  exists T, forall M o s, le T M -> solve fo nsK fsort sort_idx (with_maxiter cf M) k ritzv resid = Ok o -> o_exit o = Some s -> ss_locked s = 1%N /\ le (ss_iter s) T.
Proof.
move=> HX k AR tol0 n1 op He SP RE; have [T0 hT] := enough IC HC us Y nm (V0 s0) AR tol0 SP.
exists T0.+1 => M o s TM E Hx.
have M1 : le 1 M by apply: PeanoNat.Nat.le_trans TM; apply/ssrnat.leP.
have [a [b _]] := @ns_stops_one R C inj cj e n0 G fo bl qe td (with_maxiter cf M) sort_idx H fsort l0 V1 ritzv resid Hperm EF LT EM EQ ER EV OR HH IC HV HC us ls m Y EB nm mn (ltW tol0) M1 ub s0 o s T0.+1 HX n1 He SP RE
  (le_n_S _ _ (le_0_n _)) TM (fun h => ltac:(by rewrite /= op in h)) (hT _ (leqnSn _)) E Hx.
by [].
Qed.
End Eventually.

Section Ext.
Variables (R : rcfType) (fo : fops R).
Hypothesis LT : forall x y, f_lt fo x y = (x < y).
Lemma max_elementP l x : max_element fo l = Ok x -> x \in l /\ forall y, y \in l -> y <= x.
Proof.
case: l => [//|a t] [<-]; elim: t a => [|b t IH] a /=; first by rewrite inE; split=> // y; rewrite inE => /eqP ->.
rewrite LT; case: ltP => h.
  have [i j] := IH b; split; first by move: i; rewrite !inE => /orP [->|->]; rewrite ?orbT.
  by move=> y; rewrite !inE => /or3P [/eqP ->|hy|hy]; [apply: le_trans (ltW h) _; apply: j; rewrite inE eqxx|apply: j; rewrite inE hy|apply: j; rewrite inE hy orbT].
have [i j] := IH a; split; first by move: i; rewrite !inE => /orP [->|->]; rewrite ?orbT.
by move=> y; rewrite !inE => /or3P [hy|/eqP ->|hy]; [apply: j; rewrite inE hy|apply: le_trans h _; apply: j; rewrite inE eqxx|apply: j; rewrite inE hy orbT].
Qed.
Lemma min_elementP l x : min_element fo l = Ok x -> x \in l /\ forall y, y \in l -> x <= y.
Proof.
case: l => [//|a t] [<-]; elim: t a => [|b t IH] a /=; first by rewrite inE; split=> // y; rewrite inE => /eqP ->.
rewrite LT; case: ltP => h.
  have [i j] := IH b; split; first by move: i; rewrite !inE => /orP [->|->]; rewrite ?orbT.
  by move=> y; rewrite !inE => /or3P [/eqP ->|hy|hy]; [apply: le_trans (ltW h); apply: j; rewrite inE eqxx|apply: j; rewrite inE hy|apply: j; rewrite inE hy orbT].
have [i j] := IH a; split; first by move: i; rewrite !inE => /orP [->|->]; rewrite ?orbT.
by move=> y; rewrite !inE => /or3P [hy|/eqP ->|hy]; [apply: j; rewrite inE hy|apply: le_trans h; apply: j; rewrite inE eqxx|apply: j; rewrite inE hy orbT].
Qed.
End Ext.

Section Restart.
Variables (R : rcfType) (C : fieldType) (inj : {rmorphism R -> C}) (cj : {rmorphism C -> C}) (e : {rmorphism C -> R[i]}) (n0 : nat) (G : Type).
Variables (fo : fops R) (bl : blas R 'cV[C]_n0.+1 'M[C]_n0.+1 G C) (qe : qr_env R) (td : tridiag R) (cf : conf R) (sort_idx : list R -> list nat).
Variables (H : 'M[C]_n0.+1) (fsort : list R -> list R) (l0 : nat) (V1 : list 'cV[C]_n0.+1) (ritzv resid : list R).
Local Notation n := (Nat.add (c_nev cf) (c_nex cf)).
Local Notation N := n0.+1.
Local Notation nsK := (cmK fo qe td (stop_late (late_failure bl n) (colD fo bl false n)) (c_nev cf) (c_nex cf)).
Local Notation mpiK := (cmK fo qe td (colD fo bl true n) (c_nev cf) (c_nex cf)).
Hypothesis Hperm : forall keys, Permutation (sort_idx keys) (List.seq 0 (length keys)).
Hypotheses (EF : exact_fops fo) (LT : forall x y, f_lt fo x y = (x < y)) (EM : exact_mv inj cj bl) (EQ : exact_qr cj bl n) (ER : exact_rr inj cj bl H n) (EV : exact_vec inj cj bl) (OR : ordered_rr cj bl H n).
Hypotheses (HH : hermitian cj H) (IC : in_complex inj cj e) (HV : length V1 = n) (HC : conf_ok cf) (HM : le 1 (c_maxiter cf)).
Variables (us : seq 'cV[C]_N) (ls : seq R) (m : nat).
Hypothesis EB : eigenbasis inj cj H us ls.
Hypotheses (nm : (c_nev cf <= m)%N) (mn : (m < n)%N) (nN : (n <= N)%N) (tol0 : 0 <= c_tol cf).
Hypotheses (HA : c_approx cf = true) (PR : perm_eq (take n ritzv) (take n ls)) (gap : ls`_m.-1 < ls`_m) (flat : ls`_m = ls`_n.-1).
Hypothesis SPAN : forall i, (i < m)%N -> in_span V1 us`_i.

Lemma restart_splits la lo ub : max_element fo (List.firstn n ritzv) = Ok lo -> min_element fo (List.firstn n ritzv) = Ok la -> ls`_n.-1 < ub -> (forall x, x \in ls -> x <= ub) -> splits ls m la lo ub.
Proof.
have [su ou sl so _] := EB; have lss i j : (i <= j < N)%N -> ls`_i <= ls`_j.
  by move=> /andP [ij jN]; apply: (sorted_leq_nth le_trans lexx 0 so) => //; rewrite inE sl // (leq_ltn_trans ij).
have m0 : (0 < m)%N by apply: leq_trans nm; case: HC => /ssrnat.leP.
have n1 : (0 < n)%N by apply: leq_ltn_trans mn.
have st : size (take n ls) = n by rewrite size_takel // sl.
rewrite firstnE => /(max_elementP LT) [i1 j1] /(min_elementP LT) [i2 j2] h1 h2.
have mem y : (y \in take n ritzv) = (y \in take n ls) by apply: perm_mem.
have lt j : (j < n)%N -> ls`_j \in take n ritzv by move=> jn; rewrite mem -(nth_take 0 jn) mem_nth // st.
have pn : (n.-1 < n)%N by rewrite ltn_predL.
have lo_n : lo = ls`_n.-1.
  apply/eqP; rewrite eq_le j1 ?lt // andbT; move: i1; rewrite mem => /(nthP 0) [j]; rewrite st => jn <-.
  by rewrite nth_take //; apply: lss; rewrite (leq_trans pn nN) -ltnS prednK // jn.
have la_0 : la <= ls`_0 by apply: j2; exact: lt.
have below j : (j < m)%N -> ls`_j < lo.
  move=> jm; rewrite lo_n -flat; apply: le_lt_trans gap; apply: lss; rewrite -ltnS prednK // jm /=.
  by apply: ltnW; exact: leq_trans mn nN.
split; first by apply: le_lt_trans la_0 (below _ m0).
split; first by rewrite lo_n.
split; first by rewrite sl ltnW // (leq_trans mn).
split=> // j; rewrite sl => /andP [mj jN]; rewrite lo_n -flat h2 ?mem_nth ?sl // andbT.
by apply: lss; rewrite mj.
Qed.

Lemma restart_data : exists Y, reaches cj us V1 m Y /\ forall lo up d, total_err cj e us ls V1 Y lo up d 1 m = 0.
Proof.
have [su ou sl so _] := EB; have mN : (m <= N)%N by rewrite ltnW // (leq_trans mn).
have [z hz] := @fin_choose (nat -> C) (fun i a => us`_i = \sum_(l < size V1) a l *: V1`_l) m (fun _ => 0) SPAN.
exists (fun l j => z j l); split.
  move=> i j im jm; rewrite -(ou i j) ?su ?(leq_trans im) ?(leq_trans jm) // [in RHS](hz j jm) dot_sumr.
  by apply: eq_bigr => l _; rewrite dotZr mulrC.
move=> lo up d; rewrite /total_err big1 // => i _; rewrite /err (_ : combined _ _ _ = us`_i); last by rewrite /combined -hz.
by rewrite /dist2 subrr dot0r rmorph0 mulr0.
Qed.

Lemma mpi_restart ub s0 o s : let k := mk_cm l0 (mpi_state bl (c_nev cf) (c_nex cf) H V1) in
  entered fo mpiK fsort cf k ritzv resid ub s0 -> ls`_n.-1 < ub -> (forall x, x \in ls -> x <= ub) ->
  solve fo mpiK fsort sort_idx cf k ritzv resid = Ok o -> o_exit o = Some s ->
  ss_locked s = c_nev cf /\ ss_iter s = 1%N /\ {in take (c_nev cf) (o_res o), forall r, r <= c_tol cf}.
Proof.
move=> k He h1 h2 E Hx; have [EC [Hmax Hmin]] := ltac:(eapply approx_entered; [exact HA|exact He]); have [Y [RE tot]] := restart_data.
apply: (mpi_stops1 Hperm EF EM EQ ER HH IC EV OR HV HC HM LT EB nm (ltnW mn) tol0 He (restart_splits Hmax Hmin h1 h2) (Y := Y)) => //; first by rewrite EC.
by rewrite EC tot /budget mulr0 mul0r mul0rn exprn_ge0.
Qed.
Lemma ns_restart ub s0 o s : le (c_nex cf) (c_nev cf) -> let k := mk_cm l0 (seq_state bl (c_nev cf) (c_nex cf) H V1) in
  entered fo nsK fsort cf k ritzv resid ub s0 -> ls`_n.-1 < ub -> (forall x, x \in ls -> x <= ub) ->
  solve fo nsK fsort sort_idx cf k ritzv resid = Ok o -> o_exit o = Some s ->
  ss_locked s = c_nev cf /\ ss_iter s = 1%N /\ {in take (c_nev cf) (o_res o), forall r, r <= c_tol cf}.
Proof.
move=> HX k He h1 h2 E Hx; have [EC [Hmax Hmin]] := ltac:(eapply approx_entered_ns; [exact HA|exact He]); have [Y [RE tot]] := restart_data.
apply: (ns_stops1 Hperm EF EM EQ ER HH IC EV OR HV HC HM LT EB nm (ltnW mn) tol0 HX He (restart_splits Hmax Hmin h1 h2) (Y := Y)) => //; first by rewrite EC.
by rewrite EC tot /budget mulr0 mul0r mul0rn exprn_ge0.
Qed.
End Restart.
