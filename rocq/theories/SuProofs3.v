(** Used objects of the sequential and the in-place backend, with exact library calls. *)
From Coq Require Import Permutation.
From mathcomp Require Import all_ssreflect all_algebra all_real_closed.
Require Import Verif.Base Verif.AlgModel Verif.AlgSpec Verif.AlgProofs1 Verif.AlgProofs2 Verif.AlgProofs4 Verif.AlgSim Verif.AlgSim2 Verif.DlaModel Verif.DlaSim Verif.ColModel Verif.ColSpec Verif.ColProofs1
  Verif.ColProofs2 Verif.ColOrth Verif.ColRel Verif.InplProofs Verif.SfModel Verif.SfSpec Verif.SfProofs1 Verif.SfProofs4 Verif.SfProofs5 Verif.SiModel Verif.SiSpec Verif.SiProofs2 Verif.SiProofs3
  Verif.ExactSpec Verif.ExactSolve Verif.OrthSpec Verif.OrthProofs Verif.OrthSolve Verif.KyFan Verif.LapackSpec Verif.LapackProofs Verif.BackSpec Verif.BackSpec2 Verif.BackSolve Verif.InplOrth 
  Verif.SxSpec Verif.SxRel Verif.SxProofs1 Verif.SxProofs2 Verif.SxProofs3 Verif.SuSpec Verif.SuProofs1 Verif.SuProofs2.
Import Verif.ExactSpec Verif.OrthSpec Verif.ColSpec.
Set Implicit Arguments. Unset Strict Implicit. Unset Printing Implicit Defensive.
Import GRing.Theory Num.Theory.
Local Open Scope ring_scope.
Local Open Scope complex_scope.

Section Col.
Variables (R : rcfType) (C : fieldType) (inj : {rmorphism R -> C}) (cj : {rmorphism C -> C}) (N : nat) (G : Type).
Variables (fo : fops R) (bl : blas R 'cV[C]_N 'M[C]_N G C) (qe : qr_env R) (td : tridiag R) (cf : conf R) (sort_idx : list R -> list nat).
Variables (H : 'M[C]_N) (fsort : list R -> list R) (ritzv resid : list R) (e : {rmorphism C -> R[i]}) (w : nat).
Local Notation n := (Nat.add (c_nev cf) (c_nex cf)).
Local Notation nsK := (cmK fo qe td (stop_late (late_failure bl n) (colD fo bl false n)) (c_nev cf) (c_nex cf)).
Hypothesis Hperm : forall keys, Permutation (sort_idx keys) (List.seq 0 (length keys)).
Hypotheses (EF : exact_fops fo) (EM : exact_mv inj cj bl) (EQ : exact_qr cj bl n) (ER : exact_rr inj cj bl H n) (HH : hermitian cj H).
Hypotheses (HC : conf_ok cf) (HM : le 1 (c_maxiter cf)) (Hw : le n w) (IC : in_complex inj cj e) (EV : exact_vec inj cj bl).

(** as [OrthSolve.seq_values], from any object of the right sizes *)
Lemma used_answer k o s : sJ0 fo bl (c_nev cf) (c_nex cf) H w k -> solve fo nsK fsort sort_idx cf k ritzv resid = Ok o -> o_exit o = Some s ->
  eigen_answer inj cj H (c_nev cf) n (o_ritz o) (cs_C (cm_dla (o_k o))) (o_res o).
Proof.
move=> HJ E Hx.
have [on sz] := seq_end_on fo bl qe td (c_nev cf) (c_nex cf) H _ Hw _ _ _ (exact_rules EF EM EQ ER HH) sort_idx Hperm fsort cf _ ritzv resid o s erefl erefl HC HJ HM E Hx.
have KC := seq_orth_cols fo bl qe td (c_nev cf) (c_nex cf) H _ Hw _ _ _ (exact_rules EF EM EQ ER HH).
have [sw [Hr [_ [Ec [Er [_ [L1 [L2 X]]]]]]]] := solve_pairs fo _ sort_idx Hperm _ _ _ _ _ _ _ _ KC fsort cf _ ritzv resid o s erefl HC HJ HM E Hx.
apply: (answer_of_pairs IC HH) => //; first exact: leq_addr.
exists (swps sw (List.firstn (c_nev cf) (o_res o))); split; first exact/Permutation_sym/AlgProofs1.swps_perm.
move: L1 L2 X => /= L1 L2 X i hi.
have lc : length (List.firstn (c_nev cf) (cs_C (cm_dla (o_k o)))) = c_nev cf.
  by rewrite List.firstn_length_le // sz; apply: PeanoNat.Nat.le_add_r.
have get A (l : list A) : length l = c_nev cf -> exists a, List.nth_error l i = Some a.
  by move=> hl; case Ea : (List.nth_error l i) => [a|]; [exists a|move/List.nth_error_None: Ea; rewrite hl => /PeanoNat.Nat.le_ngt; case].
have [v hv] := get _ _ (etrans L1 lc). have [x hx] := get _ _ lc. have [r hr] := get _ _ (etrans (esym L2) lc).
have [[_ hray] [h [/(drift_here EF EM) -> rE]]] := X _ _ _ _ hv hx hr.
have hx' : List.nth_error (cs_C (cm_dla (o_k o))) i = Some x by rewrite -hx AlgProofs1.nth_firstn.
have hv' : List.nth_error (o_ritz o) i = Some v by rewrite -hv AlgProofs1.nth_firstn.
have xx : dot cj x x = 1.
  have hs : (i < size (cs_C (cm_dla (o_k o))))%N by apply/ssrnat.ltP; apply/List.nth_error_Some; rewrite hx'.
  have -> : x = (cs_C (cm_dla (o_k o)))`_i by rewrite nthE hx'.
  by rewrite on // eqxx.
have rE' : r = b_nrm2 bl (H *m x - inj v *: x).
  by rewrite rE (ev_inj EV) (ev_axpy EV) (em_mulH EM) (ef_neg EF) rmorphN scaleNr addrC (HH : adj cj H = H).
have [r0 r2] := ev_nrm2 EV (H *m x - inj v *: x); rewrite -rE' in r0 r2.
exists v, x, r; do ! split=> //; exact: (near IC HH xx r0 r2).
Qed.
End Col.

Section Runs.
Variables (R : rcfType) (C : fieldType) (inj : {rmorphism R -> C}) (cj : {rmorphism C -> C}) (e : {rmorphism C -> R[i]}).
Variables (fo : fops R) (lb : flib R C) (qe : qr_env R) (td : tridiag R) (cf : conf R) (N ldh : nat).
Variables (fsort : list R -> list R) (si : list R -> list nat) (l0 : nat) (ritzv resid : list R).
Local Notation n := (Nat.add (c_nev cf) (c_nex cf)).
Hypotheses (N1 : le 1 N) (NL : le N ldh).
Hypotheses (EF : exact_fops fo) (XL : exact_lib inj cj lb N n).
Local Notation mb := (mxb fo lb N).
Local Notation cb := (col_blas fo lb N).
Local Notation vs := (List.map (@lst C N)).
Local Notation K L := (cmK fo qe td L (c_nev cf) (c_nex cf)).
Hypotheses (Hperm : forall keys, Permutation (si keys) (List.seq 0 (length keys))) (HC : conf_ok cf).

Lemma vectorsE' k A : length A = Nat.mul N k -> columns N k A = vs (vectors_of N k A).
Proof.
move=> sz; rewrite /columns tabE lmapE -map_comp; apply/eq_in_map => j; rewrite mem_iota add0n => /= /ltP hj.
apply: (@eq_from_nth _ 0); rewrite [size (List.firstn _ _)](column_size _ _ _ _ hj sz) ?lst_size // => i hi.
by rewrite (lst_nth _ (Ordinal hi)) mxE -lnthE (column_nth _ _ _ _ _ (ltP hi)) lnthE plusE multE.
Qed.
Lemma size_vectors' k (A : list C) : length (vectors_of N k A) = k.
Proof. by rewrite [length _]size_map size_iota. Qed.

(** ** the sequential backend *)
Section Seq.
Variables (w : nat) (f : fst_ (T := C)).
Hypothesis HS : flat_sizes N ldh n w f.
Local Notation Hm := (matrix_of N ldh (f_H f)).
Local Notation fD := (flatD fo lb N ldh n).
Local Notation f0 := (mk_cm l0 f).
Local Notation m0 := (mk_cm l0 (mk_cst Hm (vectors_of N n (f_C f)) (vectors_of N n (f_B f)) (vectors_of N w (f_C2 f)) (vectors_of N w (f_B2 f)) (f_bAc f))).
Local Notation RA := (cmR (SfSpec.flat_rel lb N ldh n (f_H f))).
Local Notation RC := (cmR (cstR (@RV C N) (@RM C N))).

Lemma us_start : RC m0 (mk_cm l0 (flat_columns lb N ldh n w f)).
Proof.
case: HS => [_ [S2 [S3 [S4 [S5 _]]]]]; split=> //=; split; first exact: (windowE ldh XL).
by do ! split=> //=; rewrite ?(vectorsE' S2) ?(vectorsE' S3) ?(vectorsE' S4) ?(vectorsE' S5); exact: v_f2.
Qed.
Lemma us_chain (K1 : kernel R (DlaModel.cm (D := fst_ (T := C)))) K2 K3 o : kernel_rel K1 K2 RA -> kernel_rel K3 K2 RC -> solve fo K1 fsort si cf f0 ritzv resid = Ok o ->
  exists o', solve fo K3 fsort si cf m0 ritzv resid = Ok o' /\ o_ritz o' = o_ritz o /\ o_res o' = o_res o /\
    cs_C (cm_dla (o_k o')) = vectors_of N n (f_C (cm_dla (o_k o))) /\ (forall s, o_exit o = Some s -> exists s', o_exit o' = Some s') /\
    (cs_H (cm_dla (o_k o')) = Hm -> f_H (cm_dla (o_k o)) = f_H f).
Proof.
move=> A B E.
have S1 := solve_rel fo _ _ _ A fsort si cf _ _ ritzv resid (u_start_rel lb cf N ldh w N1 NL f HS l0).
have [b [Eb [[Ek Rk] [Er [Es Rx]]]]] := rel_ok_r _ _ _ _ S1 E.
have S2 := solve_rel fo _ _ _ B fsort si cf _ _ ritzv resid us_start.
have [c [Ec [[Ek' [RH [RCc _]]] [Er' [Es' Rx']]]]] := rel_ok_l _ _ _ _ S2 Eb.
have [lH [pH [wH [pC [lC _]]]]] := Rk.
exists c; rewrite Er' Es' Er Es; do ! split=> //.
- apply: vs_inj; rewrite -(f2_lst RCc) -vectorsE ?(columns_packs _ _ _ _ N1 pC lC) //.
  by rewrite (packs_len _ N1 _ _ pC) lC PeanoNat.Nat.mul_comm.
- move=> s Ex; rewrite Ex in Rx; case Exb : (o_exit b) Rx Rx' => [sb|] // _; case Exc : (o_exit c) => [sc|] // _; by exists sc.
move=> hH; apply: (array_eq lb N ldh _ _ NL lH pH); by rewrite -wH RH hH (windowE ldh XL).
Qed.
Lemma us_matrix o : solve fo (K fD) fsort si cf f0 ritzv resid = Ok o -> f_H (cm_dla (o_k o)) = f_H f.
Proof.
move=> E; have [o' [E' [_ [_ [_ [_ h]]]]]] := us_chain (flat_every_call fo lb qe td cf N ldh N1 NL (f_H f) (proj1 HS)) (cm_rel fo _ _ _ _ _ (mx_sim fo lb N) false n qe td (c_nev cf) (c_nex cf)) E.
apply: h; by rewrite ((matrix_exact qe td EF (x_mv fo XL) Hperm fsort ritzv resid HC).1 _ _ _ E').
Qed.

Hypotheses (IC : in_complex inj cj e) (HH : hermitian cj Hm) (HM : le 1 (c_maxiter cf)).
Lemma us_arrays o s : le n w -> solve fo (K fD) fsort si cf f0 ritzv resid = Ok o -> o_exit o = Some s ->
  (chol_disabled qe \/ solve fo (K (stop_late (late_arr fo lb N n) fD)) fsort si cf f0 ritzv resid = Ok o) ->
  eigen_answer inj cj Hm (c_nev cf) n (o_ritz o) (vectors_of N n (f_C (cm_dla (o_k o)))) (o_res o).
Proof.
move=> Hw E Hx HN; have HL := proj1 HS.
have {HN} ES : solve fo (K (stop_late (late_arr fo lb N n) fD)) fsort si cf f0 ritzv resid = Ok o.
  case: HN => [Hd|h]; [exact: (disabled_run _ _ _ _ _ _ _ _ _ _ _ _ _ _ Hd E)|exact: h].
have KA := stop_kernel fo qe td (c_nev cf) (c_nex cf) _ _ _ _ _ (@late1 _ _ fo lb cf N ldh (f_H f) N1) (flat_dla fo lb N ldh n (f_H f) N1 NL HL) (flat_every_call fo lb qe td cf N ldh N1 NL (f_H f) HL).
have KB := stop_kernel fo qe td (c_nev cf) (c_nex cf) _ _ _ (late_failure mb n) (late_failure cb n)
   (fun s t (h : cstR (@RV C N) (@RM C N) s t) => late_rel _ _ _ _ _ n _ _ (mx_sim fo lb N) (proj1 (proj2 h)))
   (col_rel fo _ _ _ _ _ (mx_sim fo lb N) false n) (cm_rel fo _ _ _ _ _ (mx_sim fo lb N) false n qe td (c_nev cf) (c_nex cf)).
have [o' [E' [Er [Es [EC [Ex _]]]]]] := us_chain KA KB ES.
have [s' Hx'] := Ex _ Hx.
have HJ : sJ0 fo mb (c_nev cf) (c_nex cf) Hm w m0 by split; [split; [|split; [|split]]; exact: size_vectors'|constructor].
rewrite -EC -Er -Es.
exact: (used_answer Hperm EF (x_mv fo XL) (x_qr IC fo XL) (x_rr IC fo XL HH) HH HC HM Hw IC (x_vec fo XL) HJ E' Hx').
Qed.
Hypotheses (Ho : c_opt cf = false) (Hs : c_symcheck cf = false) (Ha : c_approx cf = true) (Hf : forall l, length (fsort l) = length l).
Hypotheses (L1 : le n (length ritzv)) (L2 : le n (length resid)) (HN2 : le 2 (c_N cf)) (HLz : le 1 (c_lanczositer cf)).
Lemma us_total : le n w -> chol_disabled qe -> exists o, solve fo (K fD) fsort si cf f0 ritzv resid = Ok o /\
  f_H (cm_dla (o_k o)) = f_H f /\ flat_sizes N ldh n w (cm_dla (o_k o)) /\ eigen_answer inj cj Hm (c_nev cf) n (o_ritz o) (vectors_of N n (f_C (cm_dla (o_k o)))) (o_res o).
Proof.
move=> Hw Hd; have h : c_approx cf = false -> Logic.False by rewrite Ha.
have [[o E]|[_ D]] := u_safe fo lb qe td cf N ldh w N1 NL f HS l0 si Hperm fsort ritzv resid Hw HC Hf L1 L2 HN2 HLz (fun q => match h q with end).
  exists o; split=> //; split; first exact: us_matrix; split; first exact: (proj1 (u_after fo lb qe td cf N ldh w N1 NL f HS l0 fsort si ritzv resid o E)).
  have [s Hx] := exits Hs E; exact: (us_arrays Hw E Hx (or_introl Hd)).
by move: D => [k0 [ub [s0 [t [_ [_ [_ [_ [_ [Hc _]]]]]]]]]]; rewrite Ho in Hc.
Qed.
End Seq.

(** ** the in-place backend *)
Section Inpl.
Variable f : ifst (T := C).
Hypothesis HS : iflat_sizes N ldh n f.
Local Notation Hm := (matrix_of N ldh (g_H f)).
Local Notation fD := (iflatD fo lb N ldh n).
Local Notation f0 := (mk_cm l0 f).
Local Notation m0 := (mk_cm l0 (mk_ist Hm (vectors_of N n (g_V1 f)) (vectors_of N n (g_V2 f)) (g_sw f))).
Local Notation RA := (cmR (iflat_rel lb N ldh n (g_H f))).
Local Notation RC := (cmR (istR (@RV C N) (@RM C N))).

Lemma ui_start : RC m0 (mk_cm l0 (iflat_columns lb N ldh n f)).
Proof.
case: HS => [_ [S2 [S3 _]]]; split=> //=; split; first exact: (windowE ldh XL).
by do ! split=> //=; rewrite ?(vectorsE' S2) ?(vectorsE' S3); exact: v_f2.
Qed.
Lemma ui_chain (K1 : kernel R (DlaModel.cm (D := ifst (T := C)))) K2 K3 o : kernel_rel K1 K2 RA -> kernel_rel K3 K2 RC -> solve fo K1 fsort si cf f0 ritzv resid = Ok o ->
  exists o', solve fo K3 fsort si cf m0 ritzv resid = Ok o' /\ o_ritz o' = o_ritz o /\ o_res o' = o_res o /\
    is_V1 (cm_dla (o_k o')) = vectors_of N n (g_V1 (cm_dla (o_k o))) /\ (forall s, o_exit o = Some s -> exists s', o_exit o' = Some s') /\
    (is_H (cm_dla (o_k o')) = Hm -> g_H (cm_dla (o_k o)) = g_H f).
Proof.
move=> A B E.
have S1 := solve_rel fo _ _ _ A fsort si cf _ _ ritzv resid (ui_start_rel lb cf N ldh N1 NL f HS l0).
have [b [Eb [[Ek Rk] [Er [Es Rx]]]]] := rel_ok_r _ _ _ _ S1 E.
have S2 := solve_rel fo _ _ _ B fsort si cf _ _ ritzv resid ui_start.
have [c [Ec [[Ek' [RH [RCc _]]] [Er' [Es' Rx']]]]] := rel_ok_l _ _ _ _ S2 Eb.
have [lH [pH [wH [pC [lC _]]]]] := Rk.
exists c; rewrite Er' Es' Er Es; do ! split=> //.
- apply: vs_inj; rewrite -(f2_lst RCc) -vectorsE ?(columns_packs _ _ _ _ N1 pC lC) //.
  by rewrite (packs_len _ N1 _ _ pC) lC PeanoNat.Nat.mul_comm.
- move=> s Ex; rewrite Ex in Rx; case Exb : (o_exit b) Rx Rx' => [sb|] // _; case Exc : (o_exit c) => [sc|] // _; by exists sc.
move=> hH; apply: (array_eq lb N ldh _ _ NL lH pH); by rewrite -wH RH hH (windowE ldh XL).
Qed.
Lemma ui_matrix o : solve fo (K fD) fsort si cf f0 ritzv resid = Ok o -> g_H (cm_dla (o_k o)) = g_H f.
Proof.
move=> E; have [o' [E' [_ [_ [_ [_ h]]]]]] := ui_chain (iflat_every_call fo lb qe td cf N ldh N1 NL (g_H f) (proj1 HS)) (inpl_kernel fo _ _ _ _ _ (mx_sim fo lb N) n qe td (c_nev cf) (c_nex cf)) E.
apply: h; by rewrite ((matrix_exact qe td EF (x_mv fo XL) Hperm fsort ritzv resid HC).2 _ _ E').
Qed.

Hypotheses (IC : in_complex inj cj e) (HH : hermitian cj Hm) (HM : le 1 (c_maxiter cf)).
Lemma ui_arrays o s : solve fo (K fD) fsort si cf f0 ritzv resid = Ok o -> o_exit o = Some s ->
  (chol_disabled qe \/ solve fo (K (stop_late (late_iarr fo lb N n) fD)) fsort si cf f0 ritzv resid = Ok o) ->
  eigen_answer inj cj Hm (c_nev cf) n (o_ritz o) (vectors_of N n (g_V1 (cm_dla (o_k o)))) (o_res o).
Proof.
move=> E Hx HN; have HL := proj1 HS.
have {HN} ES : solve fo (K (stop_late (late_iarr fo lb N n) fD)) fsort si cf f0 ritzv resid = Ok o.
  case: HN => [Hd|h]; [exact: (disabled_run _ _ _ _ _ _ _ _ _ _ _ _ _ _ Hd E)|exact: h].
have KA := stop_kernel fo qe td (c_nev cf) (c_nex cf) _ _ _ _ _ (@late2 _ _ fo lb cf N ldh (g_H f) N1) (iflat_dla fo lb N ldh n (g_H f) N1 NL HL) (iflat_every_call fo lb qe td cf N ldh N1 NL (g_H f) HL).
have KB := stop_kernel fo qe td (c_nev cf) (c_nex cf) _ _ _ (late_ist mb n) (late_ist cb n)
   (fun s t (h : istR (@RV C N) (@RM C N) s t) => late_rel _ _ _ _ _ n _ _ (mx_sim fo lb N) (proj1 (proj2 h)))
   (inpl_rel fo _ _ _ _ _ (mx_sim fo lb N) n) (inpl_kernel fo _ _ _ _ _ (mx_sim fo lb N) n qe td (c_nev cf) (c_nex cf)).
have [o' [E' [Er [Es [EC [Ex _]]]]]] := ui_chain KA KB ES.
have [s' Hx'] := Ex _ Hx.
have HJ : iJ0 fo mb (c_nev cf) (c_nex cf) Hm m0 by split; [split; exact: size_vectors'|constructor].
have RU := swapped_rules EF (x_mv fo XL) (x_qr IC fo XL) (x_rr' IC fo XL HH) HH.
rewrite -EC -Er -Es.
apply: (ist_answer Hperm EF (x_mv fo XL) (x_qr IC fo XL) (x_rr' IC fo XL HH) HH HC HM IC (x_vec fo XL) _ _ HJ E' Hx'); [exact: inpl_ist_rules RU|exact: inpl_stop_cols RU].
Qed.
Hypotheses (Ho : c_opt cf = false) (Hs : c_symcheck cf = false) (Ha : c_approx cf = true) (Hf : forall l, length (fsort l) = length l).
Hypotheses (L1 : le n (length ritzv)) (L2 : le n (length resid)) (HN2 : le 2 (c_N cf)) (HLz : le 1 (c_lanczositer cf)).
Lemma ui_total : chol_disabled qe -> exists o, solve fo (K fD) fsort si cf f0 ritzv resid = Ok o /\
  g_H (cm_dla (o_k o)) = g_H f /\ iflat_sizes N ldh n (cm_dla (o_k o)) /\ eigen_answer inj cj Hm (c_nev cf) n (o_ritz o) (vectors_of N n (g_V1 (cm_dla (o_k o)))) (o_res o).
Proof.
move=> Hd; have h : c_approx cf = false -> Logic.False by rewrite Ha.
have [[o E]|[_ D]] := ui_safe fo lb qe td cf N ldh N1 NL f HS l0 si Hperm fsort ritzv resid HC Hf L1 L2 HN2 HLz (fun q => match h q with end).
  exists o; split=> //; split; first exact: ui_matrix; split; first exact: (proj1 (ui_after fo lb qe td cf N ldh N1 NL f HS l0 fsort si ritzv resid o E)).
  have [s Hx] := exits Hs E; exact: (ui_arrays E Hx (or_introl Hd)).
by move: D => [k0 [ub [s0 [t [_ [_ [_ [_ [_ [Hc _]]]]]]]]]]; rewrite Ho in Hc.
Qed.
End Inpl.
End Runs.
