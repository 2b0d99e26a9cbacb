(** Whole runs of the sequential and the in-place backend on arrays, with exact library calls. *)
From Coq Require Import Permutation.
From mathcomp Require Import all_ssreflect all_algebra all_real_closed.
Require Import Verif.Base Verif.AlgModel Verif.AlgSpec Verif.AlgProofs2 Verif.AlgProofs4 Verif.AlgSim Verif.AlgSim2 Verif.DlaModel Verif.DlaSim Verif.ColModel Verif.ColSpec Verif.ColOrth Verif.ColRel
  Verif.SfModel Verif.SfSpec Verif.SfProofs1 Verif.SfProofs4 Verif.SfProofs5 Verif.SiModel Verif.SiSpec Verif.SiProofs2 Verif.SiProofs3
  Verif.ExactSpec Verif.ExactSolve Verif.OrthSpec Verif.OrthProofs Verif.OrthSolve Verif.KyFan Verif.LapackSpec Verif.LapackProofs Verif.BackSpec Verif.BackSpec2 Verif.BackSolve
  Verif.SxSpec Verif.SxRel Verif.SxProofs1 Verif.SxProofs2.
Import Verif.ExactSpec Verif.OrthSpec Verif.ColSpec.
Set Implicit Arguments. Unset Strict Implicit. Unset Printing Implicit Defensive.
Import GRing.Theory Num.Theory.
Local Open Scope ring_scope.
Local Open Scope complex_scope.

Section Runs.
Variables (R : rcfType) (C : fieldType) (inj : {rmorphism R -> C}) (cj : {rmorphism C -> C}) (e : {rmorphism C -> R[i]}).
Variables (fo : fops R) (lb : flib R C) (qe : qr_env R) (td : tridiag R) (cf : conf R) (N ldh : nat).
Variables (fsort : list R -> list R) (si : list R -> list nat) (l0 : nat) (ritzv resid : list R) (H V1 : list C).
Local Notation n := (Nat.add (c_nev cf) (c_nex cf)).
Hypotheses (N1 : le 1 N) (NL : le N ldh) (HL : le (Nat.add (Nat.mul (Nat.sub N 1) ldh) N) (length H)) (HV : length V1 = Nat.mul N n).
Hypotheses (EF : exact_fops fo) (XL : exact_lib inj cj lb N n).
Local Notation Hm := (matrix_of N ldh H).
Local Notation mb := (mxb fo lb N).
Local Notation cb := (col_blas fo lb N).
Local Notation vs := (List.map (@lst C N)).

Lemma windowE A : window lb N ldh A = cols (matrix_of N ldh A).
Proof. by apply: tab2_eq => i j; rewrite entE mxE lnthE (xs_zero XL). Qed.
Lemma vectorsE A : length A = Nat.mul N n -> columns N n A = vs (vectors_of N n A).
Proof.
move=> sz; rewrite /columns tabE lmapE -map_comp; apply/eq_in_map => j; rewrite mem_iota add0n => /= /ltP hj.
apply: (@eq_from_nth _ 0); rewrite [size (List.firstn _ _)](column_size _ _ _ _ hj sz) ?lst_size // => i hi.
by rewrite (lst_nth _ (Ordinal hi)) mxE -lnthE (column_nth _ _ _ _ _ (ltP hi)) lnthE plusE multE.
Qed.
Lemma vs_inj X Y : vs X = vs Y -> X = Y.
Proof. by elim: X Y => [|x X IH] [|y Y] //= [h /IH ->]; rewrite -(cvl_lst x) h cvl_lst. Qed.
Lemma cols_inj (A B : 'M[C]_N) : cols A = cols B -> A = B.
Proof. by move=> h; apply/matrixP => i j; rewrite -!cols_nth h. Qed.
Lemma zerosE k : List.repeat (List.repeat (l_zero lb) N) k = vs (List.repeat (cvl N (List.repeat (l_zero lb) N)) k).
Proof. by elim: k => //= k ->; rewrite lst_cvl // rep_size. Qed.
Lemma v_f2 l : List.Forall2 (@RV C N) l (vs l). Proof. exact: lst_f2. Qed.

(** ** the sequential backend *)
Local Notation fD := (flatD fo lb N ldh n).
Local Notation f0 := (mk_cm l0 (flat_state lb N (c_nev cf) (c_nex cf) H V1)).
Local Notation m0 := (mk_cm l0 (seq_state mb (c_nev cf) (c_nex cf) Hm (vectors_of N n V1))).
Local Notation RA := (cmR (SfSpec.flat_rel lb N ldh n H)).
Local Notation RC := (cmR (cstR (@RV C N) (@RM C N))).
Local Notation K L := (cmK fo qe td L (c_nev cf) (c_nex cf)).

Lemma seq_start : RC m0 (mk_cm l0 (seq_state cb (c_nev cf) (c_nex cf) (window lb N ldh H) (columns N n V1))).
Proof.
split=> //=; split; first exact: windowE; split=> /=; first by rewrite vectorsE //; exact: v_f2.
by split; last split; last split=> //; rewrite /= zerosE; exact: v_f2.
Qed.
Lemma seq_chain (K1 : kernel R (DlaModel.cm (D := fst_ (T := C)))) K2 K3 o : kernel_rel K1 K2 RA -> kernel_rel K3 K2 RC -> solve fo K1 fsort si cf f0 ritzv resid = Ok o ->
  exists o', solve fo K3 fsort si cf m0 ritzv resid = Ok o' /\ o_ritz o' = o_ritz o /\ o_res o' = o_res o /\
    cs_C (cm_dla (o_k o')) = vectors_of N n (f_C (cm_dla (o_k o))) /\ (forall s, o_exit o = Some s -> exists s', o_exit o' = Some s') /\
    (cs_H (cm_dla (o_k o')) = Hm -> f_H (cm_dla (o_k o)) = H).
Proof.
move=> A B E.
have S1 := solve_rel fo _ _ _ A fsort si cf _ _ ritzv resid (start_rel fo lb cf N ldh N1 NL H V1 HL HV l0).
have [b [Eb [[Ek Rk] [Er [Es Rx]]]]] := rel_ok_r _ _ _ _ S1 E.
have S2 := solve_rel fo _ _ _ B fsort si cf _ _ ritzv resid seq_start.
have [c [Ec [[Ek' [RH [RCc _]]] [Er' [Es' Rx']]]]] := rel_ok_l _ _ _ _ S2 Eb.
have [lH [pH [wH [pC [lC _]]]]] := Rk.
exists c; rewrite Er' Es' Er Es; do ! split=> //.
- apply: vs_inj; rewrite -(f2_lst RCc) -vectorsE ?(columns_packs _ _ _ _ N1 pC lC) //.
  by rewrite (packs_len _ N1 _ _ pC) lC PeanoNat.Nat.mul_comm.
- move=> s Ex; rewrite Ex in Rx; case Exb : (o_exit b) Rx Rx' => [sb|] // _; case Exc : (o_exit c) => [sc|] // _; by exists sc.
move=> hH; apply: (array_eq lb N ldh _ _ NL lH pH); by rewrite -wH RH hH windowE.
Qed.

(** ** the in-place backend *)
Local Notation gD := (iflatD fo lb N ldh n).
Local Notation g0 := (mk_cm l0 (iflat_state lb N (c_nev cf) (c_nex cf) H V1)).
Local Notation i0 := (mk_cm l0 (inpl_state mb (c_nev cf) (c_nex cf) Hm (vectors_of N n V1))).
Local Notation RB := (cmR (iflat_rel lb N ldh n H)).
Local Notation RI := (cmR (istR (@RV C N) (@RM C N))).
Lemma inpl_start : RI i0 (mk_cm l0 (inpl_state cb (c_nev cf) (c_nex cf) (window lb N ldh H) (columns N n V1))).
Proof.
split=> //=; split; first exact: windowE; split=> /=; first by rewrite vectorsE //; exact: v_f2.
by split=> //; rewrite /= zerosE; exact: v_f2.
Qed.
Lemma inpl_chain (K1 : kernel R (DlaModel.cm (D := ifst (T := C)))) K2 K3 o : kernel_rel K1 K2 RB -> kernel_rel K3 K2 RI -> solve fo K1 fsort si cf g0 ritzv resid = Ok o ->
  exists o', solve fo K3 fsort si cf i0 ritzv resid = Ok o' /\ o_ritz o' = o_ritz o /\ o_res o' = o_res o /\
    is_V1 (cm_dla (o_k o')) = vectors_of N n (g_V1 (cm_dla (o_k o))) /\ (forall s, o_exit o = Some s -> exists s', o_exit o' = Some s') /\
    (is_H (cm_dla (o_k o')) = Hm -> g_H (cm_dla (o_k o)) = H).
Proof.
move=> A B E.
have S1 := solve_rel fo _ _ _ A fsort si cf _ _ ritzv resid (i_start_rel fo lb cf N ldh N1 NL H V1 HL HV l0).
have [b [Eb [[Ek Rk] [Er [Es Rx]]]]] := rel_ok_r _ _ _ _ S1 E.
have S2 := solve_rel fo _ _ _ B fsort si cf _ _ ritzv resid inpl_start.
have [c [Ec [[Ek' [RH [RCc _]]] [Er' [Es' Rx']]]]] := rel_ok_l _ _ _ _ S2 Eb.
have [lH [pH [wH [pC [lC _]]]]] := Rk.
exists c; rewrite Er' Es' Er Es; do ! split=> //.
- apply: vs_inj; rewrite -(f2_lst RCc) -vectorsE ?(columns_packs _ _ _ _ N1 pC lC) //.
  by rewrite (packs_len _ N1 _ _ pC) lC PeanoNat.Nat.mul_comm.
- move=> s Ex; rewrite Ex in Rx; case Exb : (o_exit b) Rx Rx' => [sb|] // _; case Exc : (o_exit c) => [sc|] // _; by exists sc.
move=> hH; apply: (array_eq lb N ldh _ _ NL lH pH); by rewrite -wH RH hH windowE.
Qed.

(** ** the matrix of the caller *)
Hypotheses (Hperm : forall keys, Permutation (si keys) (List.seq 0 (length keys))) (HC : conf_ok cf).
Lemma seq_matrix o : solve fo (K fD) fsort si cf f0 ritzv resid = Ok o -> f_H (cm_dla (o_k o)) = H.
Proof.
move=> E; have [o' [E' [_ [_ [_ [_ h]]]]]] := seq_chain (flat_every_call fo lb qe td cf N ldh N1 NL H HL) (cm_rel fo _ _ _ _ _ (mx_sim fo lb N) false n qe td (c_nev cf) (c_nex cf)) E.
apply: h; by rewrite ((matrix_exact qe td EF (x_mv fo XL) Hperm fsort ritzv resid HC).1 _ _ _ E').
Qed.
Lemma inpl_matrix o : solve fo (K gD) fsort si cf g0 ritzv resid = Ok o -> g_H (cm_dla (o_k o)) = H.
Proof.
move=> E; have [o' [E' [_ [_ [_ [_ h]]]]]] := inpl_chain (iflat_every_call fo lb qe td cf N ldh N1 NL H HL) (inpl_kernel fo _ _ _ _ _ (mx_sim fo lb N) n qe td (c_nev cf) (c_nex cf)) E.
apply: h; by rewrite ((matrix_exact qe td EF (x_mv fo XL) Hperm fsort ritzv resid HC).2 _ _ E').
Qed.

(** ** the vectors and values *)
Hypotheses (IC : in_complex inj cj e) (HH : hermitian cj Hm) (HM : le 1 (c_maxiter cf)).
Lemma size_vectors (A : list C) : length (vectors_of N n A) = n.
Proof. by rewrite [length _]size_map size_iota. Qed.
Lemma late1 f s : SfSpec.flat_rel lb N ldh n H f s -> late_arr fo lb N n f = late_failure cb n s.
Proof. by move=> [_ [_ [_ [pC [lC _]]]]]; rewrite /late_arr (columns_packs _ _ _ _ N1 pC lC). Qed.
Lemma late2 f s : iflat_rel lb N ldh n H f s -> late_iarr fo lb N n f = late_ist cb n s.
Proof. by move=> [_ [_ [_ [pC [lC _]]]]]; rewrite /late_iarr (columns_packs _ _ _ _ N1 pC lC). Qed.

Lemma seq_arrays o s : le (c_nex cf) (c_nev cf) -> solve fo (K fD) fsort si cf f0 ritzv resid = Ok o -> o_exit o = Some s ->
  (chol_disabled qe \/ solve fo (K (stop_late (late_arr fo lb N n) fD)) fsort si cf f0 ritzv resid = Ok o) ->
  eigen_answer inj cj Hm (c_nev cf) n (o_ritz o) (vectors_of N n (f_C (cm_dla (o_k o)))) (o_res o).
Proof.
move=> HX E Hx HN.
have {HN} ES : solve fo (K (stop_late (late_arr fo lb N n) fD)) fsort si cf f0 ritzv resid = Ok o.
  case: HN => [Hd|h]; [exact: (disabled_run _ _ _ _ _ _ _ _ _ _ _ _ _ _ Hd E)|exact: h].
have KA := stop_kernel fo qe td (c_nev cf) (c_nex cf) _ _ _ _ _ late1 (flat_dla fo lb N ldh n H N1 NL HL) (flat_every_call fo lb qe td cf N ldh N1 NL H HL).
have KB := stop_kernel fo qe td (c_nev cf) (c_nex cf) _ _ _ (late_failure mb n) (late_failure cb n)
   (fun s t (h : cstR (@RV C N) (@RM C N) s t) => late_rel _ _ _ _ _ n _ _ (mx_sim fo lb N) (proj1 (proj2 h)))
   (col_rel fo _ _ _ _ _ (mx_sim fo lb N) false n) (cm_rel fo _ _ _ _ _ (mx_sim fo lb N) false n qe td (c_nev cf) (c_nex cf)).
have [o' [E' [Er [Es [EC [Ex _]]]]]] := seq_chain KA KB ES.
have [s' Hx'] := Ex _ Hx; have P := stop_late_run _ _ _ _ _ _ _ _ _ _ _ _ _ _ E'.
have [sz on] := seq_orthonormal' Hperm EF (x_mv fo XL) (x_qr IC fo XL) (x_rr IC fo XL HH) HH (size_vectors V1) HC HM HX P Hx' (or_intror E').
have X := seq_values' Hperm EF (x_mv fo XL) (x_qr IC fo XL) (x_rr IC fo XL HH) HH (size_vectors V1) HC HM HX IC (x_vec fo XL) P Hx' (or_intror E').
rewrite -EC -Er -Es; apply: (answer_of_pairs IC HH) => //; exact: leq_addr.
Qed.

Lemma inpl_arrays o s : solve fo (K gD) fsort si cf g0 ritzv resid = Ok o -> o_exit o = Some s ->
  (chol_disabled qe \/ solve fo (K (stop_late (late_iarr fo lb N n) gD)) fsort si cf g0 ritzv resid = Ok o) ->
  eigen_answer inj cj Hm (c_nev cf) n (o_ritz o) (vectors_of N n (g_V1 (cm_dla (o_k o)))) (o_res o).
Proof.
move=> E Hx HN.
have {HN} ES : solve fo (K (stop_late (late_iarr fo lb N n) gD)) fsort si cf g0 ritzv resid = Ok o.
  case: HN => [Hd|h]; [exact: (disabled_run _ _ _ _ _ _ _ _ _ _ _ _ _ _ Hd E)|exact: h].
have KA := stop_kernel fo qe td (c_nev cf) (c_nex cf) _ _ _ _ _ late2 (iflat_dla fo lb N ldh n H N1 NL HL) (iflat_every_call fo lb qe td cf N ldh N1 NL H HL).
have KB := stop_kernel fo qe td (c_nev cf) (c_nex cf) _ _ _ (late_ist mb n) (late_ist cb n)
   (fun s t (h : istR (@RV C N) (@RM C N) s t) => late_rel _ _ _ _ _ n _ _ (mx_sim fo lb N) (proj1 (proj2 h)))
   (inpl_rel fo _ _ _ _ _ (mx_sim fo lb N) n) (inpl_kernel fo _ _ _ _ _ (mx_sim fo lb N) n qe td (c_nev cf) (c_nex cf)).
have [o' [E' [Er [Es [EC [Ex _]]]]]] := inpl_chain KA KB ES.
have [s' Hx'] := Ex _ Hx; have P := stop_late_run _ _ _ _ _ _ _ _ _ _ _ _ _ _ E'.
rewrite -EC -Er -Es.
exact: (inpl_answer Hperm EF (x_mv fo XL) (x_qr IC fo XL) (x_rr' IC fo XL HH) HH HC HM IC (x_vec fo XL) (size_vectors V1) P Hx' (or_intror (or_intror E'))).
Qed.

(** the array of the caller after an even number of iterations *)
Lemma inpl_user o s : solve fo (K gD) fsort si cf g0 ritzv resid = Ok o -> o_exit o = Some s ->
  (chol_disabled qe \/ solve fo (K (stop_late (late_iarr fo lb N n) gD)) fsort si cf g0 ritzv resid = Ok o) -> Nat.even (ss_iter s) = true ->
  eigen_answer inj cj Hm (c_nev cf) n (o_ritz o) (vectors_of N n (user_array (cm_dla (o_k o)))) (o_res o).
Proof.
move=> E Hx HN Hev; have [h _] := iflat_parity fo lb qe td cf N ldh N1 NL H V1 HL HV l0 si Hperm fsort ritzv resid o s HC E Hx.
rewrite (h Hev); exact: inpl_arrays E Hx HN.
Qed.

(** ** with a fixed degree and no symmetry test the runs return *)
Hypotheses (Ho : c_opt cf = false) (Hs : c_symcheck cf = false) (Ha : c_approx cf = true) (Hf : forall l, length (fsort l) = length l).
Hypotheses (L1 : le n (length ritzv)) (L2 : le n (length resid)) (HN2 : le 2 (c_N cf)) (HLz : le 1 (c_lanczositer cf)).
Lemma exits (S : Type) (K' : kernel R S) k out : solve fo K' fsort si cf k ritzv resid = Ok out -> exists s, o_exit out = Some s.
Proof.
move=> E; case Ex : (o_exit out) => [s|]; first by exists s.
exfalso; move: E; rewrite /solve Hs => /bind_ok [[c k0] [[<- _]]] /= /bind_ok [[ub s0] [_]] /bind_ok [s [_]] /bind_ok [[r k'] [_]].
by move=> /bind_ok [k'' [_ [Eo]]]; rewrite -Eo in Ex.
Qed.
Lemma seq_total : le (c_nex cf) (c_nev cf) -> chol_disabled qe -> exists o, solve fo (K fD) fsort si cf f0 ritzv resid = Ok o /\
  f_H (cm_dla (o_k o)) = H /\ eigen_answer inj cj Hm (c_nev cf) n (o_ritz o) (vectors_of N n (f_C (cm_dla (o_k o)))) (o_res o).
Proof.
move=> HX Hd; have h : c_approx cf = false -> Logic.False by rewrite Ha.
have [[o E]|[_ D]] := flat_safe fo lb qe td cf N ldh N1 NL H V1 HL HV l0 si Hperm fsort ritzv resid HX HC Hf L1 L2 HN2 HLz (fun q => match h q with end).
  exists o; split=> //; split; first exact: seq_matrix.
  have [s Hx] := exits E; exact: (seq_arrays HX E Hx (or_introl Hd)).
by move: D => [k0 [ub [s0 [t [_ [_ [_ [_ [_ [Hc _]]]]]]]]]]; rewrite Ho in Hc.
Qed.
Lemma inpl_total : chol_disabled qe -> exists o, solve fo (K gD) fsort si cf g0 ritzv resid = Ok o /\
  g_H (cm_dla (o_k o)) = H /\ eigen_answer inj cj Hm (c_nev cf) n (o_ritz o) (vectors_of N n (g_V1 (cm_dla (o_k o)))) (o_res o).
Proof.
move=> Hd; have h : c_approx cf = false -> Logic.False by rewrite Ha.
have [[o E]|[_ D]] := iflat_safe fo lb qe td cf N ldh N1 NL H V1 HL HV l0 si Hperm fsort ritzv resid HC Hf L1 L2 HN2 HLz (fun q => match h q with end).
  exists o; split=> //; split; first exact: inpl_matrix.
  have [s Hx] := exits E; exact: (inpl_arrays E Hx (or_introl Hd)).
by move: D => [k0 [ub [s0 [t [_ [_ [_ [_ [_ [Hc _]]]]]]]]]]; rewrite Ho in Hc.
Qed.
End Runs.
