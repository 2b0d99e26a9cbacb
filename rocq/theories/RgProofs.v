(** Sessions of a distributed solver object. *)
From Coq Require Import Permutation Lia.
From mathcomp Require Import all_ssreflect all_algebra all_real_closed.
Require Import Verif.Base Verif.AlgModel Verif.AlgSpec Verif.AlgSim Verif.AlgSim2 Verif.DlaModel Verif.DlaSim Verif.ColModel Verif.ColSpec Verif.ColRel Verif.MgpuSpec Verif.ReuseSpec Verif.ReuseSeq
  Verif.ExactSpec Verif.OrthSpec.
Require Import Verif.DistSpec Verif.DistProofs2 Verif.RedistSpec Verif.FlatSpec Verif.SpmdModel Verif.SpmdSpec Verif.SpmdProofs Verif.SpmdProofs2 Verif.KerModel Verif.KerSpec Verif.KerProofs9 Verif.ClientModel Verif.DsModel Verif.DsSpec Verif.DsProofs1 Verif.DsProofs8
  Verif.DistModel Verif.RedistModel Verif.BlkSolve Verif.LapackSpec Verif.LapackProofs Verif.LapackSolve Verif.RgSpec.
Import Verif.ExactSpec Verif.OrthSpec Verif.ColSpec.
Set Implicit Arguments. Unset Strict Implicit. Unset Printing Implicit Defensive.
Import GRing.Theory Num.Theory.
Local Open Scope ring_scope.
Local Open Scope complex_scope.

Section One.
Variables (R : rcfType) (C : fieldType) (inj : {rmorphism R -> C}) (cj : {rmorphism C -> C}) (re : C -> R).
Variables (fo : fops R) (oc : oracles C) (qe : qr_env R) (td : tridiag R) (cf : conf R) (N bs p rsrc : nat).
Variables (fsort : list R -> list R) (si : list R -> list nat) (ritzv resid : list R) (H : 'M[C]_N) (V1 : seq 'cV[C]_N).
Local Notation n := (Nat.add (c_nev cf) (c_nex cf)).
Local Notation o := (fld cj).
Local Notation mbl := (mblas inj cj re oc fo N bs p rsrc).
Local Notation run s := (solve fo (cmK fo qe td (colD fo (gblas o fo inj re oc N bs p rsrc) true n) (c_nev cf) (c_nex cf)) fsort si cf s ritzv resid).
Hypotheses (EF : exact_fops fo) (HV : length V1 = n) (HC : conf_ok cf) (Hperm : forall keys, Permutation (si keys) (List.seq 0 (length keys))).

Lemma m_beta : beta_zero fo mbl.
Proof. by move=> h a x y y'; split; apply/matrixP => i j; rewrite !mxE /= (ef_zero EF) rmorph0 !mul0r. Qed.
Lemma f2_cv (vs : list (nat -> C)) : List.Forall2 (@RV C N) (map (@cv C N) vs) vs.
Proof. by elim: vs => //= v vs IH; constructor=> // i; rewrite cvE. Qed.

Lemma used_same l0 l (g : cst (V := nat -> C) (M := nat -> nat -> C)) out : RM H (cs_H g) -> length (cs_C g) = n -> length (cs_B g) = n ->
  length (cs_C2 g) = n -> length (cs_B2 g) = n -> (c_approx cf = true -> List.Forall2 (@RV C N) V1 (cs_C g)) ->
  run (mk_cm l0 (loaded n H V1)) = Ok out ->
  exists out', run (mk_cm l g) = Ok out' /\ o_ritz out' = o_ritz out /\ o_res out' = o_res out /\ (o_exit out' = None <-> o_exit out = None) /\
    (o_exit out <> None -> exists X, List.Forall2 (@RV C N) X (cs_C (cm_dla (o_k out))) /\ List.Forall2 (@RV C N) X (cs_C (cm_dla (o_k out')))).
Proof.
move=> rH lC lB lC2 lB2 rV E.
have S := cm_rel fo _ _ _ _ _ (sim inj cj re oc fo N bs p rsrc) true n qe td (c_nev cf) (c_nex cf).
have S0 : cmR (cstR (@RV C N) (@RM C N)) (mk_cm l0 (mpi_state mbl (c_nev cf) (c_nex cf) H V1)) (mk_cm l0 (loaded n H V1)).
  have z : List.Forall2 (@RV C N) (List.repeat (cv N (fun _ => 0)) n) (List.repeat (fun _ => 0) n) by apply: f2_repeat => i; rewrite cvE.
  do ! split=> //=; by elim: (V1) => //= x w IH; constructor.
pose gm := mk_cst H (if c_approx cf then V1 else map (@cv C N) (cs_C g)) (map (@cv C N) (cs_B g)) (map (@cv C N) (cs_C2 g)) (map (@cv C N) (cs_B2 g)) (cs_bAc g).
have S1 : cmR (cstR (@RV C N) (@RM C N)) (mk_cm l gm) (mk_cm l g).
  do ! split=> //=; try exact: f2_cv; case: (c_approx cf) rV => // h; [exact: h|exact: f2_cv].
have [a [Ea [[_ [_ [HCa _]]] [Er [Es Rx]]]]] := rel_ok_l _ _ _ _ (solve_rel fo _ _ _ S fsort si cf _ _ ritzv resid S0) E.
have X := @seq_same_run _ _ _ _ _ fo mbl qe td true cf si fsort ritzv resid Hperm HC m_beta (mk_cm l gm) (mk_cm l0 (mpi_state mbl (c_nev cf) (c_nex cf) H V1)).
have P : same_problem n (c_approx cf) (mk_cm l gm) (mk_cm l0 (mpi_state mbl (c_nev cf) (c_nex cf) H V1)).
  split=> //; split; first by rewrite /=; case: (c_approx cf) => //; rewrite -lmapE List.map_length.
  split=> //; split; first by rewrite /= => ->.
  by rewrite /= -!lmapE !List.map_length !List.repeat_length.
move: (X P); rewrite /same_run Ea.
case Em : (solve _ _ _ _ _ (mk_cm l gm) _ _) => [m| |] // [M1 [M2 [M3 [_ M4]]]].
have [b [Eb [[_ [_ [HCb _]]] [Fr [Fs Ry]]]]] := rel_ok_r _ _ _ _ (solve_rel fo _ _ _ S fsort si cf _ _ ritzv resid S1) Em.
exists b; split=> //; split; first by rewrite -Fr M1 Er.
split; first by rewrite -Fs M2 Es.
have A1 : o_exit a = None <-> o_exit out = None by case: (o_exit a) (o_exit out) Rx => [?|] [?|].
have A2 : o_exit m = None <-> o_exit b = None by case: (o_exit m) (o_exit b) Ry => [?|] [?|].
split; first by rewrite -A2 M3 A1.
move=> ne; exists (cs_C (cm_dla (o_k a))); split=> //.
by rewrite -M4 // => /M3 /A1.
Qed.
End One.

Lemma rv_carries (C : fieldType) N rows X (vs ws : list (nat -> C)) buf : (forall g, List.In g rows -> lt g N) ->
  List.Forall2 (@RV C N) X vs -> List.Forall2 (@RV C N) X ws -> carries rows vs buf -> carries rows ws buf.
Proof.
move=> hr h1 h2 [rest ->]; exists rest; congr app.
elim: h1 ws h2 => {X vs} [|x v X vs hx _ IH] ws h2; inversion h2 as [|? w ? ws' hw h2']; subst=> //=.
rewrite /flat /= in IH *; rewrite (IH _ h2'); congr app; apply: List.map_ext_in => g /hr /lt_ord [i ->]; by rewrite -hx -hw.
Qed.

Section Sess.
Variables (R : rcfType) (C : fieldType) (inj : {rmorphism R -> C}) (cj : {rmorphism C -> C}) (re : C -> R).
Variables (fo : fops R) (oc : oracles C) (qe : qr_env R) (td : tridiag R) (nev nex N bs pr rsrc : nat).
Variables (fsort : list R -> list R) (si : list R -> list nat).
Local Notation n := (Nat.add nev nex).
Local Notation o := (fld cj).
Local Notation jobT := (job (F := R) (V := 'cV[C]_N) (M := 'M[C]_N)).
Local Notation run J s := (solve fo (cmK fo qe td (colD fo (gblas o fo inj re oc N bs pr rsrc) true n) nev nex) fsort si (j_conf J) s (j_ritz J) (j_resid J)).
Local Notation fresh J := (run J (mk_cm 0 (loaded n (j_H J) (j_V J)))).
Hypotheses (EF : exact_fops fo) (Hperm : forall keys, Permutation (si keys) (List.seq 0 (length keys))).
Variables (p q : nat) (rows cols : nat -> list nat) (ldh : nat -> nat -> nat) (kr : nat -> nat -> forall c : call R, loc (D := C) -> prog C (ClientModel.answer c * loc (D := C))).
Hypotheses (p0 : lt 0 p) (q0 : lt 0 q) (rowsN : forall i g, lt i p -> List.In g (rows i) -> lt g N).
Local Notation hold g s := (forall i k, lt i p -> lt k q -> holds_part o n (rows i) (cols k) (ldh i k) g (s i k)).
(** what else is known of the states between the runs *)
Variable (inv : cst (V := nat -> C) (M := nat -> nat -> C) -> Prop).
Hypothesis inv_put : forall (J : jobT) g, job_ok true nev nex J -> inv g ->
  inv (mk_cst (ent (j_H J)) (if c_approx (j_conf J) then map (@vfn C N) (j_V J) else cs_C g) (cs_B g) (cs_C2 g) (cs_B2 g) (cs_bAc g)).
Hypothesis one : forall (J : jobT) l t g s out, is_solver fo qe td nev nex fsort si (j_conf J) l (j_ritz J) (j_resid J) t -> job_ok true nev nex J -> hold g s -> inv g ->
  run J (mk_cm l g) = Ok out -> inv (cm_dla (o_k out)) /\
  completes +%R p q (fun i k r => fst r = (o_ritz out, o_res out, cm_locked (o_k out)) /\ holds_part o n (rows i) (cols k) (ldh i k) (cm_dla (o_k out)) (snd r))
    (fun i k => run_proc (kr i k) t (s i k)).

Variable (solver : jobT -> nat -> client R (list R * list R * nat)).
Variables (Hp Cp : nat -> nat -> jobT -> list C).

Lemma put_part J g s i k : length (j_V J) = n -> holds_part o n (rows i) (cols k) (ldh i k) g s -> parts_of (@ent C N N) (@vfn C N) (rows i) (cols k) (ldh i k) [:: J] (Hp i k) (Cp i k) ->
  holds_part o n (rows i) (cols k) (ldh i k)
    (mk_cst (ent (j_H J)) (if c_approx (j_conf J) then map (@vfn C N) (j_V J) else cs_C g) (cs_B g) (cs_C2 g) (cs_B2 g) (cs_bAc g))
    (pj_write (mk_pjob (solver J) (Hp i k J) (if c_approx (j_conf J) then Some (Cp i k J) else None)) s).
Proof.
move=> lV [h1 h2 h3 h4 h5 h6 h7] P; have [P1 P2] := P J (or_introl erefl).
split=> //=; case: (c_approx _) P2 => // P2; split; [by rewrite -lmapE List.map_length|exact: P2].
Qed.

Lemma session_good jobs : List.Forall (job_ok true nev nex) jobs ->
  (forall J l, List.In J jobs -> is_solver fo qe td nev nex fsort si (j_conf J) l (j_ritz J) (j_resid J) (solver J l)) ->
  (forall i k, lt i p -> lt k q -> parts_of (@ent C N N) (@vfn C N) (rows i) (cols k) (ldh i k) jobs (Hp i k) (Cp i k)) ->
  (forall J, List.In J jobs -> exists out, fresh J = Ok out) ->
  forall l g s, hold g s -> inv g ->
  good +%R p q (fun i k r => List.Forall2 (fun J a => reports (rows i) (fresh J) a) jobs r)
    (fun i k => proc_session (kr i k) (parts solver (Hp i k) (Cp i k) jobs) l (s i k)).
Proof.
elim: jobs => [|J jobs IH] HJ HT HP HF l g s HS HI.
  by apply: good_done => i k _ _; exists nil; split=> //; constructor.
inversion_clear HJ as [|? ? hJ hJs]; have [CF [E1 [E2 [LV _]]]] := hJ.
have [out Eo] := HF J (or_introl erefl).
pose g' := mk_cst (ent (j_H J)) (if c_approx (j_conf J) then map (@vfn C N) (j_V J) else cs_C g) (cs_B g) (cs_C2 g) (cs_B2 g) (cs_bAc g).
have [_ [lC _] [lC2 _] [lB _] [lB2 _] _ _] := HS 0%N 0%N p0 q0.
have U := @used_same R C inj cj re fo oc qe td (j_conf J) N bs pr rsrc fsort si (j_ritz J) (j_resid J) (j_H J) (j_V J) EF.
rewrite E1 E2 in U.
have [||||||out' [Eo' [Er [Es [Ex RX]]]]] := U LV CF Hperm 0%N l g' out _ _ _ _ _ _ Eo => //; rewrite /g' /=.
- by case: (c_approx _) => //; rewrite -lmapE List.map_length.
- by move=> ->; elim: (j_V J) => //= x w IHw; constructor.
have HS' : hold g' (fun i k => pj_write (mk_pjob (solver J) (Hp i k J) (if c_approx (j_conf J) then Some (Cp i k J) else None)) (s i k)).
  by move=> i k hi hk; apply: put_part => //; [exact: HS|move=> J' [<-|[]]; apply: (HP i k hi hk); left].
have [HI' Cm] := one (HT J l (or_introl erefl)) hJ HS' (inv_put hJ HI) Eo'; have G := completes_good _ _ _ _ _ Cm.
rewrite /parts /=; apply: (good_bind _ _ _ _ _ _ _ p0 q0 G) => a Ha.
have IHa := IH hJs (fun J' l' h => HT J' l' (or_intror h)) (fun i k hi hk J' h => HP i k hi hk J' (or_intror h)) (fun J' h => HF J' (or_intror h))
  (cm_locked (o_k out')) (cm_dla (o_k out')) (fun i k => snd (a i k)) (fun i k hi hk => proj2 (Ha i k hi hk)) HI'.
apply: (@good_eqv _ _ _ _ _ _ (fun i k => pbind (proc_session (kr i k) (parts solver (Hp i k) (Cp i k) jobs) (cm_locked (o_k out')) (snd (a i k)))
  (fun r => Ret ((fst (fst (fst (a i k))), snd (fst (fst (a i k))), l_C (snd (a i k))) :: r)))).
  by move=> i k hi hk; have [-> _] := Ha i k hi hk.
apply: (good_bind _ _ _ _ _ _ _ p0 q0 IHa) => r Hr.
apply: good_done => i k hi hk; eexists; split; first by [].
constructor; last exact: Hr.
move=> out1; rewrite Eo => -[<-]; have [-> hp] := Ha i k hi hk; split; first by rewrite /= Er Es.
move=> ne; have [X [X1 X2]] := RX ne.
exact: (rv_carries (fun g h => rowsN hi h) X2 X1 (proj2 (hp_C _ _ _ _ _ _ _ hp))).
Qed.
End Sess.
