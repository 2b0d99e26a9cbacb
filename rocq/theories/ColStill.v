(** The Mpi backend keeps values, columns and residuals together although its column swap moves nothing, when each Rayleigh-Ritz
    step delivers its values in an order the sort of locking does not change. *)
From Coq Require Import List Arith ZArith Bool Lia Permutation.
Require Import Verif.Base Verif.AlgModel Verif.AlgSpec Verif.AlgProofs1 Verif.AlgProofs4 Verif.AlgKeep Verif.AlgStill Verif.DlaModel Verif.ColModel Verif.ColSpec
  Verif.ColProofs1 Verif.ColProofs2 Verif.ColProofs3 Verif.ColOrth.
Import ListNotations.

Section Still.
Context {F V M G T : Type} (fo : fops F) (bl : blas F V M G T) (qe : qr_env F) (td : tridiag F) (nev nex : nat) (H0 : M).
Let n := nev + nex.
Context (w : nat) (Hw : n <= w) (on : list V -> Prop) (tri : list V -> list V -> Prop) (Ray : F -> V -> Prop).
Hypothesis RU : on_rules fo bl H0 n on tri Ray.
Context (sort_idx : list F -> list nat).
Hypothesis HS : forall h cs l m, drift fo bl H0 h -> length cs = n -> l <= n -> on cs -> m <= n - l ->
  sort_idx (firstn m (map (b_eval bl (b_gram bl (skipn l cs) (map (b_mulH bl h) (skipn l cs)))) (seq 0 (n - l)))) = seq 0 m.
Local Notation mpiK := (cmK fo qe td (colD fo bl true n) nev nex).

Lemma rr_vals l (s : cm (D := cst (V := V) (M := M))) v s' : oJr fo bl nev nex H0 w on l s -> l <= n -> k_rr mpiK (n - l) s = Ok (v, s') ->
  v = map (b_eval bl (b_gram bl (skipn l (cs_C (cm_dla s))) (map (b_mulH bl (cs_H (cm_dla s))) (skipn l (cs_C (cm_dla s)))))) (seq 0 (n - l)).
Proof.
  intros ((A & B & C & D) & Hon) Hl H. fold n in B, D. cbn [cmK k_rr] in H. rewrite A in H. apply lift_v_inv in H as (d & E & ->). cbn [colD d_rr] in E. unfold c_rr in E.
  destruct (_ && _) in E; [discriminate|].
  apply bind_ok in E as (s1 & G1 & E). pose proof (gather_inv bl nev nex w Hw _ _ _ _ B G1) as ((L1 & L2 & L3 & L4) & E1 & E2 & E3 & E4 & _ & E5 & E6).
  rewrite E5, E6 in E. cbn [bind] in E. cbv zeta in E. apply bind_ok in E as (c2 & Hc2 & E).
  apply bind_ok in E as (C' & HC & E). apply bind_ok in E as (C2' & HC2 & E). injection E as <- _.
  destruct B as (LB & _). fold n in LB.
  assert (CC : firstn (n - l) (skipn l (cs_C2 (cm_dla s))) = skipn l (cs_C (cm_dla s))).
  { rewrite <- D. rewrite skipn_firstn_comm. reflexivity. }
  rewrite CC. rewrite (firstn_all2 (skipn l (cs_C (cm_dla s)))) by (rewrite skipn_length; lia). reflexivity.
Qed.

Lemma mpi_still : kernel_still fo mpiK sort_idx n (fun s => cs_C (cm_dla s)) (sJ0 fo bl nev nex H0 w)
  (oJ fo bl nev nex H0 w on) (oJf fo bl nev nex H0 w on) (oJr fo bl nev nex H0 w on) Ray (ritz_resid fo bl H0).
Proof.
  pose proof (seq_cols fo bl qe td nev nex H0 w Hw) as SC.
  split.
  - exact (mpi_orth_keep fo bl qe td nev nex H0 w Hw on tri Ray RU).
  - intros l s ((_ & (L & _) & _) & _). exact L.
  - intros l s v s' HJ Hl H. destruct (rr_on fo bl qe td nev nex H0 w Hw on tri Ray RU true l s v s' HJ Hl H) as (_ & R). split; auto.
    apply rr_vals in H as ->; auto. rewrite map_length, seq_length. intros m Hm. destruct HJ as ((_ & (LB & _) & D & _) & O).
    apply HS; auto.
  - intros l v r s s' (X & _) Hl H. destruct (kc_resd _ _ _ _ _ _ _ _ _ _ SC l v r s s' X Hl H) as (_ & R). exact R.
  - intros l i j s s' (X & Y) Hi Hj H. destruct X as (X1 & X2 & X3). cbn [cmK k_swap] in H. apply lift_inv in H as (d & E & ->). cbn [colD d_swap] in E.
    rewrite mpi_swap_spec in E by (destruct X2 as (L & _); fold n in L; lia). injection E as <-. destruct s. split; [split; [split; auto|]; auto|reflexivity].
  - intros l s s' _ H. cbn [cmK k_end] in H. apply lift_inv in H as (d & E & ->). injection E as <-. reflexivity.
Qed.
End Still.
