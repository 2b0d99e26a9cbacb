(** The matrix over a whole solve: only Shift writes it, and always in pairs. *)
From Coq Require Import List Arith ZArith Bool Lia Permutation.
Require Import Verif.Base Verif.AlgModel Verif.AlgSpec Verif.AlgTrace Verif.AlgTraceProofs Verif.AlgObs Verif.DlaModel Verif.ColModel Verif.ColSpec
  Verif.ColProofs1 Verif.ColProofs2 Verif.InplProofs.
Import ListNotations.

(** one shift by -c and back *)
Definition round_trip {F V M G T} (fo : fops F) (bl : blas F V M G T) (h : M) (c : F) : M := b_shift bl (b_shift bl h (f_neg fo c)) c.

(** every call but Shift keeps the matrix [h] *)
Record dla_keeps {F D M} (L : dla F D) (h : D -> M) (sh : M -> F -> M) : Prop := {
  dk_sym : forall s b s', d_sym L s = Ok (b, s') -> h s' = h s;
  dk_start : forall s s', d_start L s = Ok s' -> h s' = h s;
  dk_end : forall s s', d_end L s = Ok s' -> h s' = h s;
  dk_initrnd : forall s s', d_initrnd L s = Ok s' -> h s' = h s;
  dk_init : forall s s', d_init L s = Ok s' -> h s' = h s;
  dk_shift : forall c u s s', d_shift L c u s = Ok s' -> h s' = sh (h s) c;
  dk_apply : forall a b o q l s s', d_apply L a b o q l s = Ok s' -> h s' = h s;
  dk_hhqr : forall l s s', d_hhqr L l s = Ok s' -> h s' = h s;
  dk_chol1 : forall l s i s', d_chol1 L l s = Ok (i, s') -> h s' = h s;
  dk_chol2 : forall l s i s', d_chol2 L l s = Ok (i, s') -> h s' = h s;
  dk_schol2 : forall l s i s', d_schol2 L l s = Ok (i, s') -> h s' = h s;
  dk_lockcopy : forall l b s s', d_lockcopy L l b s = Ok s' -> h s' = h s;
  dk_rr : forall q l s v s', d_rr L q l s = Ok (v, s') -> h s' = h s;
  dk_resd : forall v l q s r s', d_resd L v l q s = Ok (r, s') -> h s' = h s;
  dk_swap : forall i j s s', d_swap L i j s = Ok s' -> h s' = h s;
  dk_mlanczos : forall m nv s x s', d_mlanczos L m nv s = Ok (x, s') -> h s' = h s;
  dk_dos : forall i m rv s s', d_dos L i m rv s = Ok s' -> h s' = h s
}.

Ltac kgoal := intros; repeat match goal with
  | H : Ok _ = Ok _ |- _ => injection H; clear H; intros; subst
  | H : (_, _) = (_, _) |- _ => injection H; clear H; intros; subst
  | H : UB = Ok _ |- _ => discriminate H
  | H : (let! x := ?e in @?f x) = Ok _ |- _ => apply bind_ok in H as (? & ? & H)
  | H : (if ?c then _ else _) = Ok _ |- _ => destruct c
  | x : (_ * _)%type |- _ => destruct x
  end; cbn [cm_dla cs_H is_H] in *; try congruence; auto.

Section Col.
Context {F V M G T : Type} (fo : fops F) (bl : blas F V M G T) (n : nat).

Lemma set_C_H f (s s' : cst (V := V) (M := M)) : set_C n s f = Ok s' -> cs_H s' = cs_H s.
Proof. unfold set_C. kgoal. Qed.
Lemma gather_H a b (s s' : cst (V := V) (M := M)) : c_gather bl a b s = Ok s' -> cs_H s' = cs_H s.
Proof. unfold c_gather. kgoal. Qed.
Ltac k2 := repeat match goal with H : set_C _ _ _ = Ok _ |- _ => apply set_C_H in H | H : c_gather _ _ _ _ = Ok _ |- _ => apply gather_H in H end; try congruence.

Lemma col_keeps mpi : dla_keeps (colD fo bl mpi n) cs_H (b_shift bl).
Proof.
  split; cbn [colD d_sym d_start d_end d_initrnd d_init d_shift d_apply d_hhqr d_chol1 d_chol2 d_schol2 d_lockcopy d_rr d_resd d_swap d_mlanczos d_dos];
    unfold c_sym, c_initrnd, c_init, c_shift, c_apply, c_hhqr, c_chol1, c_chol2, c_schol2, c_lockcopy, c_rr, c_resd, c_swap, c_mlanczos, c_dos; cbv zeta;
    kgoal; k2.
Qed.

Lemma i_set_H f (s s' : ist (V := V) (M := M)) : i_set n s f = Ok s' -> is_H s' = is_H s.
Proof. unfold i_set. kgoal. Qed.
Lemma i_save_H l (s s' : ist (V := V) (M := M)) : i_save l s = Ok s' -> is_H s' = is_H s.
Proof. unfold i_save. kgoal. Qed.
Ltac k3 := repeat match goal with H : i_set _ _ _ = Ok _ |- _ => apply i_set_H in H | H : i_save _ _ = Ok _ |- _ => apply i_save_H in H end; try congruence.

Lemma inpl_keeps : dla_keeps (inplD fo bl n) is_H (b_shift bl).
Proof.
  split; cbn [inplD d_sym d_start d_end d_initrnd d_init d_shift d_apply d_hhqr d_chol1 d_chol2 d_schol2 d_lockcopy d_rr d_resd d_swap d_mlanczos d_dos];
    unfold i_sym, i_initrnd, i_init, i_shift, i_apply, i_hhqr, i_chol1, i_chol2, i_schol2, i_lockcopy, i_rr, i_resd, i_swap, i_mlanczos, i_dos; cbv zeta;
    kgoal; k3.
Qed.
End Col.

Section Solve.
Context {F D V M G T : Type} (fo : fops F) (bl : blas F V M G T) (qe : qr_env F) (td : tridiag F) (L : dla F D) (h : D -> M).
Context (DK : dla_keeps L h (b_shift bl)) (nev nex : nat).
Local Notation K := (cmK fo qe td L nev nex).

Definition sh_step (m : M) (c : call F) : M := match c with CShift x _ => b_shift bl m x | _ => m end.

Lemma keeps_obs : kernel_obs K (fun s => h (cm_dla s)) sh_step.
Proof.
  split; cbn [sh_step].
  - intros s b s' H. apply lift_v_inv in H as (d & E & ->). exact (dk_sym _ _ _ DK _ _ _ E).
  - intros s s' H. cbn in H. apply bind_ok in H as (d & E & H). injection H as <-. exact (dk_start _ _ _ DK _ _ E).
  - intros s s' H. apply lift_inv in H as (d & E & ->). exact (dk_end _ _ _ DK _ _ E).
  - intros r s s' H. cbn [cmK k_init] in H. unfold cm_init in H. apply lift_inv in H as (d & E & ->). apply bind_ok in E as (d1 & E1 & E).
    apply (dk_init _ _ _ DK) in E. cbn [cm_dla]. rewrite E. destruct r; [exact (dk_initrnd _ _ _ DK _ _ E1)|]. now injection E1 as <-.
  - intros c u s s' H. apply lift_inv in H as (d & E & ->). exact (dk_shift _ _ _ DK _ _ _ _ E).
  - intros q a b o s s' H. apply lift_inv in H as (d & E & ->). exact (dk_apply _ _ _ DK _ _ _ _ _ _ _ E).
  - intros l c s s' H. cbn [cmK k_qr] in H. unfold cm_qr in H. cbv zeta in H. apply bind_ok in H as ([hh d] & Hd & H).
    apply lift_inv in H as (d' & H & ->). cbn [cm_dla]. apply (dk_lockcopy _ _ _ DK) in H. rewrite H. clear H d'.
    match type of Hd with (if ?c then _ else _) = _ => destruct c end.
    + apply bind_ok in Hd as (d1 & H1 & Hd). injection Hd as _ <-. exact (dk_hhqr _ _ _ DK _ _ _ H1).
    + apply bind_ok in Hd as ([i d1] & H1 & Hd).
      assert (X : h d1 = h (cm_dla s)).
      { match type of H1 with (if ?c then _ else _) = _ => destruct c; [exact (dk_schol2 _ _ _ DK _ _ _ _ H1)|] end.
        match type of H1 with (if ?c then _ else _) = _ => destruct c; [exact (dk_chol1 _ _ _ DK _ _ _ _ H1)|exact (dk_chol2 _ _ _ DK _ _ _ _ H1)] end. }
      destruct (i =? 0)%Z; [injection Hd as _ <-; auto|]. apply bind_ok in Hd as (d2 & H2 & Hd). injection Hd as _ <-.
      apply (dk_hhqr _ _ _ DK) in H2. congruence.
  - intros q s v s' H. apply lift_v_inv in H as (d & E & ->). exact (dk_rr _ _ _ DK _ _ _ _ _ E).
  - intros v l s r s' H. apply lift_v_inv in H as (d & E & ->). exact (dk_resd _ _ _ DK _ _ _ _ _ _ E).
  - intros i j s s' H. apply lift_inv in H as (d & E & ->). exact (dk_swap _ _ _ DK _ _ _ _ E).
  - intros q s s' H. cbn in H. now injection H as <-.
  - intros m s x s' H. cbn [cmK k_lanczos1] in H. unfold cm_lanczos1 in H. apply bind_ok in H as ([[[a b] c] d] & E & H). cbv zeta in H.
    apply (dk_mlanczos _ _ _ DK) in E. kgoal.
  - intros m nv s x s' H. cbn [cmK k_lanczos2] in H. unfold cm_lanczos2 in H. apply bind_ok in H as ([[[a b] c] d] & E & H).
    apply (dk_mlanczos _ _ _ DK) in E.
    apply bind_ok in H as ([[? ?] ?] & _ & H). apply bind_ok in H as (? & _ & H). apply bind_ok in H as (? & _ & H). apply bind_ok in H as (? & _ & H).
    apply bind_ok in H as (? & _ & H). injection H as _ <-. exact E.
  - intros i m rv s s' H. apply lift_inv in H as (d & E & ->). exact (dk_dos _ _ _ DK _ _ _ _ _ E).
Qed.

Lemma sh_app a b m : fold_left sh_step (a ++ b) m = fold_left sh_step b (fold_left sh_step a m).
Proof. apply fold_left_app. Qed.
Lemma sh_id t m : Forall (fun c => match c with CShift _ _ => False | _ => True end) t -> fold_left sh_step t m = m.
Proof. intros H. revert m. induction H as [|c t Hc _ IH]; intros m; cbn; auto. rewrite IH. now destruct c. Qed.
Lemma sh_swaps off sw m : fold_left sh_step (swap_calls off sw) m = m.
Proof. apply sh_id. apply Forall_forall. intros x Hx. apply in_map_iff in Hx as (p & <- & _). exact I. Qed.
Lemma sh_start cf sw idx m : fold_left sh_step (start_calls fo cf sw idx) m = m.
Proof.
  unfold start_calls. cbv zeta. destruct (c_approx cf); [reflexivity|]. rewrite sh_app, sh_app, sh_swaps. destruct (0 <? idx); reflexivity.
Qed.
Lemma sh_iter ub r m : fold_left sh_step (iter_calls fo ub r) m = round_trip fo bl m (f_div fo (f_add fo ub (it_lower r)) (f_two fo)).
Proof.
  unfold iter_calls, filter_calls. cbv zeta. rewrite !sh_app, !sh_swaps. cbn [fold_left sh_step]. rewrite sh_app. cbn [fold_left sh_step].
  unfold round_trip. f_equal. apply sh_id. apply Forall_forall. intros x Hx. apply in_map_iff in Hx as (p & <- & _). exact I.
Qed.
Lemma sh_iters ub : forall rs m, fold_left sh_step (flat_map (iter_calls fo ub) rs) m =
  fold_left (round_trip fo bl) (map (fun r => f_div fo (f_add fo ub (it_lower r)) (f_two fo)) rs) m.
Proof. induction rs as [|r rs IH]; intros m; cbn [flat_map map fold_left]; auto. rewrite sh_app, sh_iter. apply IH. Qed.

Lemma solve_matrix sort_idx (Hperm : forall keys, Permutation (sort_idx keys) (seq 0 (length keys))) fsort cf k ritzv resid o s :
  conf_ok cf -> solve fo K fsort sort_idx cf k ritzv resid = Ok o -> o_exit o = Some s ->
  exists cs, length cs = ss_iter s /\ h (cm_dla (o_k o)) = fold_left (round_trip fo bl) cs (h (cm_dla k)).
Proof.
  intros HC H Ho.
  destruct (solve_obs_trace fo K _ _ sort_idx Hperm fsort cf k ritzv resid o s keeps_obs HC H Ho) as (ub & rs & sw & idx & sw' & _ & Hl & _ & E).
  exists (map (fun r => f_div fo (f_add fo ub (it_lower r)) (f_two fo)) rs). split; [now rewrite map_length|].
  cbv beta in E. rewrite E, !sh_app, sh_swaps, sh_iters, sh_start. destruct (c_symcheck cf); reflexivity.
Qed.
Lemma solve_matrix_rejected fsort sort_idx cf k ritzv resid o :
  solve fo K fsort sort_idx cf k ritzv resid = Ok o -> o_exit o = None -> h (cm_dla (o_k o)) = h (cm_dla k).
Proof.
  intros H Ho. unfold solve in H. apply bind_ok in H as ([cont k0] & E & H).
  destruct cont; cbn [negb] in H.
  - apply bind_ok in H as ([u s0] & _ & H). apply bind_ok in H as (s & _ & H). apply bind_ok in H as ([r k'] & _ & H).
    apply bind_ok in H as (k'' & _ & H). injection H as <-. discriminate Ho.
  - injection H as <-. cbn [o_k]. destruct (c_symcheck cf); [exact (ko_sym _ _ _ keeps_obs _ _ _ E)|discriminate E].
Qed.
End Solve.

Section Final.
Context {F V M G T : Type} (fo : fops F) (bl : blas F V M G T) (qe : qr_env F) (td : tridiag F) (cf : conf F).
Context (Hx : forall h c, b_shift bl (b_shift bl h (f_neg fo c)) c = h).
Lemma round_id : forall cs h, fold_left (round_trip fo bl) cs h = h.
Proof. induction cs; intros h; cbn [fold_left]; auto. unfold round_trip at 2. rewrite Hx. auto. Qed.
End Final.
