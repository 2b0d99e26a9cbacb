(** A run does not change the sizes of the buffers of an object. *)
From Coq Require Import List Arith ZArith Bool Lia Permutation.
Require Import Verif.Base Verif.AlgModel Verif.AlgSpec Verif.AlgProofs1 Verif.AlgProofs2 Verif.AlgSim Verif.DlaSim Verif.DlaModel Verif.ColModel Verif.ColProofs1
  Verif.GpuModel Verif.GpuProofs1 Verif.GpuProofs2 Verif.ReuseBase Verif.ReuseSpec Verif.ReuseInpl.
Import ListNotations.

Definition diag {D} (P : D -> Prop) (s t : D) : Prop := s = t /\ P s.
Lemma diag_res {D} (P : D -> Prop) x : (forall s', x = Ok s' -> P s') -> rel_res (diag P) x x.
Proof. intros H. destruct x; simpl; auto. split; auto. Qed.
Lemma diag_vres {X D} (P : D -> Prop) (x : res (X * D)) : (forall v s', x = Ok (v, s') -> P s') -> rel_res (vrel (diag P)) x x.
Proof. intros H. destruct x as [[v s]| |]; simpl; auto. split; auto. split; eauto. Qed.
Lemma cmR_diag {D} (P : D -> Prop) (s : cm (D := D)) : P (cm_dla s) -> cmR (diag P) s s.
Proof. intros H. split; auto. split; auto. Qed.
Lemma cmR_same {D} (P : D -> Prop) (s t : cm (D := D)) : cmR (diag P) s t -> s = t /\ P (cm_dla s).
Proof. destruct s, t. intros [E [H P0]]. cbn in *. subst. auto. Qed.

Section Keep.
Context {F D : Type} (fo : fops F) (qe : qr_env F) (td : tridiag F) (nev nex : nat) (L : dla F D) (P : D -> Prop) (DR : dla_rel L L (diag P)).
Context (Ksym : forall s b s', P s -> d_sym L s = Ok (b, s') -> P s') (Kstart : forall s s', P s -> d_start L s = Ok s' -> P s') (Kend : forall s s', P s -> d_end L s = Ok s' -> P s').
Context (Krnd : forall s s', P s -> d_initrnd L s = Ok s' -> P s') (Kinit : forall s s', P s -> d_init L s = Ok s' -> P s').
Context (Kresd : forall v l k r s s', P s -> d_resd L v l k s = Ok (r, s') -> P s').
Local Notation K := (cmK fo qe td L nev nex).
Lemma keep_rel : kernel_rel K K (cmR (diag P)).
Proof.
  pose proof (cm_core_rel fo qe td nev nex L L (diag P) DR) as C.
  split; intros; try (match goal with H : cmR _ _ _ |- _ => apply cmR_same in H as [<- HP] end).
  - cbn [cmK k_sym]. apply lift_v_rel; auto. apply diag_vres. eauto.
  - cbn [cmK k_start]. eapply rel_bind with (R := diag P); [apply diag_res; eauto|]. intros a b [<- Ha]. now apply cmR_diag.
  - cbn [cmK k_end]. apply lift_rel; auto. apply diag_res. eauto.
  - cbn [cmK k_init]. unfold cm_init. apply lift_rel; auto. eapply rel_bind with (R := diag P).
    + apply diag_res. intros s' E. destruct r; [eauto|]. injection E as <-. exact HP.
    + intros a b [<- Ha]. apply diag_res. eauto.
  - apply (kr_shift _ _ _ C). now apply cmR_diag.
  - apply (kr_hemm _ _ _ C). now apply cmR_diag.
  - apply (kr_qr _ _ _ C). now apply cmR_diag.
  - apply (kr_rr _ _ _ C). now apply cmR_diag.
  - cbn [cmK k_resd]. apply lift_v_rel; auto. apply diag_vres. eauto.
  - apply (kr_swap _ _ _ C). now apply cmR_diag.
  - apply (kr_lock _ _ _ C). now apply cmR_diag.
  - apply (kr_lanczos1 _ _ _ C). now apply cmR_diag.
  - apply (kr_lanczos2 _ _ _ C). now apply cmR_diag.
  - apply (kr_dos _ _ _ C). now apply cmR_diag.
Qed.
Lemma keep_solve fsort si cf k ritzv resid o : P (cm_dla k) -> solve fo K fsort si cf k ritzv resid = Ok o -> P (cm_dla (o_k o)).
Proof.
  intros H E. pose proof (solve_rel fo K K _ keep_rel fsort si cf k k ritzv resid (cmR_diag _ _ H)) as X. rewrite E in X.
  destruct X as (X & _). now apply cmR_same in X.
Qed.
End Keep.

Ltac kp := repeat match goal with
  | H : bind _ _ = Ok _ |- _ => apply bind_ok in H as (? & ? & H)
  | H : (let '(_, _) := ?p in _) = Ok _ |- _ => destruct p
  | H : (if ?c then _ else _) = Ok _ |- _ => destruct c
  | H : Ok _ = Ok _ |- _ => injection H; clear H; intros; subst
  | H : put_range _ _ _ = Ok _ |- _ => apply put_range_length in H
  | H : swap_ _ _ _ = Ok _ |- _ => apply swap_len in H as (H & _)
  | H : mlanczos _ _ _ _ _ _ = Ok _ |- _ => apply mlanczos_len in H
  | H : g_lanczos _ _ _ _ _ _ = Ok _ |- _ => apply g_lanczos_len in H
  | H : UB = Ok _ |- _ => discriminate H
  end.

Section Col.
Context {F V M G T : Type} (fo : fops F) (bl : blas F V M G T) (qe : qr_env F) (td : tridiag F) (mpi : bool) (n : nat).
Definition col_sizes (c b c2 b2 : nat) (s : cst (V := V) (M := M)) : Prop := length (cs_C s) = c /\ length (cs_B s) = b /\ length (cs_C2 s) = c2 /\ length (cs_B2 s) = b2.
Context (c b c2 b2 : nat).
Local Notation P := (col_sizes c b c2 b2).
Ltac go := unfold col_sizes in *; intros; kp; cbn [cs_C cs_B cs_C2 cs_B2] in *; lia.
Lemma col_keep : dla_rel (colD fo bl mpi n) (colD fo bl mpi n) (diag P).
Proof.
  split; cbn [colD d_shift d_apply d_hhqr d_chol1 d_chol2 d_schol2 d_lockcopy d_rr d_swap d_mlanczos d_dos]; intros; match goal with H : diag _ _ _ |- _ => destruct H as [<- HP] end;
    first [apply diag_res|apply diag_vres]; unfold c_shift, c_apply, c_hhqr, c_chol1, c_chol2, c_schol2, c_lockcopy, c_rr, c_swap, c_mlanczos, c_dos, c_gather, c_factor, set_C; go.
Qed.
Lemma col_keep_solve nev nex fsort si cf k ritzv resid o : P (cm_dla k) -> solve fo (cmK fo qe td (colD fo bl mpi n) nev nex) fsort si cf k ritzv resid = Ok o -> P (cm_dla (o_k o)).
Proof.
  apply keep_solve; [apply col_keep| | | | | |]; cbn [colD d_sym d_start d_end d_initrnd d_init d_resd]; unfold c_sym, c_initrnd, c_init, c_resd, c_gather; go.
Qed.
End Col.

Section Ist.
Context {F V M G T : Type} (fo : fops F) (bl : blas F V M G T) (qe : qr_env F) (td : tridiag F) (dev : bool) (n : nat).
Definition ist_sizes (a : nat) (s : ist (V := V) (M := M)) : Prop := length (is_V1 s) = a /\ length (is_V2 s) = a.
Context (a : nat).
Local Notation P := (ist_sizes a).
Ltac go := unfold ist_sizes in *; intros; kp; cbn [is_V1 is_V2] in *; lia.
Lemma ist_keep : dla_rel (istD fo bl dev n) (istD fo bl dev n) (diag P).
Proof.
  unfold istD. destruct dev; split; cbn [devD inplD d_shift d_apply d_hhqr d_chol1 d_chol2 d_schol2 d_lockcopy d_rr d_swap d_mlanczos d_dos]; intros; match goal with H : diag _ _ _ |- _ => destruct H as [<- HP] end;
    first [apply diag_res|apply diag_vres]; unfold i_shift, i_apply, i_hhqr, i_chol1, i_chol2, i_schol2, dv_chol2, dv_schol2, i_lockcopy, i_rr, i_swap, i_mlanczos, dv_mlanczos, i_dos, i_factor, i_save, i_set; go.
Qed.
Lemma ist_keep_solve nev nex fsort si cf k ritzv resid o : P (cm_dla k) -> solve fo (cmK fo qe td (istD fo bl dev n) nev nex) fsort si cf k ritzv resid = Ok o -> P (cm_dla (o_k o)).
Proof.
  apply keep_solve; [apply ist_keep| | | | | |]; unfold istD; destruct dev; cbn [devD inplD d_sym d_start d_end d_initrnd d_init d_resd]; unfold i_sym, i_initrnd, i_init, i_resd, dv_resd; go.
Qed.
End Ist.
