(** The single-GPU backend on the asynchronous machine, call by call and over a whole solve. *)
From Coq Require Import List Arith ZArith Bool Lia.
Require Import Verif.Base Verif.AlgModel Verif.AlgSpec Verif.AlgSim Verif.AlgSimLe Verif.DlaModel Verif.DlaSim Verif.DlaSimLe Verif.ColModel Verif.GpuModel
  Verif.AsyncModel Verif.AsyncSpec Verif.AsyncProofs Verif.AsyncGpu.
Import ListNotations.

Definition two (s : stream) : Prop := s = Legacy \/ s = Blk 0.
Lemma two_line : one_line two.
Proof. intros a b [-> | ->] [-> | ->]; reflexivity. Qed.

Section S.
Context {F V M G T : Type} (fo : fops F) (bl : blas F V M G T) (n : nat) (trace : G -> F) (gshift : G -> F -> G).
Context (HSH : forall A, b_dshift bl A = gshift A (trace A)).
Context (sch : nat -> list nat).
Local Notation dev := (dev (F := F) (V := V) (M := M) (G := G)).
Local Notation L1 := (asyncD fo bl n trace gshift sch).
Local Notation L2 := (gpuD fo bl n).

Definition fine {A} (p : prog dev A) : Prop := uses two p /\ guarded false p.
Lemma guarded_up {A} (p : prog dev A) : guarded false p -> guarded true p.
Proof.
  induction p; cbn; auto. intros [E _]. discriminate.
Qed.
Lemma fine_ret {A} (a : A) : fine (Ret a). Proof. split; exact I. Qed.
Lemma fine_bad {A} : fine (@Bad dev A). Proof. split; exact I. Qed.
Lemma fine_dev {A} s f (k : prog dev A) : two s -> fine k -> fine (Dev s f k).
Proof. intros H [A1 A2]. repeat split; assumption. Qed.
Lemma fine_get {A X} s (f : dev -> res X) (k : X -> prog dev A) : two s -> (forall x, fine (k x)) -> fine (Get s f k).
Proof. intros H HK. split; cbn; [split; auto; intros x; apply HK|]. intros x. apply guarded_up. apply HK. Qed.
Lemma fine_host {A X} (r : res X) (k : X -> prog dev A) : (forall x, fine (k x)) -> fine (host r k).
Proof. intros HK. destruct r; cbn; [apply HK|apply fine_bad|apply fine_bad]. Qed.
Lemma two_L : two Legacy. Proof. now left. Qed.
Lemma two_S : two S_. Proof. now right. Qed.

Ltac fn := repeat first
  [ apply fine_ret | apply fine_bad | apply two_L | apply two_S
  | apply fine_dev | apply fine_get; [|intros ?] | apply fine_host; intros ?
  | match goal with |- fine (if ?b then _ else _) => destruct b end ].

Lemma fine_body sw second Mn nv k i0 i1 i2 ds bs A (K : list F -> list F -> prog dev A) :
  (forall a b, fine (K a b)) -> fine (a_body fo bl sw second Mn nv k i0 i1 i2 ds bs K).
Proof. intros HK. unfold a_body. cbv zeta. fn; apply HK. Qed.
Lemma fine_loop t : forall k sw second Mn nv i0 i1 i2 ds es bs A (K : nat -> list F -> list F -> list F -> prog dev A),
  (forall i a b c, fine (K i a b c)) -> fine (a_loop fo bl t k sw second Mn nv i0 i1 i2 ds es bs K).
Proof.
  induction t as [|t IH]; intros k sw second Mn nv i0 i1 i2 ds es bs A K HK; [apply HK|].
  cbn [a_loop]. apply fine_body. intros a b. destruct t; [apply HK|]. fn. now apply IH.
Qed.

Lemma act_le p r (s : ast (F := F) (V := V) (M := M) (G := G)) : fine (p (t_obj s)) ->
  forall g, stands_for s g -> (forall d, makes_up (t_obj s) d g -> does_ (p (t_obj s)) d r) -> rel_le stands_for (act sch s p) r.
Proof.
  intros [HU HG] g (d & E & Q & MU) H. apply le_intro. intros g' Hr. destruct (H d MU g' Hr) as (h' & d' & R1 & MU').
  destruct (exec_ok two two_line sch (p (t_obj s)) (t_now s) (t_cfg s) _ _ _ HU HG Q E R1) as (t' & c' & E' & Fc & Qc).
  unfold act. rewrite E'. cbn [bind]. eexists. split; [reflexivity|]. exists d'. cbn [t_cfg t_obj]. auto.
Qed.
Lemma act_v_le {X} (p : _ -> prog dev (X * hobj)) r (s : ast (F := F) (V := V) (M := M) (G := G)) : fine (p (t_obj s)) ->
  forall g, stands_for s g -> (forall d, makes_up (t_obj s) d g -> does (p (t_obj s)) d r) -> rel_le (vrel stands_for) (act_v sch s p) r.
Proof.
  intros [HU HG] g (d & E & Q & MU) H. apply le_intro. intros [x g'] Hr. destruct (H d MU x g' Hr) as (h' & d' & R1 & MU').
  destruct (exec_ok two two_line sch (p (t_obj s)) (t_now s) (t_cfg s) _ _ _ HU HG Q E R1) as (t' & c' & E' & Fc & Qc).
  unfold act_v. rewrite E'. cbn [bind fst snd]. eexists. split; [reflexivity|]. split; [reflexivity|]. exists d'. cbn [t_cfg t_obj snd]. auto.
Qed.

Lemma async_le : dla_le L1 L2 stands_for.
Proof.
  split; cbn [asyncD gpuD d_sym d_start d_end d_initrnd d_init d_shift d_apply d_hhqr d_chol1 d_chol2 d_schol2 d_lockcopy d_rr d_resd d_swap d_mlanczos d_dos].
  - intros s g Hs. pose proof Hs as (d & _ & _ & -> & _). cbn. split; [reflexivity|exact Hs].
  - intros s g Hs. exact Hs.
  - intros s g Hs. eapply act_le; eauto; [unfold a_end; cbv zeta; fn|]. intros d MU. now apply does_end.
  - intros s g Hs. eapply act_le; eauto; [unfold a_initrnd; cbv zeta; fn|]. intros d MU. now apply does_initrnd.
  - intros s g Hs. eapply act_le; eauto; [unfold a_init; cbv zeta; fn|]. intros d MU. now apply does_init.
  - intros c u s g Hs. eapply (act_le (fun h => a_shift bl c u h)); eauto; [unfold a_shift; cbv zeta; fn|]. intros d MU. now apply does_shift.
  - intros a b off blk l s g Hs. eapply (act_le (fun h => a_apply bl a b off blk l h)); eauto; [unfold a_apply; cbv zeta; fn|]. intros d MU. now apply does_apply.
  - intros l s g Hs. eapply (act_le (fun h => a_hhqr bl n l h)); eauto; [unfold a_hhqr; cbv zeta; fn|]. intros d MU. now apply does_hhqr.
  - intros l s g Hs. eapply (act_v_le (fun h => a_chol1 bl n l h)); eauto; [unfold a_chol1; cbv zeta; fn|]. intros d MU. now apply does_chol1.
  - intros l s g Hs. eapply (act_v_le (fun h => a_chol2 bl n l h)); eauto; [unfold a_chol2; cbv zeta; fn|]. intros d MU. now apply does_chol2.
  - intros l s g Hs. eapply (act_v_le (fun h => a_schol2 bl n trace gshift l h)); eauto; [unfold a_schol2; cbv zeta; fn|]. intros d MU. now apply does_schol2.
  - intros l b s g Hs. eapply (act_le (fun h => a_lockcopy l b h)); eauto; [unfold a_lockcopy; cbv zeta; fn|]. intros d MU. now apply does_lockcopy.
  - intros blk l s g Hs. eapply (act_v_le (fun h => a_rr bl blk l h)); eauto; [unfold a_rr; cbv zeta; fn|]. intros d MU. now apply does_rr.
  - intros v l u s g Hs. eapply (act_v_le (fun h => a_resd fo bl v l u h)); eauto; [unfold a_resd; cbv zeta; fn|]. intros d MU. now apply does_resd.
  - intros i j s g Hs. eapply (act_le (fun h => a_swap i j h)); eauto; [unfold a_swap; cbv zeta; fn|]. intros d MU. now apply does_swap.
  - intros m nv s g Hs. eapply (act_v_le (fun h => a_mlanczos fo bl m nv h)); eauto.
    + unfold a_mlanczos. cbv zeta. destruct (match nv with None => _ | Some _ => _ end). fn. apply fine_loop. intros. fn.
    + intros d MU. now apply does_mlanczos.
  - intros i m rv s g Hs. eapply (act_le (fun h => a_dos bl i m rv h)); eauto; [unfold a_dos; cbv zeta; fn|]. intros d MU. now apply does_dos.
Qed.

Context (qe : qr_env F) (td : tridiag F) (cf : conf F).
Local Notation K1 := (cmK fo qe td L1 (c_nev cf) (c_nex cf)).
Local Notation K2 := (cmK fo qe td L2 (c_nev cf) (c_nex cf)).
Theorem async_solve fsort si s g ritzv resid o :
  cm_locked s = cm_locked g -> stands_for (cm_dla s) (cm_dla g) ->
  solve fo K2 fsort si cf g ritzv resid = Ok o ->
  exists o', solve fo K1 fsort si cf s ritzv resid = Ok o' /\ o_ritz o' = o_ritz o /\ o_res o' = o_res o /\
    (o_exit o' = None <-> o_exit o = None) /\
    h_V1 (t_obj (cm_dla (o_k o'))) = g_V1 (cm_dla (o_k o)) /\ h_H (t_obj (cm_dla (o_k o'))) = g_H (cm_dla (o_k o)) /\
    cm_locked (o_k o') = cm_locked (o_k o) /\ stands_for (cm_dla (o_k o')) (cm_dla (o_k o)).
Proof.
  intros EL HS H.
  pose proof (cm_le fo qe td (c_nev cf) (c_nex cf) L1 L2 stands_for async_le) as KL.
  pose proof (solve_le fo _ _ _ KL fsort si cf s g ritzv resid (conj EL HS)) as P.
  destruct (le_ok _ _ _ _ P H) as (o' & E' & ((EL' & HS') & E1 & E2 & E3)).
  exists o'. split; [exact E'|]. split; [exact E1|]. split; [exact E2|]. split.
  - destruct (o_exit o'), (o_exit o); try contradiction; split; intros; congruence.
  - pose proof HS' as (d & _ & _ & MU & _). rewrite MU. repeat split; auto. rewrite <- MU. exact HS'.
Qed.
End S.
