(** Replacing the orthonormalisation of a backend by one that does the same where solve calls it. *)
From Coq Require Import List Arith ZArith Bool Lia Permutation.
Require Import Verif.Base Verif.AlgModel Verif.AlgSpec Verif.AlgProofs1 Verif.AlgProofs2 Verif.AlgProofs3 Verif.AlgProofs4 Verif.AlgKeep.
Import ListNotations.

Definition with_qr {F St} (K : kernel F St) (q : nat -> F -> St -> res St) : kernel F St := {|
  k_sym := k_sym K; k_start := k_start K; k_end := k_end K; k_init := k_init K; k_shift := k_shift K; k_hemm := k_hemm K; k_qr := q; k_rr := k_rr K;
  k_resd := k_resd K; k_swap := k_swap K; k_lock := k_lock K; k_lanczos1 := k_lanczos1 K; k_lanczos2 := k_lanczos2 K; k_dos := k_dos K |}.

Section Qr.
Context {F St V : Type} (fo : fops F) (K : kernel F St) (sort_idx : list F -> list nat) (qr : nat -> F -> St -> res St).
Hypothesis Hperm : forall keys, Permutation (sort_idx keys) (seq 0 (length keys)).
Context (nevex : nat) (cols : St -> list V) (J0 : St -> Prop) (J Jf Jr : nat -> St -> Prop).
Hypothesis KK : kernel_keep fo K nevex cols J0 J Jf Jr.
Hypothesis HQ : forall l c s s', Jf l s -> k_qr K l c s = Ok s' -> qr l c s = Ok s'.
Notation K' := (with_qr K qr).

Lemma bind_some {A B} (x : res A) (f : A -> res B) a : x = Ok a -> bind x f = f a.
Proof. intros ->. reflexivity. Qed.

Lemma iterate_qr cf nr ns ub s s' : nevex = c_nev cf + c_nex cf -> conf_ok cf -> book cf nr ns s -> c_nex cf < ss_unconv s ->
  degs_ok s -> J (ss_locked s) (ss_k s) -> iterate fo K sort_idx cf ub s = Ok s' -> iterate fo K' sort_idx cf ub s = Ok s'.
Proof.
  intros Hnv HC HB Hunc HG HJ Hit. pose proof HB as [B1 B2 [B3 B3'] [B4 B4'] [B5 B5'] [B6 B6']].
  unfold iterate in *. cbv zeta in *. apply bind_ok in Hit as ([lb0 lam] & H1 & H). rewrite (bind_some _ _ _ H1). cbv beta iota.
  apply bind_ok in H as ([deg a] & H2 & H). etransitivity; [apply bind_some; exact H2|]. cbv beta iota.
  apply bind_ok in H as ([av k1] & H3 & H). etransitivity; [apply bind_some; exact H3|]. cbv beta iota.
  apply bind_ok in H as (r0 & E & H); rewrite (bind_some _ _ _ E); clear E. apply bind_ok in H as (rk & E & H); rewrite (bind_some _ _ _ E); clear E.
  apply bind_ok in H as (d0 & E & H); rewrite (bind_some _ _ _ E); clear E. apply bind_ok in H as (dw & E & H); rewrite (bind_some _ _ _ E); clear E.
  apply bind_ok in H as (dmax & E & H); rewrite (bind_some _ _ _ E); clear E.
  apply bind_ok in H as (k2 & H4 & H).
  pose proof H2 as H2'. apply (degree_step_degs fo K) in H2' as (D1 & D2 & D3 & D4); auto.
  apply degree_step_len in H2 as (L1 & sw & Hr & E1 & E2 & E3 & E4); auto; [|lia].
  set (lk := ss_locked s) in *. set (un := ss_unconv s) in *.
  apply (kswaps_keep K nevex cols J lk un) in E4 as (Ja & Fa); auto; [|intros ? ? ? ? Q1 Q2 Q3 Q4; exact (kk_swap _ _ _ _ _ _ _ _ KK _ _ _ _ _ Q1 Q2 Q3 Q4)|lia].
  assert (FA : filter_args lk nevex un deg (cd_deg a)).
  { split; [lia|]. split; [lia|]. split; auto. split; auto. rewrite Forall_forall in *. intros d Hd. specialize (D2 d Hd). specialize (D3 d Hd). tauto. }
  apply (kk_filter _ _ _ _ _ _ _ _ KK lk) in H3 as (J1 & F1); auto.
  cbn [k_qr with_qr]. rewrite (bind_some _ _ _ (HQ _ _ _ _ J1 H4)). exact H.
Qed.

Lemma loop_qr cf nr ns ub : nevex = c_nev cf + c_nex cf -> conf_ok cf -> forall fuel s s', book cf nr ns s -> degs_ok s -> J (ss_locked s) (ss_k s) ->
  solve_loop fo K fuel sort_idx cf ub s = Ok s' -> solve_loop fo K' fuel sort_idx cf ub s = Ok s'.
Proof.
  intros Hnv HC. induction fuel; intros s s' HB HG HJ H; cbn [solve_loop] in *; destruct (_ && _) eqn:E; auto.
  apply bind_ok in H as (s1 & H1 & H). apply andb_true_iff in E as [E1 E2]. apply Nat.ltb_lt in E1.
  rewrite (bind_some _ _ _ (iterate_qr cf nr ns ub s s1 Hnv HC HB E1 HG HJ H1)).
  destruct (iterate_keep fo K sort_idx Hperm nevex cols J0 J Jf Jr KK cf nr ns ub s s1 Hnv HC HB E1 HG HJ H1) as (G' & J' & _).
  destruct (iterate_book fo K sort_idx Hperm cf nr ns ub s s1 HB E1 H1) as (B' & _). apply IHfuel; auto.
Qed.

Theorem solve_qr fsort cf k ritzv resid out : nevex = c_nev cf + c_nex cf -> conf_ok cf -> J0 k ->
  solve fo K fsort sort_idx cf k ritzv resid = Ok out -> solve fo K' fsort sort_idx cf k ritzv resid = Ok out.
Proof.
  intros Hnv HC HJ H. unfold solve in *. apply bind_ok in H as ([cont k0] & Hs & H). etransitivity; [apply bind_some; exact Hs|]. cbv beta iota.
  destruct (negb cont); auto.
  assert (HJk : J0 k0) by (destruct (c_symcheck cf); [eapply (kk_sym _ _ _ _ _ _ _ _ KK); eauto|inversion Hs; subst; auto]).
  apply bind_ok in H as ([ub s0] & Hi & H).
  assert (Hi' : solve_init fo K' fsort cf k0 ritzv resid = Ok (ub, s0)).
  { clear H. unfold solve_init in *. apply bind_ok in Hi as (k1 & H1 & H). etransitivity; [apply bind_some; exact H1|]. cbv zeta in *.
    apply bind_ok in H as (r1 & E & H); rewrite (bind_some _ _ _ E); clear E.
    apply bind_ok in H as (k2 & H2 & H). etransitivity; [apply bind_some; exact H2|].
    apply bind_ok in H as (k3 & H3 & H). etransitivity; [apply bind_some with (a := k3)|exact H].
    destruct (negb (c_approx cf)); auto. cbn [k_qr with_qr]. apply (HQ 0); auto. apply (kk_weak _ _ _ _ _ _ _ _ KK).
    eapply (kk_init _ _ _ _ _ _ _ _ KK); [|exact H2]. eapply (kk_start _ _ _ _ _ _ _ _ KK); eauto. }
  rewrite (bind_some _ _ _ Hi'). cbv beta iota.
  pose proof (solve_init_book fo K fsort cf k0 ritzv resid ub s0 Hi) as (HB & Hi0 & Hl & _).
  destruct (solve_init_keep fo K nevex cols J0 J Jf Jr KK fsort cf k0 ritzv resid ub s0 Hnv HC HJk Hi) as (G0 & J00). rewrite <- Hl in J00.
  apply bind_ok in H as (s & H1 & H). rewrite (bind_some _ _ _ (loop_qr cf _ _ ub Hnv HC _ _ _ HB G0 J00 H1)). exact H.
Qed.
End Qr.
