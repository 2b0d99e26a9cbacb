(** The span of the vector block on the column backends: orthonormalisation and Rayleigh-Ritz keep it, the filter always finds its input
    in the buffer it starts from. *)
From Coq Require Import List Arith ZArith Bool Lia Permutation.
Require Import Verif.Base Verif.AlgModel Verif.AlgSpec Verif.AlgProofs1 Verif.AlgProofs4 Verif.AlgKeep Verif.DlaModel Verif.ColModel Verif.ColSpec
  Verif.ColProofs1 Verif.ColProofs2 Verif.ColProofs3 Verif.FilterProofs Verif.ColOrth Verif.ConvSpec Verif.AlgSpan.
Import ListNotations.

(** a further invariant of all calls *)
Record also_keeps {F St} (fo : fops F) (K : kernel F St) (nevex : nat) (J : nat -> St -> Prop) (b : St -> Prop) : Prop := {
  ak_sym : forall s v s', b s -> k_sym K s = Ok (v, s') -> b s';
  ak_start : forall s s', b s -> k_start K s = Ok s' -> b s';
  ak_init : forall r s s', b s -> k_init K r s = Ok s' -> b s';
  ak_lanczos1 : forall m s u s', b s -> k_lanczos1 K m s = Ok (u, s') -> b s';
  ak_lanczos2 : forall m nv s u x y z s', b s -> k_lanczos2 K m nv s = Ok (u, x, y, z, s') -> b s';
  ak_dos : forall idx m rv s s', b s -> k_dos K idx m rv s = Ok s' -> b s';
  ak_filter : forall l n deg degs la lo up s av s', J l s -> b s -> filter_args l nevex n deg degs -> filter_ fo K n deg degs la lo up s = Ok (av, s') -> b s';
  ak_qr : forall l c s s', b s -> k_qr K l c s = Ok s' -> b s';
  ak_rr : forall m s v s', b s -> k_rr K m s = Ok (v, s') -> b s';
  ak_resd : forall l v r s s', b s -> k_resd K v l s = Ok (r, s') -> b s';
  ak_swap : forall i j s s', b s -> k_swap K i j s = Ok s' -> b s';
  ak_lock : forall m s s', b s -> k_lock K m s = Ok s' -> b s'
}.
Lemma keep_also {F St V} (fo : fops F) (K : kernel F St) nevex (cols : St -> list V) J0 J Jf Jr b :
  kernel_keep fo K nevex cols J0 J Jf Jr -> also_keeps fo K nevex J b ->
  kernel_keep fo K nevex cols (fun s => J0 s /\ b s) (fun l s => J l s /\ b s) (fun l s => Jf l s /\ b s) (fun l s => Jr l s /\ b s).
Proof.
  intros [A2 A3 A4 A5 A6 A7 A8 A9 B1 B2 B3 B4 B5 B6 B7] [a1 a2 a3 a4 a5 a6 a7 a8 a9 b1 b2 b3].
  split; try (intros; match goal with H : _ /\ _ |- _ => destruct H end; split; eauto; fail).
  - intros l n deg degs la lo up s av s' (X & Y) FA H. destruct (B1 _ _ _ _ _ _ _ _ _ _ X FA H). split; eauto.
  - intros l c s s' (X & Y) H. destruct (B2 _ _ _ _ X H). split; eauto.
  - intros l s v s' (X & Y) Hl H. destruct (B3 _ _ _ _ X Hl H). split; eauto.
  - intros l v r s s' (X & Y) Hl H. destruct (B4 _ _ _ _ _ X Hl H). split; eauto.
  - intros l i j s s' (X & Y) Hi Hj H. destruct (B5 _ _ _ _ _ X Hi Hj H). split; eauto.
  - intros l i j s s' (X & Y) Hi Hj H. destruct (B6 _ _ _ _ _ X Hi Hj H). split; eauto.
  - intros l m s s' (X & Y) H. destruct (B7 _ _ _ _ X H). split; eauto.
Qed.

Section Col.
Context {F V M G T : Type} (fo : fops F) (bl : blas F V M G T) (qe : qr_env F) (td : tridiag F) (nev nex : nat) (H0 : M).
Let n := nev + nex.
Context (w : nat) (Hw : n <= w).
Definition fromC (s : cm (D := cst (V := V) (M := M))) : Prop := cs_bAc (cm_dla s) = true.
Local Notation K mp := (cmK fo qe td (colD fo bl mp n) nev nex).
Local Notation nsK := (cmK fo qe td (stop_late (late_failure bl n) (colD fo bl false n)) nev nex).

Lemma ns_qr l c s s' : k_qr nsK l c s = Ok s' -> k_qr (K false) l c s = Ok s'.
Proof.
  cbn [cmK k_qr]. unfold cm_qr. cbn [stop_late d_hhqr d_chol1 d_chol2 d_schol2 d_lockcopy]. cbv zeta.
  destruct (_ =? 1)%Z; auto. destruct (f_lt fo (q_upper qe) c); auto. destruct (late_failure bl n (cm_dla s)); [cbn; discriminate|auto].
Qed.

Lemma lockcopy_b l hh (s s' : cst (V := V) (M := M)) : c_lockcopy n l hh s = Ok s' -> cs_bAc s' = cs_bAc s.
Proof.
  unfold c_lockcopy. intros H. apply bind_ok in H as (? & _ & H). apply bind_ok in H as (? & _ & H). apply bind_ok in H as (? & _ & H).
  apply bind_ok in H as (? & _ & H). now injection H as <-.
Qed.
Lemma gather_b l k (s s' : cst (V := V) (M := M)) : c_gather bl l k s = Ok s' -> cs_bAc s' = cs_bAc s.
Proof.
  unfold c_gather. intros H. apply bind_ok in H as (? & _ & H). apply bind_ok in H as (? & _ & H). apply bind_ok in H as (? & _ & H).
  apply bind_ok in H as (? & _ & H). now injection H as <-.
Qed.
Lemma qr_b mp l c s s' : fromC s -> k_qr (K mp) l c s = Ok s' -> fromC s'.
Proof.
  intros Hb H. unfold fromC in *. cbn [cmK k_qr] in H. unfold cm_qr in H. cbv zeta in H. apply bind_ok in H as ([hh d] & Hd & H).
  apply lift_inv in H as (d' & H & ->). cbn [colD d_lockcopy] in H. apply lockcopy_b in H. cbn [cm_dla]. rewrite H. clear H d'.
  cut (only_C (cm_dla s) d); [intros (_ & _ & _ & _ & E & _); auto|].
  match type of Hd with (if ?c then _ else _) = _ => destruct c end.
  - apply bind_ok in Hd as (d1 & H1 & Hd). injection Hd as _ <-. eapply (hhqr_only fo bl nev nex mp); exact H1.
  - apply bind_ok in Hd as ([i d1] & H1 & Hd).
    assert (O1 : only_C (cm_dla s) d1).
    { match type of H1 with (if ?c then _ else _) = _ => destruct c; [eapply (schol2_only fo bl nev nex mp); exact H1|] end.
      match type of H1 with (if ?c then _ else _) = _ => destruct c; [eapply (chol1_only fo bl nev nex mp); exact H1|eapply (chol2_only fo bl nev nex mp); exact H1] end. }
    destruct (i =? 0)%Z; [injection Hd as _ <-; auto|]. apply bind_ok in Hd as (d2 & H2 & Hd). injection Hd as _ <-.
    eapply only_C_trans; [exact O1|eapply (hhqr_only fo bl nev nex mp); exact H2].
Qed.

Lemma plain_also mp (J : nat -> cm (D := cst (V := V) (M := M)) -> Prop) : (forall l s, J l s -> cm_locked s = l) -> also_keeps fo (K mp) n J fromC.
Proof.
  intros HJ. unfold fromC. split.
  - intros s v s' Hb H. cbn [cmK k_sym] in H. apply lift_v_inv in H as (d & E & ->). injection E as _ <-. auto.
  - intros s s' Hb H. cbn [cmK k_start] in H. apply bind_ok in H as (d & E & H). injection E as <-. injection H as <-. auto.
  - intros r s s' Hb H. cbn [cmK k_init] in H. unfold cm_init in H. apply lift_inv in H as (d & E & ->). apply bind_ok in E as (d1 & _ & E).
    cbn [colD d_init] in E. unfold c_init in E. apply bind_ok in E as (? & _ & E). apply bind_ok in E as (? & _ & E). injection E as <-. reflexivity.
  - intros m s u s' Hb H. cbn [cmK k_lanczos1] in H. unfold cm_lanczos1 in H. apply bind_ok in H as ([[[d e] b] x] & E & H).
    cbv zeta in H. apply bind_ok in H as (? & _ & H). apply bind_ok in H as (? & _ & H). apply bind_ok in H as (? & _ & H). injection H as _ <-.
    cbn [colD d_mlanczos] in E. unfold c_mlanczos in E. apply bind_ok in E as ([[[d1 e1] b1] C1] & _ & E). injection E as _ _ _ <-. auto.
  - intros m nv s u a b' c s' Hb H. cbn [cmK k_lanczos2] in H. unfold cm_lanczos2 in H. apply bind_ok in H as ([[[d e] b] x] & E & H).
    assert (EX : s' = mk_cm (cm_locked s) x).
    { clear E. repeat (first [apply bind_ok in H as ([[? ?] ?] & _ & H) | apply bind_ok in H as (? & _ & H)]). injection H as _ _ _ _ <-. reflexivity. }
    subst s'. cbn [colD d_mlanczos] in E. unfold c_mlanczos in E. apply bind_ok in E as ([[[d1 e1] b1] C1] & _ & E). injection E as _ _ _ <-. auto.
  - intros i m rv s s' Hb H. cbn [cmK k_dos] in H. apply lift_inv in H as (d & E & ->). cbn [colD d_dos] in E. unfold c_dos in E.
    repeat (apply bind_ok in E as (? & _ & E)). injection E as <-. auto.
  - intros l k deg degs la lo up s av s' X Hb FA H.
    destruct (col_filter fo bl qe td mp nev nex l k deg degs la lo up s av s' FA (HJ _ _ X) Hb H) as (_ & _ & E & _). exact E.
  - intros l c s s' Hb H. exact (qr_b mp l c s s' Hb H).
  - intros m s v s' Hb H. cbn [cmK k_rr] in H. apply lift_v_inv in H as (d & E & ->). cbn [colD d_rr] in E. unfold c_rr in E.
    destruct (_ && _) in E; [discriminate|]. apply bind_ok in E as (s1 & G1 & E). apply gather_b in G1. cbv zeta in E.
    repeat (apply bind_ok in E as (? & _ & E)). injection E as _ <-. cbn. congruence.
  - intros l v r s s' Hb H. cbn [cmK k_resd] in H. apply lift_v_inv in H as (d & E & ->). cbn [colD d_resd] in E. unfold c_resd in E.
    apply bind_ok in E as (s1 & G1 & E). apply gather_b in G1. repeat (apply bind_ok in E as (? & _ & E)). injection E as _ <-. cbn. congruence.
  - intros i j s s' Hb H. cbn [cmK k_swap] in H. apply lift_inv in H as (d & E & ->). cbn [colD d_swap] in E. unfold c_swap in E.
    apply bind_ok in E as (C1 & _ & E). destruct mp; apply bind_ok in E as (C2 & _ & E); injection E as <-; auto.
  - intros m s s' Hb H. cbn [cmK k_lock] in H. injection H as <-. auto.
Qed.
Lemma ns_also (J : nat -> cm (D := cst (V := V) (M := M)) -> Prop) : (forall l s, J l s -> cm_locked s = l) -> also_keeps fo nsK n J fromC.
Proof.
  intros HJ. destruct (plain_also false J HJ) as [a1 a2 a3 a4 a5 a6 a7 a8 a9 b1 b2 b3]. split; auto.
  intros l c s s' Hb H. eapply a8; [exact Hb|]. apply ns_qr. exact H.
Qed.

(** Rayleigh-Ritz on the whole block *)
Lemma rr_val mp (s : cm (D := cst (V := V) (M := M))) v s' : sJr fo bl nev nex H0 w 0 s -> k_rr (K mp) n s = Ok (v, s') ->
  let A := b_gram bl (cs_C (cm_dla s)) (map (b_mulH bl (cs_H (cm_dla s))) (cs_C (cm_dla s))) in
  drift fo bl H0 (cs_H (cm_dla s)) /\ length (cs_C (cm_dla s)) = n /\ v = map (b_eval bl A) (seq 0 n) /\ cs_C (cm_dla s') = map (b_comb bl (cs_C (cm_dla s)) A) (seq 0 n).
Proof.
  intros (A & B & C & D) H. fold n in B, D. cbn [cmK k_rr] in H. rewrite A in H. apply lift_v_inv in H as (d & E & ->). cbn [colD d_rr] in E. unfold c_rr in E.
  destruct (_ && _) in E; [discriminate|].
  apply bind_ok in E as (s1 & G1 & E). pose proof (gather_inv bl nev nex w Hw _ _ _ _ B G1) as ((L1 & L2 & L3 & L4) & E1 & E2 & E3 & E4 & _ & E5 & E6).
  rewrite E5, E6 in E. cbn [bind] in E. cbv zeta in E. apply bind_ok in E as (c2 & Hc2 & E). pose proof (get_range_len _ _ _ _ Hc2) as Lc2.
  apply get_range_inv in Hc2 as [_ ->]. apply bind_ok in E as (C' & HC & E). apply bind_ok in E as (C2' & HC2 & E). injection E as <- <-.
  pose proof (put_range_length _ _ _ _ HC) as LC'.
  apply put_range_upto in HC as UC. rewrite map_length, seq_length in UC. cbn [Nat.add firstn app skipn] in *.
  fold n in L1. rewrite (firstn_all2 C') in UC by lia. rewrite E2, E3 in *. destruct B as (LB & _). fold n in LB.
  rewrite D in *. rewrite (firstn_all2 (cs_C (cm_dla s))) in UC |- * by lia. cbn [cm_dla cs_C]. auto.
Qed.

Context (on : list V -> Prop) (tri : list V -> list V -> Prop) (Ray : F -> V -> Prop).
Hypothesis RU : on_rules fo bl H0 n on tri Ray.
Context (sub : list V -> list V -> Prop).
Hypothesis sub_refl : forall a, sub a a.
Hypothesis sub_trans : forall a b c, sub a b -> sub b c -> sub a c.
Hypothesis tri_sub : forall a b, tri a b -> sub a b.
Hypothesis swp_sub : forall cs i j, i < length cs -> j < length cs -> sub cs (swp cs i j).
Hypothesis rr_sub : forall h cs, drift fo bl H0 h -> length cs = n -> on cs -> sub cs (map (b_comb bl cs (b_gram bl cs (map (b_mulH bl h) cs))) (seq 0 n)).

Definition bJ0 (s : cm (D := cst (V := V) (M := M))) : Prop := sJ0 fo bl nev nex H0 w s /\ fromC s.
Definition bJ l (s : cm (D := cst (V := V) (M := M))) : Prop := oJ fo bl nev nex H0 w on l s /\ fromC s.
Definition bJf l (s : cm (D := cst (V := V) (M := M))) : Prop := oJf fo bl nev nex H0 w on l s /\ fromC s.
Definition bJr l (s : cm (D := cst (V := V) (M := M))) : Prop := oJr fo bl nev nex H0 w on l s /\ fromC s.
Definition bJL (s : cm (D := cst (V := V) (M := M))) : Prop := length (cs_C (cm_dla s)) = n.

Lemma mpi_bkeep : kernel_keep fo (K true) n (fun s => cs_C (cm_dla s)) bJ0 bJ bJf bJr.
Proof. apply keep_also; [exact (mpi_orth_keep fo bl qe td nev nex H0 w Hw on tri Ray RU)|apply plain_also; intros l s ((E & _) & _); exact E]. Qed.
Lemma ns_bkeep : kernel_keep fo nsK n (fun s => cs_C (cm_dla s)) bJ0 bJ bJf bJr.
Proof.
  apply keep_also; [exact (cols_keep _ _ _ _ _ _ _ _ _ _ (seq_orth_cols fo bl qe td nev nex H0 w Hw on tri Ray RU))|apply ns_also; intros l s ((E & _) & _); exact E].
Qed.

Lemma lock0 hh (s s' : cst (V := V) (M := M)) : c_lockcopy n 0 hh s = Ok s' -> cs_C s' = cs_C s.
Proof.
  unfold c_lockcopy. intros H. apply bind_ok in H as (a & Ha & H). apply get_range_inv in Ha as [_ ->]. cbn [firstn skipn] in H.
  apply bind_ok in H as (C & HC & H). apply put_range_inv in HC as [_ ->]. cbn [firstn app skipn length] in H.
  apply bind_ok in H as (? & _ & H). apply bind_ok in H as (? & _ & H). now injection H as <-.
Qed.

Lemma mpi_qr_sub c s s' : bJf 0 s -> k_qr (K true) 0 c s = Ok s' -> sub (cs_C (cm_dla s)) (cs_C (cm_dla s')).
Proof.
  intros (((X1 & X2 & X3 & X4) & _) & _) H. assert (LC : length (cs_C (cm_dla s)) = n) by (destruct X2 as (E & _); exact E).
  cbn [cmK k_qr] in H. destruct (qr_attempt fo bl qe nev nex H0 on tri Ray RU (colD fo bl true n) 0 c s s' LC) as (d & hh & AT & OC & HL); auto.
  { intros l1 s1 d1 E E1. split; [eapply (hhqr_attempt fo bl nev nex H0 w Hw on tri Ray RU true l1); [exact E|exact E1]|eapply (hhqr_only fo bl nev nex true l1); exact E1]. }
  { intros l1 s1 d1 i E E1. split; [eapply (chol1_attempt fo bl nev nex H0 w Hw on tri Ray RU l1); [exact E|exact E1]|eapply (chol1_only fo bl nev nex true l1); exact E1]. }
  { intros l1 s1 d1 i E E1. split; [eapply (chol2_attempt fo bl nev nex H0 w Hw on tri Ray RU l1); [exact E|exact E1]|eapply (chol2_only fo bl nev nex true l1); exact E1]. }
  { intros l1 s1 d1 i E E1. split; [eapply (schol2_attempt fo bl nev nex H0 w Hw on tri Ray RU true l1); [exact E|discriminate|exact E1]|eapply (schol2_only fo bl nev nex true l1); exact E1]. }
  rewrite X1 in HL. apply lock0 in HL. rewrite HL. apply tri_sub, AT.
Qed.
Lemma ns_qr_sub c s s' : bJf 0 s -> k_qr nsK 0 c s = Ok s' -> sub (cs_C (cm_dla s)) (cs_C (cm_dla s')).
Proof.
  intros (((X1 & X2 & X3 & X4) & _) & _) H. assert (LC : length (cs_C (cm_dla s)) = n) by (destruct X2 as (E & _); exact E).
  cbn [cmK k_qr] in H. destruct (qr_attempt fo bl qe nev nex H0 on tri Ray RU (stop_late (late_failure bl n) (colD fo bl false n)) 0 c s s' LC) as (d & hh & AT & OC & HL); auto.
  { intros l1 s1 d1 E E1. split; [eapply (hhqr_attempt fo bl nev nex H0 w Hw on tri Ray RU false l1); [exact E|exact E1]|eapply (hhqr_only fo bl nev nex false l1); exact E1]. }
  { intros l1 s1 d1 i E E1. split; [eapply (chol1_attempt fo bl nev nex H0 w Hw on tri Ray RU l1); [exact E|exact E1]|eapply (chol1_only fo bl nev nex false l1); exact E1]. }
  { intros l1 s1 d1 i E E1. split; [eapply (chol2_attempt fo bl nev nex H0 w Hw on tri Ray RU l1); [exact E|exact E1]|eapply (chol2_only fo bl nev nex false l1); exact E1]. }
  { intros l1 s1 d1 i E E1. cbn [stop_late d_schol2 colD] in E1. destruct (late_failure bl n s1) eqn:LF; [discriminate|].
    split; [eapply (schol2_attempt fo bl nev nex H0 w Hw on tri Ray RU false l1); [exact E|intros _; exact LF|exact E1]|eapply (schol2_only fo bl nev nex false l1); exact E1]. }
  rewrite X1 in HL. apply lock0 in HL. rewrite HL. apply tri_sub, AT.
Qed.

Lemma rr_span mp s v s' : bJr 0 s -> k_rr (K mp) n s = Ok (v, s') -> length v = n /\ sub (cs_C (cm_dla s)) (cs_C (cm_dla s')).
Proof.
  intros ((X & Y) & _) H. destruct (rr_val mp s v s' X H) as (D & L & -> & ->). rewrite map_length, seq_length. split; auto.
Qed.
Lemma resd_span mp v r s s' : bJr 0 s -> k_resd (K mp) v 0 s = Ok (r, s') -> sub (cs_C (cm_dla s)) (cs_C (cm_dla s')).
Proof.
  intros (((X1 & X2 & _) & _) & _) H. cbn [cmK k_resd] in H. apply lift_v_inv in H as (d & E & ->). cbn [colD d_resd] in E. unfold c_resd in E.
  apply bind_ok in E as (s1 & G1 & E). pose proof (gather_inv bl nev nex w Hw _ _ _ _ X2 G1) as (_ & _ & E2 & _).
  repeat (apply bind_ok in E as (? & _ & E)). injection E as _ <-. cbn [cm_dla cs_C]. rewrite E2. apply sub_refl.
Qed.
Lemma swap_span mp i j s s' : bJL s -> i < n -> j < n -> k_swap (K mp) i j s = Ok s' -> bJL s' /\ sub (cs_C (cm_dla s)) (cs_C (cm_dla s')).
Proof.
  unfold bJL. intros L Hi Hj H. cbn [cmK k_swap] in H. apply lift_inv in H as (d & E & ->). cbn [colD d_swap] in E.
  destruct mp; [rewrite mpi_swap_spec in E by lia; injection E as <-; auto|].
  unfold c_swap in E. apply bind_ok in E as (C' & HC & E). apply bind_ok in E as (C2' & HC2 & E). injection E as <-.
  apply AlgProofs1.swap_inv in HC as (_ & _ & ->). cbn. rewrite swp_length. split; auto. apply swp_sub; lia.
Qed.
Lemma bJ_JL l s : bJ l s -> bJL s.
Proof. intros (((_ & (E & _) & _) & _) & _). exact E. Qed.
Lemma end_span mp s s' : k_end (K mp) s = Ok s' -> cs_C (cm_dla s') = cs_C (cm_dla s).
Proof. intros E. cbn [cmK k_end] in E. apply lift_inv in E as (d & E & ->). injection E as <-. reflexivity. Qed.

Context (Fl : F -> F -> F -> nat -> list V -> list V -> Prop).
Hypothesis HF : forall mp la lo up d s av s', bJ 0 s -> 2 <= d -> Nat.even d = true -> filter_ fo (K mp) n d (repeat d n) la lo up s = Ok (av, s') ->
  Fl la lo up d (cs_C (cm_dla s)) (cs_C (cm_dla s')).
Context (sort_idx : list F -> list nat) (Hperm : forall keys, Permutation (sort_idx keys) (seq 0 (length keys))).

Lemma mpi_span fsort cf k ritzv resid o s ub s0 : n = c_nev cf + c_nex cf -> conf_ok cf -> bJ0 k -> 1 <= c_maxiter cf ->
  solve fo (K true) fsort sort_idx cf k ritzv resid = Ok o -> o_exit o = Some s ->
  unlocked_run fo (K true) sort_idx fsort cf k ritzv resid ub s0 s -> (c_opt cf = true -> ss_iter s <= 1) ->
  let lo := clamp fo ub (ss_lowerb s0) in let ft := filtered sub Fl (ss_lambda s0) lo ub (ss_d s0) (ss_iter s) (cs_C (cm_dla (ss_k s0))) in
  length (cs_C (cm_dla (ss_k s0))) = n /\ ss_d s0 = Nat.min (c_deg cf + c_deg cf mod 2) (c_maxdeg cf) /\ ft (cs_C (cm_dla (o_k o))) /\
  exists h cs, drift fo bl H0 h /\ length cs = n /\ on cs /\ ft cs /\
    let A := b_gram bl cs (map (b_mulH bl h) cs) in
    ft (map (b_comb bl cs A) (seq 0 n)) /\ Permutation (firstn (c_nev cf) (o_ritz o)) (firstn (c_nev cf) (map (b_eval bl A) (seq 0 n))).
Proof.
  intros En HC HJ Hm H Hx HU Ho lo ft.
  destruct (solve_span fo (K true) sort_idx Hperm n _ bJ0 bJ bJf bJr bJL mpi_bkeep sub Fl sub_refl sub_trans
    (fun la lo up d s av s' => HF true la lo up d s av s') mpi_qr_sub (rr_span true) (fun v r s s' => resd_span true v r s s') bJ_JL
    (fun i j s s' => swap_span true i j s s') (end_span true) fsort cf k ritzv resid o s ub s0 En HC HJ Hm H Hx HU Ho)
    as (Y1 & Y2 & Y3 & k2 & k3 & vals & X1 & X2 & X3 & X4 & X5 & X6).
  split; [exact (bJ_JL _ _ Y1)|]. split; auto. split; [exact Y3|].
  destruct X1 as ((X1 & X1') & _). destruct (rr_val true k2 vals k3 X1 X2) as (D & L & Ev & Ec). rewrite Ev in X6. rewrite Ec in X4.
  exists (cs_H (cm_dla k2)), (cs_C (cm_dla k2)). auto 10.
Qed.
Lemma ns_span fsort cf k ritzv resid o s ub s0 : n = c_nev cf + c_nex cf -> conf_ok cf -> bJ0 k -> 1 <= c_maxiter cf ->
  solve fo nsK fsort sort_idx cf k ritzv resid = Ok o -> o_exit o = Some s ->
  unlocked_run fo nsK sort_idx fsort cf k ritzv resid ub s0 s -> (c_opt cf = true -> ss_iter s <= 1) ->
  let lo := clamp fo ub (ss_lowerb s0) in let ft := filtered sub Fl (ss_lambda s0) lo ub (ss_d s0) (ss_iter s) (cs_C (cm_dla (ss_k s0))) in
  length (cs_C (cm_dla (ss_k s0))) = n /\ ss_d s0 = Nat.min (c_deg cf + c_deg cf mod 2) (c_maxdeg cf) /\ ft (cs_C (cm_dla (o_k o))) /\
  exists h cs, drift fo bl H0 h /\ length cs = n /\ on cs /\ ft cs /\
    let A := b_gram bl cs (map (b_mulH bl h) cs) in
    ft (map (b_comb bl cs A) (seq 0 n)) /\ Permutation (firstn (c_nev cf) (o_ritz o)) (firstn (c_nev cf) (map (b_eval bl A) (seq 0 n))).
Proof.
  intros En HC HJ Hm H Hx HU Ho lo ft.
  destruct (solve_span fo nsK sort_idx Hperm n _ bJ0 bJ bJf bJr bJL ns_bkeep sub Fl sub_refl sub_trans
    (fun la lo up d s av s' => HF false la lo up d s av s') ns_qr_sub (rr_span false) (fun v r s s' => resd_span false v r s s') bJ_JL
    (fun i j s s' => swap_span false i j s s') (end_span false) fsort cf k ritzv resid o s ub s0 En HC HJ Hm H Hx HU Ho)
    as (Y1 & Y2 & Y3 & k2 & k3 & vals & X1 & X2 & X3 & X4 & X5 & X6).
  split; [exact (bJ_JL _ _ Y1)|]. split; auto. split; [exact Y3|].
  destruct X1 as ((X1 & X1') & _). destruct (rr_val false k2 vals k3 X1 X2) as (D & L & Ev & Ec). rewrite Ev in X6. rewrite Ec in X4.
  exists (cs_H (cm_dla k2)), (cs_C (cm_dla k2)). auto 10.
Qed.
End Col.
