(** Related BLAS operations give related in-place backends; stopping both of two related backends in related states keeps them
    related. *)
From Coq Require Import List Arith ZArith Bool Lia.
Require Import Verif.Base Verif.AlgModel Verif.AlgProofs2 Verif.AlgSim Verif.DlaModel Verif.DlaSim Verif.ColModel Verif.ColSpec Verif.ColRel Verif.BackSpec
  Verif.SfModel Verif.SfSpec Verif.SfProofs1 Verif.SfProofs5.
Import ListNotations.

Section Stop.
Context {F D1 D2 : Type} (fo : fops F) (qe : qr_env F) (td : tridiag F) (nev nex : nat) (L1 : dla F D1) (L2 : dla F D2) (R : D1 -> D2 -> Prop).
Context (late1 : D1 -> bool) (late2 : D2 -> bool) (HL : forall s t, R s t -> late1 s = late2 t).
Lemma stop_dla : dla_rel L1 L2 R -> dla_rel (stop_late late1 L1) (stop_late late2 L2) R.
Proof.
  intros DR. destruct DR. split; cbn [stop_late d_shift d_apply d_hhqr d_chol1 d_chol2 d_schol2 d_lockcopy d_rr d_swap d_mlanczos d_dos]; auto.
  intros l s t H. rewrite (HL _ _ H). destruct (late2 t); [exact I|auto].
Qed.
Lemma stop_kernel : dla_rel L1 L2 R -> kernel_rel (cmK fo qe td L1 nev nex) (cmK fo qe td L2 nev nex) (cmR R) ->
  kernel_rel (cmK fo qe td (stop_late late1 L1) nev nex) (cmK fo qe td (stop_late late2 L2) nev nex) (cmR R).
Proof.
  intros DR KR. pose proof (cm_core_rel fo qe td nev nex _ _ R (stop_dla DR)) as CR. destruct KR.
  split; try assumption. exact (AlgSim.kr_qr _ _ _ CR).
Qed.
End Stop.

Section Rel.
Context {F V1 V2 M1 M2 G1 G2 T : Type} (fo : fops F) (b1 : blas F V1 M1 G1 T) (b2 : blas F V2 M2 G2 T).
Context (RV : V1 -> V2 -> Prop) (RM : M1 -> M2 -> Prop) (RG : G1 -> G2 -> Prop) (BR : blas_rel b1 b2 RV RM RG).
Notation RL := (Forall2 RV).
Definition istR (s : ist (V := V1) (M := M1)) (t : ist (V := V2) (M := M2)) : Prop :=
  RM (is_H s) (is_H t) /\ RL (is_V1 s) (is_V1 t) /\ RL (is_V2 s) (is_V2 t) /\ is_sw s = is_sw t.
Context (n : nat).
Notation L1 := (inplD fo b1 n).
Notation L2 := (inplD fo b2 n).
Ltac gr := eapply rel_bind; [apply get_rel; eassumption|]; intros ? ? ?; cbn beta iota.
Ltac fin := cbn; unfold istR; cbn; auto 8.
Ltac pt := eapply rel_bind; [apply put_rel; eassumption|]; intros ? ? ?; cbn beta iota.

Lemma i_save_rel l s t : istR s t -> rel_res istR (i_save l s) (i_save l t).
Proof. intros (HH & H1 & H2 & E). unfold i_save. gr. pt. fin. Qed.
Lemma i_set_rel s t f g : istR s t -> (forall l l' i, RL l l' -> RV (f l i) (g l' i)) -> rel_res istR (i_set n s f) (i_set n t g).
Proof.
  intros (HH & H1 & H2 & E) Hf. unfold i_set. gr. eapply rel_bind; [apply put_rel; [eassumption|]|].
  { apply f2_seq. auto. }
  intros. fin.
Qed.
Lemma i_factor_rel sh s t : istR s t -> rel_res (fun x y => fst x = fst y /\ RG (snd x) (snd y)) (i_factor b1 n sh s) (i_factor b2 n sh t).
Proof.
  intros (HH & H1 & _). unfold i_factor. gr. cbn. apply (br_potrf _ _ _ _ _ BR).
  destruct sh; [apply (br_dshift _ _ _ _ _ BR)|]; now apply (br_syherk _ _ _ _ _ BR).
Qed.
Lemma i_trsm_rel s t U U' : istR s t -> RG U U' -> rel_res istR (i_set n s (b_trsm b1 U)) (i_set n t (b_trsm b2 U')).
Proof. intros H HU. apply i_set_rel; auto. intros. now apply (br_trsm _ _ _ _ _ BR). Qed.
Lemma i_resd_rel v l k s t : istR s t -> rel_res (vrel istR) (d_resd L1 v l k s) (d_resd L2 v l k t).
Proof.
  intros (HH & H1 & H2 & E). cbn. unfold i_resd. gr. rb. cbv zeta.
  match goal with |- rel_res _ (bind (put_range _ _ ?x) _) (bind (put_range _ _ ?y) _) => assert (E4 : RL x y) end.
  { eapply axpys'_rel; eauto. eapply f2_map; [|eassumption]. intros. now apply (br_mulH _ _ _ _ _ BR). }
  pt. cbn. unfold vrel. cbn. rewrite (map_nrm_rel _ _ _ _ _ BR _ _ E4). split; auto. fin.
Qed.

Lemma inpl_rel : dla_rel L1 L2 istR.
Proof.
  split; cbn [inplD d_sym d_start d_end d_initrnd d_init d_shift d_apply d_hhqr d_chol1 d_chol2 d_schol2 d_lockcopy d_rr d_resd d_swap d_mlanczos d_dos].
  - intros c u s t (HH & H1 & H2 & E). cbn. unfold istR. cbn. split; auto. now apply (br_shift _ _ _ _ _ BR).
  - intros a b off k l s t (HH & H1 & H2 & E). unfold i_apply. gr. gr. eapply rel_bind; [apply put_rel; [eassumption|]|].
    { eapply f2_zip; [|eassumption|eassumption]. intros. now apply (br_gemmN _ _ _ _ _ BR). }
    intros. cbn. unfold istR. cbn. rewrite E. auto.
  - intros l s t H. unfold i_hhqr. eapply rel_bind; [now apply i_save_rel|]. intros. apply i_set_rel; auto. apply (br_hh _ _ _ _ _ BR).
  - intros l s t H. unfold i_chol1. eapply rel_bind; [now apply i_save_rel|]. intros s0 t0 H0. eapply rel_bind; [now apply i_factor_rel|].
    intros [i U] [i' U'] [Ei HU]. cbn [fst snd] in *. subst i'. destruct (negb _); [cbn; unfold vrel; auto|].
    eapply rel_bind; [now apply i_trsm_rel|]. intros. cbn. unfold vrel. auto.
  - intros l s t H. unfold i_chol2. eapply rel_bind; [now apply i_save_rel|]. intros s0 t0 H0. eapply rel_bind; [now apply i_factor_rel|].
    intros [i U] [i' U'] [Ei HU]. cbn [fst snd] in *. subst i'. destruct (negb _); [cbn; unfold vrel; auto|].
    eapply rel_bind; [now apply i_trsm_rel|]. intros s1 t1 H1. eapply rel_bind; [now apply i_factor_rel|]. intros [i2 U2] [i2' U2'] [Ei HU2]. cbn [fst snd] in *. subst i2'.
    eapply rel_bind; [now apply i_trsm_rel|]. intros. cbn. unfold vrel. auto.
  - intros l s t H. unfold i_schol2. eapply rel_bind; [now apply i_save_rel|]. intros s0 t0 H0. eapply rel_bind; [now apply i_factor_rel|].
    intros [i U] [i' U'] [Ei HU]. cbn [fst snd] in *. subst i'. destruct (negb _); [cbn; unfold vrel; auto|].
    eapply rel_bind; [now apply i_trsm_rel|]. intros s1 t1 H1. eapply rel_bind; [now apply i_factor_rel|]. intros [i2 U2] [i2' U2'] [Ei HU2]. cbn [fst snd] in *. subst i2'.
    destruct (negb _); [cbn; unfold vrel; auto|]. eapply rel_bind; [now apply i_trsm_rel|]. intros s2 t2 H2. eapply rel_bind; [now apply i_factor_rel|].
    intros [i3 U3] [i3' U3'] [Ei HU3]. cbn [fst snd] in *. subst i3'. eapply rel_bind; [now apply i_trsm_rel|]. intros. cbn. unfold vrel. auto.
  - intros l b s t (HH & H1 & H2 & E). unfold i_lockcopy. gr. pt. fin.
  - intros k l s t (HH & H1 & H2 & E). unfold i_rr. gr. cbv zeta.
    match goal with |- context [b_gram b1 ?x ?y] => match goal with |- context [b_gram b2 ?z ?w] => assert (HG : RG (b_gram b1 x y) (b_gram b2 z w)) end end.
    { apply (br_gram _ _ _ _ _ BR); auto. eapply f2_map; [|eassumption]. intros. now apply (br_mulH _ _ _ _ _ BR). }
    eapply rel_bind; [apply put_rel; [eassumption|]|].
    { apply f2_seq. intros. now apply (br_comb _ _ _ _ _ BR). }
    intros. cbn. unfold vrel, istR. cbn. rewrite E. split; [|auto]. apply map_ext. intros. now apply (br_eval _ _ _ _ _ BR).
  - intros i j s t (HH & H1 & H2 & E). unfold i_swap. eapply rel_bind; [apply swap_rel; eassumption|]. intros. fin.
  - intros m nv s t (HH & H1 & H2 & E). unfold i_mlanczos. eapply rel_bind; [eapply mlanczos_rel; eassumption|].
    intros [[[d e] b] x] [[[d' e'] b'] x'] [X Y]. cbn [fst snd] in *. injection X as <- <- <-. cbn. unfold vrel. cbn. split; auto. fin.
  - intros i m rv s t (HH & H1 & H2 & E). unfold i_dos. rb. gr. eapply rel_bind; [apply put_rel; [eassumption|]|].
    { apply f2_seq. intros. now apply (br_combl _ _ _ _ _ BR). }
    intros. gr. pt. fin.
Qed.

Context (qe : qr_env F) (td : tridiag F) (nev nex : nat).
Lemma inpl_kernel : kernel_rel (cmK fo qe td L1 nev nex) (cmK fo qe td L2 nev nex) (cmR istR).
Proof.
  pose proof (cm_core_rel fo qe td nev nex L1 L2 istR inpl_rel) as CR. destruct CR.
  split; try assumption.
  - intros s t [E H]. apply lift_v_rel; auto. cbn. unfold vrel. cbn. split; auto. destruct H as (HH & _). apply (br_veq _ _ _ _ _ BR).
    + apply (br_mulN _ _ _ _ _ BR); auto. apply (br_test _ _ _ _ _ BR).
    + apply (br_mulH _ _ _ _ _ BR); auto. apply (br_test _ _ _ _ _ BR).
  - intros s t [E H]. cbn. split; auto.
  - intros s t [E H]. cbn. split; auto.
  - intros r s t [E H]. cbn [cmK k_init]. unfold cm_init. apply lift_rel; auto. eapply rel_bind with (R := istR).
    + destruct r; [|exact H]. destruct H as (HH & H1 & H2 & Es). cbn. unfold i_initrnd. eapply rel_bind; [apply put_rel; [eassumption|]|].
      { apply f2_seq. apply (br_rnd _ _ _ _ _ BR). }
      intros. fin.
    + intros a b (HH & H1 & H2 & Es). cbn. unfold i_init. gr. pt. fin.
  - intros v l s t [E H]. cbn [cmK k_resd]. rewrite E. apply lift_v_rel; auto. now apply i_resd_rel.
Qed.
End Rel.

Lemma late_rel {F V1 V2 M1 M2 G1 G2 T} (b1 : blas F V1 M1 G1 T) (b2 : blas F V2 M2 G2 T) RV RM RG n l l' : blas_rel b1 b2 RV RM RG ->
  Forall2 RV l l' -> late_block b1 n l = late_block b2 n l'.
Proof.
  intros BR H. unfold late_block. pose proof (br_potrf _ _ _ _ _ BR _ _ (br_dshift _ _ _ _ _ BR _ _ (br_syherk _ _ _ _ _ BR _ _ H))) as P.
  destruct (b_potrf b1 (b_dshift b1 _)) as [i U], (b_potrf b2 (b_dshift b2 _)) as [i' U']. cbn [fst snd] in P. destruct P as [<- P]. do 3 f_equal.
  apply (br_potrf _ _ _ _ _ BR). apply (br_syherk _ _ _ _ _ BR). apply f2_seq. intros. now apply (br_trsm _ _ _ _ _ BR).
Qed.

Lemma columns_packs {T} N k (buf : list T) cls : 1 <= N -> packs N buf cls -> length cls = k -> columns N k buf = cls.
Proof.
  intros N1 H <-. apply (nth_ext _ _ [] []).
  - unfold columns. apply tab_length.
  - unfold columns. intros c Hc. rewrite tab_length in Hc. rewrite nth_tab by auto. now apply packs_nth.
Qed.

(** an array is determined by its matrix and the elements outside *)
Lemma array_eq {F T} (lib : flib F T) N ldh (A H : list T) : N <= ldh -> length A = length H ->
  (forall p, padding N ldh p -> nth p A (l_zero lib) = nth p H (l_zero lib)) -> window lib N ldh A = window lib N ldh H -> A = H.
Proof.
  intros NL E P W. apply (nth_ext _ _ (l_zero lib) (l_zero lib)); auto. intros p _.
  destruct (Nat.eq_dec N 0) as [->|N0]. { apply P. intros i j Hi. lia. }
  pose proof (Nat.div_mod p ldh ltac:(lia)) as D. pose proof (Nat.mod_upper_bound p ldh ltac:(lia)) as B.
  destruct (Nat.lt_ge_cases (p mod ldh) N) as [L1|L1]; [destruct (Nat.lt_ge_cases (p / ldh) N) as [L2|L2]|].
  - assert (G : forall X, nth (p mod ldh) (nth (p / ldh) (window lib N ldh X) []) (l_zero lib) = nth p X (l_zero lib)).
    { intros X. unfold window, tab2. rewrite nth_tab by auto. rewrite nth_tab by auto. f_equal. lia. }
    now rewrite <- !G, W.
  - apply P. intros i j Hi Hj Ep. assert (p / ldh = j) by (symmetry; apply (Nat.div_unique p ldh j i); lia). lia.
  - apply P. intros i j Hi Hj Ep. assert (p mod ldh = i) by (symmetry; apply (Nat.mod_unique p ldh j i); lia). lia.
Qed.

Lemma column_size {T} N k j (V : list T) : j < k -> length V = N * k -> length (firstn N (skipn (j * N) V)) = N.
Proof. intros Hj E. rewrite firstn_length, skipn_length. nia. Qed.
Lemma column_nth {T} N i j (V : list T) d : i < N -> nth i (firstn N (skipn (j * N) V)) d = nth (i + j * N) V d.
Proof.
  assert (S : forall k (l : list T), nth i (skipn k l) d = nth (i + k) l d).
  { induction k; intros l; [now rewrite Nat.add_0_r|]. rewrite Nat.add_succ_r. destruct l; cbn; [now destruct i|apply IHk]. }
  intros Hi. rewrite <- S. generalize (skipn (j * N) V). clear S. revert i Hi. induction N; intros i Hi l; [lia|]. destruct l; auto. destruct i; cbn; auto. apply IHN. lia.
Qed.
