(** The redistribution schedules of block-cyclic layouts, and redistribution between coinciding layouts. *)
From Coq Require Import List Arith Bool ZArith Lia Permutation.
Require Import Verif.Base Verif.DistModel Verif.DistSpec Verif.DistProofs Verif.DistProofs2 Verif.FlatModel Verif.FlatSpec Verif.FlatProofs Verif.FlatProofs2.
Require Import Verif.RedistModel Verif.RedistSpec Verif.RedistProofs Verif.RedistProofs2.
Require Import Verif.SpmdModel Verif.SpmdSpec Verif.SpmdProofs Verif.KerModel Verif.KerSpec Verif.KerProofs1 Verif.KerProofs2 Verif.KerProofs3.
Import ListNotations.

Definition schedule (ps : nat) (srows : nat -> list nat) (drows : list nat) (me : nat) (rs : list run) : Prop :=
  (forall r, In r rs -> r_dest r = me -> r_src r < ps /\ 0 < r_len r /\
    forall t, t < r_len r -> exists g, nth_error drows (r_dd r + t) = Some g /\ nth_error (srows (r_src r)) (r_sd r + t) = Some g) /\
  (forall a, a < length drows -> exists r, In r rs /\ r_dest r = me /\ r_dd r <= a < r_dd r + r_len r).

Lemma NoDup_app2 {A} (l l' : list A) : NoDup l -> NoDup l' -> (forall x, In x l -> ~ In x l') -> NoDup (l ++ l').
Proof.
  induction l; simpl; intros H1 H2 H3; auto. inversion H1; subst. constructor.
  - rewrite in_app_iff. intros [H|H]; [contradiction|]. apply (H3 a); auto.
  - apply IHl; auto.
Qed.
Lemma splits_owned N nb p src : 0 < p -> splits N p (owned N nb p src).
Proof.
  intros Hp. unfold splits. apply NoDup_Permutation.
  - assert (G : forall l, NoDup l -> NoDup (flat_map (owned N nb p src) l)).
    { induction l; intros Hl; simpl; [constructor|]. inversion Hl; subst. apply NoDup_app2; auto; [apply owned_NoDup|].
      intros g Hg F. apply in_owned in Hg. apply in_flat_map in F as (i & Hi & F). apply in_owned in F. destruct Hg, F. subst. contradiction. }
    apply G, seq_NoDup.
  - apply seq_NoDup.
  - intros g. rewrite in_flat_map, in_seq. split.
    + intros (i & _ & Hg). apply in_owned in Hg. lia.
    + intros Hg. exists (owner nb p src g). split; [apply in_seq; pose proof (owner_lt nb p src g Hp); lia|]. apply in_owned. lia.
Qed.

Lemma schedule_runs N ms ps md pd me : 0 < ms -> 0 < ps -> 0 < md -> 0 < pd -> 0 < N -> me < pd ->
  schedule ps (owned N ms ps 0) (owned N md pd 0 me) me (runs N ms ps 0 md pd 0).
Proof.
  intros Hms Hps Hmd Hpd HN Hme. split.
  - intros r Hr Hd. destruct (runs_spec ms ps md pd Hms Hps Hmd Hpd N HN) as [_ F]. rewrite Forall_forall in F. specialize (F r Hr).
    destruct (run_place ms ps md pd Hms Hps Hmd Hpd N r 0 HN Hr F) as (g0 & _ & _ & E & _). split; [rewrite E; now apply owner_lt|]. split; auto.
    intros t Ht. destruct (run_place ms ps md pd Hms Hps Hmd Hpd N r t HN Hr Ht) as (g & Hg & E1 & E2 & E3 & E4). exists g.
    rewrite E3, E4, E2, <- Hd, E1. split; now apply lpos_owned.
  - intros a Ha. destruct (nth_error (owned N md pd 0 me) a) as [g|] eqn:Eg; [|apply nth_error_None in Eg; lia].
    assert (Hg : g < N /\ owner md pd 0 g = me) by (apply in_owned; eapply nth_error_In; eauto). destruct Hg as [Hg Ho].
    destruct (place_run ms ps md pd Hms Hps Hmd Hpd N g HN Hg) as (r & t & H1 & H2 & H3 & _ & H4 & _). exists r. split; auto. split; [congruence|].
    pose proof (lpos_owned N md pd 0 g Hmd Hpd Hg) as L. rewrite Ho in L.
    assert (a = lpos md pd g); [|lia]. eapply (proj1 (NoDup_nth_error _) (owned_NoDup N md pd 0 me)); auto. congruence.
Qed.

Lemma schedule_same ps (rows : nat -> list nat) me lens : me < ps -> length lens = ps -> (forall i, i < ps -> rows i <> []) ->
  (forall i, i < ps -> nth_error lens i = Some (length (rows i))) -> schedule ps rows (rows me) me (runs_same lens).
Proof.
  intros Hme HL Hne Hl.
  assert (In_rs : forall r, In r (runs_same lens) <-> exists i, i < ps /\ r = mk_run i i (length (rows i)) 0 0).
  { intros r. unfold runs_same. rewrite in_map_iff. split.
    - intros ([i l] & <- & Hi). cbn [fst snd]. apply In_nth_error in Hi as [k Hk]. exists i.
      assert (Hk' := Hk). apply (f_equal (option_map fst)) in Hk. apply (f_equal (option_map snd)) in Hk'.
      assert (Ek : k < length (combine (seq 0 (length lens)) lens)) by (apply nth_error_Some; intros F; rewrite F in Hk; discriminate).
      rewrite combine_length, seq_length, Nat.min_id in Ek.
      pose proof (map_nth_error fst k (combine (seq 0 (length lens)) lens)) as M1.
      assert (C1 : option_map fst (nth_error (combine (seq 0 (length lens)) lens) k) = nth_error (seq 0 (length lens)) k).
      { rewrite <- nth_error_map. f_equal. clear. generalize 0. induction lens; simpl; intros; auto. now rewrite IHlens. }
      assert (C2 : option_map snd (nth_error (combine (seq 0 (length lens)) lens) k) = nth_error lens k).
      { rewrite <- nth_error_map. f_equal. clear. generalize 0. induction lens; simpl; intros; auto. now rewrite IHlens. }
      rewrite C1 in Hk. rewrite C2 in Hk'. cbn [option_map fst snd] in *. apply nth_error_seq in Hk as [_ ->]. simpl.
      split; [lia|]. rewrite Hl in Hk' by lia. inversion Hk'. reflexivity.
    - intros (i & Hi & ->). exists (i, length (rows i)). split; auto.
      assert (G : forall (l : list nat) s k x, nth_error l k = Some x -> In (s + k, x) (combine (seq s (length l)) l)).
      { clear. induction l as [|y l IH]; intros s [|k] x; simpl; try discriminate.
        - intros H. inversion H. left. f_equal. lia.
        - intros H. right. replace (s + S k) with (S s + k) by lia. now apply IH. }
      apply (G lens 0 i). auto. }
  split.
  - intros r Hr Hd. apply In_rs in Hr as (i & Hi & ->). cbn [r_dest r_src r_len r_dd r_sd] in *. subst i. split; auto. split.
    + specialize (Hne me Hi). destruct (rows me); simpl; [contradiction|lia].
    + intros t Ht. exists (nth t (rows me) 0). split; apply nth_of; auto.
  - intros a Ha. exists (mk_run me me (length (rows me)) 0 0). rewrite In_rs. cbn [r_dest r_src r_len r_dd r_sd]. split; [eauto|]. split; auto. lia.
Qed.

(** ** Coinciding layouts: one broadcast per communicator *)
Section Same.
Context {T : Type} (add : T -> T -> T).
Lemma crun_redist_same ps c me off block V (S D : nat -> list T) (rows : nat -> list nat) : me < ps ->
  0 < length (rows me) -> (Z.of_nat (length (rows me) * block) < 2 ^ 31)%Z ->
  holds (rows me) off block (length (rows me)) V (S me) -> length (rows me) * (off + block) <= length (S me) ->
  (forall i, i < ps -> length (rows me) * (off + block) <= length (D i)) ->
  crun add c ps (fun i D' => only_columns (rows me) off block V (D i) D')
    (fun i => redist_same_prog c me i (length (rows i)) (length (rows me)) off block (S i) (D i)).
Proof.
  intros Hme Hm Hc HS LS LD. set (m := length (rows me)) in *.
  set (buf := fun i => if i =? me then S me else D i).
  set (k := fun i (r : reply T) => match r return prog T (list T) with RNums ys => local (put_range (buf i) (off * m) ys) | RFlag _ => Bad end).
  assert (LB : forall i, i < ps -> off * m + block * m <= length (buf i)) by (intros i Hi; unfold buf; destruct (i =? me); [|specialize (LD i Hi)]; nia).
  set (xs := fun i => firstn (block * m) (skipn (off * m) (buf i))).
  assert (Hx : forall i, i < ps -> get_range (buf i) (off * m) (block * m) = Ok (xs i)) by (intros i Hi; apply get_range_ok; auto).
  assert (Lx : length (xs me) = block * m) by (apply (nth_error_range _ _ _ _ 0 (Hx me Hme))).
  apply (crun_ext add c ps _ (fun i => Call c (ABcast me (block * m) (if i =? me then xs i else []))
     (fun r => if i =? me then pbind (k i r) (fun _ => local (move m m m 0 0 off block (S me) (D me))) else k i r))).
  { intros i Hi. unfold redist_same_prog. destruct (i =? me) eqn:E.
    - apply Nat.eqb_eq in E. subst i. unfold bcast. fold m. rewrite mpi_count_small by (replace (block * m) with (m * block) by lia; auto).
      replace (Z.of_nat (block * m) <? 0)%Z with false by (symmetry; apply Z.ltb_ge; lia). rewrite Nat2Z.id.
      pose proof (Hx me Hme) as H. unfold k, buf in *. rewrite Nat.eqb_refl in *. rewrite H. reflexivity.
    - unfold bcast. rewrite mpi_count_small by (replace (block * m) with (m * block) by lia; auto).
      replace (Z.of_nat (block * m) <? 0)%Z with false by (symmetry; apply Z.ltb_ge; lia). rewrite Nat2Z.id.
      pose proof (Hx i Hi) as H. unfold k, buf in *. rewrite E in *. rewrite H. reflexivity. }
  eapply crun_call; [apply offers_map|apply respond_bcast; auto; rewrite Nat.eqb_refl; exact Lx|].
  cbn [resume]. rewrite Nat.eqb_refl. apply crun_done. intros i Hi.
  destruct (redist_same_ok m off block V S (D i) (rows me) me i eq_refl Hm HS LS (LD i Hi)) as (D' & E & L & P1 & P2).
  exists D'. unfold redist_same in E. unfold k. destruct (i =? me) eqn:Em.
  - apply Nat.eqb_eq in Em. subst i. rewrite put_range_ok by (specialize (LB me Hi); lia). cbn [local pbind]. rewrite E. split; [reflexivity|]. split; auto.
  - pose proof (Hx me Hme) as H. unfold buf in H at 1. rewrite Nat.eqb_refl in H. rewrite H in E. cbn [bind] in E.
    unfold buf. rewrite Em, E. split; [reflexivity|]. split; auto.
Qed.
End Same.
