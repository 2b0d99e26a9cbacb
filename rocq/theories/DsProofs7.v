(** Programs that call the distributed backend. *)
From Coq Require Import List Arith Bool ZArith Lia.
Require Import Verif.Base Verif.AlgModel Verif.DlaModel Verif.ColModel Verif.DistModel Verif.DistSpec Verif.DistProofs Verif.DistProofs2 Verif.FlatModel Verif.FlatProofs.
Require Import Verif.SpmdModel Verif.SpmdSpec Verif.SpmdProofs Verif.SpmdProofs2 Verif.KerModel Verif.KerSpec.
Require Import Verif.ClientModel Verif.DsModel Verif.DsSpec.
Require Import Verif.DsProofs2 Verif.DsProofs3 Verif.DsProofs4 Verif.DsProofs6 Verif.KerProofs9.
Import ListNotations.

Lemma tab_loop N mb p src : 0 < mb -> src < p -> forall todo i ts, i + todo <= p -> exists st, (forall k, k < i + todo -> i <= k -> bc_blocks_of N mb p src k = Ok (st k)) /\
  for_ todo i (fun k ts => let! t := bc_blocks_of N mb p src k in Ok (ts ++ [t])) ts = Ok (ts ++ map st (seq i todo)).
Proof.
  intros Hb Hs. induction todo; intros i ts Hi.
  - exists (fun _ => mk_tabs 0 [] []). split; [intros; lia|]. simpl. now rewrite app_nil_r.
  - destruct (bc_blocks_of_spec N mb p src i) as (t & Et & _); auto; [lia|]. destruct (IHtodo (S i) (ts ++ [t]) ltac:(lia)) as (st & H1 & H2).
    exists (fun k => if k =? i then t else st k). split.
    + intros k Hk1 Hk2. destruct (k =? i) eqn:E; [apply Nat.eqb_eq in E; now subst|]. apply Nat.eqb_neq in E. apply H1; lia.
    + cbn [for_]. rewrite Et. cbn [bind]. rewrite H2, <- app_assoc. f_equal. f_equal. cbn [seq map app]. rewrite Nat.eqb_refl. f_equal.
      apply map_ext_in. intros k Hk. apply in_seq in Hk. destruct (k =? i) eqn:E; auto. apply Nat.eqb_eq in E. lia.
Qed.
Definition htab N p q mb nb rsrc csrc i j (t : gtab) : Prop := bc_ctor N mb p rsrc i = Ok (g_R t) /\ bc_ctor N nb q csrc j = Ok (g_C t) /\
  g_N t = N /\ g_ms t = bc_send_lens N mb p rsrc /\
  exists st, (forall k, k < p -> bc_blocks_of N mb p rsrc k = Ok (st k)) /\
    g_lens t = map (fun k => t_lens (st k)) (seq 0 p) /\ g_offs t = map (fun k => t_offs (st k)) (seq 0 p).
Lemma grid_tab_htab N p q mb nb rsrc csrc i j t : layout N p q mb nb rsrc csrc -> grid_tab N p q mb nb rsrc csrc i j = Ok t -> htab N p q mb nb rsrc csrc i j t.
Proof.
  intros (H1 & H2 & H3 & H4 & _) E. unfold grid_tab in E. apply bind_ok in E as (R & E1 & E). apply bind_ok in E as (C & E2 & E). apply bind_ok in E as (ts & E3 & E). inversion E; subst t; clear E.
  destruct (tab_loop N mb p rsrc H1 H3 p 0 [] ltac:(lia)) as (st & S1 & S2). rewrite S2 in E3. inversion E3; subst ts. unfold htab. cbn [g_R g_C g_N g_ms g_lens g_offs].
  repeat split; auto. exists st. cbn [app]. rewrite !map_map. repeat split; auto. intros k Hk. apply S1; lia.
Qed.
Lemma grid_tab_cyc N p q mb nb rsrc csrc i j t : grid_tab N p q mb nb rsrc csrc i j = Ok t -> g_cyc t = true.
Proof. unfold grid_tab. intros E. apply bind_ok in E as (R & E1 & E). apply bind_ok in E as (C & E2 & E). apply bind_ok in E as (ts & E3 & E). inversion E. reflexivity. Qed.
Lemma grid_tab_ok N p q mb nb rsrc csrc i j : layout N p q mb nb rsrc csrc -> i < p -> j < q -> exists t, grid_tab N p q mb nb rsrc csrc i j = Ok t.
Proof.
  intros HL Hi Hj. pose proof HL as (H1 & H2 & H3 & H4 & H5 & H6 & _). unfold grid_tab.
  assert (X : forall b d src k, 0 < b -> src < d -> k < d -> owned N b d src k <> [] -> exists R, bc_ctor N b d src k = Ok R).
  { intros b d src k Hb Hs Hk Ho. apply bc_ctor_safe_iff; auto. apply owned_blocks_nonempty; auto. intros E. apply Ho. rewrite <- (expand_owned N b d src k) by lia. now rewrite E. }
  destruct (X mb p rsrc i) as [R ->]; auto. destruct (X nb q csrc j) as [C ->]; auto. cbn [bind].
  destruct (tab_loop N mb p rsrc H1 H3 p 0 [] ltac:(lia)) as (st & S1 & S2). rewrite S2. cbn [bind]. eauto.
Qed.

Section Client.
Context {F D : Type} (o : sops D) (fo : fops F) (inj : F -> D) (re : D -> F) (oc : oracles D) (RT : is_ring o).
Variables (N p q mb nb rsrc csrc n : nat) (ldh : nat -> nat -> nat).
Hypothesis HL : layout N p q mb nb rsrc csrc.
Hypothesis HP : packable N p q mb nb rsrc csrc.
Notation rows := (owned N mb p rsrc).
Notation cols := (owned N nb q csrc).
Notation env i j := (bc_env N p q mb nb rsrc csrc (ldh i j) n i j).
Notation bl := (gblas o fo inj re oc N mb p rsrc).
Notation L := (colD fo bl true n).
Variables (tab : nat -> nat -> gtab).
Notation kr i j := (ker o fo inj re oc (env i j) (tab i j)).
Hypothesis Htab : forall i j, i < p -> j < q -> htab N p q mb nb rsrc csrc i j (tab i j).
Hypothesis Hcyc : (forall i j, i < p -> j < q -> g_cyc (tab i j) = true) \/
  ((forall i j, i < p -> j < q -> g_cyc (tab i j) = false) /\ concat (map rows (seq 0 p)) = seq 0 N).
Hypothesis Hld : forall i j, i < p -> j < q -> length (rows i) <= ldh i j.
Hypothesis Hcf : counts_fit N p q mb nb rsrc csrc n.
Hypothesis Hn0 : 0 < n.
Hypothesis HE : embeds o fo inj re.
Notation spread := (spread o N p q mb nb rsrc csrc n ldh).
Notation after := (after o N p q mb nb rsrc csrc n ldh).

Lemma call_any c g s a g' : spread g s -> exec L c g = Ok (a, g') -> good (sadd o) p q (after a g') (fun i j => kr i j c (s i j)).
Proof.
  intros HS E. destruct Hcf as (Hr & Hc & Hn). destruct HE as [E1 E2]. destruct c; cbn [exec] in E;
    try (apply unit_inv in E as [Ea E]; cbn [fst snd] in Ea, E; destruct a).
  - eapply call_sym; eauto.
  - inversion E; subst. apply good_ret; auto.
  - inversion E; subst. apply good_ret; auto.
  - eapply call_initrnd; eauto.
  - eapply call_init; eauto.
  - eapply call_shift; eauto.
  - eapply call_apply; eauto.
  - eapply call_hhqr; eauto.
  - eapply call_chol1; eauto.
  - eapply call_chol2; eauto.
  - eapply call_schol2; eauto.
  - eapply call_lockcopy; eauto.
  - eapply call_rr; eauto.
  - eapply call_resd; eauto.
  - eapply call_swap; eauto.
  - eapply call_mlanczos; eauto.
  - eapply call_dos; eauto.
Qed.

Lemma client_any {A} (t : client F A) : forall g s a g', spread g s -> run_client L t g = Ok (a, g') -> good (sadd o) p q (after a g') (fun i j => run_proc (kr i j) t (s i j)).
Proof.
  pose proof (lay_pos _ _ _ _ _ _ _ HL) as (P0 & Q0 & _).
  induction t as [x|x|c k IH]; intros g s a g' HS E; cbn [run_client] in E; cbn [run_proc].
  - inversion E; subst. apply good_done. intros i j Hi Hj. eexists. split; [reflexivity|]. split; auto. apply HS; auto.
  - destruct x as [[]| |]; discriminate.
  - apply bind_ok in E as ([b g1] & E1 & E). pose proof (call_any c g s b g1 HS E1) as G1.
    apply (good_bind (sadd o) p q (after b g1) _ (fun i j => kr i j c (s i j)) (fun i j r => run_proc (kr i j) (k (fst r)) (snd r))); auto.
    intros r Hr. cbv beta in Hr.
    apply (good_eqv (sadd o) p q _ (fun i j => run_proc (kr i j) (k b) (snd (r i j)))).
    + intros i j Hi Hj. destruct (Hr i j Hi Hj) as [-> _]. reflexivity.
    + eapply IH; [|exact E]. intros i j Hi Hj. apply (Hr i j Hi Hj).
Qed.
End Client.

(** any program *)
Theorem client_on_grid {F D A} (o : sops D) (fo : fops F) inj re oc N p q mb nb rsrc csrc n ldh tab (t : client F A) g s a g' :
  is_ring o -> embeds o fo inj re -> layout N p q mb nb rsrc csrc -> packable N p q mb nb rsrc csrc -> counts_fit N p q mb nb rsrc csrc n -> 0 < n ->
  (forall i j, i < p -> j < q -> length (owned N mb p rsrc i) <= ldh i j /\ grid_tab N p q mb nb rsrc csrc i j = Ok (tab i j)) ->
  on_grid o N p q mb nb rsrc csrc n ldh g s ->
  run_client (colD fo (gblas o fo inj re oc N mb p rsrc) true n) t g = Ok (a, g') ->
  completes (sadd o) p q (fun i j r => fst r = a /\ holds_part o n (owned N mb p rsrc i) (owned N nb q csrc j) (ldh i j) g' (snd r))
    (fun i j => run_proc (ker o fo inj re oc (bc_env N p q mb nb rsrc csrc (ldh i j) n i j) (tab i j)) t (s i j)).
Proof.
  intros RT HE HL HP Hcf Hn0 Ht HS E. pose proof (lay_pos _ _ _ _ _ _ _ HL) as (P0 & Q0 & _). apply good_completes; auto.
  eapply (client_any o fo inj re oc RT N p q mb nb rsrc csrc n ldh HL HP tab); eauto.
  - intros i j Hi Hj. apply grid_tab_htab; auto. now apply Ht.
  - left. intros i j Hi Hj. eapply grid_tab_cyc. now apply Ht.
  - intros i j Hi Hj. now apply Ht.
Qed.
