(** The solver built with ScaLAPACK on a grid; block distributions whose last piece is longer. *)
From Coq Require Import List Arith Bool ZArith Lia Permutation.
Require Import Verif.Base Verif.AlgModel Verif.AlgSpec Verif.AlgProofs4 Verif.AlgKeep Verif.AlgQr Verif.DlaModel Verif.ColModel Verif.ColSpec Verif.ColProofs1 Verif.ColProofs2 Verif.ColProofs3 Verif.ColSpan.
Require Import Verif.DistModel Verif.DistSpec Verif.DistProofs Verif.DistProofs2 Verif.RedistModel Verif.RedistSpec.
Require Import Verif.SpmdModel Verif.SpmdSpec Verif.SpmdProofs Verif.SpmdProofs2 Verif.KerModel Verif.KerSpec Verif.KerProofs9.
Require Import Verif.ClientModel Verif.DsModel Verif.DsSpec Verif.DsProofs1 Verif.DsProofs7 Verif.BlkProofs Verif.BlkSolve Verif.SolveClient.
Require Import Verif.ScalModel Verif.ScalSpec Verif.ScalProofs1 Verif.ScalProofs2.
Import ListNotations.

(** ** Runs on whole vectors: hhQR is only called when the switch is set already *)
Section Global.
Context {F V M G T : Type} (fo : fops F) (bl : blas F V M G T) (qe : qr_env F) (td : tridiag F) (cf : conf F) (sort_idx : list F -> list nat).
Notation n := (c_nev cf + c_nex cf).
Hypothesis Hperm : forall keys, Permutation (sort_idx keys) (seq 0 (length keys)).
Notation Km := (cmK fo qe td (colD fo bl true n) (c_nev cf) (c_nex cf)).
Notation Ks := (cmK fo qe td (slD fo bl n) (c_nev cf) (c_nex cf)).

Lemma hhqr_same l (s s' : cst (V := V) (M := M)) : cs_bAc s = true -> c_hhqr bl true n l s = Ok s' -> set_C n s (b_hh bl) = Ok s'.
Proof.
  intros Hb H. unfold c_hhqr in H. apply bind_ok in H as (s1 & H1 & H). rewrite H1. rewrite <- H. f_equal.
  unfold set_C in H1. apply bind_ok in H1 as (c & _ & H1). apply bind_ok in H1 as (C & _ & H1). injection H1 as <-. cbn. now rewrite Hb.
Qed.
Lemma qr_same l c s s' : fromC s -> k_qr Km l c s = Ok s' -> k_qr Ks l c s = Ok s'.
Proof.
  intros Hb H. unfold fromC in Hb. cbn [cmK k_qr] in *. unfold cm_qr in *. cbv zeta in *. apply bind_ok in H as ([hh d] & Hd & H).
  rewrite (bind_some _ _ (hh, d)); [exact H|]. clear H.
  match type of Hd with (if ?c then _ else _) = _ => destruct c end.
  - apply bind_ok in Hd as (d1 & H1 & Hd). rewrite (bind_some _ _ d1); [exact Hd|]. cbn [slD d_hhqr]. apply (hhqr_same l _ _ Hb H1).
  - apply bind_ok in Hd as ([i d1] & H1 & Hd). rewrite (bind_some _ _ (i, d1)); [|exact H1].
    assert (O1 : only_C (cm_dla s) d1).
    { match type of H1 with (if ?c then _ else _) = _ => destruct c; [eapply (schol2_only fo bl (c_nev cf) (c_nex cf) true); exact H1|] end.
      match type of H1 with (if ?c then _ else _) = _ => destruct c; [eapply (chol1_only fo bl (c_nev cf) (c_nex cf) true); exact H1|eapply (chol2_only fo bl (c_nev cf) (c_nex cf) true); exact H1] end. }
    destruct (i =? 0)%Z; auto. apply bind_ok in Hd as (d2 & H2 & Hd). rewrite (bind_some _ _ d2); [exact Hd|]. cbn [slD d_hhqr]. apply (hhqr_same l); [|exact H2].
    destruct O1 as (_ & _ & _ & _ & E & _). auto.
Qed.

Theorem solve_sl fsort l (g : cst (V := V) (M := M)) ritzv resid out : conf_ok cf -> cs_bAc g = true ->
  length (cs_C g) = n -> length (cs_B g) = n -> length (cs_C2 g) = n -> length (cs_B2 g) = n ->
  solve fo Km fsort sort_idx cf (mk_cm l g) ritzv resid = Ok out -> solve fo Ks fsort sort_idx cf (mk_cm l g) ritzv resid = Ok out.
Proof.
  intros HC Hb L1 L2 L3 L4.
  pose proof (mpi_keep fo bl qe td cf (cs_H g) n (le_n n)) as KK.
  pose proof (keep_also fo Km n _ _ _ _ _ fromC KK (plain_also fo bl qe td (c_nev cf) (c_nex cf) true _ (fun l s (X : sJ fo bl (c_nev cf) (c_nex cf) (cs_H g) n l s) => proj1 X))) as KA.
  intros H. apply (solve_qr fo Km sort_idx (k_qr Ks) Hperm n _ _ _ _ _ KA); auto.
  - intros l0 c s s' [_ X] E. exact (qr_same l0 c s s' X E).
  - split; [|exact Hb]. split; [|constructor]. unfold clen. auto.
Qed.
End Global.

(** ** On a grid *)
Theorem client_on_grid_sl {F D A} (o : sops D) (fo : fops F) inj re oc N p q mb nb rsrc csrc n ldh tab (t : client F A) g s a g' :
  is_ring o -> embeds o fo inj re -> layout N p q mb nb rsrc csrc -> packable N p q mb nb rsrc csrc -> counts_fit N p q mb nb rsrc csrc n -> 0 < n ->
  (forall i j, i < p -> j < q -> length (owned N mb p rsrc i) <= ldh i j /\ grid_tab N p q mb nb rsrc csrc i j = Ok (tab i j)) ->
  on_grid o N p q mb nb rsrc csrc n ldh g s ->
  run_client (slD fo (gblas o fo inj re oc N mb p rsrc) n) t g = Ok (a, g') ->
  completes (sadd o) p q (fun i j r => fst r = a /\ holds_part o n (owned N mb p rsrc i) (owned N nb q csrc j) (ldh i j) g' (snd r))
    (fun i j => run_proc (ker_sl o fo inj re oc p (bc_env N p q mb nb rsrc csrc (ldh i j) n i j) (tab i j) (snd (bc_desc N p mb rsrc n i))) t (s i j)).
Proof.
  intros RT HE HL HP Hcf Hn0 Ht HS E. pose proof (lay_pos _ _ _ _ _ _ _ HL) as (P0 & Q0 & _). apply good_completes; auto. pose proof HL as (L1 & L2 & L3 & L4 & L5 & L6).
  eapply (client_any_sl o fo inj re oc RT N p q mb nb rsrc csrc n ldh HL HP tab (fun i => snd (bc_desc N p mb rsrc n i))); eauto.
  - intros i j Hi Hj. apply grid_tab_htab; auto. now apply Ht.
  - left. intros i j Hi Hj. eapply grid_tab_cyc. now apply Ht.
  - intros i Hi. apply bc_desc_plain; auto.
  - intros i j Hi Hj. now apply Ht.
Qed.
Theorem client_on_blocks_sl {F D A} (o : sops D) (fo : fops F) inj re oc N p q ml nl n ldh (t : client F A) g s a g' :
  is_ring o -> embeds o fo inj re -> in_blocks N ml p -> in_blocks N nl q -> blocks_packable N p q ml nl -> block_counts_fit N p q ml nl n -> 0 < n ->
  (forall i j, i < p -> j < q -> length (piece N ml p i) <= ldh i j) ->
  on_blocks o N p q ml nl n ldh g s ->
  run_client (slD fo (gblas o fo inj re oc N (blk_mb N ml p 0) p 0) n) t g = Ok (a, g') ->
  completes (sadd o) p q (fun i j r => fst r = a /\ holds_part o n (piece N ml p i) (piece N nl q j) (ldh i j) g' (snd r))
    (fun i j => run_proc (ker_sl o fo inj re oc p (blk_env N p q ml nl (ldh i j) n i j) (blk_tab N p q ml nl i j) (snd (blk_desc N p ml n i))) t (s i j)).
Proof.
  intros RT HE HR HC HP (C1 & C2 & C3) Hn0 Hl HS E. pose proof (blk_layout N p q ml nl HR HC) as HL. pose proof (lay_pos _ _ _ _ _ _ _ HL) as (P0 & Q0 & _). apply good_completes; auto.
  fold (bsz N ml p) in E. pose proof HL as (L1 & L2 & L3 & L4 & L5 & L6).
  assert (HR' : forall i, i < p -> owned N (bsz N ml p) p 0 i = piece N ml p i) by (intros; now apply owned_piece).
  assert (HC' : forall j, j < q -> owned N (bsz N nl q) q 0 j = piece N nl q j) by (intros; now apply owned_piece).
  eapply good_swap; [intros i j Hi Hj; rewrite (env_eq N p q ml nl HR HC), (blk_desc_bc N p ml n i HR Hi) by auto; fold (bsz N ml p); reflexivity| |].
  2: eapply (client_any_sl o fo inj re oc RT N p q (bsz N ml p) (bsz N nl q) 0 0 n ldh HL (blk_packable N p q ml nl HR HC HP) (blk_tab N p q ml nl)
       (fun i => snd (bc_desc N p (bsz N ml p) 0 n i))); eauto.
  - intros i j [b s'] Hi Hj [X Y]. cbn [fst snd]. rewrite <- HR', <- HC' by auto. split; [exact X|exact Y].
  - intros i j Hi Hj. now apply blk_htab.
  - right. split; [reflexivity|]. now apply owned_concat.
  - intros i Hi. apply bc_desc_plain; auto.
  - intros i j Hi Hj. rewrite HR' by auto. now apply Hl.
  - split; [|split; auto]; intros; [rewrite HR'|rewrite HC']; auto.
  - intros i j Hi Hj. rewrite HR', HC' by auto. now apply HS.
Qed.

Theorem solve_on_grid_sl {F D} (o : sops D) (fo : fops F) inj re oc qe td N p q mb nb rsrc csrc ldh tab fsort si cf l ritzv resid t g s out :
  is_solver fo qe td (c_nev cf) (c_nex cf) fsort si cf l ritzv resid t -> conf_ok cf -> (forall keys, Permutation (si keys) (seq 0 (length keys))) ->
  is_ring o -> embeds o fo inj re -> layout N p q mb nb rsrc csrc -> packable N p q mb nb rsrc csrc ->
  counts_fit N p q mb nb rsrc csrc (c_nev cf + c_nex cf) ->
  (forall i j, i < p -> j < q -> length (owned N mb p rsrc i) <= ldh i j /\ grid_tab N p q mb nb rsrc csrc i j = Ok (tab i j)) ->
  on_grid o N p q mb nb rsrc csrc (c_nev cf + c_nex cf) ldh g s -> cs_bAc g = true ->
  solve fo (cmK fo qe td (colD fo (gblas o fo inj re oc N mb p rsrc) true (c_nev cf + c_nex cf)) (c_nev cf) (c_nex cf)) fsort si cf (mk_cm l g) ritzv resid = Ok out ->
  completes (sadd o) p q
    (fun i j r => fst r = (o_ritz out, o_res out, cm_locked (o_k out)) /\
       holds_part o (c_nev cf + c_nex cf) (owned N mb p rsrc i) (owned N nb q csrc j) (ldh i j) (cm_dla (o_k out)) (snd r))
    (fun i j => run_proc (ker_sl o fo inj re oc p (bc_env N p q mb nb rsrc csrc (ldh i j) (c_nev cf + c_nex cf) i j) (tab i j) (snd (bc_desc N p mb rsrc (c_nev cf + c_nex cf) i))) t (s i j)).
Proof.
  intros HT HCf Hp RT HE HL HP Hc Ht HS Hb E. pose proof (lay_pos _ _ _ _ _ _ _ HL) as (P0 & Q0 & _).
  destruct (HS 0 0 P0 Q0) as [_ [X1 _] [X2 _] [X3 _] [X4 _] _ _].
  apply (solve_sl fo (gblas o fo inj re oc N mb p rsrc) qe td cf si Hp) in E; auto.
  pose proof (HT _ (slD fo (gblas o fo inj re oc N mb p rsrc) (c_nev cf + c_nex cf)) g) as R. rewrite E in R. cbn [bind seen] in R.
  symmetry in R. apply bind_ok in R as ([[[r sd] m] g'] & R1 & R2). injection R2 as E1 E2 E3. rewrite <- E1, <- E2, <- E3. cbn [cm_locked cm_dla].
  eapply client_on_grid_sl; eauto. destruct HCf. lia.
Qed.
Theorem solve_on_blocks_sl {F D} (o : sops D) (fo : fops F) inj re oc qe td N p q ml nl ldh fsort si cf l ritzv resid t g s out :
  is_solver fo qe td (c_nev cf) (c_nex cf) fsort si cf l ritzv resid t -> conf_ok cf -> (forall keys, Permutation (si keys) (seq 0 (length keys))) ->
  is_ring o -> embeds o fo inj re -> in_blocks N ml p -> in_blocks N nl q -> blocks_packable N p q ml nl ->
  block_counts_fit N p q ml nl (c_nev cf + c_nex cf) ->
  (forall i j, i < p -> j < q -> length (piece N ml p i) <= ldh i j) ->
  on_blocks o N p q ml nl (c_nev cf + c_nex cf) ldh g s -> cs_bAc g = true ->
  solve fo (cmK fo qe td (colD fo (gblas o fo inj re oc N (blk_mb N ml p 0) p 0) true (c_nev cf + c_nex cf)) (c_nev cf) (c_nex cf)) fsort si cf (mk_cm l g) ritzv resid = Ok out ->
  completes (sadd o) p q
    (fun i j r => fst r = (o_ritz out, o_res out, cm_locked (o_k out)) /\
       holds_part o (c_nev cf + c_nex cf) (piece N ml p i) (piece N nl q j) (ldh i j) (cm_dla (o_k out)) (snd r))
    (fun i j => run_proc (ker_sl o fo inj re oc p (blk_env N p q ml nl (ldh i j) (c_nev cf + c_nex cf) i j) (blk_tab N p q ml nl i j) (snd (blk_desc N p ml (c_nev cf + c_nex cf) i))) t (s i j)).
Proof.
  intros HT HCf Hp RT HE HR HC HP Hc Ht HS Hb E. pose proof HR as (P0 & _). pose proof HC as (Q0 & _).
  destruct (HS 0 0 P0 Q0) as [_ [X1 _] [X2 _] [X3 _] [X4 _] _ _].
  apply (solve_sl fo (gblas o fo inj re oc N (blk_mb N ml p 0) p 0) qe td cf si Hp) in E; auto.
  pose proof (HT _ (slD fo (gblas o fo inj re oc N (blk_mb N ml p 0) p 0) (c_nev cf + c_nex cf)) g) as R. rewrite E in R. cbn [bind seen] in R.
  symmetry in R. apply bind_ok in R as ([[[r sd] m] g'] & R1 & R2). injection R2 as E1 E2 E3. rewrite <- E1, <- E2, <- E3. cbn [cm_locked cm_dla].
  eapply client_on_blocks_sl; eauto. destruct HCf. lia.
Qed.

(** ** One QR factorisation: as in the branch without ScaLAPACK, except for the switches *)
Theorem hhqr_sl_on_grid {F D} (o : sops D) (fo : fops F) inj re oc N p q mb nb rsrc csrc n ldh tab l g s :
  is_ring o -> embeds o fo inj re -> layout N p q mb nb rsrc csrc -> packable N p q mb nb rsrc csrc -> counts_fit N p q mb nb rsrc csrc n -> 0 < n ->
  (forall i j, i < p -> j < q -> length (owned N mb p rsrc i) <= ldh i j /\ grid_tab N p q mb nb rsrc csrc i j = Ok (tab i j)) ->
  on_grid o N p q mb nb rsrc csrc n ldh g s ->
  completes (sadd o) p q (fun i j r =>
      let Q c x := or_hh oc N n (flat (seq 0 N) (cs_C g)) x c in
      holds_part o n (owned N mb p rsrc i) (owned N nb q csrc j) (ldh i j) (mk_cst (cs_H g) (map Q (seq 0 n)) (cs_B g) (cs_C2 g) (cs_B2 g) (cs_bAc g)) (snd r))
    (fun i j => ker_sl o fo inj re oc p (bc_env N p q mb nb rsrc csrc (ldh i j) n i j) (tab i j) (snd (bc_desc N p mb rsrc n i)) (QHhqr l) (s i j)).
Proof.
  intros RT HE HL HP Hcf Hn Ht HS. pose proof (lay_pos _ _ _ _ _ _ _ HL) as (P0 & Q0 & _). destruct (HS 0 0 P0 Q0) as [_ [X1 _] _ _ _ _ _].
  pose proof HL as (L1 & L2 & L3 & L4 & L5 & L6).
  destruct (set_C n g (b_hh (gblas o fo inj re oc N mb p rsrc))) as [g'| |] eqn:E.
  2,3: unfold set_C in E; rewrite Verif.DsProofs3.get_all in E by auto; cbn [bind] in E; rewrite Verif.DsProofs3.put_all in E by (rewrite map_length, seq_length; auto); discriminate.
  pose proof E as E'. apply Verif.DsProofs3.set_C_inv in E'; auto. subst g'. apply good_completes; auto.
  eapply good_mono; [|eapply (call_hhqr_sl o fo inj re oc N p q mb nb rsrc csrc n ldh HL tab (fun i => snd (bc_desc N p mb rsrc n i))) with (g := g)]; eauto.
  - intros i j r Hi Hj [_ H]. cbn [b_hh gblas] in H. rewrite X1 in H. exact H.
  - intros i Hi. apply bc_desc_plain; auto.
Qed.

(** ** A last piece longer than the others: on process 0 the descriptor leads outside of the array *)
Lemma read_bound {D} (A : list D) (f : nat -> nat) : forall m k acc r, for_ m k (fun r acc => let! x := rd A (f r) in Ok (acc ++ [x])) acc = Ok r ->
  forall i, k <= i < k + m -> f i < length A.
Proof.
  induction m; intros k acc r H i Hi; [lia|]. cbn [for_] in H. apply bind_ok in H as (a & H1 & H). apply bind_ok in H1 as (x & H1 & _).
  destruct (Nat.eq_dec i k) as [->|]; [apply rd_ok in H1; apply nth_error_Some; congruence|]. eapply IHm; eauto. lia.
Qed.
Lemma pack_bound {D} (A : list D) (f : nat -> nat -> nat) m : forall n k acc r, for_ n k (fun c acc => for_ m 0 (fun r acc => let! x := rd A (f c r) in Ok (acc ++ [x])) acc) acc = Ok r ->
  forall c i, k <= c < k + n -> i < m -> f c i < length A.
Proof.
  induction n; intros k acc r H c i Hc Hi; [lia|]. cbn [for_] in H. apply bind_ok in H as (a & H1 & H).
  destruct (Nat.eq_dec c k) as [->|]; [eapply (read_bound A (f k)); eauto; lia|]. eapply IHn; eauto. lia.
Qed.
Theorem long_piece_bad {D} (oc : oracles D) N p ml n e (s : loc (D := D)) : 1 < p -> 0 < ml -> p * ml < N -> 0 < n -> (Z.of_nat N < 2 ^ 64)%Z ->
  e_i e = 0 -> length (l_C s) = length (piece N ml p 0) * n ->
  fst (blk_desc N p ml n 0) = (-9)%Z /\ p_hhqr_sl oc p e (snd (blk_desc N p ml n 0)) s = Bad.
Proof.
  intros Hp Hl HN Hn H64 He HL. unfold piece in HL. rewrite seq_length in HL. assert (Y : (0 =? p - 1) = false) by (apply Nat.eqb_neq; lia). rewrite Y in HL.
  assert (Es : blk_size N ml p 0 = ml) by (unfold blk_size; assert (X : (0 <? p - 1) = true) by (apply Nat.ltb_lt; lia); now rewrite X).
  assert (Em : blk_mb N ml p 0 = ml) by (unfold blk_mb; rewrite Es, Y; reflexivity).
  assert (Hr : ml < fst (numroc N ml 0 0 p)).
  { rewrite numroc_counts by lia. pose proof (Verif.FlatProofs2.lpos_owned N ml p 0 (p * ml) Hl ltac:(lia) HN) as X.
    assert (Eo : owner ml p 0 (p * ml) = 0) by (unfold owner; rewrite Nat.div_mul, Nat.add_0_r, Nat.mod_same by lia; reflexivity). rewrite Eo in X.
    assert (El : Verif.FlatModel.lpos ml p (p * ml) = ml) by (unfold Verif.FlatModel.lpos; rewrite Nat.mod_mul, Nat.div_mul, Nat.div_same by lia; lia). rewrite El in X.
    apply nth_error_Some. congruence. }
  unfold blk_desc. rewrite Es, Em. set (nr := fst (numroc N ml 0 0 p)) in *. split.
  - unfold descinit. fold nr. cbn [fst]. assert (E1 : (ml <? 1) = false) by (apply Nat.ltb_ge; lia). assert (E2 : (Nat.min 32 n <? 1) = false) by (apply Nat.ltb_ge, Nat.min_glb; lia).
    assert (E3 : (p <=? 0) = false) by (apply Nat.leb_gt; lia). assert (E4 : (ml <? Nat.max 1 nr) = true) by (apply Nat.ltb_lt; lia). rewrite E1, E2, E3. cbn [Nat.leb]. now rewrite E4.
  - unfold p_hhqr_sl. rewrite He. destruct (sl_pack p 0 _ (l_C s)) as [xs| |] eqn:E; try reflexivity. exfalso. unfold sl_pack, sl_rows, descinit in E. cbn [s_n s_m s_mb s_rsrc s_nb s_lld snd] in E.
    replace (Nat.max 1 ml) with ml in E by lia. cbn [Nat.min] in E. fold nr in E. replace (Nat.max ml (Nat.max 1 nr)) with nr in E by lia.
    assert (E2 : 0 < Nat.max 1 (Nat.min 32 n)) by lia.
    pose proof (pack_bound (l_C s) (fun c r => r + indxg2l (Nat.max 1 (Nat.min 32 n)) 1 c * nr) nr n 0 [] xs E (n - 1) (nr - 1) ltac:(lia) ltac:(lia)) as B. cbv beta in B.
    rewrite g2l_one in B by auto. rewrite HL in B. nia.
Qed.
