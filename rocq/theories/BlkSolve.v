(** Programs and the solver on a grid with a block distribution. *)
From Coq Require Import List Arith Bool ZArith Lia.
Require Import Verif.Base Verif.AlgModel Verif.DlaModel Verif.ColModel Verif.DistModel Verif.DistSpec Verif.DistProofs2 Verif.RedistModel Verif.RedistSpec.
Require Import Verif.SpmdModel Verif.SpmdSpec Verif.SpmdProofs Verif.SpmdProofs2 Verif.KerModel Verif.KerSpec Verif.KerProofs9.
Require Import Verif.ClientModel Verif.DsModel Verif.DsSpec Verif.DsProofs1 Verif.DsProofs7 Verif.SolveClient Verif.BlkProofs.
Import ListNotations.

Lemma good_swap {D R} (add : D -> D -> D) p q (Q Q' : nat -> nat -> R -> Prop) (st st' : nat -> nat -> prog D R) :
  (forall i j, i < p -> j < q -> st i j = st' i j) -> (forall i j r, i < p -> j < q -> Q' i j r -> Q i j r) ->
  good add p q Q' st' -> good add p q Q st.
Proof. intros H1 H2 G. apply (good_mono add p q Q'); auto. apply (good_eqv add p q Q' st'); auto. intros i j Hi Hj. symmetry. auto. Qed.

Theorem block_environment N p q ml nl ldh n i j : in_blocks N ml p -> in_blocks N nl q -> i < p -> j < q ->
  let mb := blk_mb N ml p 0 in let nb := blk_mb N nl q 0 in
  blk_env N p q ml nl ldh n i j = bc_env N p q mb nb 0 0 ldh n i j /\ layout N p q mb nb 0 0 /\
  owned N mb p 0 i = piece N ml p i /\ owned N nb q 0 j = piece N nl q j.
Proof.
  intros HR HC Hi Hj. split; [now apply env_eq|]. split; [now apply blk_layout|]. split; now apply owned_piece.
Qed.

Theorem client_on_blocks {F D A} (o : sops D) (fo : fops F) inj re oc N p q ml nl n ldh (t : client F A) g s a g' :
  is_ring o -> embeds o fo inj re -> in_blocks N ml p -> in_blocks N nl q -> blocks_packable N p q ml nl -> block_counts_fit N p q ml nl n -> 0 < n ->
  (forall i j, i < p -> j < q -> length (piece N ml p i) <= ldh i j) ->
  on_blocks o N p q ml nl n ldh g s ->
  run_client (colD fo (gblas o fo inj re oc N (blk_mb N ml p 0) p 0) true n) t g = Ok (a, g') ->
  completes (sadd o) p q (fun i j r => fst r = a /\ holds_part o n (piece N ml p i) (piece N nl q j) (ldh i j) g' (snd r))
    (fun i j => run_proc (ker o fo inj re oc (blk_env N p q ml nl (ldh i j) n i j) (blk_tab N p q ml nl i j)) t (s i j)).
Proof.
  intros RT HE HR HC HP (C1 & C2 & C3) Hn0 Hl HS E. pose proof (blk_layout N p q ml nl HR HC) as HL. pose proof (lay_pos _ _ _ _ _ _ _ HL) as (P0 & Q0 & _). apply good_completes; auto.
  fold (bsz N ml p) in E.
  assert (HR' : forall i, i < p -> owned N (bsz N ml p) p 0 i = piece N ml p i) by (intros; now apply owned_piece).
  assert (HC' : forall j, j < q -> owned N (bsz N nl q) q 0 j = piece N nl q j) by (intros; now apply owned_piece).
  eapply good_swap; [intros i j Hi Hj; rewrite (env_eq N p q ml nl HR HC) by auto; reflexivity| |].
  2: eapply (client_any o fo inj re oc RT N p q (bsz N ml p) (bsz N nl q) 0 0 n ldh HL (blk_packable N p q ml nl HR HC HP) (blk_tab N p q ml nl)); eauto.
  - intros i j [b s'] Hi Hj [X Y]. cbn [fst snd]. rewrite <- HR', <- HC' by auto. split; [exact X|exact Y].
  - intros i j Hi Hj. now apply blk_htab.
  - right. split; [reflexivity|]. now apply owned_concat.
  - intros i j Hi Hj. rewrite HR' by auto. now apply Hl.
  - split; [|split; auto]; intros; [rewrite HR'|rewrite HC']; auto.
  - intros i j Hi Hj. rewrite HR', HC' by auto. now apply HS.
Qed.

Theorem solve_on_blocks {F D} (o : sops D) (fo : fops F) inj re oc qe td N p q ml nl nev nex ldh fsort si cf l ritzv resid t g s out :
  is_solver fo qe td nev nex fsort si cf l ritzv resid t ->
  is_ring o -> embeds o fo inj re -> in_blocks N ml p -> in_blocks N nl q -> blocks_packable N p q ml nl ->
  block_counts_fit N p q ml nl (nev + nex) -> 0 < nev + nex ->
  (forall i j, i < p -> j < q -> length (piece N ml p i) <= ldh i j) ->
  on_blocks o N p q ml nl (nev + nex) ldh g s ->
  solve fo (cmK fo qe td (colD fo (gblas o fo inj re oc N (blk_mb N ml p 0) p 0) true (nev + nex)) nev nex) fsort si cf (mk_cm l g) ritzv resid = Ok out ->
  completes (sadd o) p q
    (fun i j r => fst r = (o_ritz out, o_res out, cm_locked (o_k out)) /\
       holds_part o (nev + nex) (piece N ml p i) (piece N nl q j) (ldh i j) (cm_dla (o_k out)) (snd r))
    (fun i j => run_proc (ker o fo inj re oc (blk_env N p q ml nl (ldh i j) (nev + nex) i j) (blk_tab N p q ml nl i j)) t (s i j)).
Proof.
  intros HT RT HE HR HC HP Hc Hn Ht HS E.
  pose proof (HT _ (colD fo (gblas o fo inj re oc N (blk_mb N ml p 0) p 0) true (nev + nex)) g) as R. rewrite E in R. cbn [bind seen] in R.
  symmetry in R. apply bind_ok in R as ([[[r sd] m] g'] & R1 & R2). injection R2 as E1 E2 E3. rewrite <- E1, <- E2, <- E3. cbn [cm_locked cm_dla].
  eapply client_on_blocks; eauto.
Qed.

(** the automatic constructor *)
Theorem auto_in_blocks N d : 0 < d -> 0 < N -> (Z.of_nat N < 2 ^ 64)%Z -> (in_blocks N (auto_len N d) d <-> (d - 1) * ((N + d - 1) / d) < N).
Proof.
  intros Hd HN HW. unfold in_blocks. rewrite (auto_len_ceil N d Hd).
  assert (E : exists r, N + d - 1 = d * ((N + d - 1) / d) + r /\ r < d).
  { exists ((N + d - 1) mod d). split; [apply Nat.div_mod; lia|apply Nat.mod_upper_bound; lia]. }
  destruct E as (r & E & Hr). set (c := (N + d - 1) / d) in *. split; [intros (_ & _ & H & _); exact H|]. intros H. repeat split; auto; [nia|right; nia].
Qed.
