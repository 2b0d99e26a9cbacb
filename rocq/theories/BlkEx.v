(** Block distributions: a complete solve, and a layout whose last piece is longer. *)
From Coq Require Import List Arith ZArith QArith Qcanon Bool Lia.
Require Import Verif.Base Verif.AlgModel Verif.DlaModel Verif.ColModel Verif.DistModel Verif.DistSpec Verif.FlatSpec Verif.RedistModel Verif.RedistSpec.
Require Import Verif.SpmdModel Verif.SpmdSpec Verif.KerModel Verif.KerSpec Verif.KerInst Verif.KerInst2 Verif.KerEx.
Require Import Verif.ClientModel Verif.DsModel Verif.DsSpec Verif.SolveClient Verif.DsEx.
Import ListNotations.
Local Open Scope nat_scope.

(** the example of DsEx with rows in pieces of 1 and columns in one piece of 2 *)
Definition bk_proc (i j : nat) : prog Qc (list Qc * list Qc * nat * loc) :=
  run_proc (ker rat qcf (fun x => x) (fun x => x) ds_oc (blk_env 2 2 1 1 2 1 2 i j) (blk_tab 2 2 1 1 2 i j)) ds_prog (ex_grid ex_C i j).
Lemma bk_blocks : in_blocks 2 1 2 /\ in_blocks 2 2 1 /\ blocks_packable 2 2 1 1 2.
Proof. unfold in_blocks, blocks_packable. split; [|split]; [| |right; right; reflexivity]; (repeat split; lia). Qed.
Lemma bk_fit : block_counts_fit 2 2 1 1 2 2.
Proof. repeat split; intros k Hk; (destruct k as [|[|k]]; [reflexivity|try reflexivity; lia|lia]). Qed.
Lemma bk_on_blocks : on_blocks rat 2 2 1 1 2 2 (fun _ _ => 1) ds_global (ex_grid ex_C).
Proof.
  intros i j Hi Hj. pose proof (ds_on_grid i j Hi Hj) as G. destruct j as [|j]; [|lia]. destruct i as [|[|i]]; [exact G|exact G|lia].
Qed.

(** 4 rows over 2 processes, the user asks for 1 row on the first; redistributed to one process *)
Definition lp_V (g c : nat) : Z := Z.of_nat (10 * g + c).
Definition lp_S (s : nat) : list Z := match s with 0 => [0; 1]%Z | _ => [10; 20; 30; 11; 21; 31]%Z end.
Lemma long_piece : exists N ml p nl q (V : nat -> nat -> Z) (S : nat -> list Z) D', (p - 1) * ml < N /\ in_blocks N nl q /\
  (forall s, s < p -> holds (seq (s * ml) (blk_size N ml p s)) 0 2 (blk_size N ml p s) V (S s)) /\
  redist (e_c2b (blk_env N p q ml nl N 2 0 0)) 0 (blk_size N ml p) N 0 1 S (repeat 0%Z N) = Ok D' /\
  ~ holds (piece N nl q 0) 0 1 N V D'.
Proof.
  exists 4, 1, 2, 4, 1, lp_V, lp_S, [0; 10; 1; 20]%Z. split; [lia|]. split; [unfold in_blocks; repeat split; try lia; right; lia|]. split; [|split; [vm_compute; reflexivity|]].
  - intros s Hs a g c Ha Hc. destruct s as [|[|s]]; [| |lia].
    + replace (seq (0 * 1) (blk_size 4 1 2 0)) with [0] in Ha by reflexivity. replace (blk_size 4 1 2 0) with 1 by reflexivity.
      destruct a as [|[|a]]; inversion Ha; destruct c as [|[|c]]; try lia; reflexivity.
    + replace (seq (1 * 1) (blk_size 4 1 2 1)) with [1; 2; 3] in Ha by reflexivity. replace (blk_size 4 1 2 1) with 3 by reflexivity.
      destruct a as [|[|[|[|a]]]]; inversion Ha; destruct c as [|[|c]]; try lia; reflexivity.
  - intros H. specialize (H 2 2 0 eq_refl ltac:(lia)). discriminate.
Qed.
