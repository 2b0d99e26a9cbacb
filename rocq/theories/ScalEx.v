(** The solve of DsEx and BlkEx with the backend built with ScaLAPACK. *)
From Coq Require Import List Arith ZArith QArith Qcanon Bool Permutation Lia.
Require Import Verif.Base Verif.AlgModel Verif.AlgSpec Verif.DlaModel Verif.ColModel Verif.DistModel Verif.DistSpec Verif.RedistModel Verif.RedistSpec.
Require Import Verif.SpmdModel Verif.KerModel Verif.KerInst Verif.KerInst2 Verif.KerEx Verif.ClientModel Verif.DsModel Verif.DsEx Verif.ScalModel.
Import ListNotations.
Local Open Scope nat_scope.

Definition sl_proc (i j : nat) : prog Qc (list Qc * list Qc * nat * loc) :=
  match grid_tab 2 2 1 1 1 0 0 i j with
  | Ok t => run_proc (ker_sl rat qcf (fun x => x) (fun x => x) ds_oc 2 (ex_env i j) t (snd (bc_desc 2 2 1 0 2 i))) ds_prog (ex_grid ex_C i j)
  | _ => Bad
  end.
Definition sl_block_proc (i j : nat) : prog Qc (list Qc * list Qc * nat * loc) :=
  run_proc (ker_sl rat qcf (fun x => x) (fun x => x) ds_oc 2 (blk_env 2 2 1 1 2 1 2 i j) (blk_tab 2 2 1 1 2 i j) (snd (blk_desc 2 2 1 2 i))) ds_prog (ex_grid ex_C i j).
Lemma ds_conf_ok : conf_ok ds_conf.
Proof. unfold conf_ok. cbn. repeat split; lia. Qed.
Lemma ds_sort_perm : forall keys : list Qc, Permutation (ds_sort keys) (seq 0 (length keys)).
Proof. intros. unfold ds_sort. apply Permutation_refl. Qed.
