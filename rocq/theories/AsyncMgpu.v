(** One product of the multi-GPU backend under every schedule. *)
From Coq Require Import List Arith Bool Lia.
Require Import Verif.Base Verif.AsyncModel Verif.AsyncSpec Verif.AsyncProofs Verif.AsyncSolve.
Import ListNotations.

Section P.
Context {B : Type} (prod sum : B -> B) (sch : nat -> list nat).

Lemma legacy_line : one_line (fun s => s = Legacy).
Proof. intros a b -> ->. reflexivity. Qed.
Lemma staged_ok : forall b, exists t c, exec sch (hemm_staged prod sum) 0 (mk_cfg b []) = Ok (sum (prod b), (t, c)) /\ finished c = Ok (sum (prod b)).
Proof. intros b. apply (exec_in_order _ legacy_line); [repeat split|cbn; auto|reflexivity]. Qed.
Lemma nccl_ok : forall b, exists t c, exec sch (hemm_nccl prod sum) 0 (mk_cfg b []) = Ok (tt, (t, c)) /\ finished c = Ok (sum (prod b)).
Proof. intros b. apply (exec_in_order _ legacy_line); [repeat split|cbn; auto|reflexivity]. Qed.
Lemma mpi_sync_ok : forall b, exists t c, exec sch (hemm_mpi_sync prod sum) 0 (mk_cfg b []) = Ok (tt, (t, c)) /\ finished c = Ok (sum (prod b)).
Proof. intros b. apply (exec_in_order _ legacy_line); [repeat split|cbn; auto|reflexivity]. Qed.

Lemma picks_nil l (d : B) : picks l (mk_cfg d []) = Ok (mk_cfg d []).
Proof. induction l as [|i l IH]; [reflexivity|]. cbn [picks]. replace (pick i (mk_cfg d [])) with (Ok (mk_cfg d [])) by (now destruct i). exact IH. Qed.
Lemma picks_one l (d : B) : picks l (mk_cfg d [(Legacy, fun d => Ok (prod d))]) =
  Ok (if existsb (Nat.eqb 0) l then mk_cfg (prod d) [] else mk_cfg d [(Legacy, fun d => Ok (prod d))]).
Proof.
  induction l as [|i l IH]; [reflexivity|]. cbn [picks existsb]. destruct i as [|i].
  - cbn. apply picks_nil.
  - replace (pick (S i) _) with (Ok (mk_cfg d [(Legacy, fun d => Ok (prod d))])) by (now destruct i). cbn [bind Nat.eqb orb]. exact IH.
Qed.
(** exactly: the sum comes after the product if the device has run the product by then, before it otherwise *)
Lemma mpi_when : forall b, exists t c, exec sch (hemm_mpi prod sum) 0 (mk_cfg b []) = Ok (tt, (t, c)) /\
  finished c = Ok (if existsb (Nat.eqb 0) (sch 1) then sum (prod b) else prod (sum b)).
Proof.
  intros b. unfold hemm_mpi. cbn [exec]. rewrite picks_nil. cbn [bind c_mem c_queue app]. rewrite picks_one. cbn [bind].
  destruct (existsb _ _); do 2 eexists; (split; [reflexivity|]); reflexivity.
Qed.
End P.
