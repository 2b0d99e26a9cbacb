(** The theorems about the single-GPU backend carried over to every schedule. *)
From Coq Require Import List Arith ZArith Bool Lia Permutation.
Require Import Verif.Base Verif.AlgModel Verif.AlgSpec Verif.AlgProofs1 Verif.DlaModel Verif.ColModel Verif.ColSpec Verif.GpuModel Verif.GpuSpec Verif.GpuProofs3
  Verif.AsyncModel Verif.AsyncSpec Verif.AsyncSolve.
Import ListNotations.

Section F.
Context {F V M G T : Type} (fo : fops F) (bl : blas F V M G T) (trace : G -> F) (gshift : G -> F -> G).
Context (HSH : forall A, b_dshift bl A = gshift A (trace A)).
Context (qe : qr_env F) (td : tridiag F) (cf : conf F) (si : list F -> list nat).
Context (HP : forall keys, Permutation (si keys) (seq 0 (length keys))).
Local Notation n := (c_nev cf + c_nex cf).
Local Notation KA sch := (cmK fo qe td (asyncD fo bl n trace gshift sch) (c_nev cf) (c_nex cf)).
Local Notation KG := (cmK fo qe td (gpuD fo bl n) (c_nev cf) (c_nex cf)).

Lemma schedules_agree fsort s g ritzv resid : cm_locked s = cm_locked g -> stands_for (cm_dla s) (cm_dla g) ->
  gpu_sizes n (cm_dla g) -> conf_ok cf -> (forall l, length (fsort l) = length l) ->
  n <= length ritzv -> n <= length resid -> 2 <= c_N cf -> 1 <= c_lanczositer cf -> c_approx cf = true ->
  degree_overflow fo KG si fsort cf g ritzv resid \/
  exists values residuals vectors, forall sch, exists o, solve fo (KA sch) fsort si cf s ritzv resid = Ok o /\
    o_ritz o = values /\ o_res o = residuals /\ h_V1 (t_obj (cm_dla (o_k o))) = vectors /\ h_H (t_obj (cm_dla (o_k o))) = h_H (t_obj (cm_dla s)).
Proof.
  intros EL HS HZ HC HF H1 H2 H3 H4 H5.
  destruct (w_safe fo bl qe td cf si HP fsort g ritzv resid HZ HC HF H1 H2 H3 H4 H5) as [[o E]|[_ E]]; [right|now left].
  exists (o_ritz o), (o_res o), (g_V1 (cm_dla (o_k o))). intros sch.
  destruct (async_solve fo bl n trace gshift HSH sch qe td cf fsort si s g ritzv resid o EL HS E) as (o' & E' & R1 & R2 & _ & R3 & R4 & _).
  exists o'. repeat split; auto. rewrite R4.
  destruct (w_matrix fo bl qe td cf si HP fsort g ritzv resid o HZ E) as (-> & _).
  destruct HS as (d & _ & _ & -> & _). reflexivity.
Qed.

Lemma async_sorted fsort (P : F -> Prop) s g : order_on fo P -> cm_locked s = cm_locked g -> stands_for (cm_dla s) (cm_dla g) ->
  gpu_sizes n (cm_dla g) -> conf_ok cf -> 1 <= c_maxiter cf -> no_late_shift bl n ->
  (forall l, length (fsort l) = length l) -> 2 <= c_N cf -> 1 <= c_lanczositer cf -> c_approx cf = true ->
  forall ritzv resid, n <= length ritzv -> n <= length resid -> ~ degree_overflow fo KG si fsort cf g ritzv resid ->
  forall sch, exists o, solve fo (KA sch) fsort si cf s ritzv resid = Ok o /\
  (o_exit o <> None -> Forall P (o_ritz o) ->
   let V1 := h_V1 (t_obj (cm_dla (o_k o))) in
   fsorted_upto fo (c_nev cf) (c_nev cf) (o_ritz o) /\ c_nev cf <= length (o_ritz o) /\ length V1 = n /\
   forall i v x, i < c_nev cf -> nth_error (o_ritz o) i = Some v -> nth_error V1 i = Some x -> ritz_pair_inpl fo bl (h_H (t_obj (cm_dla s))) v x).
Proof.
  intros OP EL HS HZ HC HM HN HF H3 H4 H5 ritzv resid H1 H2 HO sch.
  destruct (w_safe fo bl qe td cf si HP fsort g ritzv resid HZ HC HF H1 H2 H3 H4 H5) as [[o E]|[_ E]]; [|contradiction].
  destruct (async_solve fo bl n trace gshift HSH sch qe td cf fsort si s g ritzv resid o EL HS E) as (o' & E' & R1 & R2 & RX & R3 & R4 & _).
  exists o'. split; [exact E'|]. intros HX HPf. cbv zeta. rewrite R1 in *. rewrite R3.
  destruct (o_exit o) as [x|] eqn:EX; [|elim HX; now apply RX].
  assert (EH : h_H (t_obj (cm_dla s)) = g_H (cm_dla g)) by (destruct HS as (d & _ & _ & -> & _); reflexivity). rewrite EH.
  exact (w_sorted fo bl qe td cf si HP fsort P g OP HZ HC HM HN ritzv resid o x E EX HPf).
Qed.
End F.
