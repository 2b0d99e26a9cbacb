(** Property C96: cuSOLVER's work areas.  The library's answers, the sizes, the QR decisions, the INFO values and the runs are arbitrary. *)
From Coq Require Import List Arith ZArith Bool Lia Permutation.
Require Import Verif.Base Verif.AlgModel Verif.AlgSpec Verif.AlgTrace Verif.AlgEx Verif.MemEx Verif.DwModel Verif.DwSpec Verif.DwProofs.
Import ListNotations.

(** any number of solves on one object: every cuSOLVER call finds a work area of the size it asks for and its matrices inside their
    arrays, and devInfo_ is never read before it is written, if a smaller eigenproblem does not need more than the full one *)
Theorem C96_work_area_suffices : forall (F St : Type) (fo : fops F) (K : kernel F St) sort_idx,
  (forall keys, Permutation (sort_idx keys) (seq 0 (length keys))) ->
  forall L gk rows nev nex qm, 1 <= nev -> (gk = GOne -> nev + nex <= rows) -> heevd_grows L (nev + nex) ->
  forall logs, (forall log, In log logs -> exists fsort cf t ritzv resid o s, conf_ok cf /\ c_nev cf = nev /\ c_nex cf = nex /\
      solve fo (logK K) fsort sort_idx cf ([], t) ritzv resid = Ok o /\ o_exit o = Some s /\ log = fst (o_k o)) ->
  exists o, d_calls L gk qm (concat logs) (construct L gk rows nev nex) = Ok o.
Proof. exact @solves_suffice. Qed.
Print Assumptions C96_work_area_suffices.

(** exactly when a list of calls is defined: only the projected eigenproblems depend on the library's answers; the factorisations
    always have what they ask for *)
Theorem C96_defined_iff : forall (F : Type) L gk rows nev nex qm (l : list (call F)), 1 <= nev + nex -> (gk = GOne -> nev + nex <= rows) ->
  (forall b, In b (rr_blocks l) -> b <= nev + nex) ->
  ((exists o, d_calls L gk qm l (construct L gk rows nev nex) = Ok o) <->
     forall b, In b (rr_blocks l) -> (dl_need L (Dheevd b (nev + nex)) <= w_lwork (construct L gk rows nev nex))%Z) /\
  (d_calls L gk qm l (construct L gk rows nev nex) = UB <->
     ~ forall b, In b (rr_blocks l) -> (dl_need L (Dheevd b (nev + nex)) <= w_lwork (construct L gk rows nev nex))%Z).
Proof. exact @calls_exact. Qed.
Print Assumptions C96_defined_iff.

(** the size allocated is the largest of the library's answers for the full sizes *)
Theorem C96_allocated_size : forall L gk rows nev nex, asked L gk rows (nev + nex) (w_lwork (construct L gk rows nev nex)).
Proof. exact lwork_is_asked. Qed.
Print Assumptions C96_allocated_size.

(** the eigenproblems of a solve: always larger than nex and at most nev + nex *)
Theorem C96_eigenproblem_sizes : forall (F St : Type) (fo : fops F) (K : kernel F St) sort_idx,
  (forall keys, Permutation (sort_idx keys) (seq 0 (length keys))) ->
  forall fsort cf t ritzv resid o s, conf_ok cf ->
  solve fo (logK K) fsort sort_idx cf ([], t) ritzv resid = Ok o -> o_exit o = Some s ->
  forall b, In b (rr_blocks (fst (o_k o))) -> c_nex cf < b <= c_nev cf + c_nex cf.
Proof. exact @solve_blocks. Qed.
Print Assumptions C96_eigenproblem_sizes.

(** a three-iteration run with eigenproblems of sizes 3, 3 and 2, CholeskyQR1, CholeskyQR2 and a failed factorisation: 9 calls *)
Example C96_example : heevd_grows ex_lib 3 /\ conf_ok mem_conf /\ exists o s,
  solve zf (logK sk) fsort_ex sort_ex mem_conf dw_state (map (@Some Z) [0; 0; 500]%Z) (map (@Some Z) [0; 0; 0]%Z) = Ok o /\
  o_exit o = Some s /\ rr_blocks (fst (o_k o)) = [3; 3; 2] /\
  exists o', d_calls ex_lib GOne (fun i => if i =? 0 then QOne else QTwo) (fst (o_k o)) (construct ex_lib GOne 100 2 1) = Ok o' /\ w_calls o' = 9.
Proof.
  split; [apply ex_grows|]. split; [vm_compute; repeat split; lia|].
  destruct dw_run as (o & s & A & B & C & _ & D). exists o, s. auto.
Qed.

(** claimed: the work area is large enough whatever the library answers.  It is asked only for the full size, but the eigenproblems
    shrink as pairs are locked, and cuSOLVER does not promise that a smaller problem needs less. *)
Theorem C96_any_library_refuted : ~ (forall L gk rows nev nex qm fsort cf t ritzv resid o s, 1 <= nev -> nev + nex <= rows -> conf_ok cf ->
  c_nev cf = nev -> c_nex cf = nex ->
  solve zf (logK sk) fsort sort_ex cf ([], t) ritzv resid = Ok o -> o_exit o = Some s ->
  exists o', d_calls L gk qm (fst (o_k o)) (construct L gk rows nev nex) = Ok o').
Proof. exact any_library_bad. Qed.
Print Assumptions C96_any_library_refuted.
