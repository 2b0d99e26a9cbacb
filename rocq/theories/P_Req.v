(** Property C94: parameters a solve cannot do without. *)
From Coq Require Import List Arith NArith ZArith QArith Bool Lia Permutation.
Require Import Verif.Base Verif.AlgModel Verif.AlgSpec Verif.DlaModel Verif.ColModel Verif.ColSpec Verif.ColEx Verif.GpuModel Verif.MgpuModel Verif.MgpuSpec Verif.SfModel Verif.SfSpec
  Verif.SfEx Verif.SiModel Verif.SiSpec Verif.SgModel Verif.SgSpec Verif.SuSpec Verif.ReuseEx Verif.SuEx Verif.ConfigModel Verif.ConfigSpec Verif.ReqSpec Verif.ReqProofs.
Import ListNotations.
Local Open Scope nat_scope.

Local Notation run fo qe td cf D fsort si rv rs s := (solve fo (cmK fo qe td D (c_nev cf) (c_nex cf)) fsort si cf s rv rs).

(** on the arrays: whatever the object, the matrix and the library, a solve with such parameters accesses memory outside its arrays,
    unless the symmetry test ends it first *)
Theorem C94_sequential : forall (F T : Type) (fo : fops F) (lib : flib F T) qe td (cf : conf F), unusable cf -> forall N ldh, 1 <= N -> N <= ldh -> forall fsort si rv rs w l0 f,
  c_nev cf + c_nex cf <= w -> flat_sizes N ldh (c_nev cf + c_nex cf) w f -> no_answer (run fo qe td cf (flatD fo lib N ldh (c_nev cf + c_nex cf)) fsort si rv rs (mk_cm l0 f)).
Proof. exact (fun F T fo lib qe td cf U N ldh a b => seq_arrays_fail fo lib qe td cf U N ldh a b). Qed.
Print Assumptions C94_sequential.
Theorem C94_in_place : forall (F T : Type) (fo : fops F) (lib : flib F T) qe td (cf : conf F), unusable cf -> forall N ldh, 1 <= N -> N <= ldh -> forall fsort si rv rs l0 f,
  iflat_sizes N ldh (c_nev cf + c_nex cf) f -> no_answer (run fo qe td cf (iflatD fo lib N ldh (c_nev cf + c_nex cf)) fsort si rv rs (mk_cm l0 f)).
Proof. exact (fun F T fo lib qe td cf U N ldh a b => inpl_arrays_fail fo lib qe td cf U N ldh a b). Qed.
Print Assumptions C94_in_place.
Theorem C94_gpu : forall (F T : Type) (fo : fops F) (lib : flib F T) qe td (cf : conf F), unusable cf -> forall N ldh, 1 <= N -> N <= ldh -> forall fsort si rv rs l0 f,
  gflat_sizes N ldh (c_nev cf + c_nex cf) f -> no_answer (run fo qe td cf (gflatD fo lib N ldh (c_nev cf + c_nex cf)) fsort si rv rs (mk_cm l0 f)).
Proof. exact (fun F T fo lib qe td cf U N ldh a b => gpu_arrays_fail fo lib qe td cf U N ldh a b). Qed.
Print Assumptions C94_gpu.

(** on columns, for the MPI backends, without and with GPUs *)
Theorem C94_mpi : forall (F V M G T : Type) (fo : fops F) (bl : blas F V M G T) qe td (cf : conf F), unusable cf -> forall fsort si rv rs s, let n := c_nev cf + c_nex cf in
  let K := cmK fo qe td (colD fo bl true n) (c_nev cf) (c_nex cf) in length (cs_C (cm_dla s)) = n /\ length (cs_B (cm_dla s)) = n /\ length (cs_C2 (cm_dla s)) = n /\ length (cs_B2 (cm_dla s)) = n -> no_answer_ub K cf s (solve fo K fsort si cf s rv rs).
Proof. exact (fun F V M G T fo bl qe td cf U fs si rv rs s => col_fails fo bl qe td cf U fs si rv rs true _ s (le_n _)). Qed.
Print Assumptions C94_mpi.
Theorem C94_multi_gpu : forall (F V M G T : Type) (fo : fops F) (bl : blas F V M G T) qe td (cf : conf F), unusable cf -> forall fsort si rv rs loc g, let n := c_nev cf + c_nex cf in
  (forall keys, Permutation (si keys) (seq 0 (length keys))) -> beta_zero fo bl -> no_late_failure bl n -> mgpu_sizes n (cm_dla g) ->
  no_answer (run fo qe td cf (mgpuD fo bl loc false n) fsort si rv rs g).
Proof. exact (fun F V M G T fo bl qe td cf U fs si rv rs => mgpu_fails fo bl qe td cf U fs si rv rs). Qed.
Print Assumptions C94_multi_gpu.

(** A new configuration asks for four Lanczos vectors whatever nev and nex are: with fewer than four columns the default
    configuration cannot be used. *)
Theorem C94_default_configuration_refuted : forall (T : Type) (tol5 tol10 : T) t n nev nex, (nev + nex < 4)%N ->
  unusable (to_conf (new_config tol5 tol10 t n nev nex)).
Proof. exact (@defaults_unusable). Qed.
Print Assumptions C94_default_configuration_refuted.
(** otherwise the defaults are none of these *)
Theorem C94_default_configuration : forall (T : Type) (tol5 tol10 : T) t n nev nex, (4 <= nev + nex)%N -> (2 <= n)%N -> ~ unusable (to_conf (new_config tol5 tol10 t n nev nex)).
Proof. exact (@defaults_usable). Qed.
Print Assumptions C94_default_configuration.

(** ** examples *)
Definition few (nl : nat) : conf Q := {| c_N := 6; c_nev := 2; c_nex := 1; c_tol := (1#100)%Q; c_deg := 2; c_maxdeg := 2; c_degextra := 0; c_maxiter := 1;
     c_lanczositer := 3; c_numlanczos := nl; c_opt := false; c_approx := false; c_symcheck := true |}.
Example C94_example : unusable (few 4) /\ iflat_sizes 3 5 3 (cm_dla iused) /\
  (let r nl := solve qf (cmK qf qhh rtd (iflatD qf (qlib 0) 3 5 3) 2 1) qfs qsort (few nl) (mk_cm 0 (iflat_state (qlib 0) 3 2 1 H5 nine9)) [1; 1; 1]%Q [0; 0; 0]%Q in
   r 4 = UB /\ r 0 = UB /\ exists o s, r 1 = Ok o /\ o_exit o = Some s).
Proof.
  split; [right; right; right; cbn; split; [reflexivity|right; lia]|]. split; [repeat split; cbn; lia|].
  cbv zeta. split; [vm_compute; reflexivity|]. split; [vm_compute; reflexivity|]. do 2 eexists. split; vm_compute; reflexivity.
Qed.
