(** Properties C33, C34, C40, C47: configuration and the C interface life cycle. *)
From Coq Require Import List NArith ZArith QArith Bool Lia.
Require Import Verif.Base Verif.AlgModel Verif.AlgSpec Verif.AlgProofs3 Verif.AlgProofs6 Verif.AlgEx Verif.ConfigModel Verif.ConfigSpec Verif.ConfigProofs.
Import ListNotations.
Local Open Scope N_scope.

(** C33: getters after any history *)
Theorem C33_getters_return_last_written_value : forall (T : Type) (c : config T) ops,
  N.even (g_deg c) = true -> N.even (g_maxdeg c) = true -> Forall setter_ok ops ->
  let d := configure ops c in
  g_N d = g_N c /\ g_nev d = g_nev c /\ g_nex d = g_nex c /\
  g_deg d = even_up (last_written (fun o => match o with SetDeg n => Some n | _ => None end) (g_deg c) ops) /\
  g_maxdeg d = even_up (last_written (fun o => match o with SetMaxDeg n => Some n | _ => None end) (g_maxdeg c) ops) /\
  g_tol d = last_written (fun o => match o with SetTol x => Some x | _ => None end) (g_tol c) ops /\
  g_degextra d = last_written (fun o => match o with SetDegExtra n => Some n | _ => None end) (g_degextra c) ops /\
  g_maxiter d = last_written (fun o => match o with SetMaxIter n => Some n | _ => None end) (g_maxiter c) ops /\
  g_lanczos d = last_written (fun o => match o with SetLanczosIter n => Some n | _ => None end) (g_lanczos c) ops /\
  g_numlanczos d = last_written (fun o => match o with SetNumLanczos n => Some n | _ => None end) (g_numlanczos c) ops /\
  g_opt d = last_written (fun o => match o with SetOpt b => Some b | _ => None end) (g_opt c) ops /\
  g_approx d = last_written (fun o => match o with SetApprox b => Some b | _ => None end) (g_approx c) ops /\
  g_cholqr d = last_written (fun o => match o with SetCholQR b => Some b | _ => None end) (g_cholqr c) ops /\
  g_sym d = last_written (fun o => match o with EnableSymCheck b => Some b | _ => None end) (g_sym c) ops.
Proof. exact (fun T => @configure_getters T). Qed.
Print Assumptions C33_getters_return_last_written_value.

Theorem C33_degrees_always_even : forall (T : Type) (tol5 tol10 : T) t n nev nex ops, Forall setter_ok ops ->
  N.even (g_deg (configure ops (new_config tol5 tol10 t n nev nex))) = true /\
  N.even (g_maxdeg (configure ops (new_config tol5 tol10 t n nev nex))) = true.
Proof. exact (fun T => @configured_even T). Qed.
Print Assumptions C33_degrees_always_even.

Example C33_example :
  let c := configure [SetDeg 7; SetMaxDeg 18446744073709551615; SetDeg 13; SetTol (1#7)%Q; SetOpt false]
             (new_config (1#100000)%Q (1#10000000000)%Q SDouble 100 10 5) in
  (g_deg c, g_maxdeg c, g_opt c, g_maxiter c) = (14, 0, false, 25).
Proof. vm_compute. reflexivity. Qed.

(** C34 *)
Theorem C34_default_table : forall (T : Type) (tol5 tol10 : T) t n nev nex,
  let c := new_config tol5 tol10 t n nev nex in
  (g_N c, g_nev c, g_nex c) = (n, nev, nex) /\
  (g_deg c, g_maxdeg c, g_lanczos c) = match t with SDouble | SCDouble => (20, 36, 25) | SFloat => (10, 18, 12) | SCFloat => (10, 12, 12) end /\
  g_tol c = match t with SDouble | SCDouble => tol10 | _ => tol5 end /\
  (g_maxiter c, g_degextra c, g_numlanczos c) = (25, 2, 4) /\ (g_opt c, g_approx c, g_cholqr c, g_sym c) = (true, false, true, true).
Proof. exact (fun T => @default_table T). Qed.
Print Assumptions C34_default_table.

(** the defaults meet the preconditions of the run theorems, whatever N and nex *)
Theorem C34_defaults_meet_solver_preconditions : forall (T : Type) (tol5 tol10 : T) t n nev nex, 1 <= nev ->
  conf_ok (to_conf (new_config tol5 tol10 t n nev nex)).
Proof. exact (fun T => @default_conf_ok T). Qed.
Print Assumptions C34_defaults_meet_solver_preconditions.

(** and after any history the preconditions are exactly these four inequalities *)
Theorem C34_solver_preconditions_after_any_history : forall (T : Type) (tol5 tol10 : T) t n nev nex ops, Forall setter_ok ops ->
  let c := configure ops (new_config tol5 tol10 t n nev nex) in
  conf_ok (to_conf c) <-> 1 <= nev /\ g_deg c <> 0 /\ g_maxdeg c <> 0 /\ (g_opt c = true -> g_degextra c <> 0).
Proof. exact (fun T => @configured_conf_ok T). Qed.
Print Assumptions C34_solver_preconditions_after_any_history.

Example C34_example : Forall setter_ok [@SetDegExtra Q 0; SetMaxDeg 30; SetOpt false] /\
  conf_ok (to_conf (configure [SetDegExtra 0; SetMaxDeg 30; SetOpt false] (new_config (1#100000)%Q (1#10000000000)%Q SCFloat 100 10 5))).
Proof. split; [repeat constructor|]. unfold conf_ok. vm_compute. repeat split; try discriminate; repeat constructor. Qed.

(** C40: call sequences without undefined behaviour, exactly *)
Theorem C40_safe_iff_legal_history : forall (T : Type) (tol5 tol10 : T) (ops : list (op T)),
  (exists out, run_ops tol5 tol10 ops capi0 = Ok out) <-> legal_history ops.
Proof. exact (fun T => @run_ok_iff T). Qed.
Print Assumptions C40_safe_iff_legal_history.

Theorem C40_illegal_call_is_undefined : forall (T : Type) (tol5 tol10 : T) (ops : list (op T)),
  run_ops tol5 tol10 ops capi0 = UB <-> exists pre o post, ops = pre ++ o :: post /\ ~ legal pre o.
Proof. exact (fun T => @run_ub_iff T). Qed.
Print Assumptions C40_illegal_call_is_undefined.

(** every solve runs with the sizes of the latest init of its own handle, the five arguments of this call, and defaults otherwise:
    nothing is carried over from earlier solves or other handles *)
Theorem C40_solve_configuration : forall (T : Type) (tol5 tol10 : T) (ops : list (op T)) rs s',
  run_ops tol5 tol10 ops capi0 = Ok (rs, s') -> length rs = length ops /\
  forall i h deg tol opt approx chol, nth_error ops i = Some (Solve h deg tol opt approx chol) ->
    exists n nev nex, last_event h (firstn i ops) = Some (Init h n nev nex) /\
      nth_error rs i = Some (Some
        (mk_cfg (to_size n) (to_size nev) (to_size nex) opt approx 25 2 4
           (match snd h with SDouble | SCDouble => 36 | SFloat => 18 | SCFloat => 12 end) (even_up (to_size deg))
           (match snd h with SDouble | SCDouble => 25 | _ => 12 end) tol chol true)).
Proof. exact (fun T => @run_solve_conf T). Qed.
Print Assumptions C40_solve_configuration.

(** the eight handles never interfere *)
Theorem C40_handles_independent : forall (T : Type) (tol5 tol10 : T) (ops : list (op T)),
  (exists out, run_ops tol5 tol10 ops capi0 = Ok out) <->
  forall h, exists out, run_ops tol5 tol10 (filter (on h) ops) capi0 = Ok out.
Proof. exact (fun T => @run_split T). Qed.
Print Assumptions C40_handles_independent.

(** objects alive at the end: inits minus effective finalizes (so a second init without finalize leaks) *)
Theorem C40_leak_count : forall (T : Type) (tol5 tol10 : T) (ops : list (op T)) rs s',
  run_ops tol5 tol10 ops capi0 = Ok (rs, s') ->
  (live_objects s' + count_frees (fun _ => false) ops = count_inits ops)%nat.
Proof. exact (fun T => @run_live0 T). Qed.
Print Assumptions C40_leak_count.

Definition dq : handle := (Seq, SDouble).
Definition pz : handle := (Dist, SCDouble).
Definition t5 : Q := 1#100000. Definition t10 : Q := 1#10000000000.
(** init, init again, solve, finalize: defined, one object leaked *)
Example C40_example : exists rs s,
  run_ops t5 t10 [Init dq 100 10 5; Init pz 50 4 2; Init dq 200 20 5; Solve dq 21 t5 true false true; Ham SCDouble; Finalize dq; Finalize pz] capi0
    = Ok (rs, s) /\ live_objects s = 1%nat /\ option_map (fun c => option_map (fun c => (g_N c, g_deg c)) c) (nth_error rs 3) = Some (Some (200, 22)).
Proof. vm_compute. eexists _, _. repeat split. Qed.
Example C40_double_finalize : run_ops t5 t10 [Init dq 100 10 5; Finalize dq; Finalize dq] capi0 = UB.
Proof. vm_compute. reflexivity. Qed.
Example C40_solve_after_finalize : run_ops t5 t10 [Init dq 100 10 5; Finalize dq; Solve dq 20 t5 true false true] capi0 = UB.
Proof. vm_compute. reflexivity. Qed.

(** C47: degree arguments for which the solver is undefined *)
Theorem C47_degree_becomes_zero_iff : forall d, (- 2 ^ 31 <= d < 2 ^ 31)%Z -> (even_up (to_size d) = 0 <-> d = 0%Z \/ d = (-1)%Z).
Proof. exact even_up_zero. Qed.
Print Assumptions C47_degree_becomes_zero_iff.

Theorem C47_zero_or_minus_one_degree_undefined : forall (F St : Type) (fo : fops F) (K : kernel F St) sort_idx nevex I0 I,
  kernel_safe K nevex I0 I -> forall fsort h n nev nex deg tol opt approx chol k k0 ritzv resid ub s0,
  let cf := to_conf (@solve_conf F h n nev nex deg tol opt approx chol) in
  (deg = 0%Z \/ deg = (-1)%Z) -> nevex = (c_nev cf + c_nex cf)%nat -> (1 <= c_nev cf)%nat ->
  k_sym K k = Ok (true, k0) -> solve_init fo K fsort cf k0 ritzv resid = Ok (ub, s0) -> I 0%nat (ss_k s0) ->
  solve fo K fsort sort_idx cf k ritzv resid = UB.
Proof. exact (fun F St fo K => bad_degree_undefined fo K). Qed.
Print Assumptions C47_zero_or_minus_one_degree_undefined.

Example C47_example : solve zf sk fsort_ex sort_ex (to_conf (solve_conf dq 100 2 1 (-1) (Some 1%Z) true true true))
  (mk_script [10; 11; 12]%nat 7 true (Some 1000%Z) ([], []) [] []) (map Some [0; 0; 0]%Z) (map Some [0; 0; 0]%Z) = UB.
Proof. vm_compute. reflexivity. Qed.
