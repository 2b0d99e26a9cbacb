(** The templates around BLAS, LAPACK and ScaLAPACK. *)
From Coq Require Import List ZArith String.
Require Import Verif.Base Verif.ConfigModel Verif.BlasDoc Verif.WrapModel Verif.WrapTable Verif.WrapSpec Verif.WorkSpec Verif.NormModel
  Verif.NormSpec Verif.WrapProofs Verif.WrapPerf Verif.WrapBad Verif.WrapWork Verif.NormProofs Verif.WrapEx.
Import ListNotations.
Local Open Scope string_scope.
Local Open Scope Z_scope.

Theorem C75_templates_run_the_documented_routine cf lb w a :
  In w wrappers -> args_ok w a -> reports_enough lb (routine_for (w_name w) (w_type w)) (w_type w) -> ~ exception cf w a ->
  performs cf lb w a.
Proof. exact (performs_all cf lb w a). Qed.
Print Assumptions C75_templates_run_the_documented_routine.

(** more concrete calls, and the checks of the hypotheses used here, are in WrapEx *)
Example C75_example : args_ok t_gemm_d wargs /\ asks_enough wlib "dgemm" /\
  match run wconf wlib t_gemm_d wargs with
  | Stop RVoid s =>
      match done s with [(r, i)] => r = "dgemm" /\ assoc "transa" i = Some (OInt 67) /\ assoc "transb" i = Some (OInt 78)
                                    /\ assoc "ldb" i = Some (OInt 9) | _ => False end
  | _ => False
  end.
Proof. exact (conj gemm_args (conj (wlib_enough _) gemm_run)). Qed.

Theorem C75_gesvd_real_without_assertions cf lb w a :
  w = t_gesvd_s \/ w = t_gesvd_d -> ndebug cf = true -> args_ok w a -> 1 <= num a "m" -> 1 <= num a "n" ->
  reports_enough lb (routine_for (w_name w) (w_type w)) (w_type w) -> performs cf lb w a /\ tidy w a (run cf lb w a).
Proof. exact (gesvd_real_ndebug cf lb w a). Qed.
Print Assumptions C75_gesvd_real_without_assertions.

Theorem C75_gesvd_real_refuted cf lb w a :
  w = t_gesvd_s \/ w = t_gesvd_d -> args_ok w a -> ndebug cf = false \/ num a "m" = 0 \/ num a "n" = 0 ->
  run cf lb w a = Undef.
Proof. exact (gesvd_real_undef cf lb w a). Qed.
Print Assumptions C75_gesvd_real_refuted.

Theorem C75_lange_double_refuted cf lb a : args_ok t_lange_d a -> ~ performs cf lb t_lange_d a.
Proof. exact (lange_double_wrong cf lb a). Qed.
Print Assumptions C75_lange_double_refuted.

Theorem C75_lange_infinity_norm_refuted cf lb w a :
  In w [t_lange_s; t_lange_d; t_lange_c; t_lange_z] -> args_ok w a -> num a "norm" = 73 \/ num a "norm" = 105 ->
  run cf lb w a = Undef.
Proof. exact (lange_inf cf lb w a). Qed.
Print Assumptions C75_lange_infinity_norm_refuted.

Theorem C75_stemr_double_refuted cf lb a : upper cf = true -> args_ok t_stemr_d a -> run cf lb t_stemr_d a = Undef.
Proof. exact (stemr_double_upper cf lb a). Qed.
Print Assumptions C75_stemr_double_refuted.

Theorem C75_pgqr_single_refuted cf lb a :
  args_ok t_pgqr_s a -> reports_enough lb "psorgqr" SFloat -> num a "k" <> num a "n" -> ~ performs cf lb t_pgqr_s a.
Proof. exact (pgqr_single_wrong cf lb a). Qed.
Print Assumptions C75_pgqr_single_refuted.

Theorem C75_large_sizes_refuted cf lb a :
  2 ^ 31 <= num a "n" < 2 ^ 64 -> 0 <= num a "incx" < 2 ^ 31 -> ~ performs cf lb t_scal_d a.
Proof. exact (scal_large_wrong cf lb a). Qed.
Print Assumptions C75_large_sizes_refuted.

Theorem C76_workspaces_double cf lb w a :
  let r := routine_for (w_name w) (w_type w) in
  In w wrappers -> is_double (w_type w) = true -> args_ok w a -> asks_enough lb r ->
  (forall z, 0 <= z -> enc lb true z = nearest 53 z) -> ~ exception cf w a -> performs cf lb w a.
Proof. exact (workspaces_double cf lb w a). Qed.
Print Assumptions C76_workspaces_double.

Theorem C76_workspaces_single cf lb w a :
  let r := routine_for (w_name w) (w_type w) in
  In w wrappers -> is_double (w_type w) = false -> args_ok w a -> asks_enough lb r ->
  (forall z, 0 <= z -> enc lb false z = nearest 24 z) /\ (forall i k, opt lb r i k < 2 ^ 24)
  \/ (forall z, 0 <= z -> enc lb false z = upward 24 z) /\ (forall i k, opt lb r i k <= 2 ^ 31 - 2 ^ 7) ->
  ~ exception cf w a -> performs cf lb w a.
Proof. exact (workspaces_single cf lb w a). Qed.
Print Assumptions C76_workspaces_single.

Theorem C76_workspaces_single_refuted cf lb a :
  args_ok t_heevd_s a -> 2895 <= num a "n" <= 5791 -> syevd_needs lb ->
  (forall z, 0 <= z -> enc lb false z = nearest 24 z) ->
  refused cf (run cf lb t_heevd_s a).
Proof. exact (heevd_single cf lb a). Qed.
Print Assumptions C76_workspaces_single_refuted.

(** a single precision eigenproblem of order 2895: the library wants 16779421 numbers, float holds 16779420, and the call is refused *)
Example C76_example : args_ok t_heevd_s (sargs 2895) /\ syevd_needs slib /\
  match run (mk_conf false true) slib t_heevd_s (sargs 2895) with Stop (RInt z) s => z = 2 ^ 64 - 8 /\ done s = [] | _ => False end /\
  match run (mk_conf false true) slib t_heevd_s (sargs 2894) with Stop (RInt 0) s => map fst (done s) = ["ssyevd"] | _ => False end.
Proof. split; [exact sargs_ok|]. split; [exact slib_needs|]. split; vm_compute; auto. Qed.

Theorem C76_memory_left_behind cf lb w a :
  In w wrappers -> args_ok w a -> reports_enough lb (routine_for (w_name w) (w_type w)) (w_type w) -> ~ exception cf w a ->
  tidy w a (run cf lb w a).
Proof. exact (tidy_all cf lb w a). Qed.
Print Assumptions C76_memory_left_behind.

Theorem C77_squared_norm {T R : Type} (zero : R) add (sq : T -> R) n x v :
  0 <= n < 2 ^ 31 -> entry x 1 v n ->
  t_norm_p2 zero add sq n x = Ok (partial zero add (fun j => sq (v j)) (Z.to_nat n)).
Proof. exact (norm_p2_sum zero add sq n x v). Qed.
Print Assumptions C77_squared_norm.

Theorem C77_complex_dot_product {T : Type} (zero : T) add mul conj n x incx y incy v w :
  0 <= n < 2 ^ 31 -> 0 <= incx -> 0 <= incy -> n * incx < 2 ^ 64 -> n * incy < 2 ^ 64 ->
  entry x incx v n -> entry y incy w n ->
  t_dot_complex zero add mul conj n x incx y incy = Ok (partial zero add (fun j => mul (conj (v j)) (w j)) (Z.to_nat n)).
Proof. exact (dot_sum zero add mul conj n x incx y incy v w). Qed.
Print Assumptions C77_complex_dot_product.

Example C77_example : t_norm_p2 0 Z.add (fun v => v * v) 3 (arr [1; 2; 3]) = Ok 14 /\
  t_dot_complex 0 Z.add Z.mul (fun v => v) 2 (arr [1; 2; 3; 4]) 2 (arr [5; 6]) 1 = Ok (1 * 5 + 3 * 6).
Proof. exact (conj norm_123 dot_strided). Qed.

Theorem C77_counter_overflow_refuted {T R : Type} (zero : R) add (sq : T -> R) (z0 : T) add' mul conj n x incx y incy :
  2 ^ 31 <= n < 2 ^ 64 ->
  t_norm_p2 zero add sq n x = UB /\ t_dot_complex z0 add' mul conj n x incx y incy = UB.
Proof. intros H. exact (Logic.conj (norm_p2_overflow zero add sq n x H) (dot_overflow z0 add' mul conj n x incx y incy H)). Qed.
Print Assumptions C77_counter_overflow_refuted.
