(** Concrete calls meeting the hypotheses. *)
From Coq Require Import List ZArith String Ascii Bool Lia.
Require Import Verif.Base Verif.ConfigModel Verif.BlasDoc Verif.WrapModel Verif.WrapTable Verif.WrapSpec Verif.WorkSpec
  Verif.NormModel Verif.NormSpec.
Import ListNotations.
Local Open Scope string_scope.
Local Open Scope Z_scope.

(** a library that asks for 3 n + 10 numbers, needs 3 n, and stores lengths rounded to nearest *)
Definition wlib : lib :=
  mk_lib (fun _ i _ => 3 * Z.max 0 (Z.min 1000 (int_of i "n")) + 10) (fun _ i _ => 3 * Z.max 0 (Z.min 1000 (int_of i "n")))
    (fun double z => nearest (bits double) z) (fun _ _ => 0).
Definition wargs : args :=
  mk_args (fun p => match assoc p [("transa", 1); ("transb", 3); ("m", 7); ("n", 5); ("k", 5); ("lda", 8); ("ldb", 9); ("ldc", 10);
                                   ("incx", 1); ("incy", 1); ("norm", 70); ("uplo", 85); ("jobz", 86)] with Some z => z | None => 3 end)
    (fun _ => [1; 0; 7; 5; 2; 2; 0; 0; 2 ^ 64 - 1]).
Definition wconf := mk_conf false false.

Example gemm_args : args_ok t_gemm_d wargs.
Proof.
  intros p k I. cbn in I.
  repeat (destruct I as [I|I]; [injection I as <- <-; cbn; unfold CblasConjTrans, CblasTrans, CblasNoTrans; try exact Logic.I; try lia; auto|]).
  destruct I.
Qed.
Example pgeqrf_args : args_ok t_pgeqrf_z wargs.
Proof.
  intros p k I. cbn in I.
  repeat (destruct I as [I|I]; [injection I as <- <-; cbn; try exact Logic.I; try lia|]); try destruct I.
  split; [reflexivity|]. repeat (apply Forall_cons; [split; [lia|unfold is_int, signed64; cbn; lia]|]). apply Forall_nil.
Qed.
Example heevd_args : args_ok t_heevd_z wargs.
Proof.
  intros p k I. cbn in I.
  repeat (destruct I as [I|I]; [injection I as <- <-; cbn; try exact Logic.I; try lia|]); try destruct I.
Qed.
Example wlib_enough r : asks_enough wlib r.
Proof. intros i w. cbn [least opt wlib]. lia. Qed.
(** the distributed QR factorisation runs once and leaves the converted descriptor behind *)
Example pgeqrf_run :
  match run wconf wlib t_pgeqrf_z wargs with
  | Stop RVoid s => leaked s = [9] /\ map fst (done s) = ["pzgeqrf"]
  | _ => False
  end.
Proof. vm_compute. auto. Qed.
Example heevd_run :
  match run wconf wlib t_heevd_z wargs with
  | Stop (RInt 0) s => leaked s = [] /\ map fst (done s) = ["zheevd"]
  | _ => False
  end.
Proof. vm_compute. auto. Qed.
(** 'C' and 'N' reach the routine *)
Example gemm_run :
  match run wconf wlib t_gemm_d wargs with
  | Stop RVoid s =>
      match done s with [(r, i)] => r = "dgemm" /\ assoc "transa" i = Some (OInt 67) /\ assoc "transb" i = Some (OInt 78)
                                    /\ assoc "ldb" i = Some (OInt 9) | _ => False end
  | _ => False
  end.
Proof. vm_compute. auto. Qed.

(** the same numbers fit all templates; k differs from n here *)
Definition wargs' : args := mk_args (fun p => if String.eqb p "k" then 4 else num wargs p) (desc wargs).
Example exceptions_args : args_ok t_gesvd_s wargs /\ args_ok t_gesvd_d wargs /\ args_ok t_lange_d wargs /\ args_ok t_stemr_d wargs
  /\ args_ok t_pgqr_s wargs' /\ num wargs' "k" <> num wargs' "n".
Proof.
  repeat split; try (cbn; lia).
  all: intros p k I; cbn in I; repeat (destruct I as [I|I]; [injection I as <- <-; cbn; try exact Logic.I; try lia|]); try destruct I.
  split; [reflexivity|]. repeat (apply Forall_cons; [split; [lia|unfold is_int, signed64; cbn; lia]|]). apply Forall_nil.
Qed.
(** without assertions the real singular value decomposition runs, and 5 * 5 numbers remain allocated *)
Example gesvd_run :
  match run (mk_conf false true) wlib t_gesvd_d wargs with
  | Stop RVoid s => leaked s = [25] /\ map fst (done s) = ["dgesvd"]
  | _ => False
  end.
Proof. vm_compute. auto. Qed.

(** the first length that does not survive: 16779421 = 1 + 6 * 2895 + 2 * 2895^2 *)
Example nearest_2895 : nearest 24 (1 + 6 * 2895 + 2 * 2895 * 2895) = 16779420.
Proof. reflexivity. Qed.
Example nearest_double_2895 : nearest 53 (1 + 6 * 2895 + 2 * 2895 * 2895) = 16779421.
Proof. reflexivity. Qed.
Definition slib : lib :=
  mk_lib (fun _ i w => let n := int_of i "n" in match w with WInt => 3 + 5 * n | _ => 1 + 6 * n + 2 * n * n end)
         (fun _ i w => let n := int_of i "n" in match w with WInt => 3 + 5 * n | _ => 1 + 6 * n + 2 * n * n end)
         (fun double z => nearest (bits double) z) (fun _ _ => 0).
Example slib_needs : syevd_needs slib.
Proof. intros i w. split; reflexivity. Qed.
Definition sargs (n : Z) : args := mk_args (fun p => if String.eqb p "n" then n else if String.eqb p "lda" then n else 86) (fun _ => []).
Example sargs_ok : args_ok t_heevd_s (sargs 2895).
Proof.
  intros p k I. cbn in I.
  repeat (destruct I as [I|I]; [injection I as <- <-; cbn; try exact Logic.I; try lia|]); try destruct I.
Qed.
Example heevd_2895 : match run (mk_conf false true) slib t_heevd_s (sargs 2895) with
                     | Stop (RInt z) s => z = 2 ^ 64 - 8 /\ done s = [] | _ => False end.
Proof. vm_compute. auto. Qed.
Example heevd_2894 : match run (mk_conf false true) slib t_heevd_s (sargs 2894) with
                     | Stop (RInt 0) s => map fst (done s) = ["ssyevd"] | _ => False end.
Proof. vm_compute. auto. Qed.

(** (1, 2, 3): 1 + 4 + 9; every second entry of (1, 2, 3, 4) with (5, 6) *)
Definition arr (l : list Z) (i : Z) : option Z := if i <? 0 then None else nth_error l (Z.to_nat i).
Example norm_123 : t_norm_p2 0 Z.add (fun v => v * v) 3 (arr [1; 2; 3]) = Ok 14.
Proof. reflexivity. Qed.
Example dot_strided : t_dot_complex 0 Z.add Z.mul (fun v => v) 2 (arr [1; 2; 3; 4]) 2 (arr [5; 6]) 1 = Ok (1 * 5 + 3 * 6).
Proof. reflexivity. Qed.
Example norm_out_of_bounds : t_norm_p2 0 Z.add (fun v => v * v) 4 (arr [1; 2; 3]) = UB.
Proof. reflexivity. Qed.
