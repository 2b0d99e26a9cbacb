(** What the templates t_xxx<T> promise to the rest of the library, in terms of their own parameters and of the documentation of the
    numerical libraries: which routine runs, on which arguments, and what is returned. *)
From Coq Require Import List ZArith String.
Require Import Verif.Base Verif.ConfigModel Verif.BlasDoc Verif.WrapModel.
Import ListNotations.
Local Open Scope string_scope.
Local Open Scope Z_scope.

Definition pick (t : scalar) (s d c z : string) : string :=
  match t with SFloat => s | SDouble => d | SCFloat => c | SCDouble => z end.
(** the routine for each operation and each type of number *)
Definition routine_for (op : string) (t : scalar) : string :=
  match assoc op
    [("t_scal", pick t "sscal" "dscal" "cscal" "zscal"); ("t_axpy", pick t "saxpy" "daxpy" "caxpy" "zaxpy");
     ("t_dot", pick t "sdot" "ddot" "cdotc" "zdotc"); ("t_nrm2", pick t "snrm2" "dnrm2" "scnrm2" "dznrm2");
     ("t_lange", pick t "slange" "dlange" "clange" "zlange"); ("t_gemv", pick t "sgemv" "dgemv" "cgemv" "zgemv");
     ("t_gemm", pick t "sgemm" "dgemm" "cgemm" "zgemm"); ("t_syhemm", pick t "ssymm" "dsymm" "chemm" "zhemm");
     ("t_syherk", pick t "ssyrk" "dsyrk" "cherk" "zherk"); ("t_trsm", pick t "strsm" "dtrsm" "ctrsm" "ztrsm");
     ("t_lacpy", pick t "slacpy" "dlacpy" "clacpy" "zlacpy"); ("t_potrf", pick t "spotrf" "dpotrf" "cpotrf" "zpotrf");
     ("t_geqrf", pick t "sgeqrf" "dgeqrf" "cgeqrf" "zgeqrf"); ("t_gqr", pick t "sorgqr" "dorgqr" "cungqr" "zungqr");
     ("t_heevd", pick t "ssyevd" "dsyevd" "cheevd" "zheevd"); ("t_stemr", pick t "sstemr" "dstemr" "cstemr" "zstemr");
     ("t_gesvd", pick t "sgesvd" "dgesvd" "cgesvd" "zgesvd"); ("t_pgeqrf", pick t "psgeqrf" "pdgeqrf" "pcgeqrf" "pzgeqrf");
     ("t_pgqr", pick t "psorgqr" "pdorgqr" "pcungqr" "pzungqr"); ("t_ptranc", pick t "pstran" "pdtran" "pctranc" "pztranc")]
  with Some r => r | None => "" end.

(** the parameter of the template that stands for a parameter of the routine, where the two are not called the same *)
Definition parameter (op f : string) : string :=
  match assoc (op ++ "/" ++ f)
    [("t_scal/alpha", "a"); ("t_axpy/alpha", "a"); ("t_lange/a", "A"); ("t_trsm/transa", "trans"); ("t_gesvd/a", "A");
     ("t_gesvd/s", "S"); ("t_gesvd/u", "U"); ("t_gesvd/vt", "Vt"); ("t_pgeqrf/a", "A"); ("t_pgeqrf/desca", "desc_a");
     ("t_pgqr/a", "A"); ("t_pgqr/desca", "desc_a"); ("t_ptranc/a", "A"); ("t_ptranc/c", "C"); ("t_ptranc/desca", "desc_a");
     ("t_ptranc/descc", "desc_c")]
  with Some p => p | None => f end.

(** a 64-bit unsigned value read as a signed one *)
Definition signed64 (z : Z) : Z := if z <? 2 ^ 63 then z else z - 2 ^ 64.
Definition is_int (z : Z) : Prop := - 2 ^ 31 <= z < 2 ^ 31.

(** the letters of the BLAS for the three values of CBLAS_TRANSPOSE: 'C', 'T', 'N' *)
Definition letter (z : Z) : Z := if z =? CblasConjTrans then 67 else if z =? CblasTrans then 84 else 78.

(** What the routine must see of the argument for parameter f: the caller's number, character, transposition, matrix, scalar or
    descriptor. *)
Definition expected (w : wrapper) (a : args) (f : string) : option obs :=
  let p := parameter (w_name w) f in
  match assoc p (w_params w) with
  | Some KSize | Some KInt | Some KChar => Some (OInt (num a p))
  | Some KTrans => Some (OInt (letter (num a p)))
  | Some KPtr => Some (OPtr (PArg p))
  | Some KScal => Some (OScal p)
  | Some KDesc => Some (ODesc (map signed64 (desc a p)))
  | None => None
  end.

(** Sizes, strides and the entries of descriptors fit into the 32-bit integers of the numerical libraries; transpositions are one of
    the three values. *)
Definition args_ok (w : wrapper) (a : args) : Prop :=
  forall p k, In (p, k) (w_params w) ->
    match k with
    | KSize => 0 <= num a p < 2 ^ 31
    | KTrans => num a p = CblasConjTrans \/ num a p = CblasTrans \/ num a p = CblasNoTrans
    | KDesc => List.length (desc a p) = 9%nat /\ Forall (fun z => 0 <= z < 2 ^ 64 /\ is_int (signed64 z)) (desc a p)
    | _ => True
    end.

(** The length a workspace query reports is sufficient and fits into an int. *)
Definition reports_enough (lb : lib) (r : string) (t : scalar) : Prop :=
  forall i w, 0 <= least lb r i w <= reported lb r t i w /\ reported lb r t i w < 2 ^ 31.

(** The value the caller gets, given what the routine did. *)
Definition result (w : wrapper) (lb : lib) (r : string) (i : ins) : ret :=
  match w_ret w with
  | RtVoid => RVoid
  | RtSize => RInt (status lb r i mod 2 ^ 64)
  | RtInt => RInt (status lb r i)
  | RtBase => RFun r i
  end.

(** One call of the template runs the documented routine of type T exactly once, on exactly the caller's arguments, and returns its
    result or its status; with assertions enabled the program may instead stop, but only because that status was not zero. *)
Definition outcome_ok (cf : conf) (lb : lib) (w : wrapper) (r : string) (i : ins) (o : outcome) : Prop :=
  match o with
  | Stop v s => done s = [(r, i)] /\ v = result w lb r i
  | Abort s => done s = [(r, i)] /\ ndebug cf = false /\ status lb r i <> 0
  | _ => False
  end.
Definition performs (cf : conf) (lb : lib) (w : wrapper) (a : args) : Prop :=
  let r := routine_for (w_name w) (w_type w) in
  exists d i, doc_of r = Some d /\ d_type d = w_type w
    /\ (forall f, In (A f) (d_sig d) -> exists o, expected w a f = Some o /\ assoc f i = Some o)
    /\ outcome_ok cf lb w r i (run cf lb w a).

(** The specialisations and arguments for which this fails, each of which is the subject of a theorem of its own. *)
Definition real (t : scalar) : bool := match t with SFloat | SDouble => true | _ => false end.
Definition exception (cf : conf) (w : wrapper) (a : args) : Prop :=
  (w_name w = "t_gesvd" /\ real (w_type w) = true)
  \/ (w_name w = "t_lange" /\ (w_type w = SDouble \/ num a "norm" = 73 \/ num a "norm" = 105))
  \/ (w_name w = "t_stemr" /\ w_type w = SDouble /\ upper cf = true)
  \/ (w_name w = "t_pgqr" /\ w_type w = SFloat /\ num a "k" <> num a "n").

(** The memory that remains allocated when the template returns: the real workspace of xGESVD except in double complex, and the
    converted array descriptors. *)
Definition leaves (w : wrapper) (a : args) : list Z :=
  match assoc (w_name w)
    [("t_gesvd", if match w_type w with SCDouble => true | _ => false end then [] else [5 * Z.min (num a "m") (num a "n")]);
     ("t_pgeqrf", [9]); ("t_pgqr", [9]); ("t_ptranc", [9; 9])] with
  | Some l => l | None => [] end.
Definition tidy (w : wrapper) (a : args) (o : outcome) : Prop := match o with Stop _ s => leaked s = leaves w a | _ => True end.
