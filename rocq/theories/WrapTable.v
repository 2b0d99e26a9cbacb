(** The bodies of the templates of ChASE-MPI/blas_templates.inc, one definition per specialisation, statement by statement in the
    order of the source (comments, `using` declarations and casts that do not change a value are dropped; reinterpretation of an
    enumerator as the number defined in blas_templates.hpp:19-21).  t_sqrt_norm, t_norm_p2 and the complex t_dot, which call no
    library routine, are in NormModel.v; t_descinit is not modelled. *)
From Coq Require Import List ZArith String Ascii.
Require Import Verif.Base Verif.ConfigModel Verif.BlasDoc Verif.WrapModel.
Import ListNotations.
Local Open Scope string_scope.
Local Open Scope list_scope.

(** blas_templates.inc:88-96 *)
Definition t_scal_s := mk_wrapper "t_scal" SFloat RtVoid
  [("n", KSize); ("a", KPtr); ("x", KPtr); ("incx", KSize)]
  [DeclInt "n_" "n"; DeclInt "incx_" "incx"; Call "sscal" "SSCAL" [AAddr "n_"; AVal "a"; AVal "x"; AAddr "incx_"]].

(** blas_templates.inc:97-105 *)
Definition t_scal_d := mk_wrapper "t_scal" SDouble RtVoid
  [("n", KSize); ("a", KPtr); ("x", KPtr); ("incx", KSize)]
  [DeclInt "n_" "n"; DeclInt "incx_" "incx"; Call "dscal" "DSCAL" [AAddr "n_"; AVal "a"; AVal "x"; AAddr "incx_"]].

(** blas_templates.inc:106-113 *)
Definition t_scal_c := mk_wrapper "t_scal" SCFloat RtVoid
  [("n", KSize); ("a", KPtr); ("x", KPtr); ("incx", KSize)]
  [DeclInt "n_" "n"; DeclInt "incx_" "incx"; Call "cscal" "CSCAL" [AAddr "n_"; AVal "a"; AVal "x"; AAddr "incx_"]].

(** blas_templates.inc:114-122 *)
Definition t_scal_z := mk_wrapper "t_scal" SCDouble RtVoid
  [("n", KSize); ("a", KPtr); ("x", KPtr); ("incx", KSize)]
  [DeclInt "n_" "n"; DeclInt "incx_" "incx"; Call "zscal" "ZSCAL" [AAddr "n_"; AVal "a"; AVal "x"; AAddr "incx_"]].

(** blas_templates.inc:125-134 *)
Definition t_axpy_s := mk_wrapper "t_axpy" SFloat RtVoid
  [("n", KSize); ("a", KPtr); ("x", KPtr); ("incx", KSize); ("y", KPtr); ("incy", KSize)]
  [DeclInt "n_" "n"; DeclInt "incy_" "incy"; DeclInt "incx_" "incx";
   Call "saxpy" "SAXPY" [AAddr "n_"; AVal "a"; AVal "x"; AAddr "incx_"; AVal "y"; AAddr "incy_"]].

(** blas_templates.inc:135-144 *)
Definition t_axpy_d := mk_wrapper "t_axpy" SDouble RtVoid
  [("n", KSize); ("a", KPtr); ("x", KPtr); ("incx", KSize); ("y", KPtr); ("incy", KSize)]
  [DeclInt "n_" "n"; DeclInt "incy_" "incy"; DeclInt "incx_" "incx";
   Call "daxpy" "DAXPY" [AAddr "n_"; AVal "a"; AVal "x"; AAddr "incx_"; AVal "y"; AAddr "incy_"]].

(** blas_templates.inc:145-155 *)
Definition t_axpy_c := mk_wrapper "t_axpy" SCFloat RtVoid
  [("n", KSize); ("a", KPtr); ("x", KPtr); ("incx", KSize); ("y", KPtr); ("incy", KSize)]
  [DeclInt "n_" "n"; DeclInt "incy_" "incy"; DeclInt "incx_" "incx";
   Call "caxpy" "CAXPY" [AAddr "n_"; AVal "a"; AVal "x"; AAddr "incx_"; AVal "y"; AAddr "incy_"]].

(** blas_templates.inc:156-166 *)
Definition t_axpy_z := mk_wrapper "t_axpy" SCDouble RtVoid
  [("n", KSize); ("a", KPtr); ("x", KPtr); ("incx", KSize); ("y", KPtr); ("incy", KSize)]
  [DeclInt "n_" "n"; DeclInt "incy_" "incy"; DeclInt "incx_" "incx";
   Call "zaxpy" "ZAXPY" [AAddr "n_"; AVal "a"; AVal "x"; AAddr "incx_"; AVal "y"; AAddr "incy_"]].

(** blas_templates.inc:168-178 *)
Definition t_dot_s := mk_wrapper "t_dot" SFloat RtBase
  [("n", KSize); ("x", KPtr); ("incx", KSize); ("y", KPtr); ("incy", KSize)]
  [DeclInt "n_" "n"; DeclInt "incy_" "incy"; DeclInt "incx_" "incx";
   RetCall "sdot" "SDOT" [AAddr "n_"; AVal "x"; AAddr "incx_"; AVal "y"; AAddr "incy_"]].

(** blas_templates.inc:180-190 *)
Definition t_dot_d := mk_wrapper "t_dot" SDouble RtBase
  [("n", KSize); ("x", KPtr); ("incx", KSize); ("y", KPtr); ("incy", KSize)]
  [DeclInt "n_" "n"; DeclInt "incy_" "incy"; DeclInt "incx_" "incx";
   RetCall "ddot" "DDOT" [AAddr "n_"; AVal "x"; AAddr "incx_"; AVal "y"; AAddr "incy_"]].

(** blas_templates.inc:206-217 *)
Definition t_lange_d := mk_wrapper "t_lange" SDouble RtBase
  [("norm", KChar); ("m", KSize); ("n", KSize); ("A", KPtr); ("lda", KSize)]
  [DeclInt "m_" "m"; DeclInt "n_" "n"; DeclInt "lda_" "lda";
   RetCall "dlange" "DLANGE" [AAddr "norm"; AAddr "m_"; AAddr "n_"; AVal "A"; AAddr "lda_"; ANull]].

(** blas_templates.inc:219-230 *)
Definition t_lange_s := mk_wrapper "t_lange" SFloat RtBase
  [("norm", KChar); ("m", KSize); ("n", KSize); ("A", KPtr); ("lda", KSize)]
  [DeclInt "m_" "m"; DeclInt "n_" "n"; DeclInt "lda_" "lda";
   RetCall "slange" "SLANGE" [AAddr "norm"; AAddr "m_"; AAddr "n_"; AVal "A"; AAddr "lda_"; ANull]].

(** blas_templates.inc:232-243 *)
Definition t_lange_z := mk_wrapper "t_lange" SCDouble RtBase
  [("norm", KChar); ("m", KSize); ("n", KSize); ("A", KPtr); ("lda", KSize)]
  [DeclInt "m_" "m"; DeclInt "n_" "n"; DeclInt "lda_" "lda";
   RetCall "zlange" "ZLANGE" [AAddr "norm"; AAddr "m_"; AAddr "n_"; AVal "A"; AAddr "lda_"; ANull]].

(** blas_templates.inc:245-256 *)
Definition t_lange_c := mk_wrapper "t_lange" SCFloat RtBase
  [("norm", KChar); ("m", KSize); ("n", KSize); ("A", KPtr); ("lda", KSize)]
  [DeclInt "m_" "m"; DeclInt "n_" "n"; DeclInt "lda_" "lda";
   RetCall "clange" "CLANGE" [AAddr "norm"; AAddr "m_"; AAddr "n_"; AVal "A"; AAddr "lda_"; ANull]].

(** blas_templates.inc:260-296 *)
Definition t_gemm_d := mk_wrapper "t_gemm" SDouble RtVoid
  [("Layout", KInt); ("transa", KTrans); ("transb", KTrans); ("m", KSize); ("n", KSize); ("k", KSize); ("alpha", KPtr);
   ("a", KPtr); ("lda", KSize); ("b", KPtr); ("ldb", KSize); ("beta", KPtr); ("c", KPtr); ("ldc", KSize)]
  [DeclUn "TA" TInt; DeclUn "TB" TInt; IfEq "transa" CblasNoTrans "TA" "N"%char; IfEq "transa" CblasTrans "TA" "T"%char;
   IfEq "transa" CblasConjTrans "TA" "C"%char; IfEq "transb" CblasNoTrans "TB" "N"%char;
   IfEq "transb" CblasTrans "TB" "T"%char; IfEq "transb" CblasConjTrans "TB" "C"%char; DeclInt "m_" "m"; DeclInt "n_" "n";
   DeclInt "k_" "k"; DeclInt "lda_" "lda"; DeclInt "ldb_" "ldb"; DeclInt "ldc_" "ldc";
   Call "dgemm" "DGEMM" [AAddr "TA"; AAddr "TB"; AAddr "m_"; AAddr "n_"; AAddr "k_"; AVal "alpha"; AVal "a"; AAddr "lda_";
      AVal "b"; AAddr "ldb_"; AVal "beta"; AVal "c"; AAddr "ldc_"]].

(** blas_templates.inc:298-334 *)
Definition t_gemm_s := mk_wrapper "t_gemm" SFloat RtVoid
  [("Layout", KInt); ("transa", KTrans); ("transb", KTrans); ("m", KSize); ("n", KSize); ("k", KSize); ("alpha", KPtr);
   ("a", KPtr); ("lda", KSize); ("b", KPtr); ("ldb", KSize); ("beta", KPtr); ("c", KPtr); ("ldc", KSize)]
  [DeclUn "TA" TInt; DeclUn "TB" TInt; IfEq "transa" CblasNoTrans "TA" "N"%char; IfEq "transa" CblasTrans "TA" "T"%char;
   IfEq "transa" CblasConjTrans "TA" "C"%char; IfEq "transb" CblasNoTrans "TB" "N"%char;
   IfEq "transb" CblasTrans "TB" "T"%char; IfEq "transb" CblasConjTrans "TB" "C"%char; DeclInt "m_" "m"; DeclInt "n_" "n";
   DeclInt "k_" "k"; DeclInt "lda_" "lda"; DeclInt "ldb_" "ldb"; DeclInt "ldc_" "ldc";
   Call "sgemm" "SGEMM" [AAddr "TA"; AAddr "TB"; AAddr "m_"; AAddr "n_"; AAddr "k_"; AVal "alpha"; AVal "a"; AAddr "lda_";
      AVal "b"; AAddr "ldb_"; AVal "beta"; AVal "c"; AAddr "ldc_"]].

(** blas_templates.inc:336-351 *)
Definition t_syhemm_s := mk_wrapper "t_syhemm" SFloat RtVoid
  [("side", KChar); ("uplo", KChar); ("m", KSize); ("n", KSize); ("alpha", KPtr); ("a", KPtr); ("lda", KSize); ("b", KPtr);
   ("ldb", KSize); ("beta", KPtr); ("c", KPtr); ("ldc", KSize)]
  [DeclInt "m_" "m"; DeclInt "n_" "n"; DeclInt "lda_" "lda"; DeclInt "ldb_" "ldb"; DeclInt "ldc_" "ldc";
   Call "ssymm" "SSYMM" [AAddr "side"; AAddr "uplo"; AAddr "m_"; AAddr "n_"; AVal "alpha"; AVal "a"; AAddr "lda_"; AVal "b";
      AAddr "ldb_"; AVal "beta"; AVal "c"; AAddr "ldc_"]].

(** blas_templates.inc:353-368 *)
Definition t_syhemm_d := mk_wrapper "t_syhemm" SDouble RtVoid
  [("side", KChar); ("uplo", KChar); ("m", KSize); ("n", KSize); ("alpha", KPtr); ("a", KPtr); ("lda", KSize); ("b", KPtr);
   ("ldb", KSize); ("beta", KPtr); ("c", KPtr); ("ldc", KSize)]
  [DeclInt "m_" "m"; DeclInt "n_" "n"; DeclInt "lda_" "lda"; DeclInt "ldb_" "ldb"; DeclInt "ldc_" "ldc";
   Call "dsymm" "DSYMM" [AAddr "side"; AAddr "uplo"; AAddr "m_"; AAddr "n_"; AVal "alpha"; AVal "a"; AAddr "lda_"; AVal "b";
      AAddr "ldb_"; AVal "beta"; AVal "c"; AAddr "ldc_"]].

(** blas_templates.inc:370-387 *)
Definition t_syhemm_c := mk_wrapper "t_syhemm" SCFloat RtVoid
  [("side", KChar); ("uplo", KChar); ("m", KSize); ("n", KSize); ("alpha", KPtr); ("a", KPtr); ("lda", KSize); ("b", KPtr);
   ("ldb", KSize); ("beta", KPtr); ("c", KPtr); ("ldc", KSize)]
  [DeclInt "m_" "m"; DeclInt "n_" "n"; DeclInt "lda_" "lda"; DeclInt "ldb_" "ldb"; DeclInt "ldc_" "ldc";
   Call "chemm" "CHEMM" [AAddr "side"; AAddr "uplo"; AAddr "m_"; AAddr "n_"; AVal "alpha"; AVal "a"; AAddr "lda_"; AVal "b";
      AAddr "ldb_"; AVal "beta"; AVal "c"; AAddr "ldc_"]].

(** blas_templates.inc:389-406 *)
Definition t_syhemm_z := mk_wrapper "t_syhemm" SCDouble RtVoid
  [("side", KChar); ("uplo", KChar); ("m", KSize); ("n", KSize); ("alpha", KPtr); ("a", KPtr); ("lda", KSize); ("b", KPtr);
   ("ldb", KSize); ("beta", KPtr); ("c", KPtr); ("ldc", KSize)]
  [DeclInt "m_" "m"; DeclInt "n_" "n"; DeclInt "lda_" "lda"; DeclInt "ldb_" "ldb"; DeclInt "ldc_" "ldc";
   Call "zhemm" "ZHEMM" [AAddr "side"; AAddr "uplo"; AAddr "m_"; AAddr "n_"; AVal "alpha"; AVal "a"; AAddr "lda_"; AVal "b";
      AAddr "ldb_"; AVal "beta"; AVal "c"; AAddr "ldc_"]].

(** blas_templates.inc:408-443 *)
Definition t_gemm_z := mk_wrapper "t_gemm" SCDouble RtVoid
  [("Layout", KInt); ("transa", KTrans); ("transb", KTrans); ("m", KSize); ("n", KSize); ("k", KSize); ("alpha", KPtr);
   ("a", KPtr); ("lda", KSize); ("b", KPtr); ("ldb", KSize); ("beta", KPtr); ("c", KPtr); ("ldc", KSize)]
  [DeclUn "TA" TInt; DeclUn "TB" TInt; IfEq "transa" CblasNoTrans "TA" "N"%char; IfEq "transa" CblasTrans "TA" "T"%char;
   IfEq "transa" CblasConjTrans "TA" "C"%char; IfEq "transb" CblasNoTrans "TB" "N"%char;
   IfEq "transb" CblasTrans "TB" "T"%char; IfEq "transb" CblasConjTrans "TB" "C"%char; DeclInt "m_" "m"; DeclInt "n_" "n";
   DeclInt "k_" "k"; DeclInt "lda_" "lda"; DeclInt "ldb_" "ldb"; DeclInt "ldc_" "ldc";
   Call "zgemm" "ZGEMM" [AAddr "TA"; AAddr "TB"; AAddr "m_"; AAddr "n_"; AAddr "k_"; AVal "alpha"; AVal "a"; AAddr "lda_";
      AVal "b"; AAddr "ldb_"; AVal "beta"; AVal "c"; AAddr "ldc_"]].

(** blas_templates.inc:445-480 *)
Definition t_gemm_c := mk_wrapper "t_gemm" SCFloat RtVoid
  [("Layout", KInt); ("transa", KTrans); ("transb", KTrans); ("m", KSize); ("n", KSize); ("k", KSize); ("alpha", KPtr);
   ("a", KPtr); ("lda", KSize); ("b", KPtr); ("ldb", KSize); ("beta", KPtr); ("c", KPtr); ("ldc", KSize)]
  [DeclUn "TA" TInt; DeclUn "TB" TInt; IfEq "transa" CblasNoTrans "TA" "N"%char; IfEq "transa" CblasTrans "TA" "T"%char;
   IfEq "transa" CblasConjTrans "TA" "C"%char; IfEq "transb" CblasNoTrans "TB" "N"%char;
   IfEq "transb" CblasTrans "TB" "T"%char; IfEq "transb" CblasConjTrans "TB" "C"%char; DeclInt "m_" "m"; DeclInt "n_" "n";
   DeclInt "k_" "k"; DeclInt "lda_" "lda"; DeclInt "ldb_" "ldb"; DeclInt "ldc_" "ldc";
   Call "cgemm" "CGEMM" [AAddr "TA"; AAddr "TB"; AAddr "m_"; AAddr "n_"; AAddr "k_"; AVal "alpha"; AVal "a"; AAddr "lda_";
      AVal "b"; AAddr "ldb_"; AVal "beta"; AVal "c"; AAddr "ldc_"]].

(** blas_templates.inc:482-495 *)
Definition t_syherk_s := mk_wrapper "t_syherk" SFloat RtVoid
  [("uplo", KChar); ("trans", KChar); ("n", KSize); ("k", KSize); ("alpha", KPtr); ("a", KPtr); ("lda", KSize); ("beta", KPtr);
   ("c", KPtr); ("ldc", KSize)]
  [DeclInt "n_" "n"; DeclInt "k_" "k"; DeclInt "lda_" "lda"; DeclInt "ldc_" "ldc";
   Call "ssyrk" "SSYRK" [AAddr "uplo"; AAddr "trans"; AAddr "n_"; AAddr "k_"; AVal "alpha"; AVal "a"; AAddr "lda_";
      AVal "beta"; AVal "c"; AAddr "ldc_"]].

(** blas_templates.inc:497-510 *)
Definition t_syherk_d := mk_wrapper "t_syherk" SDouble RtVoid
  [("uplo", KChar); ("trans", KChar); ("n", KSize); ("k", KSize); ("alpha", KPtr); ("a", KPtr); ("lda", KSize); ("beta", KPtr);
   ("c", KPtr); ("ldc", KSize)]
  [DeclInt "n_" "n"; DeclInt "k_" "k"; DeclInt "lda_" "lda"; DeclInt "ldc_" "ldc";
   Call "dsyrk" "DSYRK" [AAddr "uplo"; AAddr "trans"; AAddr "n_"; AAddr "k_"; AVal "alpha"; AVal "a"; AAddr "lda_";
      AVal "beta"; AVal "c"; AAddr "ldc_"]].

(** blas_templates.inc:512-526 *)
Definition t_syherk_c := mk_wrapper "t_syherk" SCFloat RtVoid
  [("uplo", KChar); ("trans", KChar); ("n", KSize); ("k", KSize); ("alpha", KPtr); ("a", KPtr); ("lda", KSize); ("beta", KPtr);
   ("c", KPtr); ("ldc", KSize)]
  [DeclInt "n_" "n"; DeclInt "k_" "k"; DeclInt "lda_" "lda"; DeclInt "ldc_" "ldc";
   Call "cherk" "CHERK" [AAddr "uplo"; AAddr "trans"; AAddr "n_"; AAddr "k_"; AVal "alpha"; AVal "a"; AAddr "lda_";
      AVal "beta"; AVal "c"; AAddr "ldc_"]].

(** blas_templates.inc:528-542 *)
Definition t_syherk_z := mk_wrapper "t_syherk" SCDouble RtVoid
  [("uplo", KChar); ("trans", KChar); ("n", KSize); ("k", KSize); ("alpha", KPtr); ("a", KPtr); ("lda", KSize); ("beta", KPtr);
   ("c", KPtr); ("ldc", KSize)]
  [DeclInt "n_" "n"; DeclInt "k_" "k"; DeclInt "lda_" "lda"; DeclInt "ldc_" "ldc";
   Call "zherk" "ZHERK" [AAddr "uplo"; AAddr "trans"; AAddr "n_"; AAddr "k_"; AVal "alpha"; AVal "a"; AAddr "lda_";
      AVal "beta"; AVal "c"; AAddr "ldc_"]].

(** blas_templates.inc:545-552 *)
Definition t_nrm2_d := mk_wrapper "t_nrm2" SDouble RtBase
  [("n", KSize); ("x", KPtr); ("incx", KSize)]
  [DeclInt "n_" "n"; DeclInt "incx_" "incx"; RetCall "dnrm2" "DNRM2" [AAddr "n_"; AVal "x"; AAddr "incx_"]].

(** blas_templates.inc:553-560 *)
Definition t_nrm2_s := mk_wrapper "t_nrm2" SFloat RtBase
  [("n", KSize); ("x", KPtr); ("incx", KSize)]
  [DeclInt "n_" "n"; DeclInt "incx_" "incx"; RetCall "snrm2" "SNRM2" [AAddr "n_"; AVal "x"; AAddr "incx_"]].

(** blas_templates.inc:561-569 *)
Definition t_nrm2_z := mk_wrapper "t_nrm2" SCDouble RtBase
  [("n", KSize); ("x", KPtr); ("incx", KSize)]
  [DeclInt "n_" "n"; DeclInt "incx_" "incx"; RetCall "dznrm2" "DZNRM2" [AAddr "n_"; AVal "x"; AAddr "incx_"]].

(** blas_templates.inc:570-578 *)
Definition t_nrm2_c := mk_wrapper "t_nrm2" SCFloat RtBase
  [("n", KSize); ("x", KPtr); ("incx", KSize)]
  [DeclInt "n_" "n"; DeclInt "incx_" "incx"; RetCall "scnrm2" "SCNRM2" [AAddr "n_"; AVal "x"; AAddr "incx_"]].

(** blas_templates.inc:580-590 *)
Definition t_lacpy_s := mk_wrapper "t_lacpy" SFloat RtVoid
  [("uplo", KChar); ("m", KSize); ("n", KSize); ("a", KPtr); ("lda", KSize); ("b", KPtr); ("ldb", KSize)]
  [DeclInt "m_" "m"; DeclInt "n_" "n"; DeclInt "lda_" "lda"; DeclInt "ldb_" "ldb";
   Call "slacpy" "SLACPY" [AAddr "uplo"; AAddr "m_"; AAddr "n_"; AVal "a"; AAddr "lda_"; AVal "b"; AAddr "ldb_"]].

(** blas_templates.inc:592-602 *)
Definition t_lacpy_d := mk_wrapper "t_lacpy" SDouble RtVoid
  [("uplo", KChar); ("m", KSize); ("n", KSize); ("a", KPtr); ("lda", KSize); ("b", KPtr); ("ldb", KSize)]
  [DeclInt "m_" "m"; DeclInt "n_" "n"; DeclInt "lda_" "lda"; DeclInt "ldb_" "ldb";
   Call "dlacpy" "DLACPY" [AAddr "uplo"; AAddr "m_"; AAddr "n_"; AVal "a"; AAddr "lda_"; AVal "b"; AAddr "ldb_"]].

(** blas_templates.inc:604-614 *)
Definition t_lacpy_c := mk_wrapper "t_lacpy" SCFloat RtVoid
  [("uplo", KChar); ("m", KSize); ("n", KSize); ("a", KPtr); ("lda", KSize); ("b", KPtr); ("ldb", KSize)]
  [DeclInt "m_" "m"; DeclInt "n_" "n"; DeclInt "lda_" "lda"; DeclInt "ldb_" "ldb";
   Call "clacpy" "CLACPY" [AAddr "uplo"; AAddr "m_"; AAddr "n_"; AVal "a"; AAddr "lda_"; AVal "b"; AAddr "ldb_"]].

(** blas_templates.inc:616-626 *)
Definition t_lacpy_z := mk_wrapper "t_lacpy" SCDouble RtVoid
  [("uplo", KChar); ("m", KSize); ("n", KSize); ("a", KPtr); ("lda", KSize); ("b", KPtr); ("ldb", KSize)]
  [DeclInt "m_" "m"; DeclInt "n_" "n"; DeclInt "lda_" "lda"; DeclInt "ldb_" "ldb";
   Call "zlacpy" "ZLACPY" [AAddr "uplo"; AAddr "m_"; AAddr "n_"; AVal "a"; AAddr "lda_"; AVal "b"; AAddr "ldb_"]].

(** blas_templates.inc:630-656 *)
Definition t_geqrf_d := mk_wrapper "t_geqrf" SDouble RtSize
  [("matrix_layout", KInt); ("m", KSize); ("n", KSize); ("a", KPtr); ("lda", KSize); ("tau", KPtr)]
  [DeclInt "m_" "m"; DeclInt "n_" "n"; DeclInt "lda_" "lda"; DeclUn "work" TPtr; DeclUn "numwork" (TNum SDouble);
   DeclUn "lwork" TInt; DeclUn "info" TInt; SetInt "lwork" (-1);
   Call "dgeqrf" "DGEQRF" [AAddr "m_"; AAddr "n_"; AVal "a"; AAddr "lda_"; AVal "tau"; AAddr "numwork"; AAddr "lwork";
      AAddr "info"];
   AssertZ "info"; SetNum "lwork" "numwork"; Own "ptr" (EVar "lwork"); SetPtr "work" "ptr";
   Call "dgeqrf" "DGEQRF" [AAddr "m_"; AAddr "n_"; AVal "a"; AAddr "lda_"; AVal "tau"; AVal "work"; AAddr "lwork"; AAddr "info"];
   AssertZ "info"; RetVar "info"].

(** blas_templates.inc:657-683 *)
Definition t_geqrf_s := mk_wrapper "t_geqrf" SFloat RtSize
  [("matrix_layout", KInt); ("m", KSize); ("n", KSize); ("a", KPtr); ("lda", KSize); ("tau", KPtr)]
  [DeclInt "m_" "m"; DeclInt "n_" "n"; DeclInt "lda_" "lda"; DeclUn "work" TPtr; DeclUn "numwork" (TNum SFloat);
   DeclUn "lwork" TInt; DeclUn "info" TInt; SetInt "lwork" (-1);
   Call "sgeqrf" "SGEQRF" [AAddr "m_"; AAddr "n_"; AVal "a"; AAddr "lda_"; AVal "tau"; AAddr "numwork"; AAddr "lwork";
      AAddr "info"];
   AssertZ "info"; SetNum "lwork" "numwork"; Own "ptr" (EVar "lwork"); SetPtr "work" "ptr";
   Call "sgeqrf" "SGEQRF" [AAddr "m_"; AAddr "n_"; AVal "a"; AAddr "lda_"; AVal "tau"; AVal "work"; AAddr "lwork"; AAddr "info"];
   AssertZ "info"; RetVar "info"].

(** blas_templates.inc:685-713 *)
Definition t_geqrf_z := mk_wrapper "t_geqrf" SCDouble RtSize
  [("matrix_layout", KInt); ("m", KSize); ("n", KSize); ("a", KPtr); ("lda", KSize); ("tau", KPtr)]
  [DeclInt "m_" "m"; DeclInt "n_" "n"; DeclInt "lda_" "lda"; DeclUn "work" TPtr; DeclUn "numwork" (TNum SCDouble);
   DeclUn "lwork" TInt; DeclUn "info" TInt; SetInt "lwork" (-1);
   Call "zgeqrf" "ZGEQRF" [AAddr "m_"; AAddr "n_"; AVal "a"; AAddr "lda_"; AVal "tau"; AAddr "numwork"; AAddr "lwork";
      AAddr "info"];
   AssertZ "info"; SetNum "lwork" "numwork"; Own "ptr" (EVar "lwork"); SetPtr "work" "ptr";
   Call "zgeqrf" "ZGEQRF" [AAddr "m_"; AAddr "n_"; AVal "a"; AAddr "lda_"; AVal "tau"; AVal "work"; AAddr "lwork"; AAddr "info"];
   AssertZ "info"; RetVar "info"].

(** blas_templates.inc:715-742 *)
Definition t_geqrf_c := mk_wrapper "t_geqrf" SCFloat RtSize
  [("matrix_layout", KInt); ("m", KSize); ("n", KSize); ("a", KPtr); ("lda", KSize); ("tau", KPtr)]
  [DeclInt "m_" "m"; DeclInt "n_" "n"; DeclInt "lda_" "lda"; DeclUn "work" TPtr; DeclUn "numwork" (TNum SCFloat);
   DeclUn "lwork" TInt; DeclUn "info" TInt; SetInt "lwork" (-1);
   Call "cgeqrf" "CGEQRF" [AAddr "m_"; AAddr "n_"; AVal "a"; AAddr "lda_"; AVal "tau"; AAddr "numwork"; AAddr "lwork";
      AAddr "info"];
   AssertZ "info"; SetNum "lwork" "numwork"; Own "ptr" (EVar "lwork"); SetPtr "work" "ptr";
   Call "cgeqrf" "CGEQRF" [AAddr "m_"; AAddr "n_"; AVal "a"; AAddr "lda_"; AVal "tau"; AVal "work"; AAddr "lwork"; AAddr "info"];
   AssertZ "info"; RetVar "info"].

(** blas_templates.inc:745-773 *)
Definition t_gqr_d := mk_wrapper "t_gqr" SDouble RtSize
  [("matrix_layout", KInt); ("m", KSize); ("n", KSize); ("k", KSize); ("a", KPtr); ("lda", KSize); ("tau", KPtr)]
  [DeclInt "m_" "m"; DeclInt "n_" "n"; DeclInt "k_" "k"; DeclInt "lda_" "lda"; DeclUn "work" TPtr;
   DeclUn "numwork" (TNum SDouble); DeclUn "lwork" TInt; DeclUn "info" TInt; SetInt "lwork" (-1);
   Call "dorgqr" "DORGQR" [AAddr "m_"; AAddr "n_"; AAddr "k_"; AVal "a"; AAddr "lda_"; AVal "tau"; AAddr "numwork";
      AAddr "lwork"; AAddr "info"];
   AssertZ "info"; SetNum "lwork" "numwork"; Own "ptr" (EVar "numwork"); SetPtr "work" "ptr";
   Call "dorgqr" "DORGQR" [AAddr "m_"; AAddr "n_"; AAddr "k_"; AVal "a"; AAddr "lda_"; AVal "tau"; AVal "work"; AAddr "lwork";
      AAddr "info"];
   AssertZ "info"; RetVar "info"].

(** blas_templates.inc:774-802 *)
Definition t_gqr_s := mk_wrapper "t_gqr" SFloat RtSize
  [("matrix_layout", KInt); ("m", KSize); ("n", KSize); ("k", KSize); ("a", KPtr); ("lda", KSize); ("tau", KPtr)]
  [DeclInt "m_" "m"; DeclInt "n_" "n"; DeclInt "k_" "k"; DeclInt "lda_" "lda"; DeclUn "work" TPtr;
   DeclUn "numwork" (TNum SFloat); DeclUn "lwork" TInt; DeclUn "info" TInt; SetInt "lwork" (-1);
   Call "sorgqr" "SORGQR" [AAddr "m_"; AAddr "n_"; AAddr "k_"; AVal "a"; AAddr "lda_"; AVal "tau"; AAddr "numwork";
      AAddr "lwork"; AAddr "info"];
   AssertZ "info"; SetNum "lwork" "numwork"; Own "ptr" (EVar "numwork"); SetPtr "work" "ptr";
   Call "sorgqr" "SORGQR" [AAddr "m_"; AAddr "n_"; AAddr "k_"; AVal "a"; AAddr "lda_"; AVal "tau"; AVal "work"; AAddr "lwork";
      AAddr "info"];
   AssertZ "info"; RetVar "info"].

(** blas_templates.inc:804-835 *)
Definition t_gqr_z := mk_wrapper "t_gqr" SCDouble RtSize
  [("matrix_layout", KInt); ("m", KSize); ("n", KSize); ("k", KSize); ("a", KPtr); ("lda", KSize); ("tau", KPtr)]
  [DeclInt "m_" "m"; DeclInt "n_" "n"; DeclInt "k_" "k"; DeclInt "lda_" "lda"; DeclUn "work" TPtr;
   DeclUn "numwork" (TNum SCDouble); DeclUn "lwork" TInt; DeclUn "info" TInt; SetInt "lwork" (-1);
   Call "zungqr" "ZUNGQR" [AAddr "m_"; AAddr "n_"; AAddr "k_"; AVal "a"; AAddr "lda_"; AVal "tau"; AAddr "numwork";
      AAddr "lwork"; AAddr "info"];
   AssertZ "info"; SetNum "lwork" "numwork"; Own "ptr" (EVar "lwork"); SetPtr "work" "ptr";
   Call "zungqr" "ZUNGQR" [AAddr "m_"; AAddr "n_"; AAddr "k_"; AVal "a"; AAddr "lda_"; AVal "tau"; AVal "work"; AAddr "lwork";
      AAddr "info"];
   AssertZ "info"; RetVar "info"].

(** blas_templates.inc:837-868 *)
Definition t_gqr_c := mk_wrapper "t_gqr" SCFloat RtSize
  [("matrix_layout", KInt); ("m", KSize); ("n", KSize); ("k", KSize); ("a", KPtr); ("lda", KSize); ("tau", KPtr)]
  [DeclInt "m_" "m"; DeclInt "n_" "n"; DeclInt "k_" "k"; DeclInt "lda_" "lda"; DeclUn "work" TPtr;
   DeclUn "numwork" (TNum SCFloat); DeclUn "lwork" TInt; DeclUn "info" TInt; SetInt "lwork" (-1);
   Call "cungqr" "CUNGQR" [AAddr "m_"; AAddr "n_"; AAddr "k_"; AVal "a"; AAddr "lda_"; AVal "tau"; AAddr "numwork";
      AAddr "lwork"; AAddr "info"];
   AssertZ "info"; SetNum "lwork" "numwork"; Own "ptr" (EVar "lwork"); SetPtr "work" "ptr";
   Call "cungqr" "CUNGQR" [AAddr "m_"; AAddr "n_"; AAddr "k_"; AVal "a"; AAddr "lda_"; AVal "tau"; AVal "work"; AAddr "lwork";
      AAddr "info"];
   AssertZ "info"; RetVar "info"].

(** blas_templates.inc:871-905 *)
Definition t_heevd_d := mk_wrapper "t_heevd" SDouble RtSize
  [("matrix_layout", KInt); ("jobz", KChar); ("uplo", KChar); ("n", KSize); ("a", KPtr); ("lda", KSize); ("w", KPtr)]
  [DeclInt "n_" "n"; DeclInt "lda_" "lda"; DeclUn "lwork" TInt; DeclUn "info" TInt; DeclUn "lrwork" TInt; DeclUn "liwork" TInt;
   DeclUn "work" TPtr; DeclUn "numwork" (TNum SDouble); DeclUn "iwork" TPtr; DeclUn "inumwork" TInt; SetInt "lwork" (-1);
   SetInt "liwork" (-1);
   Call "dsyevd" "DSYEVD" [AAddr "jobz"; AAddr "uplo"; AAddr "n_"; AVal "a"; AAddr "lda_"; AVal "w"; AAddr "numwork";
      AAddr "lwork"; AAddr "inumwork"; AAddr "liwork"; AAddr "info"];
   AssertZ "info"; SetNum "lwork" "numwork"; Own "ptr" (EVar "lwork"); SetPtr "work" "ptr"; SetNum "liwork" "inumwork";
   Own "iptr" (EVar "liwork"); SetPtr "iwork" "iptr";
   Call "dsyevd" "DSYEVD" [AAddr "jobz"; AAddr "uplo"; AAddr "n_"; AVal "a"; AAddr "lda_"; AVal "w"; AVal "work";
      AAddr "lwork"; AVal "iwork"; AAddr "liwork"; AAddr "info"];
   AssertZ "info"; RetVar "info"].

(** blas_templates.inc:907-942 *)
Definition t_heevd_s := mk_wrapper "t_heevd" SFloat RtSize
  [("matrix_layout", KInt); ("jobz", KChar); ("uplo", KChar); ("n", KSize); ("a", KPtr); ("lda", KSize); ("w", KPtr)]
  [DeclInt "n_" "n"; DeclInt "lda_" "lda"; DeclUn "lwork" TInt; DeclUn "info" TInt; DeclUn "lrwork" TInt; DeclUn "liwork" TInt;
   DeclUn "work" TPtr; DeclUn "numwork" (TNum SFloat); DeclUn "iwork" TPtr; DeclUn "inumwork" TInt; SetInt "lwork" (-1);
   SetInt "liwork" (-1);
   Call "ssyevd" "SSYEVD" [AAddr "jobz"; AAddr "uplo"; AAddr "n_"; AVal "a"; AAddr "lda_"; AVal "w"; AAddr "numwork";
      AAddr "lwork"; AAddr "inumwork"; AAddr "liwork"; AAddr "info"];
   AssertZ "info"; SetNum "lwork" "numwork"; Own "ptr" (EVar "lwork"); SetPtr "work" "ptr"; SetNum "liwork" "inumwork";
   Own "iptr" (EVar "liwork"); SetPtr "iwork" "iptr";
   Call "ssyevd" "SSYEVD" [AAddr "jobz"; AAddr "uplo"; AAddr "n_"; AVal "a"; AAddr "lda_"; AVal "w"; AVal "work";
      AAddr "lwork"; AVal "iwork"; AAddr "liwork"; AAddr "info"];
   AssertZ "info"; RetVar "info"].

(** blas_templates.inc:944-989 *)
Definition t_heevd_z := mk_wrapper "t_heevd" SCDouble RtSize
  [("matrix_layout", KInt); ("jobz", KChar); ("uplo", KChar); ("n", KSize); ("a", KPtr); ("lda", KSize); ("w", KPtr)]
  [DeclInt "n_" "n"; DeclInt "lda_" "lda"; DeclUn "lwork" TInt; DeclUn "info" TInt; DeclUn "lrwork" TInt; DeclUn "liwork" TInt;
   DeclUn "work" TPtr; DeclUn "numwork" (TNum SCDouble); DeclUn "rwork" TPtr; DeclUn "rnumwork" (TNum SDouble);
   DeclUn "iwork" TPtr; DeclUn "inumwork" TInt; SetInt "lwork" (-1); SetInt "lrwork" (-1); SetInt "liwork" (-1);
   Call "zheevd" "ZHEEVD" [AAddr "jobz"; AAddr "uplo"; AAddr "n_"; AVal "a"; AAddr "lda_"; AVal "w"; AAddr "numwork";
      AAddr "lwork"; AAddr "rnumwork"; AAddr "lrwork"; AAddr "inumwork"; AAddr "liwork"; AAddr "info"];
   AssertZ "info"; SetNum "lwork" "numwork"; Own "ptr" (EVar "lwork"); SetPtr "work" "ptr"; SetNum "lrwork" "rnumwork";
   Own "rptr" (EVar "lrwork"); SetPtr "rwork" "rptr"; SetNum "liwork" "inumwork"; Own "iptr" (EVar "liwork");
   SetPtr "iwork" "iptr";
   Call "zheevd" "ZHEEVD" [AAddr "jobz"; AAddr "uplo"; AAddr "n_"; AVal "a"; AAddr "lda_"; AVal "w"; AVal "work";
      AAddr "lwork"; AVal "rwork"; AAddr "lrwork"; AVal "iwork"; AAddr "liwork"; AAddr "info"];
   AssertZ "info"; RetVar "info"].

(** blas_templates.inc:991-1036 *)
Definition t_heevd_c := mk_wrapper "t_heevd" SCFloat RtSize
  [("matrix_layout", KInt); ("jobz", KChar); ("uplo", KChar); ("n", KSize); ("a", KPtr); ("lda", KSize); ("w", KPtr)]
  [DeclInt "n_" "n"; DeclInt "lda_" "lda"; DeclUn "lwork" TInt; DeclUn "info" TInt; DeclUn "lrwork" TInt; DeclUn "liwork" TInt;
   DeclUn "work" TPtr; DeclUn "numwork" (TNum SCFloat); DeclUn "rwork" TPtr; DeclUn "rnumwork" (TNum SFloat);
   DeclUn "iwork" TPtr; DeclUn "inumwork" TInt; SetInt "lwork" (-1); SetInt "lrwork" (-1); SetInt "liwork" (-1);
   Call "cheevd" "CHEEVD" [AAddr "jobz"; AAddr "uplo"; AAddr "n_"; AVal "a"; AAddr "lda_"; AVal "w"; AAddr "numwork";
      AAddr "lwork"; AAddr "rnumwork"; AAddr "lrwork"; AAddr "inumwork"; AAddr "liwork"; AAddr "info"];
   AssertZ "info"; SetNum "lwork" "numwork"; Own "ptr" (EVar "lwork"); SetPtr "work" "ptr"; SetNum "lrwork" "rnumwork";
   Own "rptr" (EVar "lrwork"); SetPtr "rwork" "rptr"; SetNum "liwork" "inumwork"; Own "iptr" (EVar "liwork");
   SetPtr "iwork" "iptr";
   Call "cheevd" "CHEEVD" [AAddr "jobz"; AAddr "uplo"; AAddr "n_"; AVal "a"; AAddr "lda_"; AVal "w"; AVal "work";
      AAddr "lwork"; AVal "rwork"; AAddr "lrwork"; AVal "iwork"; AAddr "liwork"; AAddr "info"];
   AssertZ "info"; RetVar "info"].

(** blas_templates.inc:1040-1064 *)
Definition t_gemv_d := mk_wrapper "t_gemv" SDouble RtVoid
  [("Layout", KInt); ("trans", KTrans); ("m", KSize); ("n", KSize); ("alpha", KPtr); ("a", KPtr); ("lda", KSize); ("x", KPtr);
   ("incx", KSize); ("beta", KPtr); ("y", KPtr); ("incy", KSize)]
  [DeclUn "TA" TInt; IfEq "trans" CblasNoTrans "TA" "N"%char; IfEq "trans" CblasTrans "TA" "T"%char;
   IfEq "trans" CblasConjTrans "TA" "C"%char; DeclInt "m_" "m"; DeclInt "n_" "n"; DeclInt "lda_" "lda"; DeclInt "incx_" "incx";
   DeclInt "incy_" "incy";
   Call "dgemv" "DGEMV" [AAddr "TA"; AAddr "m_"; AAddr "n_"; AVal "alpha"; AVal "a"; AAddr "lda_"; AVal "x"; AAddr "incx_";
      AVal "beta"; AVal "y"; AAddr "incy_"]].

(** blas_templates.inc:1065-1090 *)
Definition t_gemv_s := mk_wrapper "t_gemv" SFloat RtVoid
  [("Layout", KInt); ("trans", KTrans); ("m", KSize); ("n", KSize); ("alpha", KPtr); ("a", KPtr); ("lda", KSize); ("x", KPtr);
   ("incx", KSize); ("beta", KPtr); ("y", KPtr); ("incy", KSize)]
  [DeclUn "TA" TInt; IfEq "trans" CblasNoTrans "TA" "N"%char; IfEq "trans" CblasTrans "TA" "T"%char;
   IfEq "trans" CblasConjTrans "TA" "C"%char; DeclInt "m_" "m"; DeclInt "n_" "n"; DeclInt "lda_" "lda"; DeclInt "incx_" "incx";
   DeclInt "incy_" "incy";
   Call "sgemv" "SGEMV" [AAddr "TA"; AAddr "m_"; AAddr "n_"; AVal "alpha"; AVal "a"; AAddr "lda_"; AVal "x"; AAddr "incx_";
      AVal "beta"; AVal "y"; AAddr "incy_"]].

(** blas_templates.inc:1091-1116 *)
Definition t_gemv_z := mk_wrapper "t_gemv" SCDouble RtVoid
  [("Layout", KInt); ("trans", KTrans); ("m", KSize); ("n", KSize); ("alpha", KPtr); ("a", KPtr); ("lda", KSize); ("x", KPtr);
   ("incx", KSize); ("beta", KPtr); ("y", KPtr); ("incy", KSize)]
  [DeclUn "TA" TInt; IfEq "trans" CblasNoTrans "TA" "N"%char; IfEq "trans" CblasTrans "TA" "T"%char;
   IfEq "trans" CblasConjTrans "TA" "C"%char; DeclInt "m_" "m"; DeclInt "n_" "n"; DeclInt "lda_" "lda"; DeclInt "incx_" "incx";
   DeclInt "incy_" "incy";
   Call "zgemv" "ZGEMV" [AAddr "TA"; AAddr "m_"; AAddr "n_"; AVal "alpha"; AVal "a"; AAddr "lda_"; AVal "x"; AAddr "incx_";
      AVal "beta"; AVal "y"; AAddr "incy_"]].

(** blas_templates.inc:1117-1140 *)
Definition t_gemv_c := mk_wrapper "t_gemv" SCFloat RtVoid
  [("Layout", KInt); ("trans", KTrans); ("m", KSize); ("n", KSize); ("alpha", KPtr); ("a", KPtr); ("lda", KSize); ("x", KPtr);
   ("incx", KSize); ("beta", KPtr); ("y", KPtr); ("incy", KSize)]
  [DeclUn "TA" TInt; IfEq "trans" CblasNoTrans "TA" "N"%char; IfEq "trans" CblasTrans "TA" "T"%char;
   IfEq "trans" CblasConjTrans "TA" "C"%char; DeclInt "m_" "m"; DeclInt "n_" "n"; DeclInt "lda_" "lda"; DeclInt "incx_" "incx";
   DeclInt "incy_" "incy";
   Call "cgemv" "CGEMV" [AAddr "TA"; AAddr "m_"; AAddr "n_"; AVal "alpha"; AVal "a"; AAddr "lda_"; AVal "x"; AAddr "incx_";
      AVal "beta"; AVal "y"; AAddr "incy_"]].

(** blas_templates.inc:1144-1188 *)
Definition t_stemr_d := mk_wrapper "t_stemr" SDouble RtSize
  [("matrix_layout", KInt); ("jobz", KChar); ("range", KChar); ("n", KSize); ("d", KPtr); ("e", KPtr); ("vl", KScal);
   ("vu", KScal); ("il", KSize); ("iu", KSize); ("m", KPtr); ("w", KPtr); ("z", KPtr); ("ldz", KSize); ("nzc", KSize);
   ("isuppz", KPtr); ("tryrac", KPtr)]
  [DeclInt "n_" "n"; DeclInt "ldz_" "ldz"; DeclInt "il_" "il"; DeclInt "iu_" "iu"; DeclInt "nzc_" "nzc"; DeclUn "lwork" TInt;
   DeclUn "info" TInt; DeclUn "liwork" TInt; DeclUn "work" TPtr; DeclUn "numwork" (TNum SDouble); DeclUn "iwork" TPtr;
   DeclUn "inumwork" TInt; SetInt "lwork" (-1); SetInt "liwork" (-1);
   Call "dstemr" "SSTEMR" [AAddr "jobz"; AAddr "range"; AAddr "n_"; AVal "d"; AVal "e"; AAddr "vl"; AAddr "vu"; AAddr "il_";
      AAddr "iu_"; AVal "m"; AVal "w"; AVal "z"; AAddr "ldz_"; AAddr "nzc_"; AVal "isuppz"; AVal "tryrac"; AAddr "numwork";
      AAddr "lwork"; AAddr "inumwork"; AAddr "liwork"; AAddr "info"];
   SetNum "lwork" "numwork"; Own "ptr" (EVar "lwork"); SetPtr "work" "ptr"; SetNum "liwork" "inumwork";
   Own "iptr" (EVar "liwork"); SetPtr "iwork" "iptr";
   Call "dstemr" "DSTEMR" [AAddr "jobz"; AAddr "range"; AAddr "n_"; AVal "d"; AVal "e"; AAddr "vl"; AAddr "vu"; AAddr "il_";
      AAddr "iu_"; AVal "m"; AVal "w"; AVal "z"; AAddr "ldz_"; AAddr "nzc_"; AVal "isuppz"; AVal "tryrac"; AVal "work";
      AAddr "lwork"; AVal "iwork"; AAddr "liwork"; AAddr "info"];
   AssertZ "info"; RetVar "info"].

(** blas_templates.inc:1190-1233 *)
Definition t_stemr_s := mk_wrapper "t_stemr" SFloat RtSize
  [("matrix_layout", KInt); ("jobz", KChar); ("range", KChar); ("n", KSize); ("d", KPtr); ("e", KPtr); ("vl", KScal);
   ("vu", KScal); ("il", KSize); ("iu", KSize); ("m", KPtr); ("w", KPtr); ("z", KPtr); ("ldz", KSize); ("nzc", KSize);
   ("isuppz", KPtr); ("tryrac", KPtr)]
  [DeclInt "n_" "n"; DeclInt "ldz_" "ldz"; DeclInt "il_" "il"; DeclInt "iu_" "iu"; DeclInt "nzc_" "nzc"; DeclUn "lwork" TInt;
   DeclUn "info" TInt; DeclUn "liwork" TInt; DeclUn "work" TPtr; DeclUn "numwork" (TNum SFloat); DeclUn "iwork" TPtr;
   DeclUn "inumwork" TInt; SetInt "lwork" (-1); SetInt "liwork" (-1);
   Call "sstemr" "SSTEMR" [AAddr "jobz"; AAddr "range"; AAddr "n_"; AVal "d"; AVal "e"; AAddr "vl"; AAddr "vu"; AAddr "il_";
      AAddr "iu_"; AVal "m"; AVal "w"; AVal "z"; AAddr "ldz_"; AAddr "nzc_"; AVal "isuppz"; AVal "tryrac"; AAddr "numwork";
      AAddr "lwork"; AAddr "inumwork"; AAddr "liwork"; AAddr "info"];
   SetNum "lwork" "numwork"; Own "ptr" (EVar "lwork"); SetPtr "work" "ptr"; SetNum "liwork" "inumwork";
   Own "iptr" (EVar "liwork"); SetPtr "iwork" "iptr";
   Call "sstemr" "SSTEMR" [AAddr "jobz"; AAddr "range"; AAddr "n_"; AVal "d"; AVal "e"; AAddr "vl"; AAddr "vu"; AAddr "il_";
      AAddr "iu_"; AVal "m"; AVal "w"; AVal "z"; AAddr "ldz_"; AAddr "nzc_"; AVal "isuppz"; AVal "tryrac"; AVal "work";
      AAddr "lwork"; AVal "iwork"; AAddr "liwork"; AAddr "info"];
   AssertZ "info"; RetVar "info"].

(** blas_templates.inc:1235-1246 *)
Definition t_potrf_s := mk_wrapper "t_potrf" SFloat RtInt
  [("uplo", KChar); ("n", KSize); ("a", KPtr); ("lda", KSize)]
  [DeclInt "n_" "n"; DeclInt "lda_" "lda"; DeclUn "info" TInt;
   Call "spotrf" "SPOTRF" [AAddr "uplo"; AAddr "n_"; AVal "a"; AAddr "lda_"; AAddr "info"]; RetVar "info"].

(** blas_templates.inc:1248-1260 *)
Definition t_potrf_d := mk_wrapper "t_potrf" SDouble RtInt
  [("uplo", KChar); ("n", KSize); ("a", KPtr); ("lda", KSize)]
  [DeclInt "n_" "n"; DeclInt "lda_" "lda"; DeclUn "info" TInt;
   Call "dpotrf" "DPOTRF" [AAddr "uplo"; AAddr "n_"; AVal "a"; AAddr "lda_"; AAddr "info"]; RetVar "info"].

(** blas_templates.inc:1262-1274 *)
Definition t_potrf_c := mk_wrapper "t_potrf" SCFloat RtInt
  [("uplo", KChar); ("n", KSize); ("a", KPtr); ("lda", KSize)]
  [DeclInt "n_" "n"; DeclInt "lda_" "lda"; DeclUn "info" TInt;
   Call "cpotrf" "CPOTRF" [AAddr "uplo"; AAddr "n_"; AVal "a"; AAddr "lda_"; AAddr "info"]; RetVar "info"].

(** blas_templates.inc:1276-1288 *)
Definition t_potrf_z := mk_wrapper "t_potrf" SCDouble RtInt
  [("uplo", KChar); ("n", KSize); ("a", KPtr); ("lda", KSize)]
  [DeclInt "n_" "n"; DeclInt "lda_" "lda"; DeclUn "info" TInt;
   Call "zpotrf" "ZPOTRF" [AAddr "uplo"; AAddr "n_"; AVal "a"; AAddr "lda_"; AAddr "info"]; RetVar "info"].

(** blas_templates.inc:1290-1303 *)
Definition t_trsm_s := mk_wrapper "t_trsm" SFloat RtVoid
  [("side", KChar); ("uplo", KChar); ("trans", KChar); ("diag", KChar); ("m", KSize); ("n", KSize); ("alpha", KPtr);
   ("a", KPtr); ("lda", KSize); ("b", KPtr); ("ldb", KSize)]
  [DeclInt "m_" "m"; DeclInt "n_" "n"; DeclInt "lda_" "lda"; DeclInt "ldb_" "ldb";
   Call "strsm" "STRSM" [AAddr "side"; AAddr "uplo"; AAddr "trans"; AAddr "diag"; AAddr "m_"; AAddr "n_"; AVal "alpha";
      AVal "a"; AAddr "lda_"; AVal "b"; AAddr "ldb_"]].

(** blas_templates.inc:1305-1318 *)
Definition t_trsm_d := mk_wrapper "t_trsm" SDouble RtVoid
  [("side", KChar); ("uplo", KChar); ("trans", KChar); ("diag", KChar); ("m", KSize); ("n", KSize); ("alpha", KPtr);
   ("a", KPtr); ("lda", KSize); ("b", KPtr); ("ldb", KSize)]
  [DeclInt "m_" "m"; DeclInt "n_" "n"; DeclInt "lda_" "lda"; DeclInt "ldb_" "ldb";
   Call "dtrsm" "DTRSM" [AAddr "side"; AAddr "uplo"; AAddr "trans"; AAddr "diag"; AAddr "m_"; AAddr "n_"; AVal "alpha";
      AVal "a"; AAddr "lda_"; AVal "b"; AAddr "ldb_"]].

(** blas_templates.inc:1320-1334 *)
Definition t_trsm_c := mk_wrapper "t_trsm" SCFloat RtVoid
  [("side", KChar); ("uplo", KChar); ("trans", KChar); ("diag", KChar); ("m", KSize); ("n", KSize); ("alpha", KPtr);
   ("a", KPtr); ("lda", KSize); ("b", KPtr); ("ldb", KSize)]
  [DeclInt "m_" "m"; DeclInt "n_" "n"; DeclInt "lda_" "lda"; DeclInt "ldb_" "ldb";
   Call "ctrsm" "CTRSM" [AAddr "side"; AAddr "uplo"; AAddr "trans"; AAddr "diag"; AAddr "m_"; AAddr "n_"; AVal "alpha";
      AVal "a"; AAddr "lda_"; AVal "b"; AAddr "ldb_"]].

(** blas_templates.inc:1336-1350 *)
Definition t_trsm_z := mk_wrapper "t_trsm" SCDouble RtVoid
  [("side", KChar); ("uplo", KChar); ("trans", KChar); ("diag", KChar); ("m", KSize); ("n", KSize); ("alpha", KPtr);
   ("a", KPtr); ("lda", KSize); ("b", KPtr); ("ldb", KSize)]
  [DeclInt "m_" "m"; DeclInt "n_" "n"; DeclInt "lda_" "lda"; DeclInt "ldb_" "ldb";
   Call "ztrsm" "ZTRSM" [AAddr "side"; AAddr "uplo"; AAddr "trans"; AAddr "diag"; AAddr "m_"; AAddr "n_"; AVal "alpha";
      AVal "a"; AAddr "lda_"; AVal "b"; AAddr "ldb_"]].

(** blas_templates.inc:1352-1378 *)
Definition t_gesvd_s := mk_wrapper "t_gesvd" SFloat RtVoid
  [("jobu", KChar); ("jobvt", KChar); ("m", KSize); ("n", KSize); ("A", KPtr); ("lda", KSize); ("S", KPtr); ("U", KPtr);
   ("ldu", KSize); ("Vt", KPtr); ("ldvt", KSize)]
  [DeclInt "m_" "m"; DeclInt "n_" "n"; DeclInt "lda_" "lda"; DeclInt "ldu_" "ldu"; DeclInt "ldvt_" "ldvt"; DeclUn "work" TPtr;
   New "rwork" (EMin5 "m" "n"); DeclUn "numwork" (TNum SFloat); DeclUn "lwork" TInt; DeclUn "info" TInt; SetInt "lwork" (-1);
   Call "sgesvd" "SGESVD" [AAddr "jobu"; AAddr "jobvt"; AAddr "m_"; AAddr "n_"; AVal "A"; AAddr "lda_"; AVal "S"; AVal "U";
      AAddr "ldu_"; AVal "Vt"; AAddr "ldvt_"; AAddr "numwork"; AAddr "lwork"; AVal "rwork"; AAddr "info"];
   AssertZ "info"; SetNum "lwork" "numwork"; Own "ptr" (EVar "lwork"); SetPtr "work" "ptr";
   Call "sgesvd" "SGESVD" [AAddr "jobu"; AAddr "jobvt"; AAddr "m_"; AAddr "n_"; AVal "A"; AAddr "lda_"; AVal "S"; AVal "U";
      AAddr "ldu_"; AVal "Vt"; AAddr "ldvt_"; AVal "work"; AAddr "lwork"; AVal "rwork"; AAddr "info"];
   AssertZ "info"].

(** blas_templates.inc:1380-1407 *)
Definition t_gesvd_d := mk_wrapper "t_gesvd" SDouble RtVoid
  [("jobu", KChar); ("jobvt", KChar); ("m", KSize); ("n", KSize); ("A", KPtr); ("lda", KSize); ("S", KPtr); ("U", KPtr);
   ("ldu", KSize); ("Vt", KPtr); ("ldvt", KSize)]
  [DeclInt "m_" "m"; DeclInt "n_" "n"; DeclInt "lda_" "lda"; DeclInt "ldu_" "ldu"; DeclInt "ldvt_" "ldvt"; DeclUn "work" TPtr;
   New "rwork" (EMin5 "m" "n"); DeclUn "numwork" (TNum SDouble); DeclUn "lwork" TInt; DeclUn "info" TInt; SetInt "lwork" (-1);
   Call "dgesvd" "DGESVD" [AAddr "jobu"; AAddr "jobvt"; AAddr "m_"; AAddr "n_"; AVal "A"; AAddr "lda_"; AVal "S"; AVal "U";
      AAddr "ldu_"; AVal "Vt"; AAddr "ldvt_"; AAddr "numwork"; AAddr "lwork"; AVal "rwork"; AAddr "info"];
   AssertZ "info"; SetNum "lwork" "numwork"; Own "ptr" (EVar "lwork"); SetPtr "work" "ptr";
   Call "dgesvd" "DGESVD" [AAddr "jobu"; AAddr "jobvt"; AAddr "m_"; AAddr "n_"; AVal "A"; AAddr "lda_"; AVal "S"; AVal "U";
      AAddr "ldu_"; AVal "Vt"; AAddr "ldvt_"; AVal "work"; AAddr "lwork"; AVal "rwork"; AAddr "info"];
   AssertZ "info"].

(** blas_templates.inc:1409-1435 *)
Definition t_gesvd_c := mk_wrapper "t_gesvd" SCFloat RtVoid
  [("jobu", KChar); ("jobvt", KChar); ("m", KSize); ("n", KSize); ("A", KPtr); ("lda", KSize); ("S", KPtr); ("U", KPtr);
   ("ldu", KSize); ("Vt", KPtr); ("ldvt", KSize)]
  [DeclInt "m_" "m"; DeclInt "n_" "n"; DeclInt "lda_" "lda"; DeclInt "ldu_" "ldu"; DeclInt "ldvt_" "ldvt"; DeclUn "work" TPtr;
   New "rwork" (EMin5 "m" "n"); DeclUn "numwork" (TNum SCFloat); DeclUn "lwork" TInt; DeclUn "info" TInt; SetInt "lwork" (-1);
   Call "cgesvd" "CGESVD" [AAddr "jobu"; AAddr "jobvt"; AAddr "m_"; AAddr "n_"; AVal "A"; AAddr "lda_"; AVal "S"; AVal "U";
      AAddr "ldu_"; AVal "Vt"; AAddr "ldvt_"; AAddr "numwork"; AAddr "lwork"; AVal "rwork"; AAddr "info"];
   AssertZ "info"; SetNum "lwork" "numwork"; Own "ptr" (EVar "lwork"); SetPtr "work" "ptr";
   Call "cgesvd" "CGESVD" [AAddr "jobu"; AAddr "jobvt"; AAddr "m_"; AAddr "n_"; AVal "A"; AAddr "lda_"; AVal "S"; AVal "U";
      AAddr "ldu_"; AVal "Vt"; AAddr "ldvt_"; AVal "work"; AAddr "lwork"; AVal "rwork"; AAddr "info"];
   AssertZ "info"].

(** blas_templates.inc:1437-1466 *)
Definition t_gesvd_z := mk_wrapper "t_gesvd" SCDouble RtVoid
  [("jobu", KChar); ("jobvt", KChar); ("m", KSize); ("n", KSize); ("A", KPtr); ("lda", KSize); ("S", KPtr); ("U", KPtr);
   ("ldu", KSize); ("Vt", KPtr); ("ldvt", KSize)]
  [DeclInt "m_" "m"; DeclInt "n_" "n"; DeclInt "lda_" "lda"; DeclInt "ldu_" "ldu"; DeclInt "ldvt_" "ldvt"; DeclUn "work" TPtr;
   New "rwork" (EMin5 "m" "n"); DeclUn "numwork" (TNum SCDouble); DeclUn "lwork" TInt; DeclUn "info" TInt; SetInt "lwork" (-1);
   Call "zgesvd" "ZGESVD" [AAddr "jobu"; AAddr "jobvt"; AAddr "m_"; AAddr "n_"; AVal "A"; AAddr "lda_"; AVal "S"; AVal "U";
      AAddr "ldu_"; AVal "Vt"; AAddr "ldvt_"; AAddr "numwork"; AAddr "lwork"; AVal "rwork"; AAddr "info"];
   AssertZ "info"; SetNum "lwork" "numwork"; Own "ptr" (EVar "lwork"); SetPtr "work" "ptr";
   Call "zgesvd" "ZGESVD" [AAddr "jobu"; AAddr "jobvt"; AAddr "m_"; AAddr "n_"; AVal "A"; AAddr "lda_"; AVal "S"; AVal "U";
      AAddr "ldu_"; AVal "Vt"; AAddr "ldvt_"; AVal "work"; AAddr "lwork"; AVal "rwork"; AAddr "info"];
   AssertZ "info"; Delete "rwork"].

(** blas_templates.inc:1495-1522 *)
Definition t_pgeqrf_d := mk_wrapper "t_pgeqrf" SDouble RtVoid
  [("m", KSize); ("n", KSize); ("A", KPtr); ("ia", KInt); ("ja", KInt); ("desc_a", KDesc); ("tau", KPtr)]
  [New "desc_" (EConst 9); CopyDesc "desc_" "desc_a"; DeclInt "m_" "m"; DeclInt "n_" "n"; DeclUn "work" TPtr;
   DeclUn "numwork" (TNum SDouble); DeclUn "lwork" TInt; DeclUn "info" TInt; SetInt "lwork" (-1);
   Call "pdgeqrf" "pdgeqrf" [AAddr "m_"; AAddr "n_"; AVal "A"; AAddr "ia"; AAddr "ja"; AVal "desc_"; AVal "tau";
      AAddr "numwork"; AAddr "lwork"; AAddr "info"];
   SetNumI "lwork" "numwork"; Own "wptr" (EVar "lwork"); SetPtr "work" "wptr";
   Call "pdgeqrf" "pdgeqrf" [AAddr "m_"; AAddr "n_"; AVal "A"; AAddr "ia"; AAddr "ja"; AVal "desc_"; AVal "tau"; AVal "work";
      AAddr "lwork"; AAddr "info"];
   AssertZ "info"].

(** blas_templates.inc:1524-1551 *)
Definition t_pgeqrf_s := mk_wrapper "t_pgeqrf" SFloat RtVoid
  [("m", KSize); ("n", KSize); ("A", KPtr); ("ia", KInt); ("ja", KInt); ("desc_a", KDesc); ("tau", KPtr)]
  [New "desc_" (EConst 9); CopyDesc "desc_" "desc_a"; DeclInt "m_" "m"; DeclInt "n_" "n"; DeclUn "work" TPtr;
   DeclUn "numwork" (TNum SFloat); DeclUn "lwork" TInt; DeclUn "info" TInt; SetInt "lwork" (-1);
   Call "psgeqrf" "psgeqrf" [AAddr "m_"; AAddr "n_"; AVal "A"; AAddr "ia"; AAddr "ja"; AVal "desc_"; AVal "tau";
      AAddr "numwork"; AAddr "lwork"; AAddr "info"];
   SetNumI "lwork" "numwork"; Own "wptr" (EVar "lwork"); SetPtr "work" "wptr";
   Call "psgeqrf" "psgeqrf" [AAddr "m_"; AAddr "n_"; AVal "A"; AAddr "ia"; AAddr "ja"; AVal "desc_"; AVal "tau"; AVal "work";
      AAddr "lwork"; AAddr "info"];
   AssertZ "info"].

(** blas_templates.inc:1553-1582 *)
Definition t_pgeqrf_z := mk_wrapper "t_pgeqrf" SCDouble RtVoid
  [("m", KSize); ("n", KSize); ("A", KPtr); ("ia", KInt); ("ja", KInt); ("desc_a", KDesc); ("tau", KPtr)]
  [New "desc_" (EConst 9); CopyDesc "desc_" "desc_a"; DeclInt "m_" "m"; DeclInt "n_" "n"; DeclUn "work" TPtr;
   DeclUn "numwork" (TNum SCDouble); DeclUn "lwork" TInt; DeclUn "info" TInt; SetInt "lwork" (-1);
   Call "pzgeqrf" "pzgeqrf" [AAddr "m_"; AAddr "n_"; AVal "A"; AAddr "ia"; AAddr "ja"; AVal "desc_"; AVal "tau";
      AAddr "numwork"; AAddr "lwork"; AAddr "info"];
   SetNumI "lwork" "numwork"; Own "wptr" (EVar "lwork"); SetPtr "work" "wptr";
   Call "pzgeqrf" "pzgeqrf" [AAddr "m_"; AAddr "n_"; AVal "A"; AAddr "ia"; AAddr "ja"; AVal "desc_"; AVal "tau"; AVal "work";
      AAddr "lwork"; AAddr "info"];
   AssertZ "info"].

(** blas_templates.inc:1584-1613 *)
Definition t_pgeqrf_c := mk_wrapper "t_pgeqrf" SCFloat RtVoid
  [("m", KSize); ("n", KSize); ("A", KPtr); ("ia", KInt); ("ja", KInt); ("desc_a", KDesc); ("tau", KPtr)]
  [New "desc_" (EConst 9); CopyDesc "desc_" "desc_a"; DeclInt "m_" "m"; DeclInt "n_" "n"; DeclUn "work" TPtr;
   DeclUn "numwork" (TNum SCFloat); DeclUn "lwork" TInt; DeclUn "info" TInt; SetInt "lwork" (-1);
   Call "pcgeqrf" "pcgeqrf" [AAddr "m_"; AAddr "n_"; AVal "A"; AAddr "ia"; AAddr "ja"; AVal "desc_"; AVal "tau";
      AAddr "numwork"; AAddr "lwork"; AAddr "info"];
   SetNumI "lwork" "numwork"; Own "wptr" (EVar "lwork"); SetPtr "work" "wptr";
   Call "pcgeqrf" "pcgeqrf" [AAddr "m_"; AAddr "n_"; AVal "A"; AAddr "ia"; AAddr "ja"; AVal "desc_"; AVal "tau"; AVal "work";
      AAddr "lwork"; AAddr "info"];
   AssertZ "info"].

(** blas_templates.inc:1615-1643 *)
Definition t_pgqr_d := mk_wrapper "t_pgqr" SDouble RtVoid
  [("m", KSize); ("n", KSize); ("k", KSize); ("A", KPtr); ("ia", KInt); ("ja", KInt); ("desc_a", KDesc); ("tau", KPtr)]
  [New "desc_" (EConst 9); CopyDesc "desc_" "desc_a"; DeclInt "m_" "m"; DeclInt "n_" "n"; DeclInt "k_" "k"; DeclUn "work" TPtr;
   DeclUn "numwork" (TNum SDouble); DeclUn "lwork" TInt; DeclUn "info" TInt; SetInt "lwork" (-1);
   Call "pdorgqr" "pdorgqr" [AAddr "m_"; AAddr "n_"; AAddr "k_"; AVal "A"; AAddr "ia"; AAddr "ja"; AVal "desc_"; AVal "tau";
      AAddr "numwork"; AAddr "lwork"; AAddr "info"];
   SetNumI "lwork" "numwork"; Own "wptr" (EVar "lwork"); SetPtr "work" "wptr";
   Call "pdorgqr" "pdorgqr" [AAddr "m_"; AAddr "n_"; AAddr "k_"; AVal "A"; AAddr "ia"; AAddr "ja"; AVal "desc_"; AVal "tau";
      AVal "work"; AAddr "lwork"; AAddr "info"];
   AssertZ "info"].

(** blas_templates.inc:1645-1673 *)
Definition t_pgqr_s := mk_wrapper "t_pgqr" SFloat RtVoid
  [("m", KSize); ("n", KSize); ("k", KSize); ("A", KPtr); ("ia", KInt); ("ja", KInt); ("desc_a", KDesc); ("tau", KPtr)]
  [New "desc_" (EConst 9); CopyDesc "desc_" "desc_a"; DeclInt "m_" "m"; DeclInt "n_" "n"; DeclInt "k_" "n"; DeclUn "work" TPtr;
   DeclUn "numwork" (TNum SFloat); DeclUn "lwork" TInt; DeclUn "info" TInt; SetInt "lwork" (-1);
   Call "psorgqr" "psorgqr" [AAddr "m_"; AAddr "n_"; AAddr "k_"; AVal "A"; AAddr "ia"; AAddr "ja"; AVal "desc_"; AVal "tau";
      AAddr "numwork"; AAddr "lwork"; AAddr "info"];
   SetNumI "lwork" "numwork"; Own "wptr" (EVar "lwork"); SetPtr "work" "wptr";
   Call "psorgqr" "psorgqr" [AAddr "m_"; AAddr "n_"; AAddr "k_"; AVal "A"; AAddr "ia"; AAddr "ja"; AVal "desc_"; AVal "tau";
      AVal "work"; AAddr "lwork"; AAddr "info"];
   AssertZ "info"].

(** blas_templates.inc:1675-1706 *)
Definition t_pgqr_z := mk_wrapper "t_pgqr" SCDouble RtVoid
  [("m", KSize); ("n", KSize); ("k", KSize); ("A", KPtr); ("ia", KInt); ("ja", KInt); ("desc_a", KDesc); ("tau", KPtr)]
  [New "desc_" (EConst 9); CopyDesc "desc_" "desc_a"; DeclInt "m_" "m"; DeclInt "n_" "n"; DeclInt "k_" "k"; DeclUn "work" TPtr;
   DeclUn "numwork" (TNum SCDouble); DeclUn "lwork" TInt; DeclUn "info" TInt; SetInt "lwork" (-1);
   Call "pzungqr" "pzungqr" [AAddr "m_"; AAddr "n_"; AAddr "k_"; AVal "A"; AAddr "ia"; AAddr "ja"; AVal "desc_"; AVal "tau";
      AAddr "numwork"; AAddr "lwork"; AAddr "info"];
   SetNumI "lwork" "numwork"; Own "wptr" (EVar "lwork"); SetPtr "work" "wptr";
   Call "pzungqr" "pzungqr" [AAddr "m_"; AAddr "n_"; AAddr "k_"; AVal "A"; AAddr "ia"; AAddr "ja"; AVal "desc_"; AVal "tau";
      AVal "work"; AAddr "lwork"; AAddr "info"];
   AssertZ "info"].

(** blas_templates.inc:1708-1738 *)
Definition t_pgqr_c := mk_wrapper "t_pgqr" SCFloat RtVoid
  [("m", KSize); ("n", KSize); ("k", KSize); ("A", KPtr); ("ia", KInt); ("ja", KInt); ("desc_a", KDesc); ("tau", KPtr)]
  [New "desc_" (EConst 9); CopyDesc "desc_" "desc_a"; DeclInt "m_" "m"; DeclInt "n_" "n"; DeclInt "k_" "k"; DeclUn "work" TPtr;
   DeclUn "numwork" (TNum SCFloat); DeclUn "lwork" TInt; DeclUn "info" TInt; SetInt "lwork" (-1);
   Call "pcungqr" "pcungqr" [AAddr "m_"; AAddr "n_"; AAddr "k_"; AVal "A"; AAddr "ia"; AAddr "ja"; AVal "desc_"; AVal "tau";
      AAddr "numwork"; AAddr "lwork"; AAddr "info"];
   SetNumI "lwork" "numwork"; Own "wptr" (EVar "lwork"); SetPtr "work" "wptr";
   Call "pcungqr" "pcungqr" [AAddr "m_"; AAddr "n_"; AAddr "k_"; AVal "A"; AAddr "ia"; AAddr "ja"; AVal "desc_"; AVal "tau";
      AVal "work"; AAddr "lwork"; AAddr "info"];
   AssertZ "info"].

(** blas_templates.inc:1741-1757 *)
Definition t_ptranc_s := mk_wrapper "t_ptranc" SFloat RtVoid
  [("m", KSize); ("n", KSize); ("alpha", KScal); ("A", KPtr); ("ia", KInt); ("ja", KInt); ("desc_a", KDesc); ("beta", KScal);
   ("C", KPtr); ("ic", KInt); ("jc", KInt); ("desc_c", KDesc)]
  [New "desc_a_" (EConst 9); New "desc_c_" (EConst 9); CopyDesc "desc_a_" "desc_a"; CopyDesc "desc_c_" "desc_c";
   DeclInt "m_" "m"; DeclInt "n_" "n";
   Call "pstran" "pstran" [AAddr "m_"; AAddr "n_"; AAddr "alpha"; AVal "A"; AAddr "ia"; AAddr "ja"; AVal "desc_a_";
      AAddr "beta"; AVal "C"; AAddr "ic"; AAddr "jc"; AVal "desc_c_"]].

(** blas_templates.inc:1759-1775 *)
Definition t_ptranc_d := mk_wrapper "t_ptranc" SDouble RtVoid
  [("m", KSize); ("n", KSize); ("alpha", KScal); ("A", KPtr); ("ia", KInt); ("ja", KInt); ("desc_a", KDesc); ("beta", KScal);
   ("C", KPtr); ("ic", KInt); ("jc", KInt); ("desc_c", KDesc)]
  [New "desc_a_" (EConst 9); New "desc_c_" (EConst 9); CopyDesc "desc_a_" "desc_a"; CopyDesc "desc_c_" "desc_c";
   DeclInt "m_" "m"; DeclInt "n_" "n";
   Call "pdtran" "pdtran" [AAddr "m_"; AAddr "n_"; AAddr "alpha"; AVal "A"; AAddr "ia"; AAddr "ja"; AVal "desc_a_";
      AAddr "beta"; AVal "C"; AAddr "ic"; AAddr "jc"; AVal "desc_c_"]].

(** blas_templates.inc:1777-1793 *)
Definition t_ptranc_c := mk_wrapper "t_ptranc" SCFloat RtVoid
  [("m", KSize); ("n", KSize); ("alpha", KScal); ("A", KPtr); ("ia", KInt); ("ja", KInt); ("desc_a", KDesc); ("beta", KScal);
   ("C", KPtr); ("ic", KInt); ("jc", KInt); ("desc_c", KDesc)]
  [New "desc_a_" (EConst 9); New "desc_c_" (EConst 9); CopyDesc "desc_a_" "desc_a"; CopyDesc "desc_c_" "desc_c";
   DeclInt "m_" "m"; DeclInt "n_" "n";
   Call "pctranc" "pctranc" [AAddr "m_"; AAddr "n_"; AAddr "alpha"; AVal "A"; AAddr "ia"; AAddr "ja"; AVal "desc_a_";
      AAddr "beta"; AVal "C"; AAddr "ic"; AAddr "jc"; AVal "desc_c_"]].

(** blas_templates.inc:1795-1811 *)
Definition t_ptranc_z := mk_wrapper "t_ptranc" SCDouble RtVoid
  [("m", KSize); ("n", KSize); ("alpha", KScal); ("A", KPtr); ("ia", KInt); ("ja", KInt); ("desc_a", KDesc); ("beta", KScal);
   ("C", KPtr); ("ic", KInt); ("jc", KInt); ("desc_c", KDesc)]
  [New "desc_a_" (EConst 9); New "desc_c_" (EConst 9); CopyDesc "desc_a_" "desc_a"; CopyDesc "desc_c_" "desc_c";
   DeclInt "m_" "m"; DeclInt "n_" "n";
   Call "pztranc" "pztranc" [AAddr "m_"; AAddr "n_"; AAddr "alpha"; AVal "A"; AAddr "ia"; AAddr "ja"; AVal "desc_a_";
      AAddr "beta"; AVal "C"; AAddr "ic"; AAddr "jc"; AVal "desc_c_"]].

Definition wrappers : list wrapper :=
  [t_scal_s; t_scal_d; t_scal_c; t_scal_z; t_axpy_s; t_axpy_d; t_axpy_c; t_axpy_z; t_dot_s; t_dot_d; t_lange_d; t_lange_s;
      t_lange_z; t_lange_c; t_gemm_d; t_gemm_s; t_syhemm_s; t_syhemm_d; t_syhemm_c; t_syhemm_z; t_gemm_z; t_gemm_c; t_syherk_s;
      t_syherk_d; t_syherk_c; t_syherk_z; t_nrm2_d; t_nrm2_s; t_nrm2_z; t_nrm2_c; t_lacpy_s; t_lacpy_d; t_lacpy_c; t_lacpy_z;
      t_geqrf_d; t_geqrf_s; t_geqrf_z; t_geqrf_c; t_gqr_d; t_gqr_s; t_gqr_z; t_gqr_c; t_heevd_d; t_heevd_s; t_heevd_z;
      t_heevd_c; t_gemv_d; t_gemv_s; t_gemv_z; t_gemv_c; t_stemr_d; t_stemr_s; t_potrf_s; t_potrf_d; t_potrf_c; t_potrf_z;
      t_trsm_s; t_trsm_d; t_trsm_c; t_trsm_z; t_gesvd_s; t_gesvd_d; t_gesvd_c; t_gesvd_z; t_pgeqrf_d; t_pgeqrf_s; t_pgeqrf_z;
      t_pgeqrf_c; t_pgqr_d; t_pgqr_s; t_pgqr_z; t_pgqr_c; t_ptranc_s; t_ptranc_d; t_ptranc_c; t_ptranc_z].
