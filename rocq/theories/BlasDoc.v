(** The Fortran interfaces of the BLAS, LAPACK and ScaLAPACK routines that ChASE-MPI/blas_templates.inc calls, written from the
    documentation of those libraries and not from the prototypes in ChASE-MPI/blas_fortran.hpp and blas_templates.hpp.  Nothing in this
    file describes ChASE. *)
From Coq Require Import List ZArith String.
Require Import Verif.Base Verif.ConfigModel.
Import ListNotations.
Local Open Scope string_scope.
Local Open Scope list_scope.

(** The workspaces of LAPACK: WORK (of the routine's own type), RWORK (real), IWORK (integer). *)
Inductive wk := WMain | WReal | WInt.

(** The formal parameters, in order.  [A f]: an argument the documentation calls f.  [W w]: a workspace whose length is the formal
    [L w] (-1: "return the optimal length in the first entry").  [WNorm]: the workspace of xLANGE, referenced only for NORM = 'I'.
    [WSvd]: RWORK of the complex xGESVD, of length 5 min(M,N).  [Info]: the status. *)
Inductive formal := A (f : string) | W (w : wk) | L (w : wk) | WNorm | WSvd | Info.

(** What a Fortran function returns. *)
Inductive fret := FNone | FReal (double : bool).

Definition s_scal := map A ["n"; "alpha"; "x"; "incx"].
Definition s_axpy := map A ["n"; "alpha"; "x"; "incx"; "y"; "incy"].
Definition s_dot := map A ["n"; "x"; "incx"; "y"; "incy"].
Definition s_nrm2 := map A ["n"; "x"; "incx"].
Definition s_lange := map A ["norm"; "m"; "n"; "a"; "lda"] ++ [WNorm].
Definition s_gemv := map A ["trans"; "m"; "n"; "alpha"; "a"; "lda"; "x"; "incx"; "beta"; "y"; "incy"].
Definition s_gemm := map A ["transa"; "transb"; "m"; "n"; "k"; "alpha"; "a"; "lda"; "b"; "ldb"; "beta"; "c"; "ldc"].
Definition s_symm := map A ["side"; "uplo"; "m"; "n"; "alpha"; "a"; "lda"; "b"; "ldb"; "beta"; "c"; "ldc"].
Definition s_syrk := map A ["uplo"; "trans"; "n"; "k"; "alpha"; "a"; "lda"; "beta"; "c"; "ldc"].
Definition s_trsm := map A ["side"; "uplo"; "transa"; "diag"; "m"; "n"; "alpha"; "a"; "lda"; "b"; "ldb"].
Definition s_lacpy := map A ["uplo"; "m"; "n"; "a"; "lda"; "b"; "ldb"].
Definition s_potrf := map A ["uplo"; "n"; "a"; "lda"] ++ [Info].
Definition s_geqrf := map A ["m"; "n"; "a"; "lda"; "tau"] ++ [W WMain; L WMain; Info].
Definition s_orgqr := map A ["m"; "n"; "k"; "a"; "lda"; "tau"] ++ [W WMain; L WMain; Info].
Definition s_syevd := map A ["jobz"; "uplo"; "n"; "a"; "lda"; "w"] ++ [W WMain; L WMain; W WInt; L WInt; Info].
Definition s_heevd := map A ["jobz"; "uplo"; "n"; "a"; "lda"; "w"] ++ [W WMain; L WMain; W WReal; L WReal; W WInt; L WInt; Info].
Definition s_stemr :=
  map A ["jobz"; "range"; "n"; "d"; "e"; "vl"; "vu"; "il"; "iu"; "m"; "w"; "z"; "ldz"; "nzc"; "isuppz"; "tryrac"]
  ++ [W WMain; L WMain; W WInt; L WInt; Info].
Definition s_gesvd_real := map A ["jobu"; "jobvt"; "m"; "n"; "a"; "lda"; "s"; "u"; "ldu"; "vt"; "ldvt"] ++ [W WMain; L WMain; Info].
Definition s_gesvd_cplx :=
  map A ["jobu"; "jobvt"; "m"; "n"; "a"; "lda"; "s"; "u"; "ldu"; "vt"; "ldvt"] ++ [W WMain; L WMain; WSvd; Info].
Definition s_pgeqrf := map A ["m"; "n"; "a"; "ia"; "ja"; "desca"; "tau"] ++ [W WMain; L WMain; Info].
Definition s_porgqr := map A ["m"; "n"; "k"; "a"; "ia"; "ja"; "desca"; "tau"] ++ [W WMain; L WMain; Info].
Definition s_ptran := map A ["m"; "n"; "alpha"; "a"; "ia"; "ja"; "desca"; "beta"; "c"; "ic"; "jc"; "descc"].

Record doc := mk_doc { d_type : scalar; d_sig : list formal; d_ret : fret }.

(** one entry per routine: name, type of its matrices, parameters, function result *)
Definition four (s d c z : string) (sg : list formal) : list (string * doc) :=
  [(s, mk_doc SFloat sg FNone); (d, mk_doc SDouble sg FNone); (c, mk_doc SCFloat sg FNone); (z, mk_doc SCDouble sg FNone)].
Definition real2 (s d : string) (sg : list formal) : list (string * doc) :=
  [(s, mk_doc SFloat sg FNone); (d, mk_doc SDouble sg FNone)].
Definition cplx2 (c z : string) (sg : list formal) : list (string * doc) :=
  [(c, mk_doc SCFloat sg FNone); (z, mk_doc SCDouble sg FNone)].
Definition fun4 (s d c z : string) (sg : list formal) : list (string * doc) :=
  [(s, mk_doc SFloat sg (FReal false)); (d, mk_doc SDouble sg (FReal true)); (c, mk_doc SCFloat sg (FReal false));
   (z, mk_doc SCDouble sg (FReal true))].

Definition docs : list (string * doc) :=
  four "sscal" "dscal" "cscal" "zscal" s_scal ++ four "saxpy" "daxpy" "caxpy" "zaxpy" s_axpy
  ++ [("sdot", mk_doc SFloat s_dot (FReal false)); ("ddot", mk_doc SDouble s_dot (FReal true))]
  ++ fun4 "snrm2" "dnrm2" "scnrm2" "dznrm2" s_nrm2 ++ fun4 "slange" "dlange" "clange" "zlange" s_lange
  ++ four "sgemv" "dgemv" "cgemv" "zgemv" s_gemv ++ four "sgemm" "dgemm" "cgemm" "zgemm" s_gemm
  ++ real2 "ssymm" "dsymm" s_symm ++ cplx2 "chemm" "zhemm" s_symm
  ++ real2 "ssyrk" "dsyrk" s_syrk ++ cplx2 "cherk" "zherk" s_syrk
  ++ four "strsm" "dtrsm" "ctrsm" "ztrsm" s_trsm ++ four "slacpy" "dlacpy" "clacpy" "zlacpy" s_lacpy
  ++ four "spotrf" "dpotrf" "cpotrf" "zpotrf" s_potrf ++ four "sgeqrf" "dgeqrf" "cgeqrf" "zgeqrf" s_geqrf
  ++ real2 "sorgqr" "dorgqr" s_orgqr ++ cplx2 "cungqr" "zungqr" s_orgqr
  ++ real2 "ssyevd" "dsyevd" s_syevd ++ cplx2 "cheevd" "zheevd" s_heevd
  ++ real2 "sstemr" "dstemr" s_stemr
  ++ real2 "sgesvd" "dgesvd" s_gesvd_real ++ cplx2 "cgesvd" "zgesvd" s_gesvd_cplx
  ++ four "psgeqrf" "pdgeqrf" "pcgeqrf" "pzgeqrf" s_pgeqrf
  ++ real2 "psorgqr" "pdorgqr" s_porgqr ++ cplx2 "pcungqr" "pzungqr" s_porgqr
  ++ real2 "pstran" "pdtran" s_ptran ++ cplx2 "pctranc" "pztranc" s_ptran.

Fixpoint assoc {X} (k : string) (l : list (string * X)) : option X :=
  match l with [] => None | (a, x) :: r => if String.eqb k a then Some x else assoc k r end.
Definition doc_of (r : string) : option doc := assoc r docs.
