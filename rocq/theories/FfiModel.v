(** Model of the boundary between Fortran (or C) callers and the library: interface/chase_f.f90 (declarations seen by Fortran),
    the extern "C" functions of interface/chase_c.cpp:502-1518 (what is done with the pointers), and the two places where
    characters received through them are used as C strings (chase_mpi_properties.hpp:290,614: strcmp; chase_c.cpp:1446-1513:
    std::string(filename)).  All arguments are passed by address; memory is an array of bytes. *)
From Coq Require Import List ZArith NArith Bool String.
Require Import Verif.Base Verif.ConfigModel Verif.GridModel.
Import ListNotations.
Local Open Scope Z_scope.

(** Bytes by address; None: the address belongs to no object. *)
Definition mem : Type := Z -> option Z.
Definition ld1 (m : mem) (a : Z) : res Z := match m a with Some b => Ok b | None => UB end.
Definition st1 (m : mem) (a b : Z) : res mem :=
  match m a with Some _ => Ok (fun x => if x =? a then Some b else m x) | None => UB end.
(** little-endian words of n bytes *)
Fixpoint ldn (n : nat) (m : mem) (a : Z) : res Z :=
  match n with
  | O => Ok 0
  | S n' => let! b := ld1 m a in let! r := ldn n' m (a + 1) in Ok (b + 256 * r)
  end.
Fixpoint stn (n : nat) (m : mem) (a w : Z) : res mem :=
  match n with
  | O => Ok m
  | S n' => let! m' := st1 m a (w mod 256) in stn n' m' (a + 1) (w / 256)
  end.
(** int: 32-bit two's complement *)
Definition sgn32 (w : Z) : Z := if w <? 2 ^ 31 then w else w - 2 ^ 32.
Definition ld_int (m : mem) (a : Z) : res Z := let! w := ldn 4 m a in Ok (sgn32 w).
Definition st_int (m : mem) (a z : Z) : res mem := stn 4 m a (z mod 2 ^ 32).

(** Element types of dummy arguments and pointers: INTEGER(c_int)/int/MPI_Fint, REAL(c_float)/float, REAL(c_double)/double,
    COMPLEX(c_float_complex)/float _Complex, COMPLEX(c_double_complex)/double _Complex, CHARACTER(c_char)/char. *)
Inductive elem := I4 | R4 | R8 | C4 | C8 | Ch.
Definition esize (e : elem) : nat := match e with I4 | R4 => 4 | R8 | C4 => 8 | C8 => 16 | Ch => 1 end%nat.

Inductive routine := RInit | RSolve | RFinal | PInit | PInitBC | PSolve | PFinal | PWrite | PRead.

(** T and Base<T> *)
Definition entry_of (t : scalar) : elem := match t with SFloat => R4 | SDouble => R8 | SCFloat => C4 | SCDouble => C8 end.
Definition base_of (t : scalar) : elem := match t with SFloat | SCFloat => R4 | SDouble | SCDouble => R8 end.

(** chase_f.f90: dummy arguments in order with their types.  ?chase_init 14-33, 67-86, 120-139, 174-193; ?chase_finalize and
    ?chase follow each; p?chase_init 228-254, 323-349, 417-443, 511-537; p?chase_init_blockcyclic 258-287, 353-382, 447-476,
    541-570; p?chase_wrtHam_blockcyclic 605-654, p?chase_readHam_blockcyclic 657-706.  The type of ritzv in pcchase_init and
    pcchase_init_blockcyclic is REAL(c_double) (535, 567).  In the file routines h is REAL(c_float_complex) and
    REAL(c_double_complex) for the complex types (638, 651, 690, 703): reals of 4 and 8 bytes. *)
Definition f_decl (t : scalar) (r : routine) : list (string * elem) :=
  let e := entry_of t in let b := base_of t in
  let pb := match t with SCFloat => R8 | _ => b end in
  match r with
  | RInit => [("n", I4); ("nev", I4); ("nex", I4); ("h", e); ("ldh", I4); ("v", e); ("ritzv", b); ("init", I4)]
  | RSolve | PSolve => [("deg", I4); ("tol", b); ("mode", Ch); ("opt", Ch); ("qr", Ch)]
  | RFinal | PFinal => [("flag", I4)]
  | PInit => [("nn", I4); ("nev", I4); ("nex", I4); ("m", I4); ("n", I4); ("h", e); ("ldh", I4); ("v", e); ("ritzv", pb);
              ("dim0", I4); ("dim1", I4); ("grid_major", Ch); ("fcomm", I4); ("init", I4)]
  | PInitBC => [("nn", I4); ("nev", I4); ("nex", I4); ("mbsize", I4); ("nbsize", I4); ("h", e); ("ldh", I4); ("v", e); ("ritzv", pb);
                ("dim0", I4); ("dim1", I4); ("grid_major", Ch); ("irsrc", I4); ("icsrc", I4); ("fcomm", I4); ("init", I4)]
  | PWrite | PRead => [("filename", Ch); ("h", b)]
  end%string.

(** chase_c.cpp:521-1518: element types of the parameters, in order *)
Definition c_proto (t : scalar) (r : routine) : list elem :=
  let e := entry_of t in let b := base_of t in
  match r with
  | RInit => [I4; I4; I4; e; I4; e; b; I4]
  | RSolve | PSolve => [I4; b; Ch; Ch; Ch]
  | RFinal | PFinal => [I4]
  | PInit => [I4; I4; I4; I4; I4; e; I4; e; b; I4; I4; Ch; I4; I4]
  | PInitBC => [I4; I4; I4; I4; I4; e; I4; e; b; I4; I4; Ch; I4; I4; I4; I4]
  | PWrite | PRead => [Ch; e]
  end.

(** What an entry point does with the library.  Sizes are std::size_t, addresses are kept as they are. *)
Inductive effect :=
| New_seq (n nev nex : N) (H : Z) (ldh : N) (V ritzv : Z)
| New_block (n nev nex m_ n_ : N) (npr npc : Z) (col_major : bool) (comm : Z) (H : Z) (ldh : N) (V ritzv : Z)
| New_cyclic (n mb nb nev nex : N) (row_dim col_dim : Z) (col_major : bool) (irsrc icsrc comm : Z) (H : Z) (ldh : N) (V ritzv : Z)
| Do_solve (deg tol : Z) (opt approx chol : bool)
| Do_delete
| Do_write (name : list Z) (H : Z)
| Do_read (name : list Z) (H : Z).

(** strcmp(p, lit) == 0: bytes are compared up to the first difference or the terminating 0 *)
Fixpoint streq (m : mem) (p : Z) (lit : list Z) : res bool :=
  match lit with
  | [] => let! b := ld1 m p in Ok (b =? 0)
  | c :: lit' => let! b := ld1 m p in if b =? c then streq m (p + 1) lit' else Ok false
  end.
Definition byte_C : Z := 67.  Definition byte_S : Z := 83.  Definition byte_A : Z := 65.  Definition byte_R : Z := 82.
(** chase_mpi_properties.hpp:288-293, 612-617 *)
Definition is_col_major (m : mem) (p : Z) : res bool := streq m p [byte_C].
(** std::string(p): bytes up to the first 0 *)
Fixpoint cstring (fuel : nat) (m : mem) (p : Z) : res (list Z) :=
  match fuel with
  | O => Fuel
  | S fuel' => let! b := ld1 m p in if b =? 0 then Ok [] else let! l := cstring fuel' m (p + 1) in Ok (b :: l)
  end.

(** The bodies, with the template functions they call inlined (68-96, 138-172, 248-354, 399-454, 485-497); an int passed for a
    std::size_t parameter is converted ([to_size]).  MPI_Comm_f2c is the identity on handles.  [fuel] bounds file names. *)
Definition c_call (fuel : nat) (t : scalar) (r : routine) (args : list Z) (m : mem) : res (effect * mem) :=
  match r, args with
  | RInit, [aN; anev; anex; H; aldh; V; ritzv; ainit] =>
      let! n := ld_int m aN in let! nev := ld_int m anev in let! nex := ld_int m anex in let! ldh := ld_int m aldh in
      let! m' := st_int m ainit 1 in
      Ok (New_seq (to_size n) (to_size nev) (to_size nex) H (to_size ldh) V ritzv, m')
  | PInit, [aN; anev; anex; am; an; H; aldh; V; ritzv; adim0; adim1; major; acomm; ainit] =>
      let! comm := ld_int m acomm in
      let! n := ld_int m aN in let! nev := ld_int m anev in let! nex := ld_int m anex in
      let! m_ := ld_int m am in let! n_ := ld_int m an in let! ldh := ld_int m aldh in
      let! dim0 := ld_int m adim0 in let! dim1 := ld_int m adim1 in
      let! cm := is_col_major m major in
      let! m' := st_int m ainit 1 in
      Ok (New_block (to_size n) (to_size nev) (to_size nex) (to_size m_) (to_size n_) dim0 dim1 cm comm H (to_size ldh) V ritzv, m')
  | PInitBC, [aN; anev; anex; amb; anb; H; aldh; V; ritzv; adim0; adim1; major; airsrc; aicsrc; acomm; ainit] =>
      let! comm := ld_int m acomm in
      let! n := ld_int m aN in let! nev := ld_int m anev in let! nex := ld_int m anex in
      let! mb := ld_int m amb in let! nb := ld_int m anb in let! ldh := ld_int m aldh in
      let! dim0 := ld_int m adim0 in let! dim1 := ld_int m adim1 in
      let! irsrc := ld_int m airsrc in let! icsrc := ld_int m aicsrc in
      let! cm := is_col_major m major in
      let! m' := st_int m ainit 1 in
      Ok (New_cyclic (to_size n) (to_size mb) (to_size nb) (to_size nev) (to_size nex) dim0 dim1 cm irsrc icsrc comm H (to_size ldh) V ritzv, m')
  | RSolve, [adeg; atol; amode; aopt; aqr] | PSolve, [adeg; atol; amode; aopt; aqr] =>
      let! tol := ldn (esize (base_of t)) m atol in let! deg := ld_int m adeg in
      let! opt := ld1 m aopt in let! mode := ld1 m amode in let! qr := ld1 m aqr in
      Ok (Do_solve deg tol (opt =? byte_S) (mode =? byte_A) (qr =? byte_C), m)
  | RFinal, [aflag] | PFinal, [aflag] => let! m' := st_int m aflag 0 in Ok (Do_delete, m')
  | PWrite, [name; H] => let! s := cstring fuel m name in Ok (Do_write s H, m)
  | PRead, [name; H] => let! s := cstring fuel m name in Ok (Do_read s H, m)
  | _, _ => UB   (* wrong number of arguments *)
  end.

(** A call from Fortran: the addresses of the actual arguments in the order of the dummy arguments. *)
Definition f_call (fuel : nat) (t : scalar) (r : routine) (adr : string -> Z) (m : mem) : res (effect * mem) :=
  c_call fuel t r (map (fun d => adr (fst d)) (f_decl t r)) m.

(** The library stores n values of type Base<T> at ritzv; a caller reads element i (from 0) of an array of its own element type. *)
Fixpoint st_words (sz : nat) (m : mem) (a : Z) (ws : list Z) : res mem :=
  match ws with
  | [] => Ok m
  | w :: ws' => let! m' := stn sz m a w in st_words sz m' (a + Z.of_nat sz) ws'
  end.
Definition lib_stores (t : scalar) (m : mem) (ritzv : Z) (ws : list Z) : res mem := st_words (esize (base_of t)) m ritzv ws.
Definition f_reads (e : elem) (m : mem) (a : Z) (i : nat) : res Z := ldn (esize e) m (a + Z.of_nat (esize e) * Z.of_nat i).

(** Coordinates of rank r when its own copy of grid_major lies at address p of its memory (create2DGrid, C06). *)
Definition coords_from (m : mem) (p : Z) (row_dim col_dim r : nat) : res (nat * nat) :=
  let! cm := is_col_major m p in Ok (grid_coord cm row_dim col_dim r).
