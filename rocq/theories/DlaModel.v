(** Model of ChASE-MPI/chase_mpi.hpp: the class ChaseMpi, which implements the numerical interface of the algorithm
    layer on top of a dense linear algebra backend (ChaseMpiDLAInterface). *)
From Coq Require Import List Arith ZArith Bool.
Require Import Verif.Base Verif.AlgModel.
Import ListNotations.

(** The part of ChaseMpiDLAInterface (ChASE-MPI/chase_mpidla_interface.hpp) that ChaseMpi calls; [D] is the state of the
    backend object.  The int results of the Cholesky QR variants are the LAPACK info values. *)
Record dla (F D : Type) := mk_dla {
  d_sym : D -> res (bool * D);
  d_start : D -> res D;
  d_end : D -> res D;
  d_initrnd : D -> res D;
  d_init : D -> res D;
  d_shift : F -> bool -> D -> res D;
  d_apply : F -> F -> nat -> nat -> nat -> D -> res D;   (* alpha beta offset block locked *)
  d_hhqr : nat -> D -> res D;
  d_chol1 : nat -> D -> res (Z * D);
  d_chol2 : nat -> D -> res (Z * D);
  d_schol2 : nat -> D -> res (Z * D);
  d_lockcopy : nat -> bool -> D -> res D;                (* lockVectorCopyAndOrthoConcatswap *)
  d_rr : nat -> nat -> D -> res (list F * D);            (* block locked *)
  d_resd : list F -> nat -> nat -> D -> res (list F * D);(* ritzv locked unconverged *)
  d_swap : nat -> nat -> D -> res D;
  d_mlanczos : nat -> option nat -> D -> res (list F * list F * list F * D);
            (* M, numvec (None = -1); diagonals, off-diagonals (both M * numvec, run after run) and last betas *)
  d_dos : nat -> nat -> list F -> D -> res D
}.
Arguments d_sym {F D} _. Arguments d_start {F D} _. Arguments d_end {F D} _. Arguments d_initrnd {F D} _.
Arguments d_init {F D} _. Arguments d_shift {F D} _. Arguments d_apply {F D} _. Arguments d_hhqr {F D} _.
Arguments d_chol1 {F D} _. Arguments d_chol2 {F D} _. Arguments d_schol2 {F D} _. Arguments d_lockcopy {F D} _.
Arguments d_rr {F D} _. Arguments d_resd {F D} _. Arguments d_swap {F D} _. Arguments d_mlanczos {F D} _. Arguments d_dos {F D} _.

(** What QR() reads from the configuration and the environment (chase_mpi.hpp:358-377).  [q_disable] is
    atoi(CHASE_DISABLE_CHOLQR) if set; [q_thld] is atof(CHASE_CHOLQR1_THLD) if set; [q_upper], [q_lower] are the built-in
    thresholds (1e8 and 20 for 8-byte reals, 1e4 and 10 otherwise).  CHASE_DISPLAY_BOUNDS only prints (not modelled). *)
Record qr_env (F : Type) := mk_qe { q_chol : bool; q_disable : option Z; q_thld : option F; q_upper : F; q_lower : F }.
Arguments q_chol {F} _. Arguments q_disable {F} _. Arguments q_thld {F} _. Arguments q_upper {F} _. Arguments q_lower {F} _.

(** LAPACK stemr on one tridiagonal matrix: eigenvalue k and entry k of the eigenvector array.  Failure of stemr is not
    checked by the code; the oracle may return anything. *)
Record tridiag (F : Type) := mk_td { td_val : list F -> list F -> nat -> F; td_vec : list F -> list F -> nat -> F }.
Arguments td_val {F} _. Arguments td_vec {F} _.

Section ChaseMpi.
Context {F D : Type} (fo : fops F) (qe : qr_env F) (td : tridiag F) (L : dla F D) (nev nex : nat).

(** the object: locked_ and the backend *)
Record cm := mk_cm { cm_locked : nat; cm_dla : D }.

Definition lift (s : cm) (x : res D) : res cm := let! d := x in Ok (mk_cm (cm_locked s) d).
Definition lift_v {X} (s : cm) (x : res (X * D)) : res (X * cm) := let! (v, d) := x in Ok (v, mk_cm (cm_locked s) d).

(** chase_mpi.hpp:300-313 *)
Definition cm_init (random : bool) (s : cm) : res cm :=
  lift s (let! d := (if random then d_initrnd L (cm_dla s) else Ok (cm_dla s)) in d_init L d).

(** chase_mpi.hpp:351-427 *)
Definition cm_qr (_ : nat) (cond : F) (s : cm) : res cm :=
  let locked := cm_locked s in
  let disable := match q_disable qe with Some z => z | None => if q_chol qe then 0%Z else 1%Z end in
  let lower := match q_thld qe with Some t => t | None => q_lower qe end in
  let! (hh, d) :=
    (if (disable =? 1)%Z then
       let! d := d_hhqr L locked (cm_dla s) in Ok (true, d)
     else
       let! (info, d) :=
         (if f_lt fo (q_upper qe) cond then d_schol2 L locked (cm_dla s)
          else if f_lt fo cond lower then d_chol1 L locked (cm_dla s)
          else d_chol2 L locked (cm_dla s)) in
       if (info =? 0)%Z then Ok (false, d)
       else let! d' := d_hhqr L locked d in Ok (true, d')) in
  lift s (d_lockcopy L locked hh d).

(** upper bound of one Lanczos run (lines 498-499, 533-541) *)
Definition run_bound (first last beta : F) : F := f_add fo (fmax fo (f_abs fo first) (f_abs fo last)) (f_abs fo beta).

(** chase_mpi.hpp:481-501 *)
Definition cm_lanczos1 (M : nat) (s : cm) : res (F * cm) :=
  let! (d, e, b, x) := d_mlanczos L M None (cm_dla s) in
  let ritzv := map (td_val td d e) (seq 0 M) in
  let! r0 := rd ritzv 0 in
  let! r1 := rd ritzv (M - 1) in
  let! b0 := rd b 0 in
  Ok (run_bound r0 r1 b0, mk_cm (cm_locked s) x).

(** chase_mpi.hpp:508-545; ritzV is overwritten by every run *)
Definition cm_lanczos2 (M numvec : nat) (s : cm) : res (F * list F * list F * list F * cm) :=
  let! (d, e, b, x) := d_mlanczos L M (Some numvec) (cm_dla s) in
  let! (theta, tau, ritzV) := for_ numvec 0 (fun i acc =>
      let '(th, ta, _) := acc in
      let! di := get_range d (i * M) M in
      let! ei := get_range e (i * M) M in
      let rv := map (td_vec td di ei) (seq 0 (M * M)) in
      let! ti := fold_right (fun k acc => let! l := acc in let! y := rd rv (k * M) in
                               Ok (f_mul fo (f_abs fo y) (f_abs fo y) :: l)) (Ok []) (seq 0 M) in
      Ok (th ++ map (td_val td di ei) (seq 0 M), ta ++ ti, rv)) ([], [], repeat (f_zero fo) (M * M)) in
  let! r0 := rd theta 0 in
  let! r1 := rd theta (M - 1) in
  let! b0 := rd b 0 in
  let! ub := for_ (numvec - 1) 1 (fun i ub =>
      let! x0 := rd theta (i * M) in
      let! x1 := rd theta ((i + 1) * M - 1) in
      let! bi := rd b i in
      Ok (fmax fo (run_bound x0 x1 bi) ub)) (run_bound r0 r1 b0) in
  Ok (ub, theta, tau, ritzV, mk_cm (cm_locked s) x).

(** the whole class as a kernel.  [Resd] computes nev_ + nex_ - fixednev (line 455). *)
Definition cmK : kernel F cm := {|
  k_sym := fun s => lift_v s (d_sym L (cm_dla s));                              (* 270 *)
  k_start := fun s => let! d := d_start L (cm_dla s) in Ok (mk_cm 0 d);         (* 261-265 *)
  k_end := fun s => lift s (d_end L (cm_dla s));                                (* 268 *)
  k_init := cm_init;
  k_shift := fun c u s => lift s (d_shift L c u (cm_dla s));                    (* 284-287 *)
  k_hemm := fun n a b o s => lift s (d_apply L a b o n (cm_locked s) (cm_dla s)); (* 329-338 *)
  k_qr := cm_qr;
  k_rr := fun n s => lift_v s (d_rr L n (cm_locked s) (cm_dla s));              (* 438-441 *)
  k_resd := fun v l s => lift_v s (d_resd L v (cm_locked s) (nev + nex - l) (cm_dla s)); (* 453-457 *)
  k_swap := fun i j s => lift s (d_swap L i j (cm_dla s));                      (* 464-473 *)
  k_lock := fun n s => Ok (mk_cm (cm_locked s + n) (cm_dla s));                 (* 552 *)
  k_lanczos1 := cm_lanczos1;
  k_lanczos2 := cm_lanczos2;
  k_dos := fun i m rv s => lift s (d_dos L i m rv (cm_dla s)) |}.               (* 556-559 *)
End ChaseMpi.
