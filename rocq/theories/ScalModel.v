(** Householder QR through ScaLAPACK: the array descriptor built by the constructors of ChASE-MPI/chase_mpi_properties.hpp and the
    branch of hhQR compiled with HAS_SCALAPACK.  ScaLAPACK itself (TOOLS/descinit.f, numroc.f, indxg2p.f, indxg2l.f, PxGEQRF,
    PxORGQR) is written after its documentation; its factorisation is the oracle [or_hh] of the LAPACK branch. *)
From Coq Require Import List Arith ZArith Bool.
Require Import Verif.Base Verif.AlgModel Verif.DlaModel Verif.DistModel Verif.RedistModel Verif.SpmdModel Verif.KerModel Verif.ClientModel Verif.ColModel Verif.DsModel.
Import ListNotations.

(** ** Descriptors *)
(** the entries M_, N_, MB_, NB_, RSRC_, CSRC_, LLD_ of a descriptor (DTYPE_ and CTXT_ left out) *)
Record desc := mk_desc { s_m : nat; s_n : nat; s_mb : nat; s_nb : nat; s_rsrc : nat; s_csrc : nat; s_lld : nat }.
(** TOOLS/descinit.f: error code and descriptor on process (myrow, mycol) of an nprow x npcol context; after an error the entries are
    forced into their ranges.  The BLACS context is valid (C06, C80), the sizes are not negative. *)
Definition descinit (nprow npcol myrow mycol m n mb nb rsrc csrc lld : nat) : Z * desc :=
  let need := Nat.max 1 (fst (numroc m mb myrow rsrc nprow)) in
  (if mb <? 1 then (-4)%Z else if nb <? 1 then (-5)%Z else if nprow <=? rsrc then (-6)%Z else if npcol <=? csrc then (-7)%Z else if lld <? need then (-9)%Z else 0%Z,
   mk_desc m n (Nat.max 1 mb) (Nat.max 1 nb) (Nat.min rsrc (nprow - 1)) (Nat.min csrc (npcol - 1)) (Nat.max lld need)).
(** TOOLS/indxg2p.f, indxg2l.f with indices from 0: process coordinate and local index of the global index g *)
Definition indxg2p (nb src p g : nat) : nat := (src + g / nb) mod p.
Definition indxg2l (nb p g : nat) : nat := nb * (g / (nb * p)) + g mod nb.

(** chase_mpi_properties.hpp:461-465 (block-cyclic constructor): N x (nev+nex) on the p x 1 context of the process's column *)
Definition bc_desc (N p mb rsrc n i : nat) : Z * desc :=
  descinit p 1 i 0 N n mb (Nat.min 32 n) rsrc 0 (fst (numroc N mb i rsrc p)).
(** 752-756 (block constructor), 1030-1035 (automatic block constructor): mb_ and m_ are those of the process, the source is 0 *)
Definition blk_desc (N p ml n i : nat) : Z * desc :=
  descinit p 1 i 0 N n (blk_mb N ml p i) (Nat.min 32 n) 0 0 (blk_size N ml p i).

(** ** The QR factorisation on the process column *)
Section Grid.
Context {F D : Type} (o : sops D) (fo : fops F) (inj : F -> D) (re : D -> F) (oc : oracles D).
Notation loc := (loc (D := D)).

(** rows process k of the p processes stores according to the descriptor *)
Definition sl_rows (p : nat) (d : desc) (k : nat) : nat := fst (numroc (s_m d) (s_mb d) k (s_rsrc d) p).
(** the part of process [rank], column by column (one process column: the local column is the global one) *)
Definition sl_pack (p rank : nat) (d : desc) (A : list D) : res (list D) :=
  for_ (s_n d) 0 (fun c acc => for_ (sl_rows p d rank) 0 (fun r acc => let! x := rd A (r + indxg2l (s_nb d) 1 c * s_lld d) in Ok (acc ++ [x])) acc) [].
(** the parts of all processes *)
Fixpoint sl_parts (p rank : nat) (d : desc) (xs : list D) (todo k : nat) (acc : list (list D)) : prog D (list (list D)) :=
  match todo with
  | O => Ret acc
  | S t => Call ColC (ABcast k (sl_rows p d k * s_n d) (if rank =? k then xs else []))
             (fun r => match r with RNums ys => sl_parts p rank d xs t (S k) (acc ++ [ys]) | RFlag _ => Bad end)
  end.
(** entry (g, c) of the whole array *)
Definition sl_entry (p : nat) (d : desc) (parts : list (list D)) (g c : nat) : res D :=
  let k := indxg2p (s_mb d) (s_rsrc d) p g in
  let! xs := rd parts k in rd xs (indxg2l (s_mb d) p g + c * sl_rows p d k).
Definition sl_whole (p : nat) (d : desc) (parts : list (list D)) : res (list D) :=
  for_ (s_n d) 0 (fun c acc => for_ (s_m d) 0 (fun g acc => let! x := sl_entry p d parts g c in Ok (acc ++ [x])) acc) [].
(** the result: every process writes the entries the descriptor assigns to it *)
Definition sl_store (p rank : nat) (d : desc) (Q : nat -> nat -> D) (A : list D) : res (list D) :=
  for_ (s_n d) 0 (fun c A => for_ (s_m d) 0 (fun g A =>
    if indxg2p (s_mb d) (s_rsrc d) p g =? rank then wr A (indxg2l (s_mb d) p g + indxg2l (s_nb d) 1 c * s_lld d) (Q g c) else Ok A) A) A.
(** chase_mpidla.hpp:1064-1083: t_pgeqrf, t_pgqr with desc1D_Nxnevx_ on C; nothing else changes, no switch is set (in the other branch
    preApplication sets both).  CPU memory: C is matrices_->C().ptr(), so the two copies are skipped. *)
Definition p_hhqr_sl (p : nat) (e : env) (d : desc) (s : loc) : prog D loc :=
  let? xs := local (sl_pack p (e_i e) d (l_C s)) in
  let? parts := sl_parts p (e_i e) d xs p 0 [] in
  let? A := local (sl_whole p d parts) in
  let? C := local (sl_store p (e_i e) d (or_hh oc (s_m d) (s_n d) A) (l_C s)) in
  Ret (with_C s C).
(** every call of the backend built with ScaLAPACK *)
Definition ker_sl (p : nat) (e : env) (t : gtab) (d : desc) (c : call F) : loc -> prog D (answer c * loc) :=
  match c return loc -> prog D (answer c * loc) with
  | QHhqr _ => fun s => let? s := p_hhqr_sl p e d s in Ret (done_ s)
  | c => ker o fo inj re oc e t c
  end.
End Grid.

(** ** The same backend on whole vectors: as [colD], but hhQR does not set the switch *)
Definition slD {F V M G T} (fo : fops F) (bl : blas F V M G T) (n : nat) : dla F cst :=
  let L := colD fo bl true n in {|
  d_sym := d_sym L; d_start := d_start L; d_end := d_end L; d_initrnd := d_initrnd L; d_init := d_init L; d_shift := d_shift L; d_apply := d_apply L;
  d_hhqr := fun _ s => set_C n s (b_hh bl);
  d_chol1 := d_chol1 L; d_chol2 := d_chol2 L; d_schol2 := d_schol2 L; d_lockcopy := d_lockcopy L; d_rr := d_rr L; d_resd := d_resd L; d_swap := d_swap L;
  d_mlanczos := d_mlanczos L; d_dos := d_dos L |}.
