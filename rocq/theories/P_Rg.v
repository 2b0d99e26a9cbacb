(** Property C95: one distributed solver object used for several problems. *)
From Coq Require Import Permutation Lia.
From mathcomp Require Import all_ssreflect all_algebra all_real_closed.
Require Import Verif.Base Verif.AlgModel Verif.AlgSpec Verif.DlaModel Verif.ColModel Verif.ReuseSpec Verif.DistSpec Verif.DistModel Verif.RedistSpec Verif.RedistModel Verif.SpmdModel Verif.SpmdSpec
  Verif.FlatSpec Verif.KerModel Verif.KerSpec Verif.ClientModel Verif.DsModel Verif.DsSpec Verif.DsProofs8 Verif.ExactSpec Verif.OrthSpec Verif.OrthEx Verif.LapackSpec Verif.LapackEx
  Verif.ScalModel Verif.RgSpec Verif.RgSpec2 Verif.RgProofs2 Verif.RgProofs4.
Set Implicit Arguments. Unset Strict Implicit. Unset Printing Implicit Defensive.
Import GRing.Theory Num.Theory.
Import Verif.ExactSpec Verif.OrthSpec.
Local Open Scope ring_scope.
Local Open Scope complex_scope.

(** C95.  One solver object on a grid of processes, used for several problems; the arrays hold any leftovers [g] at the start.  If
    every problem, put into a new object, has a run on the whole matrix, every interleaving of the processes completes; each
    process gets for each problem the values and residuals of the new object and its rows of the vectors. *)
Theorem C95_session_on_grid : forall (R : rcfType) (C : fieldType) (inj : {rmorphism R -> C}) (cj : {rmorphism C -> C}) re (fo : fops R) (oc : oracles C) qe td nev nex N fsort si,
  let n := Nat.add nev nex in exact_fops fo -> cancel inj re -> (forall keys, Permutation (si keys) (List.seq 0 (length keys))) ->
  forall (solver : job (F := R) (V := 'cV[C]_N) (M := 'M[C]_N) -> nat -> client R (list R * list R * nat)) (Hp Cp : nat -> nat -> job -> list C) jobs,
  (forall J l, List.In J jobs -> is_solver fo qe td nev nex fsort si (j_conf J) l (j_ritz J) (j_resid J) (solver J l)) ->
  forall p q mb nb rsrc csrc ldh tab l g s,
  let fresh J := solve fo (cmK fo qe td (colD fo (gblas (fld cj) fo inj re oc N mb p rsrc) true n) nev nex) fsort si (j_conf J)
    (mk_cm 0 (loaded n (j_H J) (j_V J))) (j_ritz J) (j_resid J) in
  List.Forall (job_ok true nev nex) jobs ->
  layout N p q mb nb rsrc csrc -> packable N p q mb nb rsrc csrc -> counts_fit N p q mb nb rsrc csrc n -> lt 0 n ->
  (forall i j, lt i p -> lt j q -> le (length (owned N mb p rsrc i)) (ldh i j) /\ grid_tab N p q mb nb rsrc csrc i j = Ok (tab i j)) ->
  on_grid (fld cj) N p q mb nb rsrc csrc n ldh g s ->
  (forall i k, lt i p -> lt k q -> parts_of (@ent C N N) (@vfn C N) (owned N mb p rsrc i) (owned N nb q csrc k) (ldh i k) jobs (Hp i k) (Cp i k)) ->
  (forall J, List.In J jobs -> exists out, fresh J = Ok out) ->
  completes +%R p q (fun i k r => List.Forall2 (fun J a => reports (owned N mb p rsrc i) (fresh J) a) jobs r)
    (fun i k => proc_session (ker (fld cj) fo inj re oc (bc_env N p q mb nb rsrc csrc (ldh i k) n i k) (tab i k)) (parts solver (Hp i k) (Cp i k) jobs) l (s i k)).
Proof. exact grid_session. Qed.
Print Assumptions C95_session_on_grid.

(** The same for block distributions. *)
Theorem C95_session_on_blocks : forall (R : rcfType) (C : fieldType) (inj : {rmorphism R -> C}) (cj : {rmorphism C -> C}) re (fo : fops R) (oc : oracles C) qe td nev nex N fsort si,
  let n := Nat.add nev nex in exact_fops fo -> cancel inj re -> (forall keys, Permutation (si keys) (List.seq 0 (length keys))) ->
  forall (solver : job (F := R) (V := 'cV[C]_N) (M := 'M[C]_N) -> nat -> client R (list R * list R * nat)) (Hp Cp : nat -> nat -> job -> list C) jobs,
  (forall J l, List.In J jobs -> is_solver fo qe td nev nex fsort si (j_conf J) l (j_ritz J) (j_resid J) (solver J l)) ->
  forall p q ml nl ldh l g s,
  let fresh J := solve fo (cmK fo qe td (colD fo (gblas (fld cj) fo inj re oc N (blk_mb N ml p 0) p 0) true n) nev nex) fsort si (j_conf J)
    (mk_cm 0 (loaded n (j_H J) (j_V J))) (j_ritz J) (j_resid J) in
  List.Forall (job_ok true nev nex) jobs ->
  in_blocks N ml p -> in_blocks N nl q -> blocks_packable N p q ml nl -> block_counts_fit N p q ml nl n -> lt 0 n ->
  (forall i j, lt i p -> lt j q -> le (length (piece N ml p i)) (ldh i j)) ->
  on_blocks (fld cj) N p q ml nl n ldh g s ->
  (forall i k, lt i p -> lt k q -> parts_of (@ent C N N) (@vfn C N) (piece N ml p i) (piece N nl q k) (ldh i k) jobs (Hp i k) (Cp i k)) ->
  (forall J, List.In J jobs -> exists out, fresh J = Ok out) ->
  completes +%R p q (fun i k r => List.Forall2 (fun J a => reports (piece N ml p i) (fresh J) a) jobs r)
    (fun i k => proc_session (ker (fld cj) fo inj re oc (blk_env N p q ml nl (ldh i k) n i k) (blk_tab N p q ml nl i k)) (parts solver (Hp i k) (Cp i k) jobs) l (s i k)).
Proof. exact block_session. Qed.
Print Assumptions C95_session_on_blocks.

(** With exact library calls, a fixed degree and no symmetry test no run has to be assumed: for each problem there are one set of
    values, residuals and orthonormal vectors, to which they belong, and every process reports these and its rows of the vectors. *)
Theorem C95_session_on_grid_eigenpairs : forall (R : rcfType) (C : fieldType) (inj : {rmorphism R -> C}) (cj : {rmorphism C -> C}) re (fo : fops R) (oc : oracles C) qe td nev nex N fsort si,
  let n := Nat.add nev nex in exact_fops fo -> cancel inj re -> (forall keys, Permutation (si keys) (List.seq 0 (length keys))) ->
  forall (solver : job (F := R) (V := 'cV[C]_N) (M := 'M[C]_N) -> nat -> client R (list R * list R * nat)) (Hp Cp : nat -> nat -> job -> list C) jobs,
  (forall J l, List.In J jobs -> is_solver fo qe td nev nex fsort si (j_conf J) l (j_ritz J) (j_resid J) (solver J l)) ->
  forall (e : {rmorphism C -> R[i]}), exact_sqrt fo -> in_complex inj cj e -> exact_lapack inj cj re oc N n -> keeps_ascending si -> (forall l, length (fsort l) = length l) ->
  List.Forall (hjob_ok cj nev nex) jobs ->
  forall p q mb nb rsrc csrc ldh tab l g s,
  layout N p q mb nb rsrc csrc -> packable N p q mb nb rsrc csrc -> counts_fit N p q mb nb rsrc csrc n -> lt 0 n ->
  (forall i j, lt i p -> lt j q -> le (length (owned N mb p rsrc i)) (ldh i j) /\ grid_tab N p q mb nb rsrc csrc i j = Ok (tab i j)) ->
  on_grid (fld cj) N p q mb nb rsrc csrc n ldh g s ->
  (forall i k, lt i p -> lt k q -> parts_of (@ent C N N) (@vfn C N) (owned N mb p rsrc i) (owned N nb q csrc k) (ldh i k) jobs (Hp i k) (Cp i k)) ->
  exists ans, List.Forall2 (solves_job inj cj nev nex) jobs ans /\
  completes +%R p q (fun i k r => List.Forall2 (reports_part (owned N mb p rsrc i)) ans r)
    (fun i k => proc_session (ker (fld cj) fo inj re oc (bc_env N p q mb nb rsrc csrc (ldh i k) n i k) (tab i k)) (parts solver (Hp i k) (Cp i k) jobs) l (s i k)).
Proof. exact grid_session_exact. Qed.
Print Assumptions C95_session_on_grid_eigenpairs.

(** The same for block distributions. *)
Theorem C95_session_on_blocks_eigenpairs : forall (R : rcfType) (C : fieldType) (inj : {rmorphism R -> C}) (cj : {rmorphism C -> C}) re (fo : fops R) (oc : oracles C) qe td nev nex N fsort si,
  let n := Nat.add nev nex in exact_fops fo -> cancel inj re -> (forall keys, Permutation (si keys) (List.seq 0 (length keys))) ->
  forall (solver : job (F := R) (V := 'cV[C]_N) (M := 'M[C]_N) -> nat -> client R (list R * list R * nat)) (Hp Cp : nat -> nat -> job -> list C) jobs,
  (forall J l, List.In J jobs -> is_solver fo qe td nev nex fsort si (j_conf J) l (j_ritz J) (j_resid J) (solver J l)) ->
  forall (e : {rmorphism C -> R[i]}), exact_sqrt fo -> in_complex inj cj e -> exact_lapack inj cj re oc N n -> keeps_ascending si -> (forall l, length (fsort l) = length l) ->
  List.Forall (hjob_ok cj nev nex) jobs ->
  forall p q ml nl ldh l g s,
  in_blocks N ml p -> in_blocks N nl q -> blocks_packable N p q ml nl -> block_counts_fit N p q ml nl n -> lt 0 n ->
  (forall i j, lt i p -> lt j q -> le (length (piece N ml p i)) (ldh i j)) ->
  on_blocks (fld cj) N p q ml nl n ldh g s ->
  (forall i k, lt i p -> lt k q -> parts_of (@ent C N N) (@vfn C N) (piece N ml p i) (piece N nl q k) (ldh i k) jobs (Hp i k) (Cp i k)) ->
  exists ans, List.Forall2 (solves_job inj cj nev nex) jobs ans /\
  completes +%R p q (fun i k r => List.Forall2 (reports_part (piece N ml p i)) ans r)
    (fun i k => proc_session (ker (fld cj) fo inj re oc (blk_env N p q ml nl (ldh i k) n i k) (blk_tab N p q ml nl i k)) (parts solver (Hp i k) (Cp i k) jobs) l (s i k)).
Proof. exact block_session_exact. Qed.
Print Assumptions C95_session_on_blocks_eigenpairs.

(** The library built with ScaLAPACK, in which the Householder QR does not set the direction of the next product: the object is new or
    has been used for such runs, so its switch is set.  The answers are those of the library without ScaLAPACK. *)
Theorem C95_scalapack_session_on_grid : forall (R : rcfType) (C : fieldType) (inj : {rmorphism R -> C}) (cj : {rmorphism C -> C}) re (fo : fops R) (oc : oracles C) qe td nev nex N fsort si,
  let n := Nat.add nev nex in exact_fops fo -> cancel inj re -> (forall keys, Permutation (si keys) (List.seq 0 (length keys))) ->
  forall (solver : job (F := R) (V := 'cV[C]_N) (M := 'M[C]_N) -> nat -> client R (list R * list R * nat)) (Hp Cp : nat -> nat -> job -> list C) jobs,
  (forall J l, List.In J jobs -> is_solver fo qe td nev nex fsort si (j_conf J) l (j_ritz J) (j_resid J) (solver J l)) ->
  forall p q mb nb rsrc csrc ldh tab l g s,
  let fresh J := solve fo (cmK fo qe td (colD fo (gblas (fld cj) fo inj re oc N mb p rsrc) true n) nev nex) fsort si (j_conf J)
    (mk_cm 0 (loaded n (j_H J) (j_V J))) (j_ritz J) (j_resid J) in
  List.Forall (job_ok true nev nex) jobs ->
  layout N p q mb nb rsrc csrc -> packable N p q mb nb rsrc csrc -> counts_fit N p q mb nb rsrc csrc n ->
  (forall i j, lt i p -> lt j q -> le (length (owned N mb p rsrc i)) (ldh i j) /\ grid_tab N p q mb nb rsrc csrc i j = Ok (tab i j)) ->
  on_grid (fld cj) N p q mb nb rsrc csrc n ldh g s -> cs_bAc g = true ->
  (forall i k, lt i p -> lt k q -> parts_of (@ent C N N) (@vfn C N) (owned N mb p rsrc i) (owned N nb q csrc k) (ldh i k) jobs (Hp i k) (Cp i k)) ->
  (forall J, List.In J jobs -> exists out, fresh J = Ok out) ->
  completes +%R p q (fun i k r => List.Forall2 (fun J a => reports (owned N mb p rsrc i) (fresh J) a) jobs r)
    (fun i k => proc_session (ker_sl (fld cj) fo inj re oc p (bc_env N p q mb nb rsrc csrc (ldh i k) n i k) (tab i k) (snd (bc_desc N p mb rsrc n i))) (parts solver (Hp i k) (Cp i k) jobs) l (s i k)).
Proof. exact grid_session_sl. Qed.
Print Assumptions C95_scalapack_session_on_grid.

(** The same for block distributions. *)
Theorem C95_scalapack_session_on_blocks : forall (R : rcfType) (C : fieldType) (inj : {rmorphism R -> C}) (cj : {rmorphism C -> C}) re (fo : fops R) (oc : oracles C) qe td nev nex N fsort si,
  let n := Nat.add nev nex in exact_fops fo -> cancel inj re -> (forall keys, Permutation (si keys) (List.seq 0 (length keys))) ->
  forall (solver : job (F := R) (V := 'cV[C]_N) (M := 'M[C]_N) -> nat -> client R (list R * list R * nat)) (Hp Cp : nat -> nat -> job -> list C) jobs,
  (forall J l, List.In J jobs -> is_solver fo qe td nev nex fsort si (j_conf J) l (j_ritz J) (j_resid J) (solver J l)) ->
  forall p q ml nl ldh l g s,
  let fresh J := solve fo (cmK fo qe td (colD fo (gblas (fld cj) fo inj re oc N (blk_mb N ml p 0) p 0) true n) nev nex) fsort si (j_conf J)
    (mk_cm 0 (loaded n (j_H J) (j_V J))) (j_ritz J) (j_resid J) in
  List.Forall (job_ok true nev nex) jobs ->
  in_blocks N ml p -> in_blocks N nl q -> blocks_packable N p q ml nl -> block_counts_fit N p q ml nl n ->
  (forall i j, lt i p -> lt j q -> le (length (piece N ml p i)) (ldh i j)) ->
  on_blocks (fld cj) N p q ml nl n ldh g s -> cs_bAc g = true ->
  (forall i k, lt i p -> lt k q -> parts_of (@ent C N N) (@vfn C N) (piece N ml p i) (piece N nl q k) (ldh i k) jobs (Hp i k) (Cp i k)) ->
  (forall J, List.In J jobs -> exists out, fresh J = Ok out) ->
  completes +%R p q (fun i k r => List.Forall2 (fun J a => reports (piece N ml p i) (fresh J) a) jobs r)
    (fun i k => proc_session (ker_sl (fld cj) fo inj re oc p (blk_env N p q ml nl (ldh i k) n i k) (blk_tab N p q ml nl i k) (snd (blk_desc N p ml n i))) (parts solver (Hp i k) (Cp i k) jobs) l (s i k)).
Proof. exact block_session_sl. Qed.
Print Assumptions C95_scalapack_session_on_blocks.

(** With exact library calls. *)
Theorem C95_scalapack_session_on_grid_eigenpairs : forall (R : rcfType) (C : fieldType) (inj : {rmorphism R -> C}) (cj : {rmorphism C -> C}) re (fo : fops R) (oc : oracles C) qe td nev nex N fsort si,
  let n := Nat.add nev nex in exact_fops fo -> cancel inj re -> (forall keys, Permutation (si keys) (List.seq 0 (length keys))) ->
  forall (solver : job (F := R) (V := 'cV[C]_N) (M := 'M[C]_N) -> nat -> client R (list R * list R * nat)) (Hp Cp : nat -> nat -> job -> list C) jobs,
  (forall J l, List.In J jobs -> is_solver fo qe td nev nex fsort si (j_conf J) l (j_ritz J) (j_resid J) (solver J l)) ->
  forall (e : {rmorphism C -> R[i]}), exact_sqrt fo -> in_complex inj cj e -> exact_lapack inj cj re oc N n -> keeps_ascending si -> (forall l, length (fsort l) = length l) ->
  List.Forall (hjob_ok cj nev nex) jobs ->
  forall p q mb nb rsrc csrc ldh tab l g s,
  layout N p q mb nb rsrc csrc -> packable N p q mb nb rsrc csrc -> counts_fit N p q mb nb rsrc csrc n ->
  (forall i j, lt i p -> lt j q -> le (length (owned N mb p rsrc i)) (ldh i j) /\ grid_tab N p q mb nb rsrc csrc i j = Ok (tab i j)) ->
  on_grid (fld cj) N p q mb nb rsrc csrc n ldh g s -> cs_bAc g = true ->
  (forall i k, lt i p -> lt k q -> parts_of (@ent C N N) (@vfn C N) (owned N mb p rsrc i) (owned N nb q csrc k) (ldh i k) jobs (Hp i k) (Cp i k)) ->
  exists ans, List.Forall2 (solves_job inj cj nev nex) jobs ans /\
  completes +%R p q (fun i k r => List.Forall2 (reports_part (owned N mb p rsrc i)) ans r)
    (fun i k => proc_session (ker_sl (fld cj) fo inj re oc p (bc_env N p q mb nb rsrc csrc (ldh i k) n i k) (tab i k) (snd (bc_desc N p mb rsrc n i))) (parts solver (Hp i k) (Cp i k) jobs) l (s i k)).
Proof. exact grid_session_sl_exact. Qed.
Print Assumptions C95_scalapack_session_on_grid_eigenpairs.

(** The same for block distributions. *)
Theorem C95_scalapack_session_on_blocks_eigenpairs : forall (R : rcfType) (C : fieldType) (inj : {rmorphism R -> C}) (cj : {rmorphism C -> C}) re (fo : fops R) (oc : oracles C) qe td nev nex N fsort si,
  let n := Nat.add nev nex in exact_fops fo -> cancel inj re -> (forall keys, Permutation (si keys) (List.seq 0 (length keys))) ->
  forall (solver : job (F := R) (V := 'cV[C]_N) (M := 'M[C]_N) -> nat -> client R (list R * list R * nat)) (Hp Cp : nat -> nat -> job -> list C) jobs,
  (forall J l, List.In J jobs -> is_solver fo qe td nev nex fsort si (j_conf J) l (j_ritz J) (j_resid J) (solver J l)) ->
  forall (e : {rmorphism C -> R[i]}), exact_sqrt fo -> in_complex inj cj e -> exact_lapack inj cj re oc N n -> keeps_ascending si -> (forall l, length (fsort l) = length l) ->
  List.Forall (hjob_ok cj nev nex) jobs ->
  forall p q ml nl ldh l g s,
  in_blocks N ml p -> in_blocks N nl q -> blocks_packable N p q ml nl -> block_counts_fit N p q ml nl n ->
  (forall i j, lt i p -> lt j q -> le (length (piece N ml p i)) (ldh i j)) ->
  on_blocks (fld cj) N p q ml nl n ldh g s -> cs_bAc g = true ->
  (forall i k, lt i p -> lt k q -> parts_of (@ent C N N) (@vfn C N) (piece N ml p i) (piece N nl q k) (ldh i k) jobs (Hp i k) (Cp i k)) ->
  exists ans, List.Forall2 (solves_job inj cj nev nex) jobs ans /\
  completes +%R p q (fun i k r => List.Forall2 (reports_part (piece N ml p i)) ans r)
    (fun i k => proc_session (ker_sl (fld cj) fo inj re oc p (blk_env N p q ml nl (ldh i k) n i k) (blk_tab N p q ml nl i k) (snd (blk_desc N p ml n i))) (parts solver (Hp i k) (Cp i k) jobs) l (s i k)).
Proof. exact block_session_sl_exact. Qed.
Print Assumptions C95_scalapack_session_on_blocks_eigenpairs.

(** All hypotheses together: two Hermitian 3 x 3 problems, one after the other, on 2 x 2 processes in pieces of 2 whose arrays hold the
    parts of a third problem and of which 2 columns are locked. *)
Local Open Scope nat_scope.
Example C95_example : forall (R : rcfType) (H0 H1 H2 : 'M[complex_numClosedFieldType R]_3) V0 V1 V2 (qe : qr_env R) (td : tridiag R) tol,
  hermitian (cc R) H1 -> hermitian (cc R) H2 -> length V0 = 2 -> length V1 = 2 -> length V2 = 2 ->
  let cf := mk_conf R 3 1 1 tol 10 20 2 3 4 1 false true false in let z := nseq 2 (0%R : R) in
  let jobs := [:: mk_job cf H1 V1 z z; mk_job cf H2 V2 z z] in
  let at_ J i k := placed (fld (cc R)) 2 (piece 3 2 2 i) (piece 3 2 2 k) J in
  exists solver vals1 res1 X1 vals2 res2 X2,
  size X1 = 2 /\ orthonormal (cc R) X1 /\ spectral_pairs (rc R) (cc R) H1 1 vals1 res1 X1 /\
  size X2 = 2 /\ orthonormal (cc R) X2 /\ spectral_pairs (rc R) (cc R) H2 1 vals2 res2 X2 /\
  completes +%R 2 2 (fun i k r => exists b1 b2, r = [:: (vals1, res1, b1); (vals2, res2, b2)] /\
      carries (piece 3 2 2 i) (map (@vfn _ 3) X1) b1 /\ carries (piece 3 2 2 i) (map (@vfn _ 3) X2) b2)
    (fun i k => proc_session (ker (fld (cc R)) (s_fops R) (rc R) (@complex.Re R) (x_oc R) (blk_env 3 2 2 2 2 (length (piece 3 2 2 i)) 2 i k) (blk_tab 3 2 2 2 2 i k))
       (parts solver (fun J => l_H (at_ (loaded 2 (j_H J) (j_V J)) i k)) (fun J => l_C (at_ (loaded 2 (j_H J) (j_V J)) i k)) jobs) 2 (at_ (loaded 2 H0 V0) i k)).
Proof.
move=> R H0 H1 H2 V0 V1 V2 qe td tol h1 h2 l0 l1 l2 cf z jobs at_.
pose solver (J : job (F := R) (V := 'cV[complex_numClosedFieldType R]_3) (M := 'M[complex_numClosedFieldType R]_3)) l :=
  SolveClient.solver_program (s_fops R) qe td 1 1 id (@x_sort R) (j_conf J) l (j_ritz J) (j_resid J).
have bl : in_blocks 3 2 2 by rewrite /in_blocks /=; repeat split; lia.
have fit : block_counts_fit 3 2 2 2 2 2.
  split; [|split=> //]; by move=> [|[|?]] //= *; lia.
have pk : blocks_packable 3 2 2 2 2 by left; split; [|right].
have c1 : conf_ok cf by rewrite /conf_ok /=; repeat split; lia.
have ok : List.Forall (hjob_ok (cc R) 1 1) jobs.
  by constructor; [|constructor; [|constructor]]; do ! split=> //=; lia.
have pa : forall i k, lt i 2 -> lt k 2 -> parts_of (@ent _ 3 3) (@vfn _ 3) (piece 3 2 2 i) (piece 3 2 2 k) (length (piece 3 2 2 i)) jobs
    (fun J => l_H (at_ (loaded 2 (j_H J) (j_V J)) i k)) (fun J => l_C (at_ (loaded 2 (j_H J) (j_V J)) i k)).
  move=> i k hi hk J [<-|[<-|[]]] /=.
  - by have [a [_ b] _ _ _ _ _] := @loaded_on_blocks _ (cc R) 3 2 2 2 2 2 H1 V1 l1 i k hi hk.
  - by have [a [_ b] _ _ _ _ _] := @loaded_on_blocks _ (cc R) 3 2 2 2 2 2 H2 V2 l2 i k hi hk.
have T : forall J l, List.In J jobs -> is_solver (s_fops R) qe td 1 1 id (@x_sort R) (j_conf J) l (j_ritz J) (j_resid J) (solver J l).
  by move=> J l _; apply: SolveClient.solver_program_ok.
have [||ans [A Cp]] := @block_session_exact R _ (rc R) (cc R) (@complex.Re R) (s_fops R) (x_oc R) qe td 1 1 3 id (@x_sort R) (s_exact R) (@re_rc R) (@x_sort_perm R) solver _ _ jobs T
  (ci R) (@s_sqrt R) (x_complex R) (x_lapack R (isT : 2 <= 3)%N) (@x_sort_keeps R) (fun _ => erefl) ok 2 2 2 2 (fun i _ => length (piece 3 2 2 i)) 2 (loaded 2 H0 V0)
  (fun i k => at_ (loaded 2 H0 V0) i k) bl bl pk fit _ _ (@loaded_on_blocks _ (cc R) 3 2 2 2 2 2 H0 V0 l0) pa; try by rewrite /=; lia.
inversion A as [|? [[v1 r1] X1] ? ans1 [S1 [S2 [S3 _]]] A1]; subst.
inversion A1 as [|? [[v2 r2] X2] ? ans2 [T1 [T2 [T3 _]]] A2]; subst; inversion A2; subst.
exists solver, v1, r1, X1, v2, r2, X2; do 6 (split=> //).
apply: KerProofs9.completes_mono Cp => i k r hi hk B.
inversion B as [|? [[w1 q1] b1] ? r' [C1 C2] B1]; subst; inversion B1 as [|? [[w2 q2] b2] ? r'' [D1 D2] B2]; subst; inversion B2; subst.
by exists b1, b2; move: C1 D1 => /= [-> ->] [-> ->].
Qed.
