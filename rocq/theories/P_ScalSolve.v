(** Property C82, continued: the theorems of C70 for the library built with ScaLAPACK. *)
From Coq Require Import Permutation Lia.
From mathcomp Require Import all_ssreflect all_algebra all_real_closed.
Require Import Verif.Base Verif.AlgModel Verif.AlgSpec Verif.DlaModel Verif.ColModel Verif.DistSpec Verif.DistModel Verif.RedistSpec Verif.RedistModel Verif.SpmdModel Verif.SpmdSpec
  Verif.KerModel Verif.KerSpec Verif.ClientModel Verif.DsModel Verif.DsSpec Verif.DsProofs8 Verif.ExactSpec Verif.OrthSpec Verif.OrthEx Verif.LapackSpec Verif.LapackSolve Verif.LapackEx
  Verif.ScalModel Verif.ScalSolve.
Set Implicit Arguments. Unset Strict Implicit. Unset Printing Implicit Defensive.
Import GRing.Theory Num.Theory.
Import Verif.ExactSpec Verif.OrthSpec.
Local Open Scope ring_scope.
Local Open Scope complex_scope.

(** C82.  As C70, with QR factorisations through ScaLAPACK, whose factorisation is exact. *)
Theorem C82_grid_ends_with_eigenpairs : forall (R : rcfType) (C : fieldType) (inj : {rmorphism R -> C}) (cj : {rmorphism C -> C}) (e : {rmorphism C -> R[i]}) re
  (fo : fops R) (oc : oracles C) qe td (cf : conf R) N fsort si l0 ritzv resid t (H : 'M[C]_N) (V1 : seq 'cV[C]_N), let n := Nat.add (c_nev cf) (c_nex cf) in
  exact_fops fo -> exact_sqrt fo -> in_complex inj cj e -> cancel inj re -> exact_lapack inj cj re oc N n ->
  hermitian cj H -> length V1 = n -> conf_ok cf -> le 1 (c_maxiter cf) ->
  (forall keys, Permutation (si keys) (List.seq 0 (length keys))) -> keeps_ascending si ->
  is_solver fo qe td (c_nev cf) (c_nex cf) fsort si cf l0 ritzv resid t ->
  forall p q mb nb rsrc csrc ldh tab s out st,
  layout N p q mb nb rsrc csrc -> packable N p q mb nb rsrc csrc -> counts_fit N p q mb nb rsrc csrc n ->
  (forall i j, lt i p -> lt j q -> le (length (owned N mb p rsrc i)) (ldh i j) /\ grid_tab N p q mb nb rsrc csrc i j = Ok (tab i j)) ->
  on_grid (fld cj) N p q mb nb rsrc csrc n ldh (loaded n H V1) s ->
  solve fo (cmK fo qe td (colD fo (gblas (fld cj) fo inj re oc N mb p rsrc) true n) (c_nev cf) (c_nex cf)) fsort si cf (mk_cm l0 (loaded n H V1)) ritzv resid = Ok out ->
  o_exit out = Some st ->
  exists X, size X = n /\ orthonormal cj X /\ spectral_pairs inj cj H (c_nev cf) (o_ritz out) (o_res out) X /\ sums_bounded inj H (c_nev cf) (o_ritz out) /\
  completes +%R p q (fun i j r => (fst (fst (fst r)), snd (fst (fst r))) = (o_ritz out, o_res out) /\ carries (owned N mb p rsrc i) (map (@vfn C N) X) (l_C (snd r)))
    (fun i j => run_proc (ker_sl (fld cj) fo inj re oc p (bc_env N p q mb nb rsrc csrc (ldh i j) n i j) (tab i j) (snd (bc_desc N p mb rsrc n i))) t (s i j)).
Proof. exact grid_run_sl. Qed.
Print Assumptions C82_grid_ends_with_eigenpairs.

(** With a fixed degree and without the symmetry test no run has to be assumed. *)
Theorem C82_fixed_degree_grid_ends_with_eigenpairs : forall (R : rcfType) (C : fieldType) (inj : {rmorphism R -> C}) (cj : {rmorphism C -> C}) (e : {rmorphism C -> R[i]}) re
  (fo : fops R) (oc : oracles C) qe td (cf : conf R) N fsort si l0 ritzv resid t (H : 'M[C]_N) (V1 : seq 'cV[C]_N), let n := Nat.add (c_nev cf) (c_nex cf) in
  exact_fops fo -> exact_sqrt fo -> in_complex inj cj e -> cancel inj re -> exact_lapack inj cj re oc N n ->
  hermitian cj H -> length V1 = n -> conf_ok cf -> le 1 (c_maxiter cf) ->
  (forall keys, Permutation (si keys) (List.seq 0 (length keys))) -> keeps_ascending si ->
  is_solver fo qe td (c_nev cf) (c_nex cf) fsort si cf l0 ritzv resid t ->
  c_opt cf = false -> c_symcheck cf = false -> c_approx cf = true -> (forall l, length (fsort l) = length l) ->
  le n (length ritzv) -> le n (length resid) -> le 2 (c_N cf) -> le 1 (c_lanczositer cf) ->
  forall p q mb nb rsrc csrc ldh tab s,
  layout N p q mb nb rsrc csrc -> packable N p q mb nb rsrc csrc -> counts_fit N p q mb nb rsrc csrc n ->
  (forall i j, lt i p -> lt j q -> le (length (owned N mb p rsrc i)) (ldh i j) /\ grid_tab N p q mb nb rsrc csrc i j = Ok (tab i j)) ->
  on_grid (fld cj) N p q mb nb rsrc csrc n ldh (loaded n H V1) s ->
  exists vals res X, size X = n /\ orthonormal cj X /\ spectral_pairs inj cj H (c_nev cf) vals res X /\ sums_bounded inj H (c_nev cf) vals /\
  completes +%R p q (fun i j r => (fst (fst (fst r)), snd (fst (fst r))) = (vals, res) /\ carries (owned N mb p rsrc i) (map (@vfn C N) X) (l_C (snd r)))
    (fun i j => run_proc (ker_sl (fld cj) fo inj re oc p (bc_env N p q mb nb rsrc csrc (ldh i j) n i j) (tab i j) (snd (bc_desc N p mb rsrc n i))) t (s i j)).
Proof. exact grid_run_sl_total. Qed.
Print Assumptions C82_fixed_degree_grid_ends_with_eigenpairs.

(** The same for block distributions. *)
Theorem C82_blocks_end_with_eigenpairs : forall (R : rcfType) (C : fieldType) (inj : {rmorphism R -> C}) (cj : {rmorphism C -> C}) (e : {rmorphism C -> R[i]}) re
  (fo : fops R) (oc : oracles C) qe td (cf : conf R) N fsort si l0 ritzv resid t (H : 'M[C]_N) (V1 : seq 'cV[C]_N), let n := Nat.add (c_nev cf) (c_nex cf) in
  exact_fops fo -> exact_sqrt fo -> in_complex inj cj e -> cancel inj re -> exact_lapack inj cj re oc N n ->
  hermitian cj H -> length V1 = n -> conf_ok cf -> le 1 (c_maxiter cf) ->
  (forall keys, Permutation (si keys) (List.seq 0 (length keys))) -> keeps_ascending si ->
  is_solver fo qe td (c_nev cf) (c_nex cf) fsort si cf l0 ritzv resid t ->
  forall p q ml nl ldh s out st,
  in_blocks N ml p -> in_blocks N nl q -> blocks_packable N p q ml nl -> block_counts_fit N p q ml nl n ->
  (forall i j, lt i p -> lt j q -> le (length (piece N ml p i)) (ldh i j)) ->
  on_blocks (fld cj) N p q ml nl n ldh (loaded n H V1) s ->
  solve fo (cmK fo qe td (colD fo (gblas (fld cj) fo inj re oc N (blk_mb N ml p 0) p 0) true n) (c_nev cf) (c_nex cf)) fsort si cf (mk_cm l0 (loaded n H V1)) ritzv resid = Ok out ->
  o_exit out = Some st ->
  exists X, size X = n /\ orthonormal cj X /\ spectral_pairs inj cj H (c_nev cf) (o_ritz out) (o_res out) X /\ sums_bounded inj H (c_nev cf) (o_ritz out) /\
  completes +%R p q (fun i j r => (fst (fst (fst r)), snd (fst (fst r))) = (o_ritz out, o_res out) /\ carries (piece N ml p i) (map (@vfn C N) X) (l_C (snd r)))
    (fun i j => run_proc (ker_sl (fld cj) fo inj re oc p (blk_env N p q ml nl (ldh i j) n i j) (blk_tab N p q ml nl i j) (snd (blk_desc N p ml n i))) t (s i j)).
Proof. exact block_run_sl. Qed.
Print Assumptions C82_blocks_end_with_eigenpairs.

Theorem C82_fixed_degree_blocks_end_with_eigenpairs : forall (R : rcfType) (C : fieldType) (inj : {rmorphism R -> C}) (cj : {rmorphism C -> C}) (e : {rmorphism C -> R[i]}) re
  (fo : fops R) (oc : oracles C) qe td (cf : conf R) N fsort si l0 ritzv resid t (H : 'M[C]_N) (V1 : seq 'cV[C]_N), let n := Nat.add (c_nev cf) (c_nex cf) in
  exact_fops fo -> exact_sqrt fo -> in_complex inj cj e -> cancel inj re -> exact_lapack inj cj re oc N n ->
  hermitian cj H -> length V1 = n -> conf_ok cf -> le 1 (c_maxiter cf) ->
  (forall keys, Permutation (si keys) (List.seq 0 (length keys))) -> keeps_ascending si ->
  is_solver fo qe td (c_nev cf) (c_nex cf) fsort si cf l0 ritzv resid t ->
  c_opt cf = false -> c_symcheck cf = false -> c_approx cf = true -> (forall l, length (fsort l) = length l) ->
  le n (length ritzv) -> le n (length resid) -> le 2 (c_N cf) -> le 1 (c_lanczositer cf) ->
  forall p q ml nl ldh s,
  in_blocks N ml p -> in_blocks N nl q -> blocks_packable N p q ml nl -> block_counts_fit N p q ml nl n ->
  (forall i j, lt i p -> lt j q -> le (length (piece N ml p i)) (ldh i j)) ->
  on_blocks (fld cj) N p q ml nl n ldh (loaded n H V1) s ->
  exists vals res X, size X = n /\ orthonormal cj X /\ spectral_pairs inj cj H (c_nev cf) vals res X /\ sums_bounded inj H (c_nev cf) vals /\
  completes +%R p q (fun i j r => (fst (fst (fst r)), snd (fst (fst r))) = (vals, res) /\ carries (piece N ml p i) (map (@vfn C N) X) (l_C (snd r)))
    (fun i j => run_proc (ker_sl (fld cj) fo inj re oc p (blk_env N p q ml nl (ldh i j) n i j) (blk_tab N p q ml nl i j) (snd (blk_desc N p ml n i))) t (s i j)).
Proof. exact block_run_sl_total. Qed.
Print Assumptions C82_fixed_degree_blocks_end_with_eigenpairs.

(** All hypotheses together: any Hermitian 3 x 3 matrix on 2 x 2 processes in pieces of 2, one eigenpair wanted, one extra vector. *)
Local Open Scope nat_scope.
Example C82_example_run : forall (R : rcfType) (H : 'M[complex_numClosedFieldType R]_3) V1 qe td tol, hermitian (cc R) H -> length V1 = 2 -> exists t s vals res X,
  let cf := mk_conf R 3 1 1 tol 10 20 2 3 4 1 false true false in
  is_solver (s_fops R) qe td 1 1 id (@x_sort R) cf 0 (nseq 2 0%R) (nseq 2 0%R) t /\ on_blocks (fld (cc R)) 3 2 2 2 2 2 (fun i _ => length (piece 3 2 2 i)) (loaded 2 H V1) s /\
  size X = 2 /\ orthonormal (cc R) X /\ spectral_pairs (rc R) (cc R) H 1 vals res X /\ sums_bounded (rc R) H 1 vals /\
  completes +%R 2 2 (fun i j r => (fst (fst (fst r)), snd (fst (fst r))) = (vals, res) /\ carries (piece 3 2 2 i) (map (@vfn _ 3) X) (l_C (snd r)))
    (fun i j => run_proc (ker_sl (fld (cc R)) (s_fops R) (rc R) (@complex.Re R) (x_oc R) 2 (blk_env 3 2 2 2 2 (length (piece 3 2 2 i)) 2 i j) (blk_tab 3 2 2 2 2 i j) (snd (blk_desc 3 2 2 2 i))) t (s i j)).
Proof.
move=> R H V1 qe td tol hH hV.
have [t ht] := @solver_exists _ (s_fops R) qe td 1 1 id (@x_sort R) (mk_conf R 3 1 1 tol 10 20 2 3 4 1 false true false) 0 (nseq 2 0%R) (nseq 2 0%R).
have bl : in_blocks 3 2 2 by rewrite /in_blocks /=; repeat split; lia.
have fit : block_counts_fit 3 2 2 2 2 2.
  split; [|split=> //]; by move=> [|[|?]] //= *; lia.
have on := @loaded_on_blocks _ (cc R) 3 2 2 2 2 2 H V1 hV.
have c1 : conf_ok (mk_conf R 3 1 1 tol 10 20 2 3 4 1 false true false) by rewrite /conf_ok /=; repeat split; lia.
have pk : blocks_packable 3 2 2 2 2 by left; split; [|right].
have [|||||||vals [res [X [h1 [h2 [h3 [h4 h5]]]]]]] := @block_run_sl_total R _ (rc R) (cc R) (ci R) _ _ _ qe td (mk_conf R 3 1 1 tol 10 20 2 3 4 1 false true false) 3 id (@x_sort R) 0 (nseq 2 0%R) (nseq 2 0%R) t H V1 (s_exact R) (@s_sqrt R) (x_complex R) (@re_rc R) (x_lapack R (isT : 2 <= 3)%N)
  hH hV c1 _ (@x_sort_perm R) (@x_sort_keeps R) ht erefl erefl erefl _ _ _ _ _ 2 2 2 2 _ _ bl bl pk fit _ on; try by rewrite /=; lia.
by exists t, (fun i j => placed (fld (cc R)) 2 (piece 3 2 2 i) (piece 3 2 2 j) (loaded 2 H V1)), vals, res, X.
Qed.
