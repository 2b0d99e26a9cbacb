(** Property C81: the solver stops once the block is near enough, in exact arithmetic. *)
From Coq Require Import Permutation ZArith.
From mathcomp Require Import all_ssreflect all_algebra all_real_closed.
Require Import Verif.Base Verif.AlgModel Verif.AlgSpec Verif.DlaModel Verif.ColModel Verif.ColSpec Verif.ExactSpec Verif.ExactEx Verif.OrthSpec Verif.OrthEx Verif.ConvSpec Verif.ApproxSpec
  Verif.StopSpec Verif.ResidSpec Verif.StopSolve Verif.StopFinal Verif.StopEx.
Set Implicit Arguments. Unset Strict Implicit. Unset Printing Implicit Defensive.
Import Order.TTheory GRing.Theory Num.Theory.
Local Open Scope ring_scope.

Notation mpiK fo bl qe td cf := (cmK fo qe td (colD fo bl true (Nat.add (c_nev cf) (c_nex cf))) (c_nev cf) (c_nex cf)).
Notation stopK fo bl qe td cf := (cmK fo qe td (stop_late (late_failure bl (Nat.add (c_nev cf) (c_nex cf))) (colD fo bl false (Nat.add (c_nev cf) (c_nex cf)))) (c_nev cf) (c_nex cf)).
Notation mpiS bl cf l0 H V1 := (mk_cm l0 (mpi_state bl (c_nev cf) (c_nex cf) H V1)).
Notation stopS bl cf l0 H V1 := (mk_cm l0 (seq_state bl (c_nev cf) (c_nex cf) H V1)).

(** once T iterations are enough by the a-priori bound, the solve ends within T iterations with every wanted pair locked; runs that lock
    only a part of the wanted pairs earlier are left out *)
Theorem C81_mpi_stops : forall (R : rcfType) (C : fieldType) (inj : {rmorphism R -> C}) (cj : {rmorphism C -> C}) (e : {rmorphism C -> R[i]}) (N1 : nat) (G : Type)
  (fo : fops R) (bl : blas R 'cV[C]_N1.+1 'M[C]_N1.+1 G C) qe td (cf : conf R) sort_idx (H : 'M[C]_N1.+1) fsort l0 (V1 : list 'cV[C]_N1.+1) ritzv resid,
  let n := Nat.add (c_nev cf) (c_nex cf) in let d := Nat.min (Nat.add (c_deg cf) (Nat.modulo (c_deg cf) 2)) (c_maxdeg cf) in
  (forall keys, Permutation (sort_idx keys) (List.seq 0 (length keys))) ->
  exact_fops fo -> exact_mv inj cj bl -> exact_qr cj bl n -> exact_rr inj cj bl H n -> hermitian cj H -> in_complex inj cj e ->
  exact_vec inj cj bl -> ordered_rr cj bl H n -> length V1 = n -> conf_ok cf -> le 1 (c_maxiter cf) -> (forall x y, f_lt fo x y = (x < y)) ->
  forall us ls m Y, eigenbasis inj cj H us ls -> (c_nev cf <= m)%N -> (m <= n)%N -> 0 <= c_tol cf -> forall ub s0 o s T, let k := mpiS bl cf l0 H V1 in let V0 := cs_C (cm_dla (ss_k s0)) in
  entered fo (mpiK fo bl qe td cf) fsort cf k ritzv resid ub s0 -> splits ls m (ss_lambda s0) (ss_lowerb s0) ub -> reaches cj us V0 m Y ->
  le 1 T -> le T (c_maxiter cf) -> (c_opt cf = true -> T = 1%N) -> budget ls m (ss_lowerb s0) ub (total_err cj e us ls V0 Y (ss_lowerb s0) ub d T m) <= c_tol cf ^+ 2 ->
  (forall h t, run fo (mpiK fo bl qe td cf) sort_idx cf ub s0 h t -> lt (length h) T -> ss_locked t = 0%N \/ ss_locked t = c_nev cf) ->
  solve fo (mpiK fo bl qe td cf) fsort sort_idx cf k ritzv resid = Ok o -> o_exit o = Some s ->
  ss_locked s = c_nev cf /\ le (ss_iter s) T /\ (ss_iter s = T -> {in take (c_nev cf) (o_res o), forall r, r <= c_tol cf}).
Proof. exact mpi_stops. Qed.
Print Assumptions C81_mpi_stops.

(** nothing is left out if one iteration is enough; the residuals returned are within the tolerance *)
Theorem C81_mpi_one_iteration : forall (R : rcfType) (C : fieldType) (inj : {rmorphism R -> C}) (cj : {rmorphism C -> C}) (e : {rmorphism C -> R[i]}) (N1 : nat) (G : Type)
  (fo : fops R) (bl : blas R 'cV[C]_N1.+1 'M[C]_N1.+1 G C) qe td (cf : conf R) sort_idx (H : 'M[C]_N1.+1) fsort l0 (V1 : list 'cV[C]_N1.+1) ritzv resid,
  let n := Nat.add (c_nev cf) (c_nex cf) in let d := Nat.min (Nat.add (c_deg cf) (Nat.modulo (c_deg cf) 2)) (c_maxdeg cf) in
  (forall keys, Permutation (sort_idx keys) (List.seq 0 (length keys))) ->
  exact_fops fo -> exact_mv inj cj bl -> exact_qr cj bl n -> exact_rr inj cj bl H n -> hermitian cj H -> in_complex inj cj e ->
  exact_vec inj cj bl -> ordered_rr cj bl H n -> length V1 = n -> conf_ok cf -> le 1 (c_maxiter cf) -> (forall x y, f_lt fo x y = (x < y)) ->
  forall us ls m Y, eigenbasis inj cj H us ls -> (c_nev cf <= m)%N -> (m <= n)%N -> 0 <= c_tol cf -> forall ub s0 o s, let k := mpiS bl cf l0 H V1 in let V0 := cs_C (cm_dla (ss_k s0)) in
  entered fo (mpiK fo bl qe td cf) fsort cf k ritzv resid ub s0 -> splits ls m (ss_lambda s0) (ss_lowerb s0) ub -> reaches cj us V0 m Y ->
  budget ls m (ss_lowerb s0) ub (total_err cj e us ls V0 Y (ss_lowerb s0) ub d 1 m) <= c_tol cf ^+ 2 ->
  solve fo (mpiK fo bl qe td cf) fsort sort_idx cf k ritzv resid = Ok o -> o_exit o = Some s ->
  ss_locked s = c_nev cf /\ ss_iter s = 1%N /\ {in take (c_nev cf) (o_res o), forall r, r <= c_tol cf}.
Proof. exact mpi_stops1. Qed.
Print Assumptions C81_mpi_one_iteration.

(** nor if one pair is wanted *)
Theorem C81_mpi_single_pair : forall (R : rcfType) (C : fieldType) (inj : {rmorphism R -> C}) (cj : {rmorphism C -> C}) (e : {rmorphism C -> R[i]}) (N1 : nat) (G : Type)
  (fo : fops R) (bl : blas R 'cV[C]_N1.+1 'M[C]_N1.+1 G C) qe td (cf : conf R) sort_idx (H : 'M[C]_N1.+1) fsort l0 (V1 : list 'cV[C]_N1.+1) ritzv resid,
  let n := Nat.add (c_nev cf) (c_nex cf) in let d := Nat.min (Nat.add (c_deg cf) (Nat.modulo (c_deg cf) 2)) (c_maxdeg cf) in
  (forall keys, Permutation (sort_idx keys) (List.seq 0 (length keys))) ->
  exact_fops fo -> (forall x y, f_lt fo x y = (x < y)) -> exact_mv inj cj bl -> exact_qr cj bl n -> exact_rr inj cj bl H n ->
  exact_vec inj cj bl -> ordered_rr cj bl H n -> hermitian cj H -> in_complex inj cj e -> length V1 = n -> conf_ok cf ->
  forall us ls m Y, eigenbasis inj cj H us ls -> (c_nev cf <= m)%N -> (m <= n)%N -> 0 <= c_tol cf -> le 1 (c_maxiter cf) ->
  forall ub s0 o s T, let k := mpiS bl cf l0 H V1 in let V0 := cs_C (cm_dla (ss_k s0)) in c_nev cf = 1%N ->
  entered fo (mpiK fo bl qe td cf) fsort cf k ritzv resid ub s0 -> splits ls m (ss_lambda s0) (ss_lowerb s0) ub -> reaches cj us V0 m Y ->
  le 1 T -> le T (c_maxiter cf) -> (c_opt cf = true -> T = 1%N) -> budget ls m (ss_lowerb s0) ub (total_err cj e us ls V0 Y (ss_lowerb s0) ub d T m) <= c_tol cf ^+ 2 ->
  solve fo (mpiK fo bl qe td cf) fsort sort_idx cf k ritzv resid = Ok o -> o_exit o = Some s ->
  ss_locked s = 1%N /\ le (ss_iter s) T /\ (ss_iter s = T -> {in take (c_nev cf) (o_res o), forall r, r <= c_tol cf}).
Proof. exact mpi_stops_one. Qed.
Print Assumptions C81_mpi_single_pair.

(** enough iterations always exist: with a positive tolerance and without degree optimisation, the pair is found if the iteration limit is large enough *)
Theorem C81_mpi_eventually : forall (R : rcfType) (C : fieldType) (inj : {rmorphism R -> C}) (cj : {rmorphism C -> C}) (e : {rmorphism C -> R[i]}) (N1 : nat) (G : Type)
  (fo : fops R) (bl : blas R 'cV[C]_N1.+1 'M[C]_N1.+1 G C) qe td (cf : conf R) sort_idx (H : 'M[C]_N1.+1) fsort l0 (V1 : list 'cV[C]_N1.+1) ritzv resid,
  let n := Nat.add (c_nev cf) (c_nex cf) in (forall keys, Permutation (sort_idx keys) (List.seq 0 (length keys))) ->
  exact_fops fo -> (forall x y, f_lt fo x y = (x < y)) -> exact_mv inj cj bl -> exact_qr cj bl n -> exact_rr inj cj bl H n ->
  exact_vec inj cj bl -> ordered_rr cj bl H n -> hermitian cj H -> in_complex inj cj e -> length V1 = n -> conf_ok cf ->
  forall us ls m Y, eigenbasis inj cj H us ls -> (c_nev cf <= m)%N -> (m <= n)%N -> forall ub s0, let k := mpiS bl cf l0 H V1 in let V0 := cs_C (cm_dla (ss_k s0)) in
  archimedean R -> 0 < c_tol cf -> c_nev cf = 1%N -> c_opt cf = false ->
  entered fo (mpiK fo bl qe td cf) fsort cf k ritzv resid ub s0 -> splits ls m (ss_lambda s0) (ss_lowerb s0) ub -> reaches cj us V0 m Y ->
  exists T, forall M o s, le T M -> solve fo (mpiK fo bl qe td cf) fsort sort_idx (with_maxiter cf M) k ritzv resid = Ok o -> o_exit o = Some s -> ss_locked s = 1%N /\ le (ss_iter s) T.
Proof. exact mpi_eventually. Qed.
Print Assumptions C81_mpi_eventually.

(** restart in approximate mode with the exact values (in any order) and a block that contains the exact wanted vectors: one iteration *)
Theorem C81_mpi_restart : forall (R : rcfType) (C : fieldType) (inj : {rmorphism R -> C}) (cj : {rmorphism C -> C}) (e : {rmorphism C -> R[i]}) (N1 : nat) (G : Type)
  (fo : fops R) (bl : blas R 'cV[C]_N1.+1 'M[C]_N1.+1 G C) qe td (cf : conf R) sort_idx (H : 'M[C]_N1.+1) fsort l0 (V1 : list 'cV[C]_N1.+1) ritzv resid,
  let n := Nat.add (c_nev cf) (c_nex cf) in (forall keys, Permutation (sort_idx keys) (List.seq 0 (length keys))) ->
  exact_fops fo -> (forall x y, f_lt fo x y = (x < y)) -> exact_mv inj cj bl -> exact_qr cj bl n -> exact_rr inj cj bl H n ->
  exact_vec inj cj bl -> ordered_rr cj bl H n -> hermitian cj H -> in_complex inj cj e -> length V1 = n -> conf_ok cf ->
  le 1 (c_maxiter cf) -> forall us ls m, eigenbasis inj cj H us ls -> (c_nev cf <= m)%N -> (m < n)%N -> (n <= N1.+1)%N -> 0 <= c_tol cf ->
  c_approx cf = true -> perm_eq (take n ritzv) (take n ls) -> ls`_m.-1 < ls`_m -> ls`_m = ls`_n.-1 -> (forall i, (i < m)%N -> in_span V1 us`_i) ->
  forall ub s0 o s, let k := mpiS bl cf l0 H V1 in entered fo (mpiK fo bl qe td cf) fsort cf k ritzv resid ub s0 -> ls`_n.-1 < ub -> (forall x, x \in ls -> x <= ub) ->
  solve fo (mpiK fo bl qe td cf) fsort sort_idx cf k ritzv resid = Ok o -> o_exit o = Some s ->
  ss_locked s = c_nev cf /\ ss_iter s = 1%N /\ {in take (c_nev cf) (o_res o), forall r, r <= c_tol cf}.
Proof. exact mpi_restart. Qed.
Print Assumptions C81_mpi_restart.

(** the same for Seq, provided the shifted Cholesky QR does not meet a second factorisation that fails *)
Theorem C81_seq_stops : forall (R : rcfType) (C : fieldType) (inj : {rmorphism R -> C}) (cj : {rmorphism C -> C}) (e : {rmorphism C -> R[i]}) (N1 : nat) (G : Type)
  (fo : fops R) (bl : blas R 'cV[C]_N1.+1 'M[C]_N1.+1 G C) qe td (cf : conf R) sort_idx (H : 'M[C]_N1.+1) fsort l0 (V1 : list 'cV[C]_N1.+1) ritzv resid,
  let n := Nat.add (c_nev cf) (c_nex cf) in let d := Nat.min (Nat.add (c_deg cf) (Nat.modulo (c_deg cf) 2)) (c_maxdeg cf) in
  (forall keys, Permutation (sort_idx keys) (List.seq 0 (length keys))) ->
  exact_fops fo -> exact_mv inj cj bl -> exact_qr cj bl n -> exact_rr inj cj bl H n -> hermitian cj H -> in_complex inj cj e ->
  exact_vec inj cj bl -> ordered_rr cj bl H n -> length V1 = n -> conf_ok cf -> le 1 (c_maxiter cf) -> (forall x y, f_lt fo x y = (x < y)) ->
  forall us ls m Y, eigenbasis inj cj H us ls -> (c_nev cf <= m)%N -> (m <= n)%N -> 0 <= c_tol cf -> forall ub s0 o s T, le (c_nex cf) (c_nev cf) -> let k := stopS bl cf l0 H V1 in let V0 := cs_C (cm_dla (ss_k s0)) in
  entered fo (stopK fo bl qe td cf) fsort cf k ritzv resid ub s0 -> splits ls m (ss_lambda s0) (ss_lowerb s0) ub -> reaches cj us V0 m Y ->
  le 1 T -> le T (c_maxiter cf) -> (c_opt cf = true -> T = 1%N) -> budget ls m (ss_lowerb s0) ub (total_err cj e us ls V0 Y (ss_lowerb s0) ub d T m) <= c_tol cf ^+ 2 ->
  (forall h t, run fo (stopK fo bl qe td cf) sort_idx cf ub s0 h t -> lt (length h) T -> ss_locked t = 0%N \/ ss_locked t = c_nev cf) ->
  solve fo (stopK fo bl qe td cf) fsort sort_idx cf k ritzv resid = Ok o -> o_exit o = Some s ->
  ss_locked s = c_nev cf /\ le (ss_iter s) T /\ (ss_iter s = T -> {in take (c_nev cf) (o_res o), forall r, r <= c_tol cf}).
Proof. exact ns_stops. Qed.
Print Assumptions C81_seq_stops.

Theorem C81_seq_one_iteration : forall (R : rcfType) (C : fieldType) (inj : {rmorphism R -> C}) (cj : {rmorphism C -> C}) (e : {rmorphism C -> R[i]}) (N1 : nat) (G : Type)
  (fo : fops R) (bl : blas R 'cV[C]_N1.+1 'M[C]_N1.+1 G C) qe td (cf : conf R) sort_idx (H : 'M[C]_N1.+1) fsort l0 (V1 : list 'cV[C]_N1.+1) ritzv resid,
  let n := Nat.add (c_nev cf) (c_nex cf) in let d := Nat.min (Nat.add (c_deg cf) (Nat.modulo (c_deg cf) 2)) (c_maxdeg cf) in
  (forall keys, Permutation (sort_idx keys) (List.seq 0 (length keys))) ->
  exact_fops fo -> exact_mv inj cj bl -> exact_qr cj bl n -> exact_rr inj cj bl H n -> hermitian cj H -> in_complex inj cj e ->
  exact_vec inj cj bl -> ordered_rr cj bl H n -> length V1 = n -> conf_ok cf -> le 1 (c_maxiter cf) -> (forall x y, f_lt fo x y = (x < y)) ->
  forall us ls m Y, eigenbasis inj cj H us ls -> (c_nev cf <= m)%N -> (m <= n)%N -> 0 <= c_tol cf -> forall ub s0 o s, le (c_nex cf) (c_nev cf) -> let k := stopS bl cf l0 H V1 in let V0 := cs_C (cm_dla (ss_k s0)) in
  entered fo (stopK fo bl qe td cf) fsort cf k ritzv resid ub s0 -> splits ls m (ss_lambda s0) (ss_lowerb s0) ub -> reaches cj us V0 m Y ->
  budget ls m (ss_lowerb s0) ub (total_err cj e us ls V0 Y (ss_lowerb s0) ub d 1 m) <= c_tol cf ^+ 2 ->
  solve fo (stopK fo bl qe td cf) fsort sort_idx cf k ritzv resid = Ok o -> o_exit o = Some s ->
  ss_locked s = c_nev cf /\ ss_iter s = 1%N /\ {in take (c_nev cf) (o_res o), forall r, r <= c_tol cf}.
Proof. exact ns_stops1. Qed.
Print Assumptions C81_seq_one_iteration.

Theorem C81_seq_single_pair : forall (R : rcfType) (C : fieldType) (inj : {rmorphism R -> C}) (cj : {rmorphism C -> C}) (e : {rmorphism C -> R[i]}) (N1 : nat) (G : Type)
  (fo : fops R) (bl : blas R 'cV[C]_N1.+1 'M[C]_N1.+1 G C) qe td (cf : conf R) sort_idx (H : 'M[C]_N1.+1) fsort l0 (V1 : list 'cV[C]_N1.+1) ritzv resid,
  let n := Nat.add (c_nev cf) (c_nex cf) in let d := Nat.min (Nat.add (c_deg cf) (Nat.modulo (c_deg cf) 2)) (c_maxdeg cf) in
  (forall keys, Permutation (sort_idx keys) (List.seq 0 (length keys))) ->
  exact_fops fo -> (forall x y, f_lt fo x y = (x < y)) -> exact_mv inj cj bl -> exact_qr cj bl n -> exact_rr inj cj bl H n ->
  exact_vec inj cj bl -> ordered_rr cj bl H n -> hermitian cj H -> in_complex inj cj e -> length V1 = n -> conf_ok cf ->
  forall us ls m Y, eigenbasis inj cj H us ls -> (c_nev cf <= m)%N -> (m <= n)%N -> 0 <= c_tol cf -> le 1 (c_maxiter cf) ->
  forall ub s0 o s T, le (c_nex cf) (c_nev cf) -> let k := stopS bl cf l0 H V1 in let V0 := cs_C (cm_dla (ss_k s0)) in c_nev cf = 1%N ->
  entered fo (stopK fo bl qe td cf) fsort cf k ritzv resid ub s0 -> splits ls m (ss_lambda s0) (ss_lowerb s0) ub -> reaches cj us V0 m Y ->
  le 1 T -> le T (c_maxiter cf) -> (c_opt cf = true -> T = 1%N) -> budget ls m (ss_lowerb s0) ub (total_err cj e us ls V0 Y (ss_lowerb s0) ub d T m) <= c_tol cf ^+ 2 ->
  solve fo (stopK fo bl qe td cf) fsort sort_idx cf k ritzv resid = Ok o -> o_exit o = Some s ->
  ss_locked s = 1%N /\ le (ss_iter s) T /\ (ss_iter s = T -> {in take (c_nev cf) (o_res o), forall r, r <= c_tol cf}).
Proof. exact ns_stops_one. Qed.
Print Assumptions C81_seq_single_pair.

Theorem C81_seq_eventually : forall (R : rcfType) (C : fieldType) (inj : {rmorphism R -> C}) (cj : {rmorphism C -> C}) (e : {rmorphism C -> R[i]}) (N1 : nat) (G : Type)
  (fo : fops R) (bl : blas R 'cV[C]_N1.+1 'M[C]_N1.+1 G C) qe td (cf : conf R) sort_idx (H : 'M[C]_N1.+1) fsort l0 (V1 : list 'cV[C]_N1.+1) ritzv resid,
  let n := Nat.add (c_nev cf) (c_nex cf) in (forall keys, Permutation (sort_idx keys) (List.seq 0 (length keys))) ->
  exact_fops fo -> (forall x y, f_lt fo x y = (x < y)) -> exact_mv inj cj bl -> exact_qr cj bl n -> exact_rr inj cj bl H n ->
  exact_vec inj cj bl -> ordered_rr cj bl H n -> hermitian cj H -> in_complex inj cj e -> length V1 = n -> conf_ok cf ->
  forall us ls m Y, eigenbasis inj cj H us ls -> (c_nev cf <= m)%N -> (m <= n)%N -> forall ub s0, le (c_nex cf) (c_nev cf) -> let k := stopS bl cf l0 H V1 in let V0 := cs_C (cm_dla (ss_k s0)) in
  archimedean R -> 0 < c_tol cf -> c_nev cf = 1%N -> c_opt cf = false ->
  entered fo (stopK fo bl qe td cf) fsort cf k ritzv resid ub s0 -> splits ls m (ss_lambda s0) (ss_lowerb s0) ub -> reaches cj us V0 m Y ->
  exists T, forall M o s, le T M -> solve fo (stopK fo bl qe td cf) fsort sort_idx (with_maxiter cf M) k ritzv resid = Ok o -> o_exit o = Some s -> ss_locked s = 1%N /\ le (ss_iter s) T.
Proof. exact ns_eventually. Qed.
Print Assumptions C81_seq_eventually.

Theorem C81_seq_restart : forall (R : rcfType) (C : fieldType) (inj : {rmorphism R -> C}) (cj : {rmorphism C -> C}) (e : {rmorphism C -> R[i]}) (N1 : nat) (G : Type)
  (fo : fops R) (bl : blas R 'cV[C]_N1.+1 'M[C]_N1.+1 G C) qe td (cf : conf R) sort_idx (H : 'M[C]_N1.+1) fsort l0 (V1 : list 'cV[C]_N1.+1) ritzv resid,
  let n := Nat.add (c_nev cf) (c_nex cf) in (forall keys, Permutation (sort_idx keys) (List.seq 0 (length keys))) ->
  exact_fops fo -> (forall x y, f_lt fo x y = (x < y)) -> exact_mv inj cj bl -> exact_qr cj bl n -> exact_rr inj cj bl H n ->
  exact_vec inj cj bl -> ordered_rr cj bl H n -> hermitian cj H -> in_complex inj cj e -> length V1 = n -> conf_ok cf ->
  le 1 (c_maxiter cf) -> forall us ls m, eigenbasis inj cj H us ls -> (c_nev cf <= m)%N -> (m < n)%N -> (n <= N1.+1)%N -> 0 <= c_tol cf ->
  c_approx cf = true -> perm_eq (take n ritzv) (take n ls) -> ls`_m.-1 < ls`_m -> ls`_m = ls`_n.-1 -> (forall i, (i < m)%N -> in_span V1 us`_i) ->
  forall ub s0 o s, le (c_nex cf) (c_nev cf) -> let k := stopS bl cf l0 H V1 in entered fo (stopK fo bl qe td cf) fsort cf k ritzv resid ub s0 -> ls`_n.-1 < ub -> (forall x, x \in ls -> x <= ub) ->
  solve fo (stopK fo bl qe td cf) fsort sort_idx cf k ritzv resid = Ok o -> o_exit o = Some s ->
  ss_locked s = c_nev cf /\ ss_iter s = 1%N /\ {in take (c_nev cf) (o_res o), forall r, r <= c_tol cf}.
Proof. exact ns_restart. Qed.
Print Assumptions C81_seq_restart.

(** the hypotheses are met, and the runs return: for any Hermitian matrix whose lowest eigenvalue is simple, from any vector that is not orthogonal
    to the lowest eigenvector (the exact oracles are those of [C49_example_oracles] and [C50_mpi_example], the basis exists by [C74_example_basis]) *)
Example C81_example : forall (R : rcfType) N2 (H : 'M[complex_numClosedFieldType R]_N2.+2) qe tol deg fsort resid, hermitian (cc R) H ->
  (forall l, length (fsort l) = length l) -> le 1 deg -> le 2 (length resid) -> forall us ls, eigenbasis (rc R) (cc R) H us ls -> forall u v w,
  archimedean R -> 0 < tol -> ls`_0 < u <= ls`_1 -> dot (cc R) us`_0 v != 0 ->
  let cf M := mk_conf R N2.+2 1 1 tol deg 36 2 M 25 4 false true false in
  exists td T, forall M, le T M -> exists o s,
    solve (ex_fops R) (mpiK (ex_fops R) (xblas R N2.+2) qe td (cf M)) fsort (@x_sort R) (cf M) (mpiS (xblas R N2.+2) (cf M) 0 H [:: v; w]) [:: u - 1; u] resid = Ok o /\
    o_exit o = Some s /\ ss_locked s = 1%N /\ le (ss_iter s) T.
Proof. exact x_eventually. Qed.
(** and a restart *)
Example C81_example_restart : forall (R : rcfType) N2 (H : 'M[complex_numClosedFieldType R]_N2.+2) qe tol deg fsort resid, hermitian (cc R) H ->
  (forall l, length (fsort l) = length l) -> le 1 deg -> le 2 (length resid) -> forall us ls, eigenbasis (rc R) (cc R) H us ls -> forall M w,
  0 <= tol -> le 1 M -> ls`_0 < ls`_1 ->
  let cf := mk_conf R N2.+2 1 1 tol deg 36 2 M 25 4 false true false in
  exists td o s,
    solve (ex_fops R) (mpiK (ex_fops R) (xblas R N2.+2) qe td cf) fsort (@x_sort R) cf (mpiS (xblas R N2.+2) cf 0 H [:: us`_0; w]) [:: ls`_0; ls`_1] resid = Ok o /\
    o_exit o = Some s /\ ss_locked s = 1%N /\ ss_iter s = 1%N /\ {in take 1 (o_res o), forall r, r <= tol}.
Proof. exact x_restart. Qed.
(** number fields without infinitesimals exist *)
Example C81_example_archimedean : archimedean [rcfType of realalg].
Proof. exact realalg_arch. Qed.
