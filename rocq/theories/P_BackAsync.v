(** Property C100: in exact arithmetic the GPU backends return eigenpairs whatever the timing of the GPUs. *)
From Coq Require Import Permutation ZArith.
From mathcomp Require Import all_ssreflect all_algebra all_real_closed.
Require Import Verif.Base Verif.AlgModel Verif.AlgSpec Verif.DlaModel Verif.ColModel Verif.ColSpec Verif.GpuModel Verif.GpuSpec Verif.MgpuModel Verif.MgpuSpec
  Verif.AsyncModel Verif.AsyncSpec Verif.AsyncSolve Verif.AmgModel Verif.AmgSpec Verif.AmgProofs Verif.ReuseSpec Verif.ReuseKeep
  Verif.ExactSpec Verif.ExactEx Verif.OrthSpec Verif.OrthEx Verif.LapackSpec Verif.BackSpec Verif.BackSpec2 Verif.BackSolve Verif.BackEx Verif.BackAsync Verif.BackAsync2.
Import Verif.ExactSpec Verif.OrthSpec Verif.ColSpec.
Set Implicit Arguments. Unset Strict Implicit. Unset Printing Implicit Defensive.
Import Order.TTheory GRing.Theory Num.Theory.
Local Open Scope ring_scope.

Notation asyncK fo bl trace gshift sch qe td cf := (cmK fo qe td (asyncD fo bl (Nat.add (c_nev cf) (c_nex cf)) trace gshift sch) (c_nev cf) (c_nex cf)).
Notation gpuK fo bl qe td cf := (cmK fo qe td (gpuD fo bl (Nat.add (c_nev cf) (c_nex cf))) (c_nev cf) (c_nex cf)).
Notation amgK fo bl loc locv locS locR red redG sch qe td cf :=
  (cmK fo qe td (amgD fo bl loc locv locS locR red redG false (Nat.add (c_nev cf) (c_nex cf)) sch) (c_nev cf) (c_nex cf)).
Notation mpiK fo bl qe td cf := (cmK fo qe td (colD fo bl true (Nat.add (c_nev cf) (c_nex cf))) (c_nev cf) (c_nex cf)).

(** [s]: the object, possibly with operations of earlier calls waiting; [g]: what it is when they have run.  Unless a degree is
    undefined (C21), there is one answer for all schedules *)
Theorem C100_single_gpu : forall (R : rcfType) (C : fieldType) (inj : {rmorphism R -> C}) (cj : {rmorphism C -> C}) (N : nat) (G : Type)
  (fo : fops R) (bl : blas R 'cV[C]_N 'M[C]_N G C) qe td (cf : conf R) sort_idx (H : 'M[C]_N) fsort ritzv resid (e : {rmorphism C -> R[i]}), let n := Nat.add (c_nev cf) (c_nex cf) in
  (forall keys, Permutation (sort_idx keys) (List.seq 0 (length keys))) ->
  exact_fops fo -> exact_mv inj cj bl -> exact_qr cj bl n -> hermitian cj H ->
  conf_ok cf -> le 1 (c_maxiter cf) -> in_complex inj cj e -> exact_vec inj cj bl -> no_late_failure bl n ->
  (forall l, length (fsort l) = length l) -> le n (length ritzv) -> le n (length resid) ->
  le 2 (c_N cf) -> le 1 (c_lanczositer cf) -> c_approx cf = true ->
  forall trace gshift s g, (forall A, b_dshift bl A = gshift A (trace A)) -> exact_rr inj cj (gram_swapped bl) H n ->
  cm_locked s = cm_locked g -> stands_for (cm_dla s) (cm_dla g) -> h_H (t_obj (cm_dla s)) = H -> gpu_sizes n (cm_dla g) ->
  degree_overflow fo (gpuK fo bl qe td cf) sort_idx fsort cf g ritzv resid \/
  exists values residuals vectors, forall sch, exists o,
    [/\ solve fo (asyncK fo bl trace gshift sch qe td cf) fsort sort_idx cf s ritzv resid = Ok o,
        o_ritz o = values, o_res o = residuals, h_V1 (t_obj (cm_dla (o_k o))) = vectors &
        o_exit o <> None -> eigen_answer inj cj H (c_nev cf) n values vectors residuals].
Proof. exact async_answer. Qed.
Print Assumptions C100_single_gpu.

Theorem C100_multi_gpu : forall (R : rcfType) (C : fieldType) (inj : {rmorphism R -> C}) (cj : {rmorphism C -> C}) (N : nat) (G : Type)
  (fo : fops R) (bl : blas R 'cV[C]_N 'M[C]_N G C) qe td (cf : conf R) sort_idx (H : 'M[C]_N) fsort ritzv resid (e : {rmorphism C -> R[i]}), let n := Nat.add (c_nev cf) (c_nex cf) in
  (forall keys, Permutation (sort_idx keys) (List.seq 0 (length keys))) ->
  exact_fops fo -> exact_mv inj cj bl -> exact_qr cj bl n -> hermitian cj H ->
  conf_ok cf -> le 1 (c_maxiter cf) -> in_complex inj cj e -> exact_vec inj cj bl -> no_late_failure bl n ->
  (forall l, length (fsort l) = length l) -> le n (length ritzv) -> le n (length resid) ->
  le 2 (c_N cf) -> le 1 (c_lanczositer cf) -> c_approx cf = true ->
  forall loc locv locS locR red redG s g, sums fo bl loc locv locS locR red redG -> exact_rr inj cj bl H n ->
  keeps_ascending sort_idx -> ordered_rr cj bl H n ->
  cm_locked s = cm_locked g -> mstands n (cm_dla s) (cm_dla g) -> y_H (mt_obj (cm_dla s)) = H -> mgpu_sizes n (cm_dla g) ->
  degree_overflow fo (mpiK fo bl qe td cf) sort_idx fsort cf (mk_cm (cm_locked g) (MgpuSpec.host (cm_dla g))) ritzv resid \/
  exists values residuals vectors, forall sch, exists o,
    [/\ solve fo (amgK fo bl loc locv locS locR red redG sch qe td cf) fsort sort_idx cf s ritzv resid = Ok o,
        o_ritz o = values, o_res o = residuals, y_C (mt_obj (cm_dla (o_k o))) = vectors &
        o_exit o <> None ->
        [/\ size vectors = n, orthonormal cj vectors, spectral_pairs inj cj H (c_nev cf) values residuals vectors,
            counts_ok inj H (c_nev cf) values residuals & sums_ok inj H (c_nev cf) values]].
Proof. exact amg_answer. Qed.
Print Assumptions C100_multi_gpu.

(** the oracles exist (C83_example_oracles), also with local results that are not the sums; every object [g] of the right sizes
    has one with two operations waiting that stands for it; with a fixed degree no degree is undefined and the solve returns
    after the iteration, under every schedule *)
Example C100_example : forall (R : rcfType) N nev nex (H : 'M[complex_numClosedFieldType R]_N) qe td tol deg sort_idx fsort ritzv resid,
  (forall keys, Permutation (sort_idx keys) (List.seq 0 (length keys))) -> (forall l, length (fsort l) = length l) ->
  le 2 N -> le 1 nev -> le 1 deg -> le (Nat.add nev nex) (length ritzv) -> le (Nat.add nev nex) (length resid) -> (Nat.add nev nex <= N)%N ->
  let cf := mk_conf R N nev nex tol deg 36 2 25 25 4 false true false in let n := Nat.add nev nex in let fo := ex_fops R in let bl := xblas R N in
  conf_ok cf /\ sums fo bl (@xloc R N) (@xlocv R N) (@xlocS R N) (@xlocR R N) (@xred R N) (@xswap R N) /\
  (forall g sch, g_H g = H -> gpu_sizes n g ->
     let s := late_gpu 0 (AG ([::], [::])) g in stands_for s g /\ h_H (t_obj s) = H /\ length (c_queue (t_cfg s)) = 2%N /\
     exists o, solve fo (asyncK fo bl (fun _ => 0) (fun A _ => A) sch qe td cf) fsort sort_idx cf (mk_cm 0 s) ritzv resid = Ok o /\ o_exit o <> None) /\
  (forall g sch, m_H g = H -> mgpu_sizes n g ->
     let s := late_mgpu 0 ([::], [::]) n g in mstands n s g /\ y_H (mt_obj s) = H /\ length (c_queue (mt_cfg s)) = 2%N /\
     exists o, solve fo (amgK fo bl (@xloc R N) (@xlocv R N) (@xlocS R N) (@xlocR R N) (@xred R N) (@xswap R N) sch qe td cf) fsort sort_idx cf (mk_cm 0 s) ritzv resid = Ok o /\ o_exit o <> None).
Proof.
move=> R N nev nex H qe td tol deg si fsort ritzv resid Hp Hf h1 h2 h4 hr hs hn cf n fo bl.
split; first exact: y_conf.
split; first exact: x_sums.
split=> g sch EH sz s.
- have hst : stands_for s g by exact: late_gpu_stands.
  do 3 split=> //.
  have [o [x [E Ex]]] := y_gpu (R := R) (N := N) (nev := nev) (nex := nex) qe td tol (deg := deg) Hp Hf h1 h2 h4 hr hs (g := mk_cm 0 g) sz.
  have [o' [E' [_ [_ [A3 _]]]]] := async_solve fo bl n (fun _ => 0) (fun A _ => A) (fun _ => erefl) sch qe td cf fsort si (mk_cm 0 s) (mk_cm 0 g) ritzv resid o erefl hst E.
  by exists o'; split=> // /A3; rewrite Ex.
- have hst : mstands n s g by exact: late_mgpu_stands.
  do 3 split=> //.
  have [o [x [E Ex]]] := y_mgpu (R := R) (N := N) (nev := nev) (nex := nex) qe td tol (deg := deg) Hp Hf h1 h2 h4 hr hs (@xloc R N) (g := mk_cm 0 g) hn sz.
  have [o' [E' [_ [_ [A3 _]]]]] := amg_solve fo bl _ _ _ _ _ _ (x_sums R N) false n sch qe td cf fsort si (mk_cm 0 s) (mk_cm 0 g) ritzv resid o erefl hst E.
  by exists o'; split=> // /A3; rewrite Ex.
Qed.

(** any start, random or supplied, and any degrees: when the operations, run in the order in which they are enqueued, bring the solve
    to its end, so does every schedule, with the same eigenpairs (C83_example_runs, C100_example: such runs exist) *)
Theorem C100_single_gpu_any_start : forall (R : rcfType) (C : fieldType) (inj : {rmorphism R -> C}) (cj : {rmorphism C -> C}) (N : nat) (G : Type)
  (fo : fops R) (bl : blas R 'cV[C]_N 'M[C]_N G C) qe td (cf : conf R) sort_idx (H : 'M[C]_N) fsort ritzv resid (e : {rmorphism C -> R[i]}), let n := Nat.add (c_nev cf) (c_nex cf) in
  (forall keys, Permutation (sort_idx keys) (List.seq 0 (length keys))) ->
  exact_fops fo -> exact_mv inj cj bl -> exact_qr cj bl n -> hermitian cj H ->
  conf_ok cf -> le 1 (c_maxiter cf) -> in_complex inj cj e -> exact_vec inj cj bl -> no_late_failure bl n ->
  forall trace gshift s g o, (forall A, b_dshift bl A = gshift A (trace A)) -> exact_rr inj cj (gram_swapped bl) H n ->
  cm_locked s = cm_locked g -> stands_for (cm_dla s) (cm_dla g) -> h_H (t_obj (cm_dla s)) = H -> gpu_sizes n (cm_dla g) ->
  solve fo (gpuK fo bl qe td cf) fsort sort_idx cf g ritzv resid = Ok o -> o_exit o <> None ->
  exists values residuals vectors, eigen_answer inj cj H (c_nev cf) n values vectors residuals /\ forall sch, exists o',
    [/\ solve fo (asyncK fo bl trace gshift sch qe td cf) fsort sort_idx cf s ritzv resid = Ok o',
        o_ritz o' = values, o_res o' = residuals, h_V1 (t_obj (cm_dla (o_k o'))) = vectors & o_exit o' <> None].
Proof. exact async_answer_any. Qed.
Print Assumptions C100_single_gpu_any_start.

Theorem C100_multi_gpu_any_start : forall (R : rcfType) (C : fieldType) (inj : {rmorphism R -> C}) (cj : {rmorphism C -> C}) (N : nat) (G : Type)
  (fo : fops R) (bl : blas R 'cV[C]_N 'M[C]_N G C) qe td (cf : conf R) sort_idx (H : 'M[C]_N) fsort ritzv resid (e : {rmorphism C -> R[i]}), let n := Nat.add (c_nev cf) (c_nex cf) in
  (forall keys, Permutation (sort_idx keys) (List.seq 0 (length keys))) ->
  exact_fops fo -> exact_mv inj cj bl -> exact_qr cj bl n -> hermitian cj H ->
  conf_ok cf -> le 1 (c_maxiter cf) -> in_complex inj cj e -> exact_vec inj cj bl -> no_late_failure bl n ->
  forall loc locv locS locR red redG s g o, sums fo bl loc locv locS locR red redG -> exact_rr inj cj bl H n ->
  keeps_ascending sort_idx -> ordered_rr cj bl H n ->
  cm_locked s = cm_locked g -> mstands n (cm_dla s) (cm_dla g) -> y_H (mt_obj (cm_dla s)) = H -> mgpu_sizes n (cm_dla g) ->
  solve fo (cmK fo qe td (mgpuD fo bl loc false n) (c_nev cf) (c_nex cf)) fsort sort_idx cf g ritzv resid = Ok o -> o_exit o <> None ->
  exists values residuals vectors,
    [/\ size vectors = n, orthonormal cj vectors, spectral_pairs inj cj H (c_nev cf) values residuals vectors,
        counts_ok inj H (c_nev cf) values residuals & sums_ok inj H (c_nev cf) values] /\ forall sch, exists o',
    [/\ solve fo (amgK fo bl loc locv locS locR red redG sch qe td cf) fsort sort_idx cf s ritzv resid = Ok o',
        o_ritz o' = values, o_res o' = residuals, y_C (mt_obj (cm_dla (o_k o'))) = vectors & o_exit o' <> None].
Proof. exact amg_answer_any. Qed.
Print Assumptions C100_multi_gpu_any_start.

(** a list of problems on one object (C99): each gets eigenpairs of its own matrix; [fr j]: a new CPU object for the problem [j] *)
Theorem C100_multi_gpu_session : forall (R : rcfType) (C : fieldType) (inj : {rmorphism R -> C}) (cj : {rmorphism C -> C}) (N : nat) (G : Type)
  (fo : fops R) (bl : blas R 'cV[C]_N 'M[C]_N G C) qe td nev nex sort_idx fsort (e : {rmorphism C -> R[i]}), let n := Nat.add nev nex in
  (forall keys, Permutation (sort_idx keys) (List.seq 0 (length keys))) ->
  exact_fops fo -> exact_mv inj cj bl -> exact_qr cj bl n -> in_complex inj cj e -> exact_vec inj cj bl -> no_late_failure bl n ->
  forall loc locv locS locR red redG sch (jobs : list (job (F := R) (V := 'cV[C]_N) (M := 'M[C]_N))) s (fr : job -> cst), sums fo bl loc locv locS locR red redG ->
  keeps_ascending sort_idx ->
  (exists g, cm_locked s = cm_locked g /\ mstands n (cm_dla s) (cm_dla g) /\ mgpu_sizes n (cm_dla g)) -> List.Forall (job_ok true nev nex) jobs ->
  (forall j, List.In j jobs -> [/\ hermitian cj (j_H j), exact_rr inj cj bl (j_H j) n, ordered_rr cj bl (j_H j) n & le 1 (c_maxiter (j_conf j))]) ->
  (forall j, List.In j jobs -> cs_H (fr j) = j_H j /\ (c_approx (j_conf j) = true -> cs_C (fr j) = j_V j) /\ col_sizes n n n n (fr j)) ->
  (forall j, List.In j jobs -> exists o, solve fo (cmK fo qe td (colD fo bl true n) nev nex) fsort sort_idx (j_conf j) (mk_cm 0 (fr j)) (j_ritz j) (j_resid j) = Ok o) ->
  answered (fun j values residuals vectors =>
      [/\ size vectors = n, orthonormal cj vectors, spectral_pairs inj cj (j_H j) nev values residuals vectors,
          counts_ok inj (j_H j) nev values residuals & sums_ok inj (j_H j) nev values]) jobs
    (session (fun a => y_C (mt_obj a)) (fun j k => solve fo (cmK fo qe td (amgD fo bl loc locv locS locR red redG false n sch) nev nex) fsort sort_idx
       (j_conf j) (load_amg j k) (j_ritz j) (j_resid j)) jobs s).
Proof. exact amg_sess_answer. Qed.
Print Assumptions C100_multi_gpu_session.

(** any Hermitian matrices and start vectors, one after the other, on any object with two operations waiting *)
Example C100_example_session : forall (R : rcfType) N nev nex qe td tol deg fsort sch (Hs : seq ('M[complex_numClosedFieldType R]_N * seq 'cV[complex_numClosedFieldType R]_N)) g,
  (forall l, length (fsort l) = length l) -> le 2 N -> le 1 nev -> le 1 deg -> (Nat.add nev nex <= N)%N ->
  let n := Nat.add nev nex in let fo := ex_fops R in let bl := xblas R N in
  (forall p, List.In p Hs -> hermitian (cc R) p.1 /\ length p.2 = n) -> mgpu_sizes n g ->
  let cf := mk_conf R N nev nex tol deg 36 2 25 25 4 false true false in
  let jobs := List.map (fun p => mk_job cf p.1 p.2 (nseq n 0) (nseq n 0)) Hs in
  answered (fun j values residuals vectors =>
      [/\ size vectors = n, orthonormal (cc R) vectors, spectral_pairs (rc R) (cc R) (j_H j) nev values residuals vectors,
          counts_ok (rc R) (j_H j) nev values residuals & sums_ok (rc R) (j_H j) nev values]) jobs
    (session (fun a => y_C (mt_obj a)) (fun j k => solve fo (cmK fo qe td (amgD fo bl (@xloc R N) (@xlocv R N) (@xlocS R N) (@xlocR R N) (@xred R N) (@xswap R N) false n sch) nev nex)
       fsort (@x_sort R) (j_conf j) (load_amg j k) (j_ritz j) (j_resid j)) jobs (mk_cm 3 (late_mgpu 0 ([::], [::]) n g))).
Proof.
move=> R N nev nex qe td tol deg fsort sch Hs g Hf h1 h2 h4 hn n fo bl HH hg cf jobs.
have szn : forall T (x : T), length (nseq n x) = n by move=> T x; exact: size_nseq.
have sub : forall j, List.In j jobs -> exists p, List.In p Hs /\ j = mk_job cf p.1 p.2 (nseq n 0) (nseq n 0).
  by move=> j /List.in_map_iff [p [<- hp]]; exists p.
apply: (@C100_multi_gpu_session R _ (rc R) (cc R) N _ fo bl qe td nev nex _ fsort (ci R) _ _ _ _ _ _ _ _ _ _ _ _ _ sch jobs _
  (fun j => mk_cst (j_H j) (j_V j) (nseq n 0) (nseq n 0) (nseq n 0) true)).
- exact: x_sort_perm.
- exact: ex_fops_exact.
- exact: x_mv.
- exact: x_qr.
- exact: x_complex.
- exact: x_vec.
- exact: y_nl.
- exact: x_sums.
- exact: x_sort_keeps.
- by exists (mk_cm 3 g); split=> //; split=> //; exact: late_mgpu_stands.
- apply/List.Forall_forall => j /sub [p [hp ->]]; have [_ l] := HH p hp.
  by split; [exact: y_conf|do ! split].
- move=> j /sub [p [hp ->]]; have [hh _] := HH p hp.
  by split=> //=; [exact: x_rr|exact: x_ordered|do ! constructor].
- move=> j /sub [p [hp ->]]; have [_ l] := HH p hp.
  by do 2 split=> //=; rewrite /col_sizes /= !szn.
- move=> j /sub [p [hp ->]] /=; have [_ l] := HH p hp.
  have [| | |o [x [E _]]] := @y_mpi R N nev nex qe td tol deg (@x_sort R) fsort (nseq n 0) (nseq n 0) (@x_sort_perm R) Hf h1 h2 h4 _ _ 0
      (mk_cst p.1 p.2 (nseq n 0) (nseq n 0) (nseq n 0) true).
  + by rewrite szn.
  + by rewrite szn.
  + by rewrite /col_sizes /= !szn.
  by exists o.
Qed.
