(** The GPU backends on asynchronous devices in exact arithmetic: any configuration whose in-order run returns; several problems on
    one object. *)
From Coq Require Import Permutation ZArith.
From mathcomp Require Import all_ssreflect all_algebra all_real_closed.
Require Import Verif.Base Verif.AlgModel Verif.AlgSpec Verif.DlaModel Verif.ColModel Verif.ColSpec Verif.ColProofs1 Verif.ColProofs2 Verif.ColProofs3 Verif.ColProofs2
  Verif.GpuModel Verif.GpuSpec Verif.GpuProofs3 Verif.MgpuModel Verif.MgpuSpec Verif.MgpuProofs2 Verif.ReuseSpec Verif.ReuseKeep
  Verif.AsyncModel Verif.AsyncSpec Verif.AsyncSolve Verif.AmgModel Verif.AmgSpec Verif.AmgProofs Verif.AmgSess
  Verif.ColOrth Verif.InplOrth Verif.ExactSpec Verif.ExactEx Verif.OrthSpec Verif.OrthProofs Verif.Spectral Verif.OrthSolve Verif.KyFan Verif.OrthMpi
  Verif.OrthEx Verif.LapackSpec Verif.BackSpec Verif.BackSpec2 Verif.BackSolve Verif.BackEx Verif.BackAsync.
Import Verif.ExactSpec Verif.OrthSpec Verif.ColSpec.
Set Implicit Arguments. Unset Strict Implicit. Unset Printing Implicit Defensive.
Import Order.TTheory GRing.Theory Num.Theory.
Local Open Scope ring_scope.

Section Any.
Variables (R : rcfType) (C : fieldType) (inj : {rmorphism R -> C}) (cj : {rmorphism C -> C}) (N : nat) (G : Type).
Variables (fo : fops R) (bl : blas R 'cV[C]_N 'M[C]_N G C) (qe : qr_env R) (td : tridiag R) (cf : conf R) (sort_idx : list R -> list nat) (H : 'M[C]_N).
Variables (fsort : list R -> list R) (ritzv resid : list R) (e : {rmorphism C -> R[i]}).
Local Notation n := (Nat.add (c_nev cf) (c_nex cf)).
Hypotheses (Hp : forall keys, Permutation (sort_idx keys) (List.seq 0 (length keys))).
Hypotheses (Hfo : exact_fops fo) (Hmv : exact_mv inj cj bl) (Hqr : exact_qr cj bl n) (HH : hermitian cj H).
Hypotheses (Hc : conf_ok cf) (Hi : le 1 (c_maxiter cf)) (Hx : in_complex inj cj e) (Hv : exact_vec inj cj bl) (Hnl : no_late_failure bl n).

Lemma async_answer_any trace gshift s g o : (forall A, b_dshift bl A = gshift A (trace A)) -> exact_rr inj cj (gram_swapped bl) H n ->
  cm_locked s = cm_locked g -> stands_for (cm_dla s) (cm_dla g) -> h_H (t_obj (cm_dla s)) = H -> gpu_sizes n (cm_dla g) ->
  solve fo (cmK fo qe td (gpuD fo bl n) (c_nev cf) (c_nex cf)) fsort sort_idx cf g ritzv resid = Ok o -> o_exit o <> None ->
  exists values residuals vectors, eigen_answer inj cj H (c_nev cf) n values vectors residuals /\ forall sch, exists o',
    [/\ solve fo (cmK fo qe td (asyncD fo bl n trace gshift sch) (c_nev cf) (c_nex cf)) fsort sort_idx cf s ritzv resid = Ok o',
        o_ritz o' = values, o_res o' = residuals, h_V1 (t_obj (cm_dla (o_k o'))) = vectors & o_exit o' <> None].
Proof.
move=> Hg Hrr El Hs EH sz E Ex.
have gH : g_H (cm_dla g) = H by case: Hs => d [_ [_ [-> _]]].
exists (o_ritz o), (o_res o), (g_V1 (cm_dla (o_k o))); split.
  case Eo : (o_exit o) Ex => [x|] // _.
  by apply: (gpu_answer Hp Hfo Hmv Hqr Hrr HH Hc Hi Hx Hv gH sz E Eo); right; left.
move=> sch; have [o' [E' [A1 [A2 [A3 [A4 _]]]]]] := async_solve fo bl n trace gshift Hg sch qe td cf fsort sort_idx s g ritzv resid o El Hs E.
by exists o'; split=> // /A3.
Qed.

(** what a run on the CPU backend gives *)
Definition mpi_answer values residuals vectors :=
  [/\ size vectors = n, orthonormal cj vectors, spectral_pairs inj cj H (c_nev cf) values residuals vectors,
      counts_ok inj H (c_nev cf) values residuals & sums_ok inj H (c_nev cf) values].

Lemma amg_answer_any loc locv locS locR red redG s g o : sums fo bl loc locv locS locR red redG -> exact_rr inj cj bl H n ->
  keeps_ascending sort_idx -> ordered_rr cj bl H n ->
  cm_locked s = cm_locked g -> mstands n (cm_dla s) (cm_dla g) -> y_H (mt_obj (cm_dla s)) = H -> mgpu_sizes n (cm_dla g) ->
  solve fo (cmK fo qe td (mgpuD fo bl loc false n) (c_nev cf) (c_nex cf)) fsort sort_idx cf g ritzv resid = Ok o -> o_exit o <> None ->
  exists values residuals vectors, mpi_answer values residuals vectors /\ forall sch, exists o',
    [/\ solve fo (cmK fo qe td (amgD fo bl loc locv locS locR red redG false n sch) (c_nev cf) (c_nex cf)) fsort sort_idx cf s ritzv resid = Ok o',
        o_ritz o' = values, o_res o' = residuals, y_C (mt_obj (cm_dla (o_k o'))) = vectors & o_exit o' <> None].
Proof.
move=> HS Hrr Hk Ho El Hs EH sz E Ex.
have gH : m_H (cm_dla g) = H by case: Hs => d [_ [_ [-> _]]].
exists (o_ritz o), (o_res o), (m_C (cm_dla (o_k o))); split.
  case Eo : (o_exit o) Ex => [x|] // _.
  exact: (mgpu_answer Hp Hfo Hmv Hqr Hrr HH Hc Hi Hk Ho Hx Hv Hnl gH sz E Eo).
move=> sch; have [o' [E' [A1 [A2 [A3 [A4 _]]]]]] := amg_solve fo bl loc locv locS locR red redG HS false n sch qe td cf fsort sort_idx s g ritzv resid o El Hs E.
by exists o'; split=> // /A3.
Qed.

Lemma cpu_answer l0 (g : cst) o s : exact_rr inj cj bl H n -> keeps_ascending sort_idx -> ordered_rr cj bl H n ->
  cs_H g = H -> col_sizes n n n n g ->
  solve fo (cmK fo qe td (colD fo bl true n) (c_nev cf) (c_nex cf)) fsort sort_idx cf (mk_cm l0 g) ritzv resid = Ok o -> o_exit o = Some s ->
  mpi_answer (o_ritz o) (o_res o) (cs_C (cm_dla (o_k o))).
Proof.
move=> Hrr Hk Ho EH [A1 [A2 [A3 A4]]] Eo Ex.
have HJ : sJ0 fo bl (c_nev cf) (c_nex cf) H n (mk_cm l0 g).
  by split; [split; [|split; [|split]] |rewrite -EH; constructor].
have [sz on] := mpi_orthonormal_from Hp Hfo Hmv Hqr Hrr HH HJ Hc Hi Eo Ex.
split=> //.
- exact: (mpi_values_from Hp Hfo Hmv Hqr Hrr HH HJ Hc Hi Hk Ho Hx Hv Eo Ex).
- exact: (mpi_count_from Hp Hfo Hmv Hqr Hrr HH HJ Hc Hi Hk Ho Hx Hv Eo Ex).
- exact: (mpi_kyfan_from Hp Hfo Hmv Hqr Hrr HH HJ Hc Hi Hk Ho Hx Hv Eo Ex).
Qed.
End Any.

(** every problem of a list is answered, and the answer satisfies [P] unless the matrix was rejected *)
Definition answered {F V M : Type} (P : job (F := F) (V := V) (M := M) -> list F -> list F -> list V -> Prop) (jobs : list (job (F := F) (V := V) (M := M)))
    (answers : list (res (list F * list F * option (list V)))) : Prop :=
  List.Forall2 (fun j a => exists values residuals vecs, a = Ok (values, residuals, vecs) /\ forall v, vecs = Some v -> P j values residuals v) jobs answers.

Lemma apart_answered {F V M D : Type} (P : job (F := F) (V := V) (M := M) -> list F -> list F -> list V -> Prop) (vecs : D -> list V) (run : job (F := F) (V := V) (M := M) -> res (outcome (F := F) (St := cm (D := D)))) jobs :
  (forall j, List.In j jobs -> exists o, run j = Ok o /\ forall s, o_exit o = Some s -> P j (o_ritz o) (o_res o) (vecs (cm_dla (o_k o)))) ->
  answered P jobs (apart vecs run jobs).
Proof.
elim: jobs => [|j r IH] Hj /=; first by constructor.
have [o [E Ho]] := Hj j (or_introl erefl); rewrite E; constructor; last by apply: IH => k hk; apply: Hj; right.
exists (o_ritz o), (o_res o), (match o_exit o with None => None | Some _ => Some (vecs (cm_dla (o_k o))) end); split=> // v.
by case Ex : (o_exit o) => [s|] // [<-]; exact: Ho Ex.
Qed.

Section Sess.
Variables (R : rcfType) (C : fieldType) (inj : {rmorphism R -> C}) (cj : {rmorphism C -> C}) (N : nat) (G : Type).
Variables (fo : fops R) (bl : blas R 'cV[C]_N 'M[C]_N G C) (qe : qr_env R) (td : tridiag R) (nev nex : nat) (sort_idx : list R -> list nat).
Variables (fsort : list R -> list R) (e : {rmorphism C -> R[i]}).
Local Notation n := (Nat.add nev nex).
Local Notation jobT := (job (F := R) (V := 'cV[C]_N) (M := 'M[C]_N)).
Hypotheses (Hp : forall keys, Permutation (sort_idx keys) (List.seq 0 (length keys))).
Hypotheses (Hfo : exact_fops fo) (Hmv : exact_mv inj cj bl) (Hqr : exact_qr cj bl n).
Hypotheses (Hx : in_complex inj cj e) (Hv : exact_vec inj cj bl) (Hnl : no_late_failure bl n).
Local Notation run L j k := (solve fo L fsort sort_idx (j_conf j) k (j_ritz j) (j_resid j)).

Lemma amg_sess_answer loc locv locS locR red redG sch (jobs : list jobT) s (fr : jobT -> cst) : sums fo bl loc locv locS locR red redG ->
  keeps_ascending sort_idx ->
  (exists g, cm_locked s = cm_locked g /\ mstands n (cm_dla s) (cm_dla g) /\ mgpu_sizes n (cm_dla g)) -> List.Forall (job_ok true nev nex) jobs ->
  (forall j, List.In j jobs -> [/\ hermitian cj (j_H j), exact_rr inj cj bl (j_H j) n, ordered_rr cj bl (j_H j) n & le 1 (c_maxiter (j_conf j))]) ->
  (forall j, List.In j jobs -> cs_H (fr j) = j_H j /\ (c_approx (j_conf j) = true -> cs_C (fr j) = j_V j) /\ col_sizes n n n n (fr j)) ->
  (forall j, List.In j jobs -> exists o, run (cmK fo qe td (colD fo bl true n) nev nex) j (mk_cm 0 (fr j)) = Ok o) ->
  answered (fun j values residuals vectors =>
      [/\ size vectors = n, orthonormal cj vectors, spectral_pairs inj cj (j_H j) nev values residuals vectors,
          counts_ok inj (j_H j) nev values residuals & sums_ok inj (j_H j) nev values]) jobs
    (session (fun a => y_C (mt_obj a)) (fun j k => run (cmK fo qe td (amgD fo bl loc locv locS locR red redG false n sch) nev nex) j (load_amg j k)) jobs s).
Proof.
move=> HS Hk Hg HJ HE HF HO.
rewrite (amg_session fo bl loc locv locS locR red redG HS qe td nev nex sort_idx Hp fsort (exact_beta Hfo Hmv) Hnl sch jobs s fr Hg HJ HF HO).
apply: apart_answered => j hj; have [o E] := HO j hj; exists o; split=> // x Ex.
have [h1 h2 h3 h4] := HE j hj; have [f1 [_ f2]] := HF j hj.
have [c1 [c2 [c3 _]]] := proj1 (List.Forall_forall _ _) HJ j hj.
have := @cpu_answer R C inj cj N G fo bl qe td (j_conf j) sort_idx (j_H j) fsort (j_ritz j) (j_resid j) e Hp Hfo Hmv.
rewrite /mpi_answer c2 c3 => X.
exact: (X Hqr h1 c1 h4 Hx Hv 0%N (fr j) o x h2 Hk h3 f1 f2 E Ex).
Qed.
End Sess.

(** runs of the CPU backend with a fixed degree return *)
Lemma y_mpi (R : rcfType) (N nev nex : nat) qe td tol deg sort_idx fsort ritzv resid :
  (forall keys, Permutation (sort_idx keys) (List.seq 0 (length keys))) -> (forall l, length (fsort l) = length l) ->
  le 2 N -> le 1 nev -> le 1 deg -> le (Nat.add nev nex) (length ritzv) -> le (Nat.add nev nex) (length resid) ->
  let n := Nat.add nev nex in let fo := ex_fops R in forall l0 (g : cst), col_sizes n n n n g ->
  exists o s, solve fo (cmK fo qe td (colD fo (xblas R N) true n) nev nex) fsort sort_idx (mk_conf R N nev nex tol deg 36 2 25 25 4 false true false) (mk_cm l0 g) ritzv resid = Ok o /\ o_exit o = Some s.
Proof.
move=> Hp Hf h1 h2 h4 hr hs n fo l0 g hg.
have cs : clen n n g by move: hg => [A1 [A2 [A3 A4]]]; rewrite /clen A1 A2 A3 A4.
have X := dla_solve_safe fo qe td (mk_conf R N nev nex tol deg 36 2 25 25 4 false true false) sort_idx Hp fsort Hf (colD fo (xblas R N) true n) (clen n n)
  (col_dla_safe fo (xblas R N) true n n (le_n n)) (mk_cm l0 g) ritzv resid (y_conf N nex tol h2 h4) hr hs h1.
case: X => [||//|[o E]|[_ [k0 [ub [s0 [t [_ [_ [_ [_ [_ []]]]]]]]]]]] //; first by do ! constructor.
by have [s Es] := y_exit E; exists o, s.
Qed.
