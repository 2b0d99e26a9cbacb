(** The GPU backends on asynchronous devices in exact arithmetic: what they return under every schedule. *)
From Coq Require Import Permutation ZArith.
From mathcomp Require Import all_ssreflect all_algebra all_real_closed.
Require Import Verif.Base Verif.AlgModel Verif.AlgSpec Verif.DlaModel Verif.ColModel Verif.ColSpec Verif.ColProofs1 Verif.ColProofs3
  Verif.GpuModel Verif.GpuSpec Verif.GpuProofs3 Verif.MgpuModel Verif.MgpuSpec Verif.MgpuProofs2
  Verif.AsyncModel Verif.AsyncSpec Verif.AsyncSolve Verif.AmgModel Verif.AmgSpec Verif.AmgProofs
  Verif.ColOrth Verif.ExactSpec Verif.ExactEx Verif.OrthSpec Verif.OrthProofs Verif.OrthEx Verif.LapackSpec Verif.BackSpec Verif.BackSpec2 Verif.BackSolve Verif.BackEx.
Import Verif.ExactSpec Verif.OrthSpec Verif.ColSpec.
Set Implicit Arguments. Unset Strict Implicit. Unset Printing Implicit Defensive.
Import Order.TTheory GRing.Theory Num.Theory.
Local Open Scope ring_scope.

Section Any.
Variables (R : rcfType) (C : fieldType) (inj : {rmorphism R -> C}) (cj : {rmorphism C -> C}) (N : nat) (G : Type).
Variables (fo : fops R) (bl : blas R 'cV[C]_N 'M[C]_N G C) (qe : qr_env R) (td : tridiag R) (cf : conf R) (sort_idx : list R -> list nat) (H : 'M[C]_N).
Variables (fsort : list R -> list R) (ritzv resid : list R) (e : {rmorphism C -> R[i]}).
Local Notation n := (Nat.add (c_nev cf) (c_nex cf)).
Hypotheses (Hp : forall keys, Permutation (sort_idx keys) (List.seq 0 (length keys))).
Hypotheses (Hfo : exact_fops fo) (Hmv : exact_mv inj cj bl) (Hqr : exact_qr cj bl n) (HH : hermitian cj H).
Hypotheses (Hc : conf_ok cf) (Hi : le 1 (c_maxiter cf)) (Hx : in_complex inj cj e) (Hv : exact_vec inj cj bl) (Hnl : no_late_failure bl n).
Hypotheses (Hf : forall l, length (fsort l) = length l) (hr : le n (length ritzv)) (hs : le n (length resid)).
Hypotheses (hN : le 2 (c_N cf)) (hL : le 1 (c_lanczositer cf)) (hA : c_approx cf = true).

Lemma async_answer trace gshift s g : (forall A, b_dshift bl A = gshift A (trace A)) -> exact_rr inj cj (gram_swapped bl) H n ->
  cm_locked s = cm_locked g -> stands_for (cm_dla s) (cm_dla g) -> h_H (t_obj (cm_dla s)) = H -> gpu_sizes n (cm_dla g) ->
  degree_overflow fo (cmK fo qe td (gpuD fo bl n) (c_nev cf) (c_nex cf)) sort_idx fsort cf g ritzv resid \/
  exists values residuals vectors, forall sch, exists o,
    [/\ solve fo (cmK fo qe td (asyncD fo bl n trace gshift sch) (c_nev cf) (c_nex cf)) fsort sort_idx cf s ritzv resid = Ok o,
        o_ritz o = values, o_res o = residuals, h_V1 (t_obj (cm_dla (o_k o))) = vectors &
        o_exit o <> None -> eigen_answer inj cj H (c_nev cf) n values vectors residuals].
Proof.
move=> Hg Hrr El Hs EH sz.
have gH : g_H (cm_dla g) = H by case: Hs => d [_ [_ [-> _]]].
have [[o E]|[_ D]] := w_safe fo bl qe td cf sort_idx Hp fsort g ritzv resid sz Hc Hf hr hs hN hL hA; [right|by left].
exists (o_ritz o), (o_res o), (g_V1 (cm_dla (o_k o))) => sch.
have [o' [E' [A1 [A2 [A3 [A4 _]]]]]] := async_solve fo bl n trace gshift Hg sch qe td cf fsort sort_idx s g ritzv resid o El Hs E.
exists o'; split=> // Ex.
case Eo : (o_exit o) => [x|]; last by case: Ex; apply/A3.
by apply: (gpu_answer Hp Hfo Hmv Hqr Hrr HH Hc Hi Hx Hv gH sz E Eo); right; left.
Qed.

Lemma amg_answer loc locv locS locR red redG s g : sums fo bl loc locv locS locR red redG -> exact_rr inj cj bl H n ->
  keeps_ascending sort_idx -> ordered_rr cj bl H n ->
  cm_locked s = cm_locked g -> mstands n (cm_dla s) (cm_dla g) -> y_H (mt_obj (cm_dla s)) = H -> mgpu_sizes n (cm_dla g) ->
  degree_overflow fo (cmK fo qe td (colD fo bl true n) (c_nev cf) (c_nex cf)) sort_idx fsort cf (mk_cm (cm_locked g) (MgpuSpec.host (cm_dla g))) ritzv resid \/
  exists values residuals vectors, forall sch, exists o,
    [/\ solve fo (cmK fo qe td (amgD fo bl loc locv locS locR red redG false n sch) (c_nev cf) (c_nex cf)) fsort sort_idx cf s ritzv resid = Ok o,
        o_ritz o = values, o_res o = residuals, y_C (mt_obj (cm_dla (o_k o))) = vectors &
        o_exit o <> None ->
        [/\ size vectors = n, orthonormal cj vectors, spectral_pairs inj cj H (c_nev cf) values residuals vectors,
            counts_ok inj H (c_nev cf) values residuals & sums_ok inj H (c_nev cf) values]].
Proof.
move=> HS Hrr Hk Ho El Hs EH sz.
have gH : m_H (cm_dla g) = H by case: Hs => d [_ [_ [-> _]]].
have [[o E]|[_ D]] := mgpu_safe fo bl loc qe td cf sort_idx Hp fsort (exact_beta Hfo Hmv) Hnl g ritzv resid sz Hc Hf hr hs hN hL hA; [right|by left].
exists (o_ritz o), (o_res o), (m_C (cm_dla (o_k o))) => sch.
have [o' [E' [A1 [A2 [A3 [A4 _]]]]]] := amg_solve fo bl loc locv locS locR red redG HS false n sch qe td cf fsort sort_idx s g ritzv resid o El Hs E.
exists o'; split=> // Ex.
case Eo : (o_exit o) => [x|]; last by case: Ex; apply/A3.
exact: (mgpu_answer Hp Hfo Hmv Hqr Hrr HH Hc Hi Hk Ho Hx Hv Hnl gH sz E Eo).
Qed.
End Any.

(** objects whose last device operation is still waiting; what they are when it has run *)
Section Late.
Variables (F V M G : Type) (z : F) (A : amat (F := F) (G := G)) (Am : G).
Definition late_gpu (g : gst (F := F) (V := V) (M := M)) : ast (F := F) (V := V) (M := M) (G := G) :=
  let sw := is_sw (g_dev g) in let v1 := is_V1 (g_dev g) in let v2 := is_V2 (g_dev g) in
  mk_ast (mk_hobj (g_H g) (g_V1 g) sw) 0
    (mk_cfg (mk_dev (is_H (g_dev g)) nil nil nil (g_ritz g) A Z0 (g_ritz g) z (fun _ => nil))
       [:: (Legacy, fun d => Ok (set_X d (if sw then v2 else v1))); (Blk 0, fun d => Ok (set_Y d (if sw then v1 else v2)))]).
Lemma late_gpu_stands g : stands_for (late_gpu g) g.
Proof.
eexists; split; first by [].
split; first by constructor; [left|constructor; [right|constructor]].
by case: g => gh gv [dh d1 d2 []] gr.
Qed.
Definition late_mgpu (n : nat) (g : mst (V := V) (M := M)) : amst (F := F) (V := V) (M := M) (G := G) :=
  mk_amst (mk_mhost (m_H g) (m_C g) (m_B g) (m_C2 g) (m_B2 g) (m_bAc g) (m_hh g)) 0
    (mk_cfg (mk_mdev (m_dH g) nil (m_dB g) (m_C2 g) (m_B2 g) Am (List.repeat z n) Z0 nil nil)
       [:: (Legacy, fun d => Ok (sx_B d (m_dB g))); (Legacy, fun d => Ok (sx_C d (m_dC g)))]).
Lemma late_mgpu_stands n g : mstands n (late_mgpu n g) g.
Proof.
eexists; split; first by [].
split; first by do ! constructor.
by split; [case: g|do 2 split=> //; rewrite List.repeat_length].
Qed.
End Late.

(** local results that are not the sums *)
Section Loc.
Variables (R : rcfType) (N : nat).
Local Notation C := (complex_numClosedFieldType R).
Definition xloc (adjoint : bool) (h : 'M[C]_N) (a b : R) (x y : 'cV[C]_N) : 'cV[C]_N :=
  - (if adjoint then b_gemmH (xblas R N) h a b x y else b_gemmN (xblas R N) h a b x y).
Definition xlocv (h : 'M[C]_N) (x : 'cV[C]_N) : 'cV[C]_N := - b_mulH (xblas R N) h x.
Definition xred (x : 'cV[C]_N) : 'cV[C]_N := - x.
Definition xswap (g : seq 'cV[C]_N * seq 'cV[C]_N) := (g.2, g.1).
Definition xlocS c := xswap (b_syherk (xblas R N) c).
Definition xlocR x y := xswap (b_gram (xblas R N) x y).
Lemma x_sums : sums (ex_fops R) (xblas R N) xloc xlocv xlocS xlocR xred xswap.
Proof.
split=> *; rewrite /xred /xloc /xlocv ?opprK //=.
by rewrite rmorph1 rmorph0 scale1r scale0r addr0.
Qed.
End Loc.
