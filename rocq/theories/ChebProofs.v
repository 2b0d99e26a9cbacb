(** Chebyshev polynomials: values, growth and bounds; the exact three-term recurrence of the filter. *)
From mathcomp Require Import all_ssreflect all_algebra ring.
Require Import Verif.AlgModel Verif.AlgSpec Verif.ColModel Verif.FilterSpec Verif.ExactSpec.
Set Implicit Arguments. Unset Strict Implicit. Unset Printing Implicit Defensive.
Import Order.TTheory GRing.Theory Num.Theory.
Local Open Scope ring_scope.

Lemma chebT0 (R : comRingType) : chebT 0 = 1 :> {poly R}. Proof. by []. Qed.
Lemma chebT1 (R : comRingType) : chebT 1 = 'X :> {poly R}. Proof. by []. Qed.
Lemma chebTS (R : comRingType) n : chebT n.+2 = 'X *+ 2 * chebT n.+1 - chebT n :> {poly R}. Proof. by []. Qed.

Lemma chebT_ind (P : nat -> Prop) : P 0%N -> P 1%N -> (forall n, P n -> P n.+1 -> P n.+2) -> forall n, P n.
Proof. by move=> h0 h1 h n; have [] : P n /\ P n.+1 by elim: n => [|n [? ?]]; split=> //; apply: h. Qed.

Section Val.
Variable R : comRingType.
Implicit Types (x : R) (n : nat).
Definition cT n x : R := (chebT n).[x].
Lemma cT0 x : cT 0 x = 1. Proof. by rewrite /cT chebT0 hornerC. Qed.
Lemma cT1 x : cT 1 x = x. Proof. by rewrite /cT chebT1 hornerX. Qed.
Lemma cTS n x : cT n.+2 x = x *+ 2 * cT n.+1 x - cT n x.
Proof. by rewrite /cT chebTS hornerD hornerN hornerM hornerMn hornerX. Qed.

Lemma cT_opp n x : cT n (- x) = (-1) ^+ n * cT n x.
Proof.
elim/chebT_ind: n => [||n h0 h1]; rewrite ?cT0 ?cT1 ?mul1r ?expr1 ?mulN1r //.
by rewrite !cTS h0 h1 !exprS; ring.
Qed.

(** second kind, shifted: U 0 = 0, U 1 = 1 *)
Fixpoint cU n x : R := if n is m.+1 then x * cU m x + cT m x else 0.
Lemma cTU n x : cT n.+1 x = x * cT n x - (1 - x ^+ 2) * cU n x.
Proof.
elim: n => [|n IH]; first by rewrite cT0 cT1 /=; ring.
by rewrite cTS /= !IH; ring.
Qed.
Lemma pell n x : cT n x ^+ 2 + (1 - x ^+ 2) * cU n x ^+ 2 = 1.
Proof.
elim: n => [|n IH]; first by rewrite cT0 /=; ring.
by rewrite cTU /= -[RHS]IH; ring.
Qed.
End Val.

Lemma cT_morph (R C : comRingType) (f : {rmorphism R -> C}) n x : f (cT n x) = cT n (f x).
Proof. by elim/chebT_ind: n => [||n h0 h1]; rewrite ?cT0 ?cT1 ?rmorph1 // !cTS rmorphB rmorphM rmorphMn h0 h1. Qed.

(** ** growth and boundedness over an ordered field *)
Section Real.
Variable R : realFieldType.
Implicit Types (x y : R) (n m : nat).

Lemma cT_grow n x : 1 <= x -> 1 <= cT n x /\ cT n x <= cT n.+1 x.
Proof.
move=> hx; elim: n => [|n [h1 h2]]; first by rewrite cT0 cT1.
split; first exact: le_trans h1 h2.
rewrite cTS -subr_ge0.
have -> : x *+ 2 * cT n.+1 x - cT n x - cT n.+1 x = (x - 1) *+ 2 * cT n.+1 x + (cT n.+1 x - cT n x) by ring.
by rewrite addr_ge0 ?subr_ge0 // mulr_ge0 ?mulrn_wge0 ?subr_ge0 // (le_trans _ (le_trans h1 h2)) ?ler01.
Qed.
Lemma cT_ge1 n x : 1 <= x -> 1 <= cT n x. Proof. by move=> h; case: (cT_grow n h). Qed.
Lemma cT_gt0 n x : 1 <= x -> 0 < cT n x. Proof. by move=> h; apply: lt_le_trans (cT_ge1 n h); rewrite ltr01. Qed.

(** strict growth in the degree *)
Lemma cT_lt n x : 1 < x -> cT n x < cT n.+1 x.
Proof.
move=> hx; elim: n => [|n h]; first by rewrite cT0 cT1.
rewrite cTS -subr_gt0.
have -> : x *+ 2 * cT n.+1 x - cT n x - cT n.+1 x = (x - 1) *+ 2 * cT n.+1 x + (cT n.+1 x - cT n x) by ring.
by rewrite addr_gt0 ?subr_gt0 // mulr_gt0 ?cT_gt0 ?(ltW hx) // pmulrn_lgt0 // subr_gt0.
Qed.
Lemma cT_gt1 n x : 1 < x -> 1 < cT n.+1 x.
Proof. by move=> hx; apply: le_lt_trans (cT_lt n hx); apply: cT_ge1; apply: ltW. Qed.

Lemma cT_step n x : 1 <= x -> (x *+ 2 - 1) * cT n.+1 x <= cT n.+2 x.
Proof.
move=> hx; rewrite cTS -subr_ge0.
have -> : x *+ 2 * cT n.+1 x - cT n x - (x *+ 2 - 1) * cT n.+1 x = cT n.+1 x - cT n x by ring.
by rewrite subr_ge0; case: (cT_grow n hx).
Qed.
Lemma cT_expo n x : 1 <= x -> x * (x *+ 2 - 1) ^+ n <= cT n.+1 x.
Proof.
move=> hx; elim: n => [|n h]; first by rewrite cT1 expr0 mulr1.
apply: le_trans (cT_step n hx). rewrite exprS mulrCA ler_wpmul2l // subr_ge0.
by rewrite (le_trans hx) // mulr2n ler_addl (le_trans ler01 hx).
Qed.

(** growth in the argument *)
Lemma cU_ge0 n x : 1 <= x -> 0 <= cU n x.
Proof. by move=> hx; elim: n => //= n h; rewrite addr_ge0 ?mulr_ge0 ?(le_trans ler01 hx) ?(ltW (cT_gt0 _ hx)). Qed.
Lemma cT_diff_mono n x y : 1 <= x -> x < y -> cT n y - cT n x <= cT n.+1 y - cT n.+1 x /\ cT n.+1 x < cT n.+1 y.
Proof.
move=> hx hxy. have hy : 1 <= y by apply: le_trans hx (ltW hxy).
elim: n => [|n [h1 h2]]; first by rewrite !cT0 !cT1 subrr subr_ge0 (ltW hxy).
have A : cT n.+1 y - cT n.+1 x <= cT n.+2 y - cT n.+2 x.
  rewrite !cTS -subr_ge0.
  have -> : y *+ 2 * cT n.+1 y - cT n y - (x *+ 2 * cT n.+1 x - cT n x) - (cT n.+1 y - cT n.+1 x)
    = (y - x) *+ 2 * cT n.+1 y + (x - 1) *+ 2 * (cT n.+1 y - cT n.+1 x) + ((cT n.+1 y - cT n.+1 x) - (cT n y - cT n x)) by ring.
  apply: addr_ge0; last by rewrite subr_ge0.
  apply: addr_ge0; apply: mulr_ge0; rewrite ?mulrn_wge0 ?subr_ge0 ?(ltW hxy) ?(ltW h2) //.
  exact: ltW (cT_gt0 _ hy).
split=> //. rewrite -subr_gt0; apply: lt_le_trans A; by rewrite subr_gt0.
Qed.
Lemma cT_lt_arg n x y : 1 <= x -> x < y -> cT n.+1 x < cT n.+1 y.
Proof. by move=> hx hxy; case: (cT_diff_mono n hx hxy). Qed.

(** bounded by one on [-1,1] *)
Lemma cT_bounded n x : -1 <= x <= 1 -> `|cT n x| <= 1.
Proof.
move=> /andP[h1 h2].
have h : 0 <= 1 - x ^+ 2 by rewrite subr_ge0 -[leRHS](expr1n _ 2) -[x ^+ 2]real_normK ?num_real // ler_expn2r ?nnegrE ?ler01 // ler_norml h1 h2.
have H : cT n x ^+ 2 <= 1 by rewrite -(pell n x) ler_addl mulr_ge0 // sqr_ge0.
by move: H; rewrite -[cT n x ^+ 2]real_normK ?num_real // -[leRHS](expr1n _ 2) ler_pexpn2r // nnegrE.
Qed.

(** absolute values left of -1 *)
Lemma cT_abs n x : x <= -1 -> `|cT n x| = cT n (- x).
Proof.
move=> h. have h' : 1 <= - x by rewrite ler_oppr.
by rewrite -{1}[x]opprK cT_opp normrM normrX normrN1 expr1n mul1r gtr0_norm // cT_gt0.
Qed.
End Real.
