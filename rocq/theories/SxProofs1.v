(** The library calls on columns, read as operations on matrices over a field, are exact. *)
From mathcomp Require Import all_ssreflect all_algebra all_real_closed.
Require Import Verif.Base Verif.AlgModel Verif.DlaModel Verif.ColModel Verif.ColRel Verif.SfModel Verif.SfSpec Verif.ExactSpec Verif.OrthSpec Verif.OrthProofs Verif.LapackSpec Verif.LapackProofs
  Verif.BackSpec Verif.SxSpec.
Import Verif.ExactSpec Verif.OrthSpec.
Set Implicit Arguments. Unset Strict Implicit. Unset Printing Implicit Defensive.
Import GRing.Theory Num.Theory.
Local Open Scope ring_scope.
Local Open Scope complex_scope.
Local Notation ent := LapackSpec.ent.

Lemma tabE (A : Type) m (f : nat -> A) : tab m f = mkseq f m.
Proof. by rewrite /tab lmapE lseqE. Qed.
Lemma tab_eq (A : Type) m (f g : nat -> A) : (forall i : 'I_m, f i = g i) -> tab m f = tab m g.
Proof. by move=> h; rewrite !tabE; apply/eq_in_map => i; rewrite mem_iota add0n => /= hi; rewrite (h (Ordinal hi)). Qed.
Lemma tab2_eq (A : Type) m k (f g : nat -> nat -> A) : (forall (i : 'I_m) (j : 'I_k), f i j = g i j) -> tab2 m k f = tab2 m k g.
Proof. by move=> h; apply: tab_eq => j; apply: tab_eq => i. Qed.
Lemma tab_size (A : Type) m (f : nat -> A) : size (tab m f) = m.
Proof. by rewrite tabE size_mkseq. Qed.
Lemma tab_nth (A : Type) x m (f : nat -> A) i : (i < m)%N -> nth x (tab m f) i = f i.
Proof. by move=> h; rewrite tabE nth_mkseq. Qed.
Lemma f2_lst (A B : Type) (f : A -> B) l l' : List.Forall2 (fun x y => y = f x) l l' -> l' = List.map f l.
Proof. by elim=> //= x y {}l {}l' -> _ ->. Qed.
Lemma lst_f2 (A B : Type) (f : A -> B) l : List.Forall2 (fun x y => y = f x) l (List.map f l).
Proof. by elim: l => //= x l IH; constructor. Qed.

Section Mx.
Variables (R : rcfType) (C : fieldType) (inj : {rmorphism R -> C}) (cj : {rmorphism C -> C}) (fo : fops R) (lib : flib R C) (N : nat).
Local Notation V := 'cV[C]_N.
Local Notation cb := (col_blas fo lib N).
Definition cvl (l : list C) : V := \col_i l`_i.
Definition cml (A : list (list C)) : 'M[C]_N := \matrix_(i, j) (nth [::] A j)`_i.
Local Notation vs := (map (@lst C N)).

Lemma lst_size m (x : 'cV[C]_m) : size (lst x) = m. Proof. exact: tab_size. Qed.
Lemma lst_nth m (x : 'cV[C]_m) (i : 'I_m) : (lst x)`_i = x i 0.
Proof. by rewrite tab_nth // vfnE. Qed.
Lemma lst_cvl l : size l = N -> lst (cvl l) = l.
Proof.
move=> sz; apply: (@eq_from_nth _ 0); rewrite lst_size ?sz // => i hi; by rewrite (lst_nth _ (Ordinal hi)) mxE.
Qed.
Lemma cvl_lst x : cvl (lst x) = x.
Proof. by apply/colP => i; rewrite mxE lst_nth. Qed.
Lemma lst_tab f : lst (cvl (tab N f)) = tab N f.
Proof. by apply: lst_cvl; rewrite tab_size. Qed.
Lemma cols_nth m k (A : 'M[C]_(m, k)) (i : 'I_m) (j : 'I_k) : (nth [::] (cols A) j)`_i = A i j.
Proof. by rewrite tab_nth // tab_nth // entE. Qed.
Lemma cml_cols f : cols (cml (tab2 N N f)) = tab2 N N f.
Proof. by apply: tab2_eq => i j; rewrite entE mxE tab_nth // tab_nth. Qed.

Definition mxb : blas R V 'M[C]_N (list (list C)) C := {|
  b_gemmN := fun H a b x y => cvl (b_gemmN cb (cols H) a b (lst x) (lst y));
  b_gemmH := fun H a b x y => cvl (b_gemmH cb (cols H) a b (lst x) (lst y));
  b_mulN := fun H x => cvl (b_mulN cb (cols H) (lst x));
  b_mulH := fun H x => cvl (b_mulH cb (cols H) (lst x));
  b_shift := fun H c => cml (b_shift cb (cols H) c);
  b_rnd := fun j => cvl (b_rnd cb j); b_test := cvl (b_test cb); b_veq := fun x y => b_veq cb (lst x) (lst y); b_zero := cvl (b_zero cb);
  b_hh := fun cs c => cvl (b_hh cb (vs cs) c); b_syherk := fun cs => b_syherk cb (vs cs); b_dshift := b_dshift cb; b_potrf := b_potrf cb;
  b_trsm := fun g cs c => cvl (b_trsm cb g (vs cs) c); b_gram := fun ws cs => b_gram cb (vs ws) (vs cs); b_eval := b_eval cb;
  b_comb := fun cs g j => cvl (b_comb cb (vs cs) g j); b_combl := fun cs rv j => cvl (b_combl cb (vs cs) rv j);
  b_inj := b_inj cb; b_re := b_re cb; b_tneg := b_tneg cb;
  b_dot := fun x y => b_dot cb (lst x) (lst y); b_axpy := fun a x y => cvl (b_axpy cb a (lst x) (lst y)); b_scal := fun a x => cvl (b_scal cb a (lst x));
  b_nrm2 := fun x => b_nrm2 cb (lst x) |}.

(** ** the simulation *)
Definition RV (x : V) (v : list C) : Prop := v = lst x.
Definition RM (H : 'M[C]_N) (A : list (list C)) : Prop := A = cols H.
Lemma zip_size (A B D : Type) (f : A -> B -> D) l l' : size l = size l' -> size (ColModel.zip f l l') = size l.
Proof. by rewrite /ColModel.zip; elim: l l' => [|a l IH] [|b l'] //= [h]; rewrite IH. Qed.
Lemma rep_size (A : Type) (a : A) k : size (List.repeat a k) = k.
Proof. by elim: k => //= k ->. Qed.
Lemma mx_sim : blas_rel mxb cb RV RM eq.
Proof.
split.
- by move=> H H' a b x x' y y' -> -> ->; rewrite /RV /= lst_tab.
- by move=> H H' a b x x' y y' -> -> ->; rewrite /RV /= lst_tab.
- by move=> H H' x x' -> ->; rewrite /RV /= lst_tab.
- by move=> H H' x x' -> ->; rewrite /RV /= lst_tab.
- by move=> H H' c ->; rewrite /RM /= cml_cols.
- by move=> j; rewrite /RV /= lst_tab.
- by rewrite /RV /= lst_tab.
- by move=> x x' y y' -> ->.
- by rewrite /RV /= lst_cvl // rep_size.
- by move=> l l' c /f2_lst ->; rewrite /RV /= lst_tab.
- by move=> l l' /f2_lst ->.
- by move=> g g' ->.
- by move=> g g' ->.
- by move=> g g' l l' c -> /f2_lst ->; rewrite /RV /= lst_tab.
- by move=> l l' m m' /f2_lst -> /f2_lst ->.
- by move=> g g' i ->.
- by move=> l l' g g' j /f2_lst -> ->; rewrite /RV /= lst_tab.
- by move=> l l' rv j /f2_lst ->; rewrite /RV /= lst_tab.
- by [].
- by [].
- by [].
- by move=> x x' y y' -> ->.
- by move=> a x x' y y' -> ->; rewrite /RV /= lst_cvl // zip_size ?lst_size.
- by move=> a x x' ->; rewrite /RV /= lst_cvl //; exact: etrans (List.map_length _ _) (lst_size _).
- by move=> x x' ->.
Qed.
End Mx.
