(** The distributed symmetry check. *)
From Coq Require Import List Arith Bool ZArith Lia Ring_theory Ring Permutation.
Require Import Verif.Base Verif.DistModel Verif.DistSpec Verif.DistProofs Verif.DistProofs2 Verif.FlatModel Verif.FlatSpec Verif.FlatProofs Verif.FlatProofs2 Verif.FlatProofs3.
Require Import Verif.RedistModel Verif.RedistSpec Verif.RedistProofs Verif.RedistProofs2.
Require Import Verif.SpmdModel Verif.SpmdSpec Verif.SpmdProofs Verif.KerModel Verif.KerSpec Verif.KerProofs1 Verif.KerProofs2 Verif.KerProofs3 Verif.KerProofs4 Verif.KerProofs5.
Import ListNotations.

Lemma land_from_spec {D} (b : nat -> bool) : forall n i acc, land_from (D := D) acc (map (fun i => ALand (b i)) (seq i n)) = Some (RFlag (acc && forallb b (seq i n))).
Proof.
  induction n; intros i acc; simpl; [now rewrite andb_true_r|]. rewrite IHn. now rewrite andb_assoc.
Qed.
Lemma crun_all_land {D} (add : D -> D -> D) c n (b : nat -> bool) : 0 < n ->
  crun add c n (fun _ r => r = forallb b (seq 0 n)) (fun i => all_land c (b i)).
Proof.
  intros Hn. unfold all_land. destruct n; [lia|]. eapply crun_call; [apply offers_map| |].
  - cbn [seq map respond]. rewrite (land_from_spec b n 1 (b 0)). reflexivity.
  - cbn [resume]. apply crun_done. intros i Hi. eexists. split; [reflexivity|]. reflexivity.
Qed.

Section Sym.
Context {D : Type} (o : sops D) (RT : is_ring o).
Let rsub (x y : D) : D := sadd o x (sopp o y).
Let RT' : ring_theory (s0 o) (s1 o) (sadd o) (smul o) rsub (sopp o) eq := RT.
Add Ring Rr : RT'.
Notation bsum := (bsum (s0 o) (sadd o)).
Variables (N p q nevex : nat) (same : bool) (c2b b2c : list run) (rows cols : nat -> list nat) (ldh : nat -> nat -> nat) (G : nat -> nat -> D).
Hypotheses (Hp : 0 < p) (Hq : 0 < q) (HR : splits N p rows) (HC : splits N q cols).
Hypothesis Hc2b : forall j, j < q -> schedule p rows (cols j) j c2b.
Hypothesis Hb2c : forall i, i < p -> schedule q cols (rows i) i b2c.
Notation env := (genv nevex same c2b b2c rows cols ldh).
Variables (s : nat -> nat -> loc (D := D)) (x : nat -> D) (far : D -> D -> bool).
Hypothesis HH : stores_grid p q rows cols ldh G (fun i j => l_H (s i j)).
Hypothesis Rcnt : forall i, i < p -> (Z.of_nat (length (rows i)) < 2 ^ 31)%Z.
Hypothesis Ccnt : forall j, j < q -> (Z.of_nat (length (cols j)) < 2 ^ 31)%Z.
Let vx (g c : nat) : D := x g.

Lemma holds_vx (l : list nat) : holds l 0 1 (length l) vx (map x l).
Proof. intros a g c Ha Hc. replace c with 0 by lia. simpl. rewrite Nat.add_0_r, nth_error_map, Ha. reflexivity. Qed.

(** result: the two products, compared entry by entry *)
Notation sym_verdict := (KerSpec.sym_verdict o N G x far).

Lemma forallb_perm {A} (f : A -> bool) l l' : Permutation l l' -> forallb f l = forallb f l'.
Proof. induction 1; simpl; auto; [congruence|destruct (f x0), (f y); auto|congruence]. Qed.
Lemma forallb_flat {A B} (f : B -> bool) (g : A -> list B) l : forallb (fun a => forallb f (g a)) l = forallb f (flat_map g l).
Proof. induction l; simpl; auto. now rewrite forallb_app, IHl. Qed.

Theorem check_sym_ok : completes (sadd o) p q (fun i j b => b = sym_verdict) (fun i j => check_sym o far (env i j) (map x (rows i)) (s i j)).
Proof.
  apply good_completes; auto. unfold check_sym. cbn [genv e_i e_j e_m e_n e_ldh e_c2b e_b2c].
  set (z := repeat (s0 o)).
  apply (good_phase (sadd o) p q _ Hp Hq ColC (fun j i v2 => only_columns (cols j) 0 1 vx (z (length (cols j))) v2)
    (fun j i => redist_prog ColC c2b j i (length (rows i)) (length (cols j)) 0 1 (map x (rows i)) (z (length (cols j))))
    (fun i j v2 =>
      let? u := local (gemm o true (length (cols j)) 1 (length (rows i)) (s1 o) (l_H (s i j)) 0 (ldh i j) (map x (rows i)) 0 (length (rows i)) (s0 o) (z (length (cols j))) 0 (length (cols j))) in
      let? u := all_reduce ColC u 0 (length (cols j)) in
      let? uT := local (gemm o false (length (rows i)) 1 (length (cols j)) (s1 o) (l_H (s i j)) 0 (ldh i j) v2 0 (length (cols j)) (s0 o) (z (length (rows i))) 0 (length (rows i))) in
      let? uT := all_reduce RowC uT 0 (length (rows i)) in
      let? v := redist_prog RowC b2c i j (length (cols j)) (length (rows i)) 0 1 u (map x (rows i)) in
      let? ok := local (for_ (length (rows i)) 0 (fun r ok => let! x := rd v r in let! y := rd uT r in Ok (ok && negb (far x y))) true) in
      let? ok := all_land ColC ok in Ret ok)).
  { intros j Hj. destruct (Hc2b j Hj) as [S1 S2].
    apply (crun_redist (sadd o) p ColC j 0 1 vx (fun i => map x (rows i)) (fun _ => z (length (cols j))) rows (cols j) c2b); auto.
    - intros i Hi. apply holds_vx.
    - intros i Hi. unfold z. rewrite repeat_length. lia. }
  intros v2 Hv2. cbn [cnum crank] in Hv2.
  set (u0 := fun i j => pbind (local (gemm o true (length (cols j)) 1 (length (rows i)) (s1 o) (l_H (s i j)) 0 (ldh i j) (map x (rows i)) 0 (length (rows i)) (s0 o) (z (length (cols j))) 0 (length (cols j))))
     (fun u => all_reduce ColC u 0 (length (cols j)))).
  set (k1 := fun i j u =>
      let? uT := local (gemm o false (length (rows i)) 1 (length (cols j)) (s1 o) (l_H (s i j)) 0 (ldh i j) (v2 i j) 0 (length (cols j)) (s0 o) (z (length (rows i))) 0 (length (rows i))) in
      let? uT := all_reduce RowC uT 0 (length (rows i)) in
      let? v := redist_prog RowC b2c i j (length (cols j)) (length (rows i)) 0 1 u (map x (rows i)) in
      let? ok := local (for_ (length (rows i)) 0 (fun r ok => let! x := rd v r in let! y := rd uT r in Ok (ok && negb (far x y))) true) in
      let? ok := all_land ColC ok in Ret ok).
  apply (good_eqv (sadd o) p q _ (fun i j => pbind (u0 i j) (k1 i j))).
  { intros i j Hi Hj. unfold u0. destruct (gemm _ _ _ _ _ _ _ _ _ _ _ _ _ _ _ _); reflexivity. }
  apply (good_phase (sadd o) p q _ Hp Hq ColC (fun j i u => only_columns (cols j) 0 1 (axpby o N (s1 o) (s0 o) (ctrans o G) vx vx) (z (length (cols j))) u)
    (fun j i => u0 i j) k1).
  { intros j Hj. 
    pose proof (crun_gemm_reduce o RT ColC true N p rows (cols j) 0 1 (s1 o) (s0 o) (ctrans o G) vx vx (fun i => l_H (s i j)) (fun i => map x (rows i)) (fun i => z (length (cols j))) (fun i => ldh i j)) as C.
    rewrite !Nat.mul_1_r in C. eapply crun_ext; [|apply C]; auto.
    - intros i Hi. unfold u0. now destruct (i =? 0).
    - intros i r t g h Hi Hr Ht. exists (G h g). split; [|reflexivity]. now apply (HH i j Hi Hj).
    - intros i Hi. apply holds_vx.
    - intros i Hi. unfold z. rewrite repeat_length. lia. }
  intros u Hu. cbn [cnum crank] in Hu. unfold k1.
  set (t0 := fun i j => pbind (local (gemm o false (length (rows i)) 1 (length (cols j)) (s1 o) (l_H (s i j)) 0 (ldh i j) (v2 i j) 0 (length (cols j)) (s0 o) (z (length (rows i))) 0 (length (rows i))))
     (fun uT => all_reduce RowC uT 0 (length (rows i)))).
  set (k2 := fun i j uT =>
      let? v := redist_prog RowC b2c i j (length (cols j)) (length (rows i)) 0 1 (u i j) (map x (rows i)) in
      let? ok := local (for_ (length (rows i)) 0 (fun r ok => let! x := rd v r in let! y := rd uT r in Ok (ok && negb (far x y))) true) in
      let? ok := all_land ColC ok in Ret ok).
  apply (good_eqv (sadd o) p q _ (fun i j => pbind (t0 i j) (k2 i j))).
  { intros i j Hi Hj. unfold t0. destruct (gemm _ _ _ _ _ _ _ _ _ _ _ _ _ _ _ _); reflexivity. }
  apply (good_phase (sadd o) p q _ Hp Hq RowC (fun i j uT => only_columns (rows i) 0 1 (axpby o N (s1 o) (s0 o) G vx vx) (z (length (rows i))) uT) t0 k2).
  { intros i Hi.
    pose proof (crun_gemm_reduce o RT RowC false N q cols (rows i) 0 1 (s1 o) (s0 o) G vx vx (fun j => l_H (s i j)) (fun j => v2 i j) (fun j => z (length (rows i))) (fun j => ldh i j)) as C.
    rewrite !Nat.mul_1_r in C. eapply crun_ext; [|apply C]; auto.
    - intros j Hj. unfold t0. now destruct (j =? 0).
    - intros j r t g h Hj Hr Ht. now apply (HH i j Hi Hj).
    - intros j Hj. destruct (Hv2 i j Hi Hj) as (_ & H & _). exact H.
    - intros j Hj. unfold z. rewrite repeat_length. lia. }
  intros uT HuT. cbn [cnum crank] in HuT. unfold k2.
  apply (good_phase (sadd o) p q _ Hp Hq RowC (fun i j v => only_columns (rows i) 0 1 (axpby o N (s1 o) (s0 o) (ctrans o G) vx vx) (map x (rows i)) v)
    (fun i j => redist_prog RowC b2c i j (length (cols j)) (length (rows i)) 0 1 (u i j) (map x (rows i)))
    (fun i j v => let? ok := local (for_ (length (rows i)) 0 (fun r ok => let! x := rd v r in let! y := rd (uT i j) r in Ok (ok && negb (far x y))) true) in
      let? ok := all_land ColC ok in Ret ok)).
  { intros i Hi. destruct (Hb2c i Hi) as [S1 S2].
    apply (crun_redist (sadd o) q RowC i 0 1 (axpby o N (s1 o) (s0 o) (ctrans o G) vx vx) (fun j => u i j) (fun _ => map x (rows i)) cols (rows i) b2c); auto.
    - intros j Hj. destruct (Hu i j Hi Hj) as (_ & H & _). exact H.
    - intros j Hj. rewrite map_length. lia. }
  intros v Hv. cbn [cnum crank] in Hv.
  set (fl := fun g => negb (far (mprod o N (ctrans o G) vx g 0) (mprod o N G vx g 0))).
  apply (good_local (sadd o) p q _ (fun i j b => b = forallb fl (rows i))); auto.
  { intros i j Hi Hj. destruct (Hv i j Hi Hj) as (_ & H1 & _). destruct (HuT i j Hi Hj) as (_ & H2 & _).
    destruct (for_run (fun r b => b = forallb fl (firstn r (rows i))) (fun b => b = forallb fl (rows i))
       (fun r ok => let! x := rd (v i j) r in let! y := rd (uT i j) r in Ok (ok && negb (far x y))) (length (rows i)) 0 true) as (b & E & Hb); auto.
    - intros r b Hr ->. pose proof (nth_of (rows i) 0 r ltac:(lia)) as Er.
      pose proof (H1 r _ 0 Er ltac:(lia)) as E1. pose proof (H2 r _ 0 Er ltac:(lia)) as E2. rewrite Nat.mul_0_l, Nat.add_0_r in E1, E2.
      apply rd_ok in E1, E2. rewrite E1, E2. cbn [bind]. eexists. split; [reflexivity|].
      rewrite (firstn_S_nth (rows i) r _ Er), forallb_app. cbn [forallb]. rewrite andb_true_r. f_equal. unfold fl. f_equal.
      assert (A1 : forall M g, axpby o N (s1 o) (s0 o) M vx vx g 0 = mprod o N M vx g 0) by (intros; unfold axpby, mprod; ring). now rewrite !A1.
    - intros b ->. f_equal. apply firstn_all2. lia.
    - exists b. now rewrite E. }
  intros b Hb.
  apply (good_phase (sadd o) p q _ Hp Hq ColC (fun j i r => r = sym_verdict) (fun j i => all_land ColC (b i j)) (fun i j r => Ret r)).
  - intros j Hj. eapply crun_mono; [|apply (crun_all_land (sadd o) ColC p (fun i => b i j) Hp)]. intros i r Hi ->.
    unfold KerSpec.sym_verdict; fold vx. rewrite <- (forallb_perm _ _ _ HR), <- forallb_flat. clear i Hi.
    assert (G1 : forall l, (forall i, In i l -> i < p) -> forallb (fun i => b i j) l = forallb (fun i => forallb fl (rows i)) l).
    { induction l; intros Hl; simpl; auto. rewrite IHl by (intros; apply Hl; now right). rewrite (Hb a j) by (auto || (apply Hl; now left)). reflexivity. }
    apply G1. intros i Hi. apply in_seq in Hi. lia.
  - intros r Hr. apply good_done. intros i j Hi Hj. exists (r i j). split; [reflexivity|exact (Hr i j Hi Hj)].
Qed.
End Sym.
