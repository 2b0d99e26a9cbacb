(** The symmetry checks: what the verdict means. *)
From Coq Require Import List Arith Bool ZArith Lia Ring_theory Ring.
Require Import Verif.Base Verif.DistSpec Verif.FlatModel Verif.FlatSpec Verif.FlatProofs.
Require Import Verif.SpmdModel Verif.SpmdSpec Verif.SpmdProofs Verif.KerModel Verif.KerSpec Verif.KerProofs1 Verif.KerProofs2 Verif.KerProofs9.
Import ListNotations.

Lemma rep_nth {A} (x : A) n k : k < n -> nth_error (repeat x n) k = Some x.
Proof. revert k; induction n; intros [|k] H; simpl; try lia; auto. apply IHn. lia. Qed.

Section Sym.
Context {D : Type} (o : sops D) (RT : is_ring o).
Let rsub (x y : D) : D := sadd o x (sopp o y).
Let RT' : ring_theory (s0 o) (s1 o) (sadd o) (smul o) rsub (sopp o) eq := RT.
Add Ring Rr : RT'.
Notation bsum := (bsum (s0 o) (sadd o)).

Lemma verdict_hermitian N G x far : (forall a, far a a = false) -> hermitian o N G -> sym_verdict o N G x far = true.
Proof.
  intros Hf HG. apply forallb_forall. intros g Hg. apply in_seq in Hg. apply negb_true_iff.
  replace (mprod o N (ctrans o G) (fun h _ => x h) g 0) with (mprod o N G (fun h _ => x h) g 0); auto.
  apply bsum_ext. intros h Hh. unfold ctrans. now rewrite (HG g h) by lia.
Qed.
Lemma verdict_iff N G x far : (forall a b, far a b = false <-> a = b) ->
  (sym_verdict o N G x far = true <-> forall g, g < N -> bsum N (fun h => smul o (sadd o (G g h) (sopp o (scj o (G h g)))) (x h)) = s0 o).
Proof.
  intros Hf. unfold sym_verdict. rewrite forallb_forall.
  assert (E : forall g, bsum N (fun h => smul o (sadd o (G g h) (sopp o (scj o (G h g)))) (x h)) =
     sadd o (mprod o N G (fun h _ => x h) g 0) (sopp o (mprod o N (ctrans o G) (fun h _ => x h) g 0))).
  { intros g. transitivity (sadd o (mprod o N G (fun h _ => x h) g 0) (smul o (sopp o (s1 o)) (mprod o N (ctrans o G) (fun h _ => x h) g 0))); [|ring].
    unfold mprod. rewrite <- (bsum_mul o RT), <- (bsum_add o RT). apply bsum_ext. intros h Hh. unfold ctrans. ring. }
  split.
  - intros H g Hg. rewrite E. specialize (H g ltac:(apply in_seq; lia)). apply negb_true_iff, Hf in H. rewrite H. ring.
  - intros H g Hg. apply in_seq in Hg. apply negb_true_iff, Hf. specialize (H g ltac:(lia)). rewrite E in H.
    set (a := mprod o N G (fun h _ => x h) g 0) in *. set (b := mprod o N (ctrans o G) (fun h _ => x h) g 0) in *.
    transitivity (sadd o b (s0 o)); [ring|]. rewrite <- H. ring.
Qed.

Lemma check_sym_seq_ok eqb N ldh (H v : list D) (G : nat -> nat -> D) (x : nat -> D) :
  (forall g h, g < N -> h < N -> nth_error H (g + h * ldh) = Some (G g h)) -> (forall h, h < N -> nth_error v h = Some (x h)) ->
  check_sym_seq o eqb N ldh H v = Ok (sym_verdict o N G x (fun a b => negb (eqb b a))).
Proof.
  intros HH Hv. unfold check_sym_seq.
  assert (HZ : forall r c y, r < N -> c < 1 -> nth_error (repeat (s0 o) N) (r + c * N) = Some y -> y = s0 o).
  { intros r c y Hr Hc E. apply nth_error_In, repeat_spec in E. exact E. }
  destruct (gemm_spec o false N 1 N (s1 o) H 0 ldh v 0 N (s0 o) (repeat (s0 o) N) 0 N G (fun h _ => x h)) as (u & E1 & L1 & P1 & _).
  { lia. } { intros r c Hr Hc. rewrite repeat_length. nia. } { intros r t Hr Ht. simpl. now apply HH. }
  { intros t c Ht Hc. replace (0 + t + c * N) with t by nia. now apply Hv. }
  destruct (gemm_spec o true N 1 N (s1 o) H 0 ldh v 0 N (s0 o) (repeat (s0 o) N) 0 N (fun r t => G t r) (fun h _ => x h)) as (uT & E2 & L2 & P2 & _).
  { lia. } { intros r c Hr Hc. rewrite repeat_length. nia. } { intros r t Hr Ht. simpl. now apply HH. }
  { intros t c Ht Hc. replace (0 + t + c * N) with t by nia. now apply Hv. }
  simpl in E1, E2. rewrite E1. cbn [bind]. rewrite E2. cbn [bind].
  set (fl := fun g => negb (negb (eqb (mprod o N G (fun h _ => x h) g 0) (mprod o N (ctrans o G) (fun h _ => x h) g 0)))).
  assert (U1 : forall g, g < N -> nth_error u g = Some (mprod o N G (fun h _ => x h) g 0)).
  { intros g Hg. assert (Z : nth_error (repeat (s0 o) N) (g + (0 + 0) * N) = Some (s0 o)) by (rewrite Nat.mul_0_l, Nat.add_0_r; now apply rep_nth).
    pose proof (P1 g 0 (s0 o) Hg ltac:(lia) Z) as E. rewrite Nat.mul_0_l, Nat.add_0_r in E. rewrite E. f_equal. unfold mprod. ring. }
  assert (U2 : forall g, g < N -> nth_error uT g = Some (mprod o N (ctrans o G) (fun h _ => x h) g 0)).
  { intros g Hg. assert (Z : nth_error (repeat (s0 o) N) (g + (0 + 0) * N) = Some (s0 o)) by (rewrite Nat.mul_0_l, Nat.add_0_r; now apply rep_nth).
    pose proof (P2 g 0 (s0 o) Hg ltac:(lia) Z) as E. rewrite Nat.mul_0_l, Nat.add_0_r in E. rewrite E. f_equal. unfold mprod, ctrans. ring. }
  destruct (for_run (fun r b => b = forallb fl (seq 0 r)) (fun b => b = forallb fl (seq 0 N))
     (fun i ok => let! x := rd u i in let! y := rd uT i in Ok (ok && eqb x y)) N 0 true) as (b & E & Hb); auto.
  - intros r b Hr ->. pose proof (U1 r ltac:(lia)) as F1. pose proof (U2 r ltac:(lia)) as F2. apply rd_ok in F1, F2. rewrite F1, F2. cbn [bind].
    eexists. split; [reflexivity|]. rewrite seq_S, forallb_app. cbn [forallb]. rewrite andb_true_r. f_equal. unfold fl. now rewrite negb_involutive.
  - rewrite E. f_equal. rewrite Hb. reflexivity.
Qed.
End Sym.
Lemma check_sym_seq_forallb {D} (o : sops D) (RT : is_ring o) eqb N ldh (H v : list D) (G : nat -> nat -> D) (x : nat -> D) :
  (forall g h, g < N -> h < N -> nth_error H (g + h * ldh) = Some (G g h)) -> (forall h, h < N -> nth_error v h = Some (x h)) ->
  check_sym_seq o eqb N ldh H v = Ok (forallb (fun g => eqb (mprod o N G (fun h _ => x h) g 0) (mprod o N (ctrans o G) (fun h _ => x h) g 0)) (seq 0 N)).
Proof.
  intros HH Hv. rewrite (check_sym_seq_ok o RT eqb N ldh H v G x HH Hv). f_equal. unfold sym_verdict.
  induction (seq 0 N) as [|g l IH]; auto. cbn [forallb]. now rewrite IH, negb_involutive.
Qed.
