(** The reduction kernels: residuals and the trace of absolute values. *)
From Coq Require Import List Arith ZArith Bool Lia Permutation.
Require Import Verif.CukModel Verif.CukSpec Verif.CukProofs1 Verif.CukProofs2 Verif.CukProofs3.
Import ListNotations.

(** *** trees *)
Definition part (t c : nat) : stree := fold_left (fun tr k => SN tr (SL (t + 256 * k))) (seq 0 c) SZ.
Lemma part_S t c : part t (S c) = SN (part t c) (SL (t + 256 * c)).
Proof. unfold part. now rewrite seq_S, fold_left_app. Qed.
Lemma part_leaves t c : leaves (part t c) = map (fun k => t + 256 * k) (seq 0 c).
Proof. induction c; auto. rewrite part_S, seq_S, map_app. cbn. now rewrite IHc. Qed.
Definition red (g : nat -> stree) (sl : list nat) : nat -> stree := fold_left (fun g s t => SN (g t) (g (t + s))) sl g.
Fixpoint chain (n : nat) (sl : list nat) : Prop := match sl with [] => n = 1 | s :: l => n = s + s /\ chain s l end.
Definition all_leaves (n : nat) (g : nat -> stree) : list nat := flat_map (fun t => leaves (g t)) (seq 0 n).
Lemma flat_map_two {A B} (f g : A -> list B) l : Permutation (flat_map (fun x => f x ++ g x) l) (flat_map f l ++ flat_map g l).
Proof.
  induction l as [|a l IH]; cbn; auto. rewrite IH, !app_assoc. apply Permutation_app_tail. rewrite <- !app_assoc. apply Permutation_app_head. apply Permutation_app_comm.
Qed.
Lemma flat_map_shift {B} (f : nat -> list B) s n : flat_map f (seq s n) = flat_map (fun t => f (t + s)) (seq 0 n).
Proof.
  revert s. induction n; intros s; cbn; auto. f_equal. rewrite IHn. rewrite (IHn 1 (fun t => f (t + s))) || idtac.
  rewrite <- (seq_shift n 0), flat_map_concat_map, flat_map_concat_map, map_map. f_equal. apply map_ext. intros a. f_equal. lia.
Qed.
Lemma red_leaves sl : forall n g, chain n sl -> Permutation (leaves (red g sl 0)) (all_leaves n g).
Proof.
  induction sl as [|s sl IH]; cbn [chain]; intros n g H.
  - subst n. unfold all_leaves. cbn. now rewrite app_nil_r.
  - destruct H as [-> H]. unfold red. cbn [fold_left]. fold (red (fun t => SN (g t) (g (t + s))) sl). rewrite (IH s _ H). unfold all_leaves. cbn [leaves].
    rewrite flat_map_two, seq_app, flat_map_app. apply Permutation_app_head. rewrite (flat_map_shift (fun t => leaves (g t)) (0 + s) s). reflexivity.
Qed.
Definition halves := [128; 64; 32; 16; 8; 4; 2; 1].
Lemma chain_halves : chain 256 halves. Proof. cbn. lia. Qed.

Lemma NoDup_flat_map' {A B} (f : A -> list B) l : NoDup l -> (forall x, In x l -> NoDup (f x)) ->
  (forall x y z, In x l -> In y l -> x <> y -> In z (f x) -> In z (f y) -> False) -> NoDup (flat_map f l).
Proof.
  induction 1 as [|x l Hx Hl IH]; cbn; intros H1 H2; [constructor|].
  assert (N1 : NoDup (f x)) by auto. assert (N2 : NoDup (flat_map f l)) by (apply IH; [auto|intros; eapply H2; eauto]).
  assert (D : forall z, In z (f x) -> ~ In z (flat_map f l)).
  { intros z Z1 Z2. apply in_flat_map in Z2. destruct Z2 as (y & Y1 & Y2). eapply (H2 x y z); eauto. intros ->. auto. }
  clear - N1 N2 D. induction (f x) as [|a la IH]; cbn; auto. inversion N1; subst. constructor.
  - rewrite in_app_iff. intros [?|?]; [auto|]. eapply (D a); eauto. now left.
  - apply IH; auto. intros z Hz. apply D. now right.
Qed.
Definition row_count (m t : nat) := (m - t + 255) / 256.
Lemma row_count_lt m t k : t < 256 -> k < row_count m t <-> t + 256 * k < m.
Proof.
  intros Ht. unfold row_count. split.
  - intros H. assert (S k <= (m - t + 255) / 256) by lia. pose proof (Nat.mul_div_le (m - t + 255) 256 ltac:(lia)). nia.
  - intros H. apply Nat.lt_le_trans with (S k); [lia|]. apply Nat.div_le_lower_bound; lia.
Qed.
(** the rows added up by the 256 threads are the rows of the matrix *)
Lemma rows_once m : Permutation (all_leaves 256 (fun t => part t (row_count m t))) (seq 0 m).
Proof.
  apply NoDup_Permutation; [| |].
  - unfold all_leaves. apply NoDup_flat_map'; [apply seq_NoDup| |].
    + intros t _. rewrite part_leaves. apply FinFun.Injective_map_NoDup; [|apply seq_NoDup]. intros a b E. lia.
    + intros x y z Hx Hy N Ix Iy. rewrite part_leaves in Ix, Iy. apply in_map_iff in Ix, Iy. destruct Ix as (k & <- & _), Iy as (k' & E & _). apply in_seq in Hx, Hy. apply N. lia.
  - apply seq_NoDup.
  - intros i. unfold all_leaves. rewrite in_flat_map, in_seq. split.
    + intros (t & Ht & H). apply in_seq in Ht. rewrite part_leaves in H. apply in_map_iff in H. destruct H as (k & <- & Hk). apply in_seq in Hk. assert (k < row_count m t) as L by lia. apply row_count_lt in L; lia.
    + intros Hi. pose proof (Nat.div_mod i 256 ltac:(lia)). pose proof (Nat.mod_upper_bound i 256 ltac:(lia)). exists (i mod 256). split; [apply in_seq; lia|].
      rewrite part_leaves. apply in_map_iff. exists (i / 256). split; [lia|]. apply in_seq. split; [lia|]. apply row_count_lt; lia.
Qed.

(** exact addition: the order does not matter *)
Section Monoid.
Context {V : Type} (zero : V) (add : V -> V -> V).
Context (Ha : forall x y z, add x (add y z) = add (add x y) z) (Hc : forall x y, add x y = add y x) (Hz : forall x, add zero x = x).
Local Notation total := (total zero add).
Lemma total_app f l l' : total f (l ++ l') = add (total f l) (total f l').
Proof. induction l; cbn; [now rewrite Hz|]. unfold total in IHl. now rewrite IHl, Ha. Qed.
Lemma sval_total f t : sval zero add f t = total f (leaves t).
Proof. induction t; cbn [sval leaves]; auto; [cbn; now rewrite Hc, Hz|]. rewrite IHt1, IHt2. symmetry. apply total_app. Qed.
Lemma total_perm f l l' : Permutation l l' -> total f l = total f l'.
Proof. unfold total. induction 1; cbn; auto; [congruence| |congruence]. rewrite !Ha. f_equal. apply Hc. Qed.
End Monoid.

Section R.
Context {V : Type} (zero : V) (add : V -> V -> V).
Local Notation act := (action V (list V)).
Local Notation tmem := (thread_mem add (@nil V)).
Local Notation seqa := (seqa (R := list V) add).
Local Notation pmem := (phase_mem add (@nil V) 256).
Local Notation sv := (sval zero add).

(** *** one halving step *)
Lemma reduce_step_in b t s a : In a (reduce_step zero add b t s) -> t < s /\
  ((target a = Some (Shm b (Zn t))) \/ (target a = Some (Shm b (Zn (t + s))) /\ is_ld a = true)).
Proof.
  unfold reduce_step. destruct ((t <? s) && (t + s <? 256)) eqn:E; [|intros []]. apply andb_true_iff in E. destruct E as [E _]. apply Nat.ltb_lt in E.
  intros [<-|[<-|[<-|[]]]]; cbn; auto.
Qed.
Lemma reduce_nonconf rc b s t t' a a' : t <> t' -> In a (reduce_step zero add b t s) -> In a' (reduce_step zero add b t' s) -> nonconf rc a a'.
Proof.
  intros N I I' x E E'. apply reduce_step_in in I, I'. destruct I as [L [D|[D1 D2]]], I' as [L' [D'|[D1' D2']]]; auto; exfalso.
  - rewrite D in E. rewrite D' in E'. rewrite <- E in E'. injection E' as E'. unfold Zn in E'. lia.
  - rewrite D in E. rewrite D1' in E'. rewrite <- E in E'. injection E' as E'. unfold Zn in E'. lia.
  - rewrite D1 in E. rewrite D' in E'. rewrite <- E in E'. injection E' as E'. unfold Zn in E'. lia.
Qed.
Lemma reduce_phase b s (m : mem V) f : s <= 128 -> (forall t, t < s + s -> m (Shm b (Zn t)) = Some (f t)) ->
  let m' := pmem (fun t => reduce_step zero add b t s) m in
  (forall t, t < s -> m' (Shm b (Zn t)) = Some (add (f t) (f (t + s)))) /\ forall x, (forall t, t < 256 -> x <> Shm b (Zn t)) -> m' x = m x.
Proof.
  intros Hs Hf m'. split.
  - intros t Ht. unfold m'. rewrite (phase_write add 256 (fun t => reduce_step zero add b t s)) with (t := t); [|intros; eapply reduce_nonconf; eauto|lia|].
    + unfold thread_mem, reduce_step. rewrite (proj2 (Nat.ltb_lt t s)), (proj2 (Nat.ltb_lt (t + s) 256)) by lia. cbn [andb].
      unfold seqa. cbn [fold_left]. unfold act'. cbn [CukModel.act fst snd]. rewrite (Hf t) by lia. cbn [fst snd].
      rewrite (Hf (t + s)) by lia. cbn [fst snd]. rewrite (Hf t) by lia. cbn [snd]. rewrite upd_eq. reflexivity.
    + exists (St (Shm b (Zn t)) (fun r => add (second zero r) (top zero r))). split; [|auto].
      unfold reduce_step. rewrite (proj2 (Nat.ltb_lt t s)), (proj2 (Nat.ltb_lt (t + s) 256)) by lia. cbn. auto.
  - intros x Hx. apply phase_mem_frame. intros t Ht (a & I & E & L). apply reduce_step_in in I. destruct I as [_ [D|[D1 D2]]]; [|congruence].
    apply (Hx t Ht). congruence.
Qed.
Lemma reduce_all b : forall sl n (m : mem V) f g, chain n sl -> n <= 256 -> (forall t, t < n -> m (Shm b (Zn t)) = Some (sv f (g t))) ->
  let m' := fold_left (fun m s => pmem (fun t => reduce_step zero add b t s) m) sl m in
  m' (Shm b 0%Z) = Some (sv f (red g sl 0)) /\ forall x, (forall t, t < 256 -> x <> Shm b (Zn t)) -> m' x = m x.
Proof.
  induction sl as [|s sl IH]; cbn [chain fold_left]; intros n m f g H Hn Hf.
  - subst n. split; auto. exact (Hf 0 ltac:(lia)).
  - destruct H as [-> H]. destruct (reduce_phase b s m (fun t => sv f (g t)) ltac:(lia) Hf) as [A B].
    destruct (IH s (pmem (fun t => reduce_step zero add b t s) m) f (fun t => SN (g t) (g (t + s))) H ltac:(lia) A) as [C D].
    split; [exact C|]. intros x Hx. rewrite D, B; auto.
Qed.

(** programs that consist of a first phase, the halving steps and a last phase *)
Section Shape.
Context (k : kernel V) (P0 PL : nat -> nat -> list act).
Context (Hnt : kn_threads k = 256) (Hprog : forall b t, kn_prog k b t = P0 b t :: reduce_phases zero add b t ++ [PL b t]).
Context (oarr : nat) (rc : bool) (Hrc : rc = true -> forall m x y, add (add m x) y = add (add m y) x).
Context (H0 : forall b t a, b < kn_blocks k -> t < 256 -> In a (P0 b t) -> target a = Some (Shm b (Zn t)) \/ (exists ar z, target a = Some (Glob ar z) /\ is_ld a = true /\ ar <> oarr)).
Context (HL : forall b t a, b < kn_blocks k -> t < 256 -> In a (PL b t) -> t = 0 /\
  ((target a = Some (Shm b 0%Z) /\ is_ld a = true) \/ (exists z, target a = Some (Glob oarr z) /\ is_ld a = false /\ ((rc = false /\ z = Zn b) \/ (rc = true /\ is_at a = true))))).
Lemma ph_cases b t p a : p <= 9 -> In a (ph k b t p) -> (p = 0 /\ In a (P0 b t)) \/ (1 <= p <= 8 /\ In a (reduce_step zero add b t (nth (p - 1) halves 0))) \/ (p = 9 /\ In a (PL b t)).
Proof.
  unfold ph. rewrite Hprog. intros Hp I. destruct p; [left; auto|].
  do 8 (destruct p; [right; left; split; [lia|exact I]|]). destruct p; [right; right; auto|lia].
Qed.
Lemma phase_mem_eq (P P' : nat -> list act) m : (forall t, P t = P' t) -> pmem P m = pmem P' m.
Proof. intros E. unfold phase_mem. generalize (seq 0 256). intros l. revert m. induction l as [|t l IH]; intros m; cbn [fold_left]; auto. now rewrite E, IH. Qed.
Lemma bmem_eq b m : bmem add k 9 b m = pmem (PL b) (fold_left (fun m s => pmem (fun t => reduce_step zero add b t s) m) halves (pmem (P0 b) m)).
Proof.
  unfold bmem, block_mem. rewrite Hnt. cbn [seq fold_left halves].
  repeat (etransitivity; [apply phase_mem_eq; intros t; unfold ph; rewrite Hprog; reflexivity|]; cbn [nth reduce_phases map app]; f_equal).
Qed.
(** every operation of a block: its shared array, a load of an input, or the output *)
Definition kind (b : nat) (a : act) : Prop := (exists z, target a = Some (Shm b z)) \/ (exists ar z, target a = Some (Glob ar z) /\ is_ld a = true /\ ar <> oarr) \/
  (exists z, target a = Some (Glob oarr z) /\ is_ld a = false /\ ((rc = false /\ z = Zn b) \/ (rc = true /\ is_at a = true))).
Lemma ph_kind b t p a : b < kn_blocks k -> t < 256 -> p <= 9 -> In a (ph k b t p) -> kind b a.
Proof.
  intros Hb Ht Hp I. apply ph_cases in I; auto. destruct I as [[_ I]|[[_ I]|[_ I]]].
  - destruct (H0 _ _ _ Hb Ht I) as [D|D]; [left; eauto|right; left; exact D].
  - apply reduce_step_in in I. destruct I as [_ [D|[D _]]]; left; eauto.
  - destruct (HL _ _ _ Hb Ht I) as [_ [[D _]|D]]; [left; eauto|right; right; exact D].
Qed.
Lemma shape_out b b' t t' p p' a a' : b < kn_blocks k -> b' < kn_blocks k -> b <> b' -> t < kn_threads k -> t' < kn_threads k -> p <= 9 -> p' <= 9 ->
  In a (ph k b t p) -> In a' (ph k b' t' p') -> nonconf rc a a'.
Proof.
  rewrite Hnt. intros Hb Hb' N Ht Ht' Hp Hp' I I' x E E'. apply ph_kind in I; auto. apply ph_kind in I'; auto.
  destruct I as [(z & D)|[(ar & z & D & D1 & D2)|(z & D & D1 & D2)]], I' as [(z' & D')|[(ar' & z' & D' & D1' & D2')|(z' & D' & D1' & D2')]]; auto;
    rewrite D in E; rewrite D' in E'; rewrite <- E in E'; try discriminate; injection E'; try congruence.
  intros ->. destruct D2 as [[D2 D3]|D2], D2' as [[D2' D3']|D2']; try tauto; try (exfalso; destruct D2; congruence); try (exfalso; destruct D2'; congruence).
  exfalso. apply N. unfold Zn in *. lia.
Qed.
Lemma shape_in b t t' p a a' : b < kn_blocks k -> t < kn_threads k -> t' < kn_threads k -> t <> t' -> p <= 9 ->
  In a (ph k b t p) -> In a' (ph k b t' p) -> nonconf rc a a'.
Proof.
  rewrite Hnt. intros Hb Ht Ht' N Hp I I'. apply ph_cases in I; auto. apply ph_cases in I'; auto.
  destruct I as [[P I]|[[P I]|[P I]]], I' as [[P' I']|[[P' I']|[P' I']]]; try lia.
  - intros x E E'. destruct (H0 _ _ _ Hb Ht I) as [D|(ar & z & D & D1 & D2)], (H0 _ _ _ Hb Ht' I') as [D'|(ar' & z' & D' & D1' & D2')]; auto;
      rewrite D in E; rewrite D' in E'; rewrite <- E in E'; try discriminate. exfalso. injection E' as E'. unfold Zn in *. lia.
  - assert (E : nth (p - 1) halves 0 = nth (p - 1) halves 0) by reflexivity. eapply reduce_nonconf; eauto.
  - apply HL in I; auto. apply HL in I'; auto. exfalso. lia.
Qed.
Lemma shape_len b t : length (kn_prog k b t) = 10.
Proof. rewrite Hprog. reflexivity. Qed.
(** operations not on mapped addresses: none *)
Lemma shape_safe (m : mem V) : (forall b t, b < kn_blocks k -> t < 256 -> m (Shm b (Zn t)) <> None) ->
  (forall b t a ar z, b < kn_blocks k -> t < 256 -> In a (P0 b t) \/ In a (PL b t) -> target a = Some (Glob ar z) -> m (Glob ar z) <> None) ->
  forall b t p a, b < kn_blocks k -> t < kn_threads k -> p <= 9 -> In a (ph k b t p) -> safe_act m a.
Proof.
  rewrite Hnt. intros HS HG b t p a Hb Ht Hp I. apply ph_cases in I; auto. destruct I as [[_ I]|[[P I]|[_ I]]].
  - destruct (H0 _ _ _ Hb Ht I) as [D|(ar & z & D & _)]; eexists; split; eauto.
  - assert (B : t + nth (p - 1) halves 0 < 256 \/ reduce_step zero add b t (nth (p - 1) halves 0) = []).
    { unfold reduce_step. destruct (t + nth (p - 1) halves 0 <? 256) eqn:E; [apply Nat.ltb_lt in E; auto|]. rewrite andb_false_r. auto. }
    destruct B as [B|B]; [|rewrite B in I; destruct I].
    apply reduce_step_in in I. destruct I as [_ [D|[D _]]]; eexists; split; eauto.
  - destruct (HL _ _ _ Hb Ht I) as [-> [[D _]|(z & D & _)]]; eexists; split; eauto.
    apply (HS b 0 Hb). lia.
Qed.
Lemma shape_yields (m : mem V) : (forall b t, b < kn_blocks k -> t < 256 -> m (Shm b (Zn t)) <> None) ->
  (forall b t a ar z, b < kn_blocks k -> t < 256 -> In a (P0 b t) \/ In a (PL b t) -> target a = Some (Glob ar z) -> m (Glob ar z) <> None) ->
  yields add k m (launch_mem add k 9 m).
Proof.
  intros HS HG. apply (launch_yields add k 9 rc Hrc).
  - rewrite Hnt. lia.
  - apply shape_len.
  - apply shape_in.
  - apply shape_out.
  - now apply shape_safe.
Qed.
(** before the last phase, entry 0 of the shared array holds the sum and nothing else has changed *)
Lemma shape_before b (m : mem V) f g : b < kn_blocks k -> (forall t, t < 256 -> tmem (P0 b t) m (Shm b (Zn t)) = Some (sv f (g t))) ->
  (forall t, t < 256 -> wri (P0 b t) (Shm b (Zn t))) ->
  let m2 := fold_left (fun m s => pmem (fun t => reduce_step zero add b t s) m) halves (pmem (P0 b) m) in
  m2 (Shm b 0%Z) = Some (sv f (red g halves 0)) /\ forall x, (forall t, t < 256 -> x <> Shm b (Zn t)) -> m2 x = m x.
Proof.
  intros Hb Hf HW m2. destruct (reduce_all b halves 256 (pmem (P0 b) m) f g chain_halves ltac:(lia)) as [A B].
  - intros t Ht. rewrite (phase_write add 256 (P0 b)) with (t := t); auto.
    intros t1 t2 a a' L1 L2 N I I' x E E'. destruct (H0 _ _ _ Hb L1 I) as [D|(ar & z & D & D1 & D2)], (H0 _ _ _ Hb L2 I') as [D'|(ar' & z' & D' & D1' & D2')]; auto;
      rewrite D in E; rewrite D' in E'; rewrite <- E in E'; try discriminate. exfalso. injection E' as E'. unfold Zn in *. lia.
  - split; auto. intros x Hx. unfold m2. rewrite B by auto. apply phase_mem_frame. intros t Ht (a & I & E & L).
    destruct (H0 _ _ _ Hb Ht I) as [D|(ar & z & D & D1 & _)]; [|congruence]. apply (Hx t Ht). congruence.
Qed.
Lemma phase_first (P : nat -> list act) nt m : (forall t, t <> 0 -> P t = []) -> phase_mem add (@nil V) (S nt) P m = tmem (P 0) m.
Proof.
  intros HN. unfold phase_mem. cbn [seq fold_left]. generalize (tmem (P 0) m).
  assert (E : forall l m2, (forall t, In t l -> t <> 0) -> fold_left (fun m t => tmem (P t) m) l m2 = m2).
  { induction l as [|t l IH]; intros m2 Hl; cbn [fold_left]; auto. rewrite IH by (intros; apply Hl; now right). rewrite HN by (apply Hl; now left). reflexivity. }
  intros m2. apply E. intros t Ht. apply in_seq in Ht. lia.
Qed.
Lemma shape_last b (m : mem V) : (forall t, t <> 0 -> PL b t = []) -> bmem add k 9 b m =
  tmem (PL b 0) (fold_left (fun m s => pmem (fun t => reduce_step zero add b t s) m) halves (pmem (P0 b) m)).
Proof. intros HN. rewrite bmem_eq. exact (phase_first (PL b) 255 _ HN). Qed.
End Shape.
End R.
