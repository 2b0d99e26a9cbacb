(** The residual kernel and the kernel for the trace of absolute values. *)
From Coq Require Import List Arith ZArith Bool Lia Permutation.
Require Import Verif.CukModel Verif.CukSpec Verif.CukProofs1 Verif.CukProofs2 Verif.CukProofs3 Verif.CukProofs6.
Import ListNotations.

Section Resid.
Context {V : Type} (zero : V) (add : V -> V -> V) (term : V -> V -> V -> V) (fin : V -> V) (m n lda : nat).
Local Notation act := (action V (list V)).
Local Notation tmem := (thread_mem add (@nil V)).
Local Notation seqa := (seqa (R := list V) add).
Local Notation sv := (sval zero add).
Local Notation k := (resid_kernel zero add term fin m n lda).
Definition r_body (b t j : nat) : list act := let off := u32 (Zn b * Zn lda)%Z in let i := (Zn t + Zn j * 256)%Z in let s := Shm b (Zn t) in
  [Ld (Glob 2 (Zn b)) push; Ld (Glob 1 (off + i)%Z) push; Ld (Glob 0 (off + i)%Z) push; Ld s push;
   St s (fun r => add (nth 0 r zero) (term (nth 3 r zero) (nth 1 r zero) (nth 2 r zero)))].
Definition r_P0 (b t : nat) : list act := St (Shm b (Zn t)) (fun _ => zero) :: flat_map (r_body b t) (seq 0 (row_count m t)).
Definition r_PL (b t : nat) : list act := if t =? 0 then [Ld (Shm b 0%Z) push; St (Glob 3 (Zn b)) (fun r => fin (top zero r))] else [].
Lemma r_prog b t : kn_prog k b t = r_P0 b t :: reduce_phases zero add b t ++ [r_PL b t].
Proof. reflexivity. Qed.
Lemma r_in0 b t a : In a (r_P0 b t) -> target a = Some (Shm b (Zn t)) \/ (exists ar z, target a = Some (Glob ar z) /\ is_ld a = true /\ ar <> 3 /\
   ((ar = 2 /\ z = Zn b) \/ ((ar = 0 \/ ar = 1) /\ exists j, j < row_count m t /\ z = (u32 (Zn b * Zn lda) + (Zn t + Zn j * 256))%Z))).
Proof.
  intros [<-|I]; [left; reflexivity|]. apply in_flat_map in I. destruct I as (j & Ij & I). apply in_seq in Ij.
  destruct I as [<-|[<-|[<-|[<-|[<-|[]]]]]]; cbn [target is_ld]; auto; right; do 2 eexists; (split; [reflexivity|]); (split; [reflexivity|]); (split; [lia|]); eauto.
  - right. split; [auto|]. exists j. split; [lia|auto].
  - right. split; [auto|]. exists j. split; [lia|auto].
Qed.
Context (mem0 : mem V) (A B : nat -> nat -> V) (rv : nat -> V).
Context (Hsz : (Zn n * Zn lda <= 4294967296)%Z).
Context (HA : forall b i, b < n -> i < m -> mem0 (Glob 0 (Zn (b * lda + i))) = Some (A b i)).
Context (HB : forall b i, b < n -> i < m -> mem0 (Glob 1 (Zn (b * lda + i))) = Some (B b i)).
Context (HR : forall b, b < n -> mem0 (Glob 2 (Zn b)) = Some (rv b)).
Context (HO : forall b, b < n -> mem0 (Glob 3 (Zn b)) <> None).
Context (HS : forall b t, b < n -> t < 256 -> mem0 (Shm b (Zn t)) <> None).
Definition r_term (b i : nat) : V := term (rv b) (A b i) (B b i).
Lemma r_off b : b < n -> (u32 (Zn b * Zn lda) = Zn (b * lda))%Z \/ lda = 0.
Proof. intros Hb. destruct lda as [|l] eqn:E; [auto|left]. unfold u32, Zn in *. rewrite Z.mod_small; [lia|]. split; [lia|]. nia. Qed.
Lemma r_off' b : b < n -> u32 (Zn b * Zn lda) = Zn (b * lda).
Proof. intros Hb. destruct (r_off b Hb) as [E|E]; auto. rewrite E. unfold u32, Zn. rewrite Nat.mul_0_r, Z.mul_0_r. reflexivity. Qed.

(** what thread t has in its entry of the shared array after c rows *)
Lemma r_loop b t (m1 : mem V) : b < n -> t < 256 -> (forall ar z, ar <> 3 -> m1 (Glob ar z) = mem0 (Glob ar z)) -> m1 (Shm b (Zn t)) <> None ->
  forall c r, c <= row_count m t -> let m2 := snd (seqa (St (Shm b (Zn t)) (fun _ => zero) :: flat_map (r_body b t) (seq 0 c)) r m1) in
    m2 (Shm b (Zn t)) = Some (sv (r_term b) (part t c)) /\ forall x, x <> Shm b (Zn t) -> m2 x = m1 x.
Proof.
  intros Hb Ht Hg Hs. induction c as [|c IH]; intros r Hc m2; unfold m2; clear m2.
  - cbn [seq flat_map]. rewrite seqa_cons. cbv zeta. unfold act'. cbn [CukModel.act fst snd]. destruct (m1 (Shm b (Zn t))) eqn:E; [|easy]. cbn [fst snd].
    unfold seqa. cbn [fold_left snd]. split; [apply upd_eq|]. intros x Hx. now apply upd_neq.
  - rewrite seq_S, flat_map_app. cbn [flat_map plus]. rewrite app_nil_r, app_comm_cons, seqa_app. cbv zeta.
    specialize (IH r ltac:(lia)). cbv zeta in IH. destruct IH as [I1 I2].
    set (q := seqa (St (Shm b (Zn t)) (fun _ => zero) :: flat_map (r_body b t) (seq 0 c)) r m1) in *. clearbody q. destruct q as [r1 m2]. cbn [fst snd] in *.
    assert (Hi : t + 256 * c < m) by (apply row_count_lt; lia).
    assert (G : forall ar z, ar <> 3 -> m2 (Glob ar z) = mem0 (Glob ar z)) by (intros; rewrite I2 by discriminate; auto).
    unfold r_body. cbv zeta. rewrite r_off' by auto. replace (Zn (b * lda) + (Zn t + Zn c * 256))%Z with (Zn (b * lda + (t + 256 * c))) by (unfold Zn; lia).
    unfold seqa. cbn [fold_left]. unfold act'. cbn [CukModel.act fst snd]. rewrite (G 2), HR by auto. cbn [fst snd].
    rewrite (G 1), HB by auto. cbn [fst snd]. rewrite (G 0), HA by auto. cbn [fst snd]. rewrite I1. cbn [fst snd]. rewrite I1. cbn [snd]. unfold push. cbn [nth].
    split; [rewrite upd_eq, part_S; reflexivity|]. intros x Hx. rewrite upd_neq by auto. auto.
Qed.
Definition r_tree : stree := red (fun t => part t (row_count m t)) halves 0.
Lemma r_tree_leaves : Permutation (leaves r_tree) (seq 0 m).
Proof using m. unfold r_tree. rewrite (red_leaves halves 256 _ chain_halves). apply rows_once. Qed.

Lemma resid_ok : exists m', yields add k mem0 m' /\
  (forall b, b < n -> m' (Glob 3 (Zn b)) = Some (fin (sv (r_term b) r_tree))) /\
  (forall ar z, ~ (ar = 3 /\ exists b, b < n /\ z = Zn b) -> m' (Glob ar z) = mem0 (Glob ar z)).
Proof.
  assert (H0 : forall b t a, b < kn_blocks k -> t < 256 -> In a (r_P0 b t) -> target a = Some (Shm b (Zn t)) \/ (exists ar z, target a = Some (Glob ar z) /\ is_ld a = true /\ ar <> 3)).
  { intros b t a _ _ I. apply r_in0 in I. destruct I as [D|(ar & z & D1 & D2 & D3 & _)]; eauto 6. }
  assert (HL : forall b t a, b < kn_blocks k -> t < 256 -> In a (r_PL b t) -> t = 0 /\
    ((target a = Some (Shm b 0%Z) /\ is_ld a = true) \/ (exists z, target a = Some (Glob 3 z) /\ is_ld a = false /\ ((false = false /\ z = Zn b) \/ (false = true /\ is_at a = true))))).
  { intros b t a _ _. unfold r_PL. destruct (t =? 0) eqn:E; [|intros []]. apply Nat.eqb_eq in E. intros [<-|[<-|[]]]; (split; [exact E|]); [left; auto|right]. eexists. split; [reflexivity|]. auto. }
  assert (NT : 0 < kn_threads k) by (cbn; lia).
  assert (OUT := shape_out zero add k r_P0 r_PL eq_refl r_prog 3 false ltac:(discriminate) H0 HL).
  exists (launch_mem add k 9 mem0). split; [|split].
  - apply (shape_yields zero add k r_P0 r_PL eq_refl r_prog 3 false); auto; [discriminate|].
    intros b t a ar z Hb Ht [I|I] E.
    + apply r_in0 in I. destruct I as [D|(ar' & z' & D1 & D2 & D3 & D4)]; [congruence|]. rewrite D1 in E. injection E as -> ->. change (kn_blocks k) with n in Hb.
      destruct D4 as [[-> ->]|[D4 (j & Hj & ->)]]; [rewrite HR by auto; discriminate|]. apply row_count_lt in Hj; auto. rewrite r_off' by auto.
      replace (Zn (b * lda) + (Zn t + Zn j * 256))%Z with (Zn (b * lda + (t + 256 * j))) by (unfold Zn; lia).
      destruct D4 as [->| ->]; [rewrite HA by auto|rewrite HB by auto]; discriminate.
    + destruct (HL _ _ _ Hb Ht I) as [_ [[D _]|(z' & D & _ & [[_ D2]|[D2 _]])]]; [congruence| |discriminate]. rewrite D in E. injection E as <- <-. subst z'. now apply HO.
  - intros b Hb. rewrite (launch_write add k 9 false NT OUT mem0 b); [|reflexivity|exact Hb|].
    + rewrite (shape_last zero add k r_P0 r_PL eq_refl r_prog); [|intros t Ht; unfold r_PL; now rewrite (proj2 (Nat.eqb_neq t 0) Ht)].
      destruct (shape_before zero add k r_P0 eq_refl 3 H0 b mem0 (r_term b) (fun t => part t (row_count m t)) Hb) as [Q1 Q2].
      * intros t Ht. apply (r_loop b t mem0 Hb Ht); auto.
      * intros t Ht. exists (St (Shm b (Zn t)) (fun _ => zero)). repeat split. now left.
      * revert Q1 Q2. generalize (fold_left (fun m0 s => phase_mem add (@nil V) 256 (fun t => reduce_step zero add b t s) m0) halves (phase_mem add [] 256 (r_P0 b) mem0)). intros m2 Q1 Q2.
        unfold r_PL, thread_mem, seqa. cbn [Nat.eqb fold_left]. unfold act'. cbn [CukModel.act fst snd]. rewrite Q1. cbn [fst snd].
        rewrite Q2 by discriminate. destruct (mem0 (Glob 3 (Zn b))) eqn:E; [|now apply HO in E]. cbn [snd]. rewrite upd_eq. reflexivity.
    + exists 0, 9. split; [cbn; lia|]. split; [lia|]. exists (St (Glob 3 (Zn b)) (fun r => fin (top zero r))). split; [|auto]. right. now left.
  - intros ar z Hx. apply launch_frame; [exact NT|]. intros b t p Hb Ht Hp (a & I & E & L).
    apply (ph_cases zero add k r_P0 r_PL eq_refl r_prog) in I; auto. destruct I as [[_ I]|[[_ I]|[_ I]]].
    + destruct (H0 _ _ _ Hb Ht I) as [D|(ar' & z' & D & D1 & _)]; congruence.
    + apply reduce_step_in in I. destruct I as [_ [D|[D _]]]; congruence.
    + destruct (HL _ _ _ Hb Ht I) as [_ [[D _]|(z' & D & _ & [[_ D2]|[D2 _]])]]; [congruence| |discriminate]. rewrite D in E. injection E as <- <-. apply Hx. split; auto. exists b. auto.
Qed.
End Resid.

Section Tree.
Context (n : nat).
Local Notation nb := ((n + 255) / 256).
Definition t_leaf (b t : nat) : stree := if b * 256 + t <? n then SL (b * 256 + t) else SZ.
Definition t_tree (b : nat) : stree := red (t_leaf b) halves 0.
Lemma t_leaves : Permutation (flat_map (fun b => leaves (t_tree b)) (seq 0 nb)) (seq 0 n).
Proof.
  assert (E : forall l, Permutation (flat_map (fun b => leaves (t_tree b)) l) (flat_map (fun b => all_leaves 256 (t_leaf b)) l)).
  { induction l; cbn [flat_map]; auto. rewrite IHl. apply Permutation_app_tail. unfold t_tree. apply red_leaves. apply chain_halves. }
  rewrite E. clear E. apply NoDup_Permutation; [|apply seq_NoDup|].
  - apply NoDup_flat_map'; [apply seq_NoDup| |].
    + intros b _. unfold all_leaves. apply NoDup_flat_map'; [apply seq_NoDup| |].
      * intros t _. unfold t_leaf. destruct (_ <? _); cbn; repeat constructor. intros [].
      * intros x y z _ _ N. unfold t_leaf. destruct (b * 256 + x <? n), (b * 256 + y <? n); cbn; intros; intuition lia.
    + intros x y z _ _ N I I'. unfold all_leaves in I, I'. apply in_flat_map in I, I'. destruct I as (t & T1 & T2), I' as (t' & T1' & T2'). apply in_seq in T1, T1'.
      unfold t_leaf in T2, T2'. destruct (x * 256 + t <? n), (y * 256 + t' <? n); cbn in T2, T2'; try tauto. lia.
  - intros i. rewrite in_flat_map, in_seq. split.
    + intros (b & _ & I). unfold all_leaves in I. apply in_flat_map in I. destruct I as (t & _ & T). unfold t_leaf in T. destruct (b * 256 + t <? n) eqn:L; cbn in T; [|tauto]. apply Nat.ltb_lt in L. lia.
    + intros Hi. destruct (block_thread n i ltac:(lia)) as (B1 & B2 & B3). exists (i / 256). split; [apply in_seq; lia|]. unfold all_leaves. apply in_flat_map. exists (i mod 256). split; [apply in_seq; lia|].
      unfold t_leaf. rewrite B3, (proj2 (Nat.ltb_lt i n)) by lia. left. reflexivity.
Qed.
End Tree.

Section Trace.
Context {V : Type} (zero : V) (add : V -> V -> V) (abs : V -> V) (n ld : nat).
Context (Hrc : forall m x y, add (add m x) y = add (add m y) x).
Local Notation act := (action V (list V)).
Local Notation sv := (sval zero add).
Local Notation k := (trace_kernel zero add abs n ld).
Local Notation nb := ((n + 255) / 256).
Context (Hsz : (Zn n * (Zn ld + 1) <= 2147483648)%Z).
Definition t_P0 (b t : nat) : list act :=
  if b * 256 + t <? n then [Ld (Glob 0 (Zn ((b * 256 + t) * ld + (b * 256 + t)))) push; St (Shm b (Zn t)) (fun r => abs (top zero r))]
  else [St (Shm b (Zn t)) (fun _ => zero)].
Definition t_PL (b t : nat) : list act := if t =? 0 then [Ld (Shm b 0%Z) push; At (Glob 1 0%Z) (fun r => top zero r)] else [].
Lemma t_prog b t : kn_prog k b t = t_P0 b t :: reduce_phases zero add b t ++ [t_PL b t].
Proof.
  cbn [kn_prog trace_kernel]. unfold trace_thread. f_equal. cbv zeta. unfold t_P0. replace (Zn b * 256 + Zn t)%Z with (Zn (b * 256 + t)) by (unfold Zn; lia).
  destruct (b * 256 + t <? n) eqn:E.
  - apply Nat.ltb_lt in E. rewrite (proj2 (Z.ltb_lt _ _)) by (unfold Zn; lia).
    assert (Q : (Zn (b * 256 + t) * (Zn ld + 1) < 2147483648)%Z) by (unfold Zn in *; nia).
    rewrite !(proj2 (in_int_true _)) by (unfold Zn in *; lia). cbn [andb]. replace (Zn (b * 256 + t) * Zn ld + Zn (b * 256 + t))%Z with (Zn ((b * 256 + t) * ld + (b * 256 + t))) by (unfold Zn; lia). reflexivity.
  - apply Nat.ltb_ge in E. rewrite (proj2 (Z.ltb_ge _ _)) by (unfold Zn; lia). reflexivity.
Qed.
Context (mem0 : mem V) (D : nat -> V) (g : V).
Context (HD : forall i, i < n -> mem0 (Glob 0 (Zn (i * ld + i))) = Some (D i)) (Hg : mem0 (Glob 1 0%Z) = Some g).
Context (HS : forall b t, b < nb -> t < 256 -> mem0 (Shm b (Zn t)) <> None).
Local Notation f := (fun i => abs (D i)).
Lemma t_H0 b t a : b < kn_blocks k -> t < 256 -> In a (t_P0 b t) -> target a = Some (Shm b (Zn t)) \/ (exists ar z, target a = Some (Glob ar z) /\ is_ld a = true /\ ar <> 1).
Proof.
  intros _ _. unfold t_P0. destruct (_ <? _); [intros [<-|[<-|[]]]|intros [<-|[]]]; auto. right. do 2 eexists. split; [reflexivity|]. split; auto.
Qed.
Lemma t_HL b t a : b < kn_blocks k -> t < 256 -> In a (t_PL b t) -> t = 0 /\
    ((target a = Some (Shm b 0%Z) /\ is_ld a = true) \/ (exists z, target a = Some (Glob 1 z) /\ is_ld a = false /\ ((true = false /\ z = Zn b) \/ (true = true /\ is_at a = true)))).
Proof.
  intros _ _. unfold t_PL. destruct (t =? 0) eqn:E; [|intros []]. apply Nat.eqb_eq in E. intros [<-|[<-|[]]]; (split; [exact E|]); [left; auto|right]. eexists. split; [reflexivity|]. auto.
Qed.
Lemma t_block b (m1 : mem V) s : b < nb -> (forall z, m1 (Glob 0 z) = mem0 (Glob 0 z)) -> m1 (Glob 1 0%Z) = Some s -> (forall t, t < 256 -> m1 (Shm b (Zn t)) <> None) ->
  bmem add k 9 b m1 (Glob 1 0%Z) = Some (add s (sv f (t_tree n b))) /\
  forall x, x <> Glob 1 0%Z -> (forall t, t < 256 -> x <> Shm b (Zn t)) -> bmem add k 9 b m1 x = m1 x.
Proof.
  intros Hb G1 G2 G3. rewrite (shape_last zero add k t_P0 t_PL eq_refl t_prog); [|intros t Ht; unfold t_PL; now rewrite (proj2 (Nat.eqb_neq t 0) Ht)].
  destruct (shape_before zero add k t_P0 eq_refl 1 t_H0 b m1 f (t_leaf n b) Hb) as [Q1 Q2].
  - intros t Ht. unfold t_P0, t_leaf, thread_mem, seqa. specialize (G3 t Ht). destruct (b * 256 + t <? n) eqn:E.
    + apply Nat.ltb_lt in E. cbn [fold_left]. unfold act'. cbn [CukModel.act fst snd]. rewrite G1, HD by auto. cbn [fst snd]. destruct (m1 (Shm b (Zn t))); [|easy]. cbn [snd]. rewrite upd_eq. reflexivity.
    + cbn [fold_left]. unfold act'. cbn [CukModel.act fst snd]. destruct (m1 (Shm b (Zn t))); [|easy]. cbn [snd]. rewrite upd_eq. reflexivity.
  - intros t Ht. unfold t_P0. destruct (_ <? _); eexists; (split; [|shelve]); [right; left; reflexivity|left; reflexivity]. Unshelve. all: split; reflexivity.
  - revert Q1 Q2. generalize (fold_left (fun m0 s => phase_mem add (@nil V) 256 (fun t => reduce_step zero add b t s) m0) halves (phase_mem add [] 256 (t_P0 b) m1)). intros m2 Q1 Q2.
    unfold t_PL, thread_mem, seqa. cbn [Nat.eqb fold_left]. unfold act'. cbn [CukModel.act fst snd]. rewrite Q1. cbn [fst snd].
    rewrite Q2 by discriminate. rewrite G2. cbn [snd]. split; [rewrite upd_eq; reflexivity|]. intros x X1 X2. rewrite upd_neq by auto. auto.
Qed.
Lemma trace_ok : exists m', yields add k mem0 m' /\
  m' (Glob 1 0%Z) = Some (fold_left (fun s b => add s (sv f (t_tree n b))) (seq 0 nb) g) /\
  (forall ar z, (ar, z) <> (1, 0%Z) -> m' (Glob ar z) = mem0 (Glob ar z)).
Proof.
  exists (launch_mem add k 9 mem0). split.
  - apply (shape_yields zero add k t_P0 t_PL eq_refl t_prog 1 true); auto using t_H0, t_HL.
    intros b t a ar z Hb Ht [I|I] E.
    + unfold t_P0 in I. destruct (b * 256 + t <? n) eqn:L; [apply Nat.ltb_lt in L; destruct I as [<-|[<-|[]]]|destruct I as [<-|[]]]; cbn [target] in E; try discriminate.
      injection E as <- <-. rewrite HD by auto. discriminate.
    + unfold t_PL in I. destruct (t =? 0); [|destruct I]. destruct I as [<-|[<-|[]]]; cbn [target] in E; try discriminate. injection E as <- <-. congruence.
  - assert (X : forall l, l <= nb -> let mm := fold_left (fun m b => bmem add k 9 b m) (seq 0 l) mem0 in
      (forall b t, l <= b -> mm (Shm b (Zn t)) = mem0 (Shm b (Zn t))) /\
      mm (Glob 1 0%Z) = Some (fold_left (fun s b => add s (sv f (t_tree n b))) (seq 0 l) g) /\ (forall ar z, (ar, z) <> (1, 0%Z) -> mm (Glob ar z) = mem0 (Glob ar z))).
    { induction l as [|l IH]; intros Hl; [cbn; auto|]. rewrite seq_S, !fold_left_app. cbn [fold_left plus]. cbv zeta. specialize (IH ltac:(lia)). cbv zeta in IH. destruct IH as (I1 & I2 & I3).
      destruct (t_block l (fold_left (fun m b => bmem add k 9 b m) (seq 0 l) mem0) _ ltac:(lia) ltac:(intros; apply I3; congruence) I2) as [A B].
      { intros t Ht. rewrite I1 by lia. apply HS; auto. }
      split; [|split; [exact A|]].
      - intros b t Hb. rewrite B; [apply I1; lia|discriminate|]. intros t' _ Q. injection Q as Q1 Q2. lia.
      - intros ar z N. rewrite B; [auto|congruence|discriminate]. }
    destruct (X nb (le_n _)) as (_ & X2 & X3). split; auto.
Qed.
End Trace.

(** with exact addition *)
Section Exact.
Context {V : Type} (zero : V) (add : V -> V -> V).
Context (Ha : forall x y z, add x (add y z) = add (add x y) z) (Hc : forall x y, add x y = add y x) (Hz : forall x, add zero x = x).
Lemma resid_exact f m : sval zero add f (r_tree m) = total zero add f (seq 0 m).
Proof. rewrite (sval_total zero add Ha Hc Hz). apply total_perm; auto. apply r_tree_leaves. Qed.
Lemma trace_exact f n g : fold_left (fun s b => add s (sval zero add f (t_tree n b))) (seq 0 ((n + 255) / 256)) g = add g (total zero add f (seq 0 n)).
Proof.
  rewrite <- (total_perm zero add Ha Hc f _ _ (t_leaves n)). generalize (seq 0 ((n + 255) / 256)). intros l. revert g. induction l as [|b l IH]; intros g; cbn [fold_left flat_map].
  - cbn. now rewrite Hc, Hz.
  - rewrite IH, (total_app zero add Ha Hz), (sval_total zero add Ha Hc Hz), Ha. reflexivity.
Qed.
End Exact.
