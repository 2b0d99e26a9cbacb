(** The statements about kernel launches in terms of CukSpec. *)
From Coq Require Import List Arith ZArith Bool Lia Permutation.
Require Import Verif.Base Verif.DistModel Verif.DistSpec Verif.FlatSpec Verif.FlatProofs Verif.CukModel Verif.CukSpec Verif.CukTabs
  Verif.CukProofs1 Verif.CukProofs2 Verif.CukProofs3 Verif.CukProofs4 Verif.CukProofs5 Verif.CukProofs6 Verif.CukProofs7.
Import ListNotations.

Lemma entry_eq arr ld i j : entry arr ld i j = Glob arr (Zn (j * ld + i)).
Proof. unfold entry. f_equal. unfold Zn. lia. Qed.

Lemma shift_main V (zero : V) add plus n m : (Zn n <= 46340)%Z -> (forall i, i < n -> m (entry 0 n i i) <> None) ->
  exists m', yields add (shift_kernel zero plus n) m m' /\
    (forall i, i < n -> m' (entry 0 n i i) = option_map plus (m (entry 0 n i i))) /\
    (forall x, (forall i, i < n -> x <> entry 0 n i i) -> m' x = m x).
Proof.
  intros Hn HM. destruct (shift_kernel_ok zero add plus n m Hn) as (m' & Y & A & F).
  - intros i Hi. rewrite <- entry_eq. auto.
  - exists m'. split; auto. split.
    + intros i Hi. rewrite entry_eq. auto.
    + intros x Hx. apply F. intros i Hi. rewrite <- entry_eq. auto.
Qed.

(** one process of the multi-GPU backend *)
Definition mgpu_shift_done {V} (zero : V) (add : V -> V -> V) (plus : V -> V) (R C : dim) (rows cols : list nat) (ld : nat) (G : nat -> nat -> V) (m : mem V) : Prop :=
  exists o m', diag_tables R C = Ok o /\ yields add (shift_mgpu_kernel zero plus (fst o) (snd o) ld) m m' /\
    (forall a b g h, nth_error rows a = Some g -> nth_error cols b = Some h -> m' (entry 0 ld a b) = Some (if g =? h then plus (G g h) else G g h)) /\
    (forall k, padding (length rows) (length cols) ld k -> m' (Glob 0 (Zn k)) = m (Glob 0 (Zn k))) /\
    (forall x, (forall k, x <> Glob 0 (Zn k)) -> m' x = m x).
Lemma mgpu_main V (zero : V) add plus R C rows cols ld G H m : describes rows R -> describes cols C -> length rows <= ld ->
  stores rows cols ld G H -> holds 0 H m -> mgpu_shift_done zero add plus R C rows cols ld G m.
Proof.
  intros DR DC Hld HS HH. destruct (diag_tables_spec R C rows cols DR DC) as (o & E & _).
  destruct (mgpu_shift_stores R C rows cols DR DC zero add plus ld G H m o Hld HS HH E) as (m' & Y & A & P & F).
  exists o, m'. repeat split; auto. intros a b g h Ea Eb. rewrite entry_eq. rewrite Nat.add_comm. eauto.
Qed.

Lemma mgpu_bc V (zero : V) add plus N mb nb p q rsrc csrc ld G (R C : nat -> dim) (H : nat -> nat -> list V) (M : nat -> nat -> mem V) :
  0 < mb -> 0 < nb -> rsrc < p -> csrc < q ->
  (forall i, i < p -> bc_ctor N mb p rsrc i = Ok (R i)) -> (forall j, j < q -> bc_ctor N nb q csrc j = Ok (C j)) ->
  (forall i j, i < p -> j < q -> length (owned N mb p rsrc i) <= ld i j) ->
  stores_grid p q (owned N mb p rsrc) (owned N nb q csrc) ld G H -> (forall i j, i < p -> j < q -> holds 0 (H i j) (M i j)) ->
  forall i j, i < p -> j < q -> mgpu_shift_done zero add plus (R i) (C j) (owned N mb p rsrc i) (owned N nb q csrc j) (ld i j) G (M i j).
Proof.
  intros Hmb Hnb Hr Hc HR HC Hld HS HH i j Hi Hj. apply mgpu_main with (H := H i j); auto.
  - apply (bc_describes N mb p rsrc i); auto.
  - apply (bc_describes N nb q csrc j); auto.
Qed.
Lemma mgpu_blk V (zero : V) add plus N ml nl p q ld G (H : nat -> nat -> list V) (M : nat -> nat -> mem V) :
  let rows i := seq (i * ml) (blk_size N ml p i) in let cols j := seq (j * nl) (blk_size N nl q j) in
  (forall i j, i < p -> j < q -> length (rows i) <= ld i j) -> stores_grid p q rows cols ld G H -> (forall i j, i < p -> j < q -> holds 0 (H i j) (M i j)) ->
  forall i j, i < p -> j < q -> mgpu_shift_done zero add plus (blk_ctor N ml p i) (blk_ctor N nl q j) (rows i) (cols j) (ld i j) G (M i j).
Proof.
  intros rows cols Hld HS HH i j Hi Hj. apply mgpu_main with (H := H i j); auto; apply (blk_describes N).
Qed.

Lemma resid_main V (zero : V) add m : exists tr, Permutation (leaves tr) (seq 0 m) /\
  forall term fin n lda mem0 (A B : nat -> nat -> V) rv,
  (Zn n * Zn lda <= 4294967296)%Z ->
  (forall i j, i < m -> j < n -> mem0 (entry 0 lda i j) = Some (A i j) /\ mem0 (entry 1 lda i j) = Some (B i j)) ->
  (forall j, j < n -> mem0 (Glob 2 (Zn j)) = Some (rv j) /\ mem0 (Glob 3 (Zn j)) <> None) ->
  (forall b t, b < n -> t < 256 -> mem0 (Shm b (Zn t)) <> None) ->
  exists m', yields add (resid_kernel zero add term fin m n lda) mem0 m' /\
    (forall j, j < n -> m' (Glob 3 (Zn j)) = Some (fin (sval zero add (fun i => term (rv j) (A i j) (B i j)) tr))) /\
    (forall ar z, ~ (ar = 3 /\ exists j, j < n /\ z = Zn j) -> m' (Glob ar z) = mem0 (Glob ar z)).
Proof.
  exists (r_tree m). split; [apply r_tree_leaves|]. intros term fin n lda mem0 A B rv Hsz HM HR HS.
  destruct (resid_ok zero add term fin m n lda mem0 (fun b i => A i b) (fun b i => B i b) rv Hsz) as (m' & Y & Q & F); eauto.
  - intros b i Hb Hi. rewrite <- entry_eq. now apply HM.
  - intros b i Hb Hi. rewrite <- entry_eq. now apply HM.
  - intros b Hb. now apply HR.
  - intros b Hb. now apply HR.
Qed.
Lemma resid_sum V (zero : V) add term fin m n lda mem0 (A B : nat -> nat -> V) rv :
  (forall x y z, add x (add y z) = add (add x y) z) -> (forall x y, add x y = add y x) -> (forall x, add zero x = x) ->
  (Zn n * Zn lda <= 4294967296)%Z ->
  (forall i j, i < m -> j < n -> mem0 (entry 0 lda i j) = Some (A i j) /\ mem0 (entry 1 lda i j) = Some (B i j)) ->
  (forall j, j < n -> mem0 (Glob 2 (Zn j)) = Some (rv j) /\ mem0 (Glob 3 (Zn j)) <> None) ->
  (forall b t, b < n -> t < 256 -> mem0 (Shm b (Zn t)) <> None) ->
  exists m', yields add (resid_kernel zero add term fin m n lda) mem0 m' /\
    (forall j, j < n -> m' (Glob 3 (Zn j)) = Some (fin (total zero add (fun i => term (rv j) (A i j) (B i j)) (seq 0 m)))).
Proof.
  intros Ha Hc Hz Hsz HM HR HS. destruct (resid_main V zero add m) as (tr & P & H).
  destruct (H term fin n lda mem0 A B rv Hsz HM HR HS) as (m' & Y & Q & _). exists m'. split; auto. intros j Hj. rewrite (Q j Hj). do 2 f_equal.
  rewrite (sval_total zero add Ha Hc Hz). now apply total_perm.
Qed.

Lemma trace_main V (zero : V) add abs n ld mem0 D g :
  (forall x y z, add x (add y z) = add (add x y) z) -> (forall x y, add x y = add y x) -> (forall x, add zero x = x) ->
  (Zn n * (Zn ld + 1) <= 2147483648)%Z ->
  (forall i, i < n -> mem0 (entry 0 ld i i) = Some (D i)) -> mem0 (Glob 1 0%Z) = Some g ->
  (forall b t, b < (n + 255) / 256 -> t < 256 -> mem0 (Shm b (Zn t)) <> None) ->
  exists m', yields add (trace_kernel zero add abs n ld) mem0 m' /\
    m' (Glob 1 0%Z) = Some (add g (total zero add (fun i => abs (D i)) (seq 0 n))) /\
    (forall ar z, (ar, z) <> (1, 0%Z) -> m' (Glob ar z) = mem0 (Glob ar z)).
Proof.
  intros Ha Hc Hz Hsz HD Hg HS.
  destruct (trace_ok zero add abs n ld) with (mem0 := mem0) (D := D) (g := g) as (m' & Y & Q & F); auto.
  - intros x y z. rewrite <- !Ha. f_equal. apply Hc.
  - intros i Hi. rewrite <- entry_eq. auto.
  - exists m'. split; auto. split; auto. rewrite Q. f_equal. now apply trace_exact.
Qed.

(** one call after the other, the cell keeping its contents in between *)
Lemma trace_repeated V (zero : V) add abs n ld (D : nat -> nat -> V) (before after : nat -> mem V) g K :
  (forall x y z, add x (add y z) = add (add x y) z) -> (forall x y, add x y = add y x) -> (forall x, add zero x = x) ->
  (Zn n * (Zn ld + 1) <= 2147483648)%Z ->
  (forall k, k < K -> (forall i, i < n -> before k (entry 0 ld i i) = Some (D k i)) /\
     (forall b t, b < (n + 255) / 256 -> t < 256 -> before k (Shm b (Zn t)) <> None)) ->
  before 0 (Glob 1 0%Z) = Some g -> (forall k, k < K -> before (S k) (Glob 1 0%Z) = after k (Glob 1 0%Z)) ->
  (forall k, k < K -> ran add (trace_kernel zero add abs n ld) (before k) (after k)) ->
  before K (Glob 1 0%Z) = Some (add g (total zero add (fun k => total zero add (fun i => abs (D k i)) (seq 0 n)) (seq 0 K))).
Proof.
  intros Ha Hc Hz Hsz HD H0 HS HR. induction K as [|K IH].
  - cbn. rewrite H0. f_equal. now rewrite Hc, Hz.
  - assert (E : before K (Glob 1 0%Z) = Some (add g (total zero add (fun k => total zero add (fun i => abs (D k i)) (seq 0 n)) (seq 0 K)))) by (apply IH; auto).
    destruct (HD K (Nat.lt_succ_diag_r K)) as [HK HSh].
    destruct (trace_main V zero add abs n ld (before K) (D K) _ Ha Hc Hz Hsz HK E HSh) as (m' & (B & Y) & Q & _).
    destruct (HR K (Nat.lt_succ_diag_r K)) as (m & c & Hm & Hf & Hx). destruct (Y m c Hm) as (_ & _ & Hs & _).
    rewrite HS by lia. rewrite <- Hx, (Hs Hf), Q, <- Ha. do 2 f_equal. rewrite seq_S, total_app by auto. cbn. now rewrite (Hc _ zero), Hz.
Qed.

Lemma trace_second_wrong abs n ld (D : nat -> nat -> Z) (before after : nat -> mem Z) K :
  (Zn n * (Zn ld + 1) <= 2147483648)%Z ->
  (forall k, k < S K -> (forall i, i < n -> before k (entry 0 ld i i) = Some (D k i)) /\
     (forall b t, b < (n + 255) / 256 -> t < 256 -> before k (Shm b (Zn t)) <> None)) ->
  before 0 (Glob 1 0%Z) = Some 0%Z -> (forall k, k < S K -> before (S k) (Glob 1 0%Z) = after k (Glob 1 0%Z)) ->
  (forall k, k < S K -> ran Z.add (trace_kernel 0%Z Z.add abs n ld) (before k) (after k)) ->
  total 0%Z Z.add (fun k => total 0%Z Z.add (fun i => abs (D k i)) (seq 0 n)) (seq 0 K) <> 0%Z ->
  after K (Glob 1 0%Z) <> Some (total 0%Z Z.add (fun i => abs (D K i)) (seq 0 n)).
Proof.
  intros Hsz HD H0 HS HR NZ. rewrite <- HS by lia.
  rewrite (trace_repeated Z 0%Z Z.add abs n ld D before after 0%Z (S K)); auto; try (intros; lia).
  rewrite seq_S, total_app by (intros; lia). cbn [total fold_right Nat.add]. intros E. apply NZ.
  set (a := total _ _ _ _) in *. set (b := total _ _ (fun i => abs (D K i)) _) in *. clearbody a b.
  assert (0 + (a + (b + 0)) = b)%Z by congruence. lia.
Qed.

(** a launch that yields a memory ends *)
Lemma final_dec {V} nb nt (c : cfg V (list V)) : final nb nt c \/ ~ final nb nt c.
Proof.
  assert (B : forall P : nat -> Prop, (forall i, P i \/ ~ P i) -> forall n, (forall i, i < n -> P i) \/ ~ (forall i, i < n -> P i)).
  { intros P HP. induction n as [|n IH]; [left; lia|]. destruct IH as [IH|IH]; [|right; intros Q; apply IH; intros; apply Q; lia].
    destruct (HP n) as [D|D]; [left|right; intros Q; apply D; apply Q; lia]. intros i Hi. destruct (Nat.eq_dec i n) as [->|]; auto. apply IH. lia. }
  destruct (B (fun b => forall t, t < nt -> t_cur (c_th c b t) = [] /\ t_later (c_th c b t) = [])) with (n := nb) as [D|D].
  - intros b. apply (B (fun t => t_cur (c_th c b t) = [] /\ t_later (c_th c b t) = [])). intros t. destruct (t_cur (c_th c b t)), (t_later (c_th c b t)); auto; right; intros [? ?]; discriminate.
  - left. intros b t Hb Ht. auto.
  - right. intros F. apply D. intros b Hb t Ht. apply F; auto.
Qed.
Lemma stepn_snoc {V} (add : V -> V -> V) (r0 : list V) nb nt : forall n (c d e : cfg V (list V)), stepn add r0 nb nt n c d -> step add r0 nb nt d e -> stepn add r0 nb nt (S n) c e.
Proof.
  induction n as [|n IH]; intros c d e H HS.
  - cbn in H. subst d. exists e. split; auto. reflexivity.
  - destruct H as (f & F1 & F2). exists f. split; auto. eapply IH; eauto.
Qed.
Lemma yields_ends V add (k : kernel V) m spec : yields add k m spec ->
  exists n c, stepn add [] (kn_blocks k) (kn_threads k) n (launch k m) c /\ final (kn_blocks k) (kn_threads k) c /\ forall x, c_mem c x = spec x.
Proof.
  intros (B & H).
  assert (X : forall d n c, B - n <= d -> stepn add [] (kn_blocks k) (kn_threads k) n (launch k m) c ->
     exists n c, stepn add [] (kn_blocks k) (kn_threads k) n (launch k m) c /\ final (kn_blocks k) (kn_threads k) c /\ forall x, c_mem c x = spec x).
  { induction d as [|d IH]; intros n c Hd Hn; destruct (H n c Hn) as (L & _ & E & P); (destruct (final_dec (kn_blocks k) (kn_threads k) c) as [F|F]; [eauto 6|]);
      destruct (P F) as (e & He); pose proof (stepn_snoc _ _ _ _ _ _ _ _ Hn He) as Hn'.
    - destruct (H _ _ Hn') as (L' & _). lia.
    - apply (IH (S n) e); auto. destruct (H _ _ Hn') as (L' & _). lia. }
  apply (X (B - 0) 0 (launch k m)); [lia|reflexivity].
Qed.

Lemma trace_stale abs n ld mem0 (D : nat -> Z) g :
  (Zn n * (Zn ld + 1) <= 2147483648)%Z ->
  (forall i, i < n -> mem0 (entry 0 ld i i) = Some (D i)) -> mem0 (Glob 1 0%Z) = Some g -> g <> 0%Z ->
  (forall b t, b < (n + 255) / 256 -> t < 256 -> mem0 (Shm b (Zn t)) <> None) ->
  exists m', yields Z.add (trace_kernel 0%Z Z.add abs n ld) mem0 m' /\
    m' (Glob 1 0%Z) <> Some (total 0%Z Z.add (fun i => abs (D i)) (seq 0 n)).
Proof.
  intros Hsz HD Hg N HS. destruct (trace_main Z 0%Z Z.add abs n ld mem0 D g) as (m' & Y & Q & _); auto; try (intros; lia).
  exists m'. split; auto. rewrite Q. intros E. injection E as E. lia.
Qed.
Lemma lacpy_lost V (zero : V) add m n lda ldb mem0 j : m <= lda -> m <= ldb -> (Zn n * Zn lda < 2147483648)%Z -> (Zn n * Zn ldb < 2147483648)%Z ->
  (forall i j, i < m -> j < n -> mem0 (entry 0 lda i j) <> None /\ mem0 (entry 1 ldb i j) <> None) ->
  0 < m -> (Zn m mod 4194240 = 0)%Z -> j < n -> mem0 (entry 0 lda (m - 1) j) <> mem0 (entry 1 ldb (m - 1) j) ->
  exists m2, yields_all add (lacpy_launches zero All m n lda ldb) mem0 m2 /\ m2 (entry 1 ldb (m - 1) j) <> mem0 (entry 0 lda (m - 1) j).
Proof.
  intros H1 H2 H3 H4 HM H0 Hm Hj N. destruct (lacpy_all_bad zero add m n lda ldb mem0 H1 H2 H3 H4 HM H0 Hm) as (m2 & Y & Q).
  exists m2. split; auto. pose proof (Q j) as E. unfold bat in E. unfold entry in *. rewrite E. auto.
Qed.
Lemma lacpy_triangle V (zero : V) add u m n lda ldb mem0 i j : u <> All -> (Zn m < 4194240)%Z -> (Zn n < 4194240)%Z ->
  m <= lda -> m <= ldb -> (Zn n * Zn lda < 2147483648)%Z -> (Zn n * Zn ldb < 2147483648)%Z ->
  (forall i j, i < m -> j < n -> mem0 (entry 0 lda i j) <> None /\ mem0 (entry 1 ldb i j) <> None) ->
  i < m -> j < n -> match u with Upper => i < j | _ => j < i end -> mem0 (entry 0 lda i j) <> Some zero ->
  exists m2, yields_all add (lacpy_launches zero u m n lda ldb) mem0 m2 /\ m2 (entry 1 ldb i j) <> mem0 (entry 0 lda i j).
Proof.
  intros Hu Sm Sn H1 H2 H3 H4 HM Hi Hj T N. destruct (lacpy_tri zero add u m n lda ldb mem0 Hu) as (m2 & Y & Q); auto; try lia.
  exists m2. split; auto. pose proof (Q i j Hi Hj) as E. unfold bat in E. unfold entry in *. rewrite E.
  destruct u; [rewrite (proj2 (Nat.leb_gt j i)) by lia|rewrite (proj2 (Nat.leb_gt i j)) by lia|tauto]; congruence.
Qed.
