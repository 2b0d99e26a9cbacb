(** Undefined operations reached later in a thread; the copy kernels. *)
From Coq Require Import List Arith ZArith Bool Lia.
Require Import Verif.CukModel Verif.CukSpec Verif.CukProofs1 Verif.CukProofs2 Verif.CukProofs3.
Import ListNotations.

Section F.
Context {V : Type} (zero : V) (add : V -> V -> V).
Local Notation act := (action V (list V)).

(** *** a thread whose program contains an undefined operation *)
Lemma run_prefix nb nt b t (a : act) l2 : b < nb -> t < nt -> forall l1 c, t_cur (c_th c b t) = l1 ++ a :: l2 ->
  (forall x, In x l1 -> safe_act (c_mem c) x) -> exists n d, stepn add [] nb nt n c d /\ t_cur (c_th d b t) = a :: l2.
Proof.
  intros Hb Ht. induction l1 as [|x l1 IH]; intros c E HS.
  - exists 0, c. split; [reflexivity|exact E].
  - cbn in E. destruct (act_safe add x (t_reg (c_th c b t)) (c_mem c)) as (r & m & A); [apply HS; now left|].
    destruct (IH (mk_cfg m (set_th (c_th c) b t (mk_th (l1 ++ a :: l2) (t_later (c_th c b t)) r)))) as (n & d & N & D).
    + cbn. now rewrite set_same.
    + intros y Hy. destruct (HS y (or_intror Hy)) as (z & Z1 & Z2). exists z. split; auto. cbn. now apply (act_dom add [] _ _ _ _ _ z A).
    + exists (S n), d. split; auto. eexists. split; [|exact N]. apply (step_run add [] nb nt c b t x (l1 ++ a :: l2)); auto.
Qed.
Lemma fault_later (k : kernel V) m b t l1 l2 ls : b < kn_blocks k -> t < kn_threads k -> kn_prog k b t = (l1 ++ Bad :: l2) :: ls ->
  (forall x, In x l1 -> safe_act m x) -> may_fault add k m.
Proof.
  intros Hb Ht E HS. destruct (run_prefix (kn_blocks k) (kn_threads k) b t Bad l2 Hb Ht l1 (launch k m)) as (n & d & N & D).
  - cbn. now rewrite E.
  - exact HS.
  - exists n, d. split; auto. exists b, t, Bad, l2. auto.
Qed.
Lemma normal_kernel_bad draw n m : (2147475456 < Zn n)%Z -> (forall i, (0 <= i < Zn n)%Z -> m (Glob 0 i) <> None) ->
  may_fault add (normal_kernel draw n) m.
Proof.
  intros Hn HM. set (w := 2147475456%Z). set (k := Z.to_nat (w / 8192)).
  assert (Ek : (Zn k * 8192 = w)%Z) by (unfold Zn, k; rewrite Z2Nat.id by (vm_compute; discriminate); reflexivity).
  set (c := Z.to_nat ((Zn n - Zn (0 * 256 + 0) + 8191) / 8192)).
  assert (Hk : k < c) by (apply normal_count; unfold Zn in *; cbn; lia).
  (* thread 0 of block 0 stores v[w] and then increments its counter past the largest int *)
  assert (E : seq 0 c = seq 0 k ++ k :: seq (S k) (c - S k)).
  { replace c with (k + (1 + (c - S k))) at 1 by lia. rewrite seq_app. reflexivity. }
  set (f := normal_piece draw (0 * 256 + 0)).
  apply (fault_later (normal_kernel draw n) m 0 0 (flat_map f (seq 0 k) ++ [St (Glob 0 w) (fun _ => draw 0 k)]) (flat_map f (seq (S k) (c - S k))) []);
    [cbn; lia|cbn; lia| |].
  - cbn [kn_prog normal_kernel]. f_equal. unfold normal_thread. fold c. change (flat_map f (seq 0 c) = (flat_map f (seq 0 k) ++ [St (Glob 0 w) (fun _ => draw 0 k)]) ++ Bad :: flat_map f (seq (S k) (c - S k))).
    rewrite E, flat_map_app, <- app_assoc. apply f_equal. cbn [flat_map]. unfold f at 1, normal_piece. cbv zeta. change (0 * 256 + 0) with 0.
    change (Zn 0) with 0%Z. rewrite Z.add_0_l, Ek. reflexivity.
  - intros x Hx. apply in_app_or in Hx. destruct Hx as [Hx|[<-|[]]].
    + apply in_flat_map in Hx. destruct Hx as (j & Hj & Hx). apply in_seq in Hj. unfold f, normal_piece in Hx. cbv zeta in Hx.
      change (0 * 256 + 0) with 0 in Hx. change (Zn 0) with 0%Z in Hx. rewrite Z.add_0_l in Hx.
      rewrite (proj2 (in_int_true _)) in Hx by (unfold w, Zn in *; lia). destruct Hx as [<-|[]]. eexists. split; [reflexivity|]. apply HM. unfold w, Zn in *; lia.
    + eexists. split; [reflexivity|]. apply HM. unfold w, Zn in *; lia.
Qed.

(** *** lacpy: one launch *)
Section L.
Context (keep : Z -> Z -> bool) (mm nn : nat) (a0 lda b0 ldb : Z).
Definition gx := (mm + 63) / 64.
Definition gy := (nn + 63) / 64.
Context (Hlda : (Zn mm <= lda)%Z) (Hldb : (Zn mm <= ldb)%Z).
Context (Hna : (Zn nn * lda < 2147483648)%Z) (Hnb : (Zn nn * ldb < 2147483648)%Z).
Definition lp_piece (ind iby : Z) (j : nat) : list act :=
  if (iby + Zn j <? Zn nn)%Z then
    if keep (ind - iby)%Z (Zn j)
    then [Ld (Glob 0 (a0 + (ind + iby * lda) + Zn j * lda)%Z) push; St (Glob 1 (b0 + (ind + iby * ldb) + Zn j * ldb)%Z) (fun r => top zero r)]
    else [St (Glob 1 (b0 + (ind + iby * ldb) + Zn j * ldb)%Z) (fun _ => zero)]
  else [].
Lemma flat_map_eq {A B} (f g : A -> list B) l : (forall x, In x l -> f x = g x) -> flat_map f l = flat_map g l.
Proof. induction l; cbn; intros H; auto. rewrite H by now left. f_equal. apply IHl. intros; apply H; now right. Qed.
Lemma div_up_lt i n : i < (n + 63) / 64 -> i * 64 < n.
Proof. intros H. pose proof (Nat.mul_div_le (n + 63) 64 ltac:(lia)). nia. Qed.
Lemma lacpy_thread_eq bx by_ t : by_ < gy -> lacpy_thread zero keep mm nn a0 lda b0 ldb bx by_ t =
  if (Zn bx * 64 + Zn t <? Zn mm)%Z then flat_map (lp_piece (Zn bx * 64 + Zn t) (Zn by_ * 64)) (seq 0 64) else [].
Proof.
  intros Hy. apply div_up_lt in Hy. unfold lacpy_thread. cbv zeta. destruct (Zn bx * 64 + Zn t <? Zn mm)%Z eqn:E; auto. apply Z.ltb_lt in E.
  rewrite !(proj2 (in_int_true _)) by (unfold Zn in *; nia). cbn [andb]. apply flat_map_eq. intros j _. unfold lp_piece.
  destruct (Zn by_ * 64 + Zn j <? Zn nn)%Z eqn:Ej; auto. apply Z.ltb_lt in Ej. rewrite !(proj2 (in_int_true _)) by (unfold Zn in *; nia). reflexivity.
Qed.
Definition lpT (b t : nat) : list act := lacpy_thread zero keep mm nn a0 lda b0 ldb (b mod gx) (b / gx) t.
Lemma lp_blk b : b < gx * gy -> b mod gx < gx /\ b / gx < gy.
Proof. intros H. assert (gx <> 0) by (intros E; rewrite E in H; lia). split; [now apply Nat.mod_upper_bound|now apply Nat.div_lt_upper_bound]. Qed.
Lemma lpT_in b t a : b < gx * gy -> t < 64 -> In a (lpT b t) -> exists i j, i < mm /\ j < nn /\ b mod gx * 64 + t = i /\ b / gx * 64 <= j < b / gx * 64 + 64 /\
  (target a = Some (Glob 1 (b0 + Zn i + Zn j * ldb)%Z) /\ is_ld a = false \/ target a = Some (Glob 0 (a0 + Zn i + Zn j * lda)%Z) /\ is_ld a = true).
Proof.
  intros Hb Ht I. unfold lpT in I. rewrite lacpy_thread_eq in I by now apply lp_blk.
  destruct (Zn (b mod gx) * 64 + Zn t <? Zn mm)%Z eqn:E; [|destruct I]. apply Z.ltb_lt in E. apply in_flat_map in I. destruct I as (j & Hj & I). apply in_seq in Hj.
  unfold lp_piece in I. destruct (Zn (b / gx) * 64 + Zn j <? Zn nn)%Z eqn:Ej; [|destruct I]. apply Z.ltb_lt in Ej.
  exists (b mod gx * 64 + t), (b / gx * 64 + j). unfold Zn in *. repeat (split; [lia|]).
  destruct (keep _ _).
  - destruct I as [<-|[<-|[]]]; cbn.
    + right. split; auto. do 2 f_equal. nia.
    + left. split; auto. do 2 f_equal. nia.
  - destruct I as [<-|[]]; cbn. left. split; auto. do 2 f_equal. nia.
Qed.
Lemma lp_unique i j i' j' : i < mm -> i' < mm -> (b0 + Zn i + Zn j * ldb = b0 + Zn i' + Zn j' * ldb)%Z -> i = i' /\ j = j'.
Proof. unfold Zn in *. intros Hi Hi' E. assert (j = j') by nia. subst. split; auto. lia. Qed.

Lemma lacpy_one m : (forall i j, i < mm -> j < nn -> m (Glob 0 (a0 + Zn i + Zn j * lda)%Z) <> None /\ m (Glob 1 (b0 + Zn i + Zn j * ldb)%Z) <> None) ->
  exists m', yields add (lacpy_kernel zero keep mm nn a0 lda b0 ldb gx gy) m m' /\
    (forall i j, i < mm -> j < nn -> m' (Glob 1 (b0 + Zn i + Zn j * ldb)%Z) =
       if keep (Zn i - Zn (j / 64 * 64))%Z (Zn (j mod 64)) then m (Glob 0 (a0 + Zn i + Zn j * lda)%Z) else Some zero) /\
    (forall x, (forall i j, i < mm -> j < nn -> x <> Glob 1 (b0 + Zn i + Zn j * ldb)%Z) -> m' x = m x).
Proof.
  intros HM. destruct (single_yields add (lacpy_kernel zero keep mm nn a0 lda b0 ldb gx gy) lpT) with (m := m) as (m' & Y & F & W); try (cbn; lia); try reflexivity.
  - cbn. intros b b' t t' a a' Hb Hb' Ht Ht' N I I' x E E'.
    destruct (lpT_in _ _ _ Hb Ht I) as (i & j & Li & Lj & Ei & Ej & D), (lpT_in _ _ _ Hb' Ht' I') as (i' & j' & Li' & Lj' & Ei' & Ej' & D').
    destruct D as [[D1 D2]|[D1 D2]], D' as [[D1' D2']|[D1' D2']]; auto; rewrite D1 in E; rewrite D1' in E'; try congruence.
    exfalso. apply N. rewrite <- E in E'. injection E' as E'. destruct (lp_unique i' j' i j) as [-> ->]; auto.
    assert (Em : b mod gx = b' mod gx /\ t = t') by lia. destruct Em as [Em ->]. assert (Ed : b / gx = b' / gx) by lia.
    f_equal. destruct (lp_blk b Hb). rewrite (Nat.div_mod b gx), (Nat.div_mod b' gx) by lia. congruence.
  - cbn. intros b t a Hb Ht I. destruct (lpT_in _ _ _ Hb Ht I) as (i & j & Li & Lj & _ & _ & D). destruct (HM i j Li Lj).
    destruct D as [[D1 D2]|[D1 D2]]; eexists; split; eauto.
  - exists m'. split; [exact Y|]. split.
    + intros i j Hi Hj. set (bx := i / 64). set (by_ := j / 64). set (b := bx + by_ * gx). set (t := i mod 64). set (jj := j mod 64).
      assert (Q1 : bx < gx). { unfold bx, gx. apply Nat.div_lt_upper_bound; [lia|]. pose proof (Nat.div_mod (mm + 63) 64 ltac:(lia)). pose proof (Nat.mod_upper_bound (mm + 63) 64 ltac:(lia)). lia. }
      assert (Q2 : by_ < gy). { unfold by_, gy. apply Nat.div_lt_upper_bound; [lia|]. pose proof (Nat.div_mod (nn + 63) 64 ltac:(lia)). pose proof (Nat.mod_upper_bound (nn + 63) 64 ltac:(lia)). lia. }
      assert (Q3 : b mod gx = bx) by (unfold b; rewrite Nat.mod_add by lia; now apply Nat.mod_small).
      assert (Q4 : b / gx = by_) by (unfold b; rewrite Nat.div_add by lia; rewrite Nat.div_small by auto; lia).
      assert (Q5 : t < 64) by (apply Nat.mod_upper_bound; lia). assert (Q6 : jj < 64) by (apply Nat.mod_upper_bound; lia).
      assert (Q7 : i = bx * 64 + t) by (pose proof (Nat.div_mod i 64 ltac:(lia)); unfold bx, t; lia).
      assert (Q8 : j = by_ * 64 + jj) by (pose proof (Nat.div_mod j 64 ltac:(lia)); unfold by_, jj; lia).
      assert (Q9 : b < gx * gy) by (unfold b; nia).
      assert (QT : lpT b t = flat_map (lp_piece (Zn i) (Zn (by_ * 64))) (seq 0 64)).
      { unfold lpT. rewrite Q3, Q4, lacpy_thread_eq by auto. rewrite (proj2 (Z.ltb_lt _ _)) by (unfold Zn; lia).
        replace (Zn bx * 64 + Zn t)%Z with (Zn i) by (unfold Zn; lia). replace (Zn by_ * 64)%Z with (Zn (by_ * 64)) by (unfold Zn; lia). reflexivity. }
      assert (QP : forall q y, q < 64 -> wri (lp_piece (Zn i) (Zn (by_ * 64)) q) y -> y = Glob 1 (b0 + Zn i + Zn (by_ * 64 + q) * ldb)%Z).
      { intros q y Hq (a & Ia & Ta & La). unfold lp_piece in Ia. destruct (_ <? _)%Z; [|destruct Ia]. destruct (keep _ _).
        - destruct Ia as [<-|[<-|[]]]; [discriminate|]. cbn [target] in Ta. injection Ta as <-. f_equal. unfold Zn. rewrite Nat2Z.inj_add. ring.
        - destruct Ia as [<-|[]]. cbn [target] in Ta. injection Ta as <-. f_equal. unfold Zn. rewrite Nat2Z.inj_add. ring. }
      assert (PJ : lp_piece (Zn i) (Zn (by_ * 64)) jj = if keep (Zn i - Zn (by_ * 64))%Z (Zn jj)
        then [Ld (Glob 0 (a0 + Zn i + Zn j * lda)%Z) push; St (Glob 1 (b0 + Zn i + Zn j * ldb)%Z) (fun r => top zero r)]
        else [St (Glob 1 (b0 + Zn i + Zn j * ldb)%Z) (fun _ => zero)]).
      { unfold lp_piece. rewrite (proj2 (Z.ltb_lt _ _)) by (unfold Zn; lia).
        replace (a0 + (Zn i + Zn (by_ * 64) * lda) + Zn jj * lda)%Z with (a0 + Zn i + Zn j * lda)%Z by (unfold Zn; rewrite Q8 at 1; rewrite Nat2Z.inj_add; ring).
        replace (b0 + (Zn i + Zn (by_ * 64) * ldb) + Zn jj * ldb)%Z with (b0 + Zn i + Zn j * ldb)%Z by (unfold Zn; rewrite Q8 at 1; rewrite Nat2Z.inj_add; ring). reflexivity. }
      set (X := Glob 1 (b0 + Zn i + Zn j * ldb)%Z) in *.
      assert (WJ : wri (lp_piece (Zn i) (Zn (by_ * 64)) jj) X).
      { rewrite PJ. destruct (keep _ _); eexists; split; [right; left; reflexivity|auto|left; reflexivity|auto]. }
      rewrite (W b t X); auto.
      * unfold thread_mem. rewrite QT.
        destruct (seqa_loop add (lp_piece (Zn i) (Zn (by_ * 64))) 64 jj [] m X Q6) as (r & E).
        -- intros q y Hq Nq Hy Hw. apply QP in Hw; auto. subst y. destruct Hy as [(a & Ia & Ta)|Hy].
           ++ rewrite PJ in Ia. destruct (keep _ _).
              ** destruct Ia as [<-|[<-|[]]]; cbn [target] in Ta; [discriminate|]. injection Ta as Ta. destruct (lp_unique i j i (by_ * 64 + q)); auto. lia.
              ** destruct Ia as [<-|[]]; cbn [target] in Ta. injection Ta as Ta. destruct (lp_unique i j i (by_ * 64 + q)); auto. lia.
           ++ unfold X in Hy. injection Hy as Hy. destruct (lp_unique i (by_ * 64 + q) i j); auto. lia.
        -- rewrite E, PJ. clear E. destruct (HM i j Hi Hj) as [M1 M2]. fold X in M2. destruct (keep _ _); unfold seqa; cbn [fold_left]; unfold act'; cbn [CukModel.act fst snd].
           ++ destruct (m (Glob 0 _)) as [v|]; [|congruence]. cbn [fst snd]. destruct (m X) eqn:EX; [|congruence]. cbn [snd]. rewrite upd_eq. reflexivity.
           ++ destruct (m X) eqn:EX; [|congruence]. cbn [snd]. now rewrite upd_eq.
      * rewrite QT. destruct WJ as (a & Ia & Ha). exists a. split; auto. apply in_flat_map. exists jj. split; auto. apply in_seq. lia.
    + intros x Hx. apply F. cbn. intros b t Hb Ht (a & I & Ta & La). destruct (lpT_in _ _ _ Hb Ht I) as (i & j & Li & Lj & _ & _ & D).
      destruct D as [[D1 D2]|[D1 D2]]; [|congruence]. apply (Hx i j Li Lj). congruence.
Qed.
End L.
End F.
