(** The ownership invariant lifted to matrices, constructors, calls and destructors. *)
From Coq Require Import List Arith Bool Lia Permutation.
Require Import Verif.Base Verif.MemModel Verif.MemSpec Verif.MemProofs.
Import ListNotations.

Section Inv.
Context (h0 : heap).
Local Notation n0 := (length (hp_blk h0)).
Local Notation inv := (inv h0).

Definition spec_ok (s : mspec) : Prop := match s with Wrap _ _ p => p < n0 /\ valid h0 p | _ => True end.
Definition is_new (s : mspec) : Prop := match s with New _ _ => True | _ => False end.
Definition msize (s : mspec) : nat := match s with New 1 l => 2 * l | New _ l => l | Wrap 0 _ _ => 0 | Wrap _ l _ => l end.
Definition owned (h : heap) (lk : list (nat * nat)) : Prop := Forall (fun p => owns h (fst p) (snd p)) lk.
Lemma owned_ext h h' lk : ext h h' -> owned h lk -> owned h' lk.
Proof. intros E. apply Forall_impl. intros p. now apply owns_ext. Qed.

Lemma valid_inv h hs rs p : inv h hs rs -> p < n0 -> valid h0 p -> valid h p.
Proof.
  intros I Hp (x & Hx & Hv). exists x. split; auto. rewrite <- (i_old _ _ _ _ I) in Hx.
  rewrite <- (firstn_skipn n0 (hp_blk h)). rewrite nth_error_app1; auto. now apply nth_lt in Hx.
Qed.

Lemma mat_make_inv s h hs rs : spec_ok s -> inv h hs rs -> let (mx, h') := mat_make s h in
  inv h' (handles mx ++ hs) rs /\ ext h h' /\ NoDup (handles mx) /\ (forall c, In c (handles mx) -> ~ In c hs) /\
  (is_new s -> exists lk, map fst lk = handles mx /\ owned h' lk /\ list_sum (map snd lk) = msize s).
Proof.
  intros S I. destruct s as [[|[|md]] l|[|md] l p]; cbn [mat_make spec_ok] in *.
  - pose proof (new_inv _ _ _ _ Host l I) as P. destruct (mem_new Host l h) as [c h1]. destruct P as (I1 & E1 & O1 & N1). cbn [handles mx_h mx_d app].
    split; auto. split; auto. split; [repeat constructor; auto|]. split; [intros d [<-|[]]; auto|].
    intros _. exists [(c, l)]. split; auto. split; [now constructor|cbn; lia].
  - pose proof (new_inv _ _ _ _ Pinned l I) as P. destruct (mem_new Pinned l h) as [c h1]. destruct P as (I1 & E1 & O1 & N1).
    pose proof (new_inv _ _ _ _ Dev l I1) as P. destruct (mem_new Dev l h1) as [d h2]. destruct P as (I2 & E2 & O2 & N2). cbn [handles mx_h mx_d app].
    split; [eapply inv_perm; [apply perm_swap|apply Permutation_refl|exact I2]|]. split; [eapply ext_trans; eauto|].
    split; [constructor; [intros [->|[]]; apply N2; now left|repeat constructor; auto]|].
    split; [intros e [<-|[<-|[]]]; auto; intros K; apply N2; now right|].
    intros _. exists [(c, l); (d, l)]. split; auto. split; [|cbn; lia]. constructor; [eapply owns_ext; eauto|now constructor].
  - pose proof (new_inv _ _ _ _ Dev l I) as P. destruct (mem_new Dev l h) as [c h1]. destruct P as (I1 & E1 & O1 & N1). cbn [handles mx_h mx_d app].
    split; auto. split; auto. split; [repeat constructor; auto|]. split; [intros d [<-|[]]; auto|].
    intros _. exists [(c, l)]. split; auto. split; [now constructor|cbn; lia].
  - destruct S as [Sp Sv]. pose proof (wrap_inv _ _ _ _ _ Sp (valid_inv _ _ _ _ I Sp Sv) I) as P. destruct (mem_wrap p h) as [c h1].
    destruct P as (I1 & E1 & N1 & _). cbn [handles mx_h mx_d app].
    split; auto. split; auto. split; [repeat constructor; auto|]. split; [intros d [<-|[]]; auto|]. intros [].
  - destruct S as [Sp Sv]. pose proof (wrap_inv _ _ _ _ _ Sp (valid_inv _ _ _ _ I Sp Sv) I) as P. destruct (mem_wrap p h) as [c h1].
    destruct P as (I1 & E1 & N1 & _).
    pose proof (new_inv _ _ _ _ Dev l I1) as P. destruct (mem_new Dev l h1) as [d h2]. destruct P as (I2 & E2 & O2 & N2). cbn [handles mx_h mx_d app].
    split; [eapply inv_perm; [apply perm_swap|apply Permutation_refl|exact I2]|]. split; [eapply ext_trans; eauto|].
    split; [constructor; [intros [->|[]]; apply N2; now left|repeat constructor; auto]|].
    split; [intros e [<-|[<-|[]]]; auto; intros K; apply N2; now right|]. intros [].
Qed.

Lemma NoDup_app {A} (l m : list A) : NoDup l -> NoDup m -> (forall x, In x l -> ~ In x m) -> NoDup (l ++ m).
Proof.
  induction l as [|a l IH]; intros H1 H2 H; cbn; auto. inversion H1; subst. constructor.
  - rewrite in_app_iff. intros [K|K]; [auto|]. apply (H a); [now left|auto].
  - apply IH; auto. intros x Hx. apply H. now right.
Qed.

Lemma mats_make_inv l : forall h hs rs, Forall spec_ok l -> inv h hs rs -> let (ms, h') := mats_make l h in
  inv h' (flat_map handles ms ++ hs) rs /\ ext h h' /\ NoDup (flat_map handles ms) /\ (forall c, In c (flat_map handles ms) -> ~ In c hs) /\
  (Forall is_new l -> exists lk, map fst lk = flat_map handles ms /\ owned h' lk /\ list_sum (map snd lk) = list_sum (map msize l)).
Proof.
  induction l as [|s l IH]; intros h hs rs S I; cbn [mats_make].
  - cbn. split; auto. split; [apply ext_refl|]. split; [constructor|]. split; [intros c []|]. intros _. exists []. split; auto. split; [constructor|auto].
  - inversion S as [|? ? S1 S2]; subst. pose proof (mat_make_inv s h hs rs S1 I) as P. destruct (mat_make s h) as [mx h1].
    destruct P as (I1 & E1 & D1 & N1 & L1). specialize (IH h1 _ rs S2 I1). destruct (mats_make l h1) as [ms h2].
    destruct IH as (I2 & E2 & D2 & N2 & L2). cbn [flat_map].
    split. { eapply inv_perm; [|apply Permutation_refl|exact I2]. rewrite !app_assoc. apply Permutation_app_tail, Permutation_app_comm. }
    split; [eapply ext_trans; eauto|]. split.
    { apply NoDup_app; auto. intros x Hx K. apply (N2 x K). apply in_or_app. auto. }
    split. { intros c Hc K. apply in_app_or in Hc as [Hc|Hc]; [now apply (N1 c)|]. apply (N2 c Hc). apply in_or_app. auto. }
    intros F. inversion F as [|? ? F1 F2]; subst. destruct (L1 F1) as (k1 & A1 & B1 & C1). destruct (L2 F2) as (k2 & A2 & B2 & C2).
    exists (k1 ++ k2). rewrite !map_app, list_sum_app. split; [now rewrite A1, A2|]. split; [|rewrite C1, C2; reflexivity].
    apply Forall_app. split; auto. eapply owned_ext; eauto.
Qed.

Lemma each_use h hs rs l : inv h hs rs -> incl l hs -> each mem_use l h = Ok h.
Proof.
  intros I. induction l as [|c l IH]; intros Hi; cbn; auto. erewrite use_inv; eauto; [|apply Hi; now left]. cbn. apply IH. intros x Hx. apply Hi. now right.
Qed.
Lemma each_copy l : forall h hs rs, inv h hs rs -> incl l hs -> exists h', each mem_copy l h = Ok h' /\ inv h' (l ++ hs) rs /\ ext h h'.
Proof.
  induction l as [|c l IH]; intros h hs rs I Hi; cbn; [exists h; split; auto; split; auto; apply ext_refl|].
  destruct (copy_inv _ _ _ _ _ I (Hi c (or_introl eq_refl))) as (h1 & E1 & I1 & X1). rewrite E1. cbn.
  destruct (IH _ _ _ I1) as (h2 & E2 & I2 & X2); [intros x Hx; right; apply Hi; now right|]. rewrite E2. exists h2. split; auto.
  split; [|eapply ext_trans; eauto]. eapply inv_perm; [|apply Permutation_refl|exact I2]. symmetry. apply Permutation_middle.
Qed.
Lemma each_drop l : forall h hs rs, inv h (l ++ hs) rs -> exists h', each mem_drop l h = Ok h' /\ inv h' hs rs /\ ext h h'.
Proof.
  induction l as [|c l IH]; intros h hs rs I; cbn in *; [exists h; split; auto; split; auto; apply ext_refl|].
  destruct (drop_inv _ _ _ _ _ I) as (h1 & E1 & I1 & X1). rewrite E1. cbn.
  destruct (IH _ _ _ I1) as (h2 & E2 & I2 & X2). rewrite E2. exists h2. split; auto. split; auto. eapply ext_trans; eauto.
Qed.
Lemma mat_use_inv mx h hs rs : inv h hs rs -> incl (handles mx) hs -> mat_use mx h = Ok h.
Proof. intros. unfold mat_use. eapply each_use; eauto. Qed.
Lemma mats_use_inv ms h hs rs : inv h hs rs -> incl (flat_map handles ms) hs -> mats mat_use ms h = Ok h.
Proof.
  intros I. induction ms as [|m ms IH]; intros Hi; cbn; auto. cbn in Hi. apply incl_app_inv in Hi as [H1 H2].
  rewrite (mat_use_inv m h hs rs I H1). cbn. auto.
Qed.
Lemma mat_drop_inv mx h hs rs : inv h (handles mx ++ hs) rs -> exists h', mat_drop mx h = Ok h' /\ inv h' hs rs /\ ext h h'.
Proof.
  intros I. unfold mat_drop. apply each_drop. eapply inv_perm; [|apply Permutation_refl|exact I]. apply Permutation_app_tail, Permutation_rev.
Qed.
Lemma mats_drop_inv ms : forall h hs rs, inv h (flat_map handles ms ++ hs) rs -> exists h', mats mat_drop ms h = Ok h' /\ inv h' hs rs /\ ext h h'.
Proof.
  induction ms as [|m ms IH]; intros h hs rs I; cbn in *; [exists h; split; auto; split; auto; apply ext_refl|].
  rewrite <- app_assoc in I. destruct (mat_drop_inv _ _ _ _ I) as (h1 & E1 & I1 & X1). rewrite E1. cbn.
  destruct (IH _ _ _ I1) as (h2 & E2 & I2 & X2). rewrite E2. exists h2. split; auto. split; auto. eapply ext_trans; eauto.
Qed.
Lemma mats_copy_inv ms : forall h hs rs, inv h hs rs -> incl (flat_map handles ms) hs ->
  exists h', mats mat_copy ms h = Ok h' /\ inv h' (flat_map handles ms ++ hs) rs /\ ext h h'.
Proof.
  induction ms as [|m ms IH]; intros h hs rs I Hi; cbn in *; [exists h; split; auto; split; auto; apply ext_refl|].
  apply incl_app_inv in Hi as [H1 H2]. destruct (each_copy _ _ _ _ I H1) as (h1 & E1 & I1 & X1). unfold mat_copy at 1. rewrite E1. cbn.
  destruct (IH _ _ _ I1) as (h2 & E2 & I2 & X2); [intros x Hx; apply in_or_app; auto|]. rewrite E2. exists h2. split; auto.
  split; [|eapply ext_trans; eauto]. eapply inv_perm; [|apply Permutation_refl|exact I2]. rewrite !app_assoc. apply Permutation_app_tail, Permutation_app_comm.
Qed.
Lemma mat_read_inv mx h hs rs : inv h hs rs -> incl (handles mx) hs -> exists h', mat_read mx h = Ok h' /\ inv h' hs rs /\ ext h h'.
Proof.
  intros I Hi. unfold mat_read, mat_copy. destruct (each_copy _ _ _ _ I Hi) as (h1 & E1 & I1 & X1). rewrite E1. cbn.
  rewrite (mat_use_inv mx h1 _ _ I1) by (apply incl_appl, incl_refl). cbn. destruct (mat_drop_inv _ _ _ _ I1) as (h2 & E2 & I2 & X2).
  exists h2. split; auto. split; auto. eapply ext_trans; eauto.
Qed.
Lemma mats_read_inv ms : forall h hs rs, inv h hs rs -> incl (flat_map handles ms) hs -> exists h', mats mat_read ms h = Ok h' /\ inv h' hs rs /\ ext h h'.
Proof.
  induction ms as [|m ms IH]; intros h hs rs I Hi; cbn in *; [exists h; split; auto; split; auto; apply ext_refl|].
  apply incl_app_inv in Hi as [H1 H2]. destruct (mat_read_inv _ _ _ _ I H1) as (h1 & E1 & I1 & X1). rewrite E1. cbn.
  destruct (IH _ _ _ I1 H2) as (h2 & E2 & I2 & X2). rewrite E2. exists h2. split; auto. split; auto. eapply ext_trans; eauto.
Qed.

(** raw buffers and their lengths *)
Definition rowned (h : heap) (lr : list (mkind * nat * nat)) : Prop := Forall (fun p => exists x, nth_error (hp_blk h) (snd (fst p)) = Some x /\ bk_len x = snd p) lr.
Lemma rowned_ext h h' lr : ext h h' -> rowned h lr -> rowned h' lr.
Proof. intros [E _]. apply Forall_impl. intros p (x & H & L). destruct (E _ _ H) as (v & Hv). eexists. split; [exact Hv|exact L]. Qed.
Lemma raws_inv l : forall h hs rs, inv h hs rs -> let (r, h') := raws l h in inv h' hs (r ++ rs) /\ ext h h'.
Proof.
  induction l as [|[kd len] l IH]; intros h hs rs I; cbn; [split; auto; apply ext_refl|].
  pose proof (alloc_inv _ _ _ _ kd len I) as P. destruct (hp_alloc kd len h) as [b h1] eqn:E. unfold hp_alloc in E. injection E as <- <-.
  destruct P as (I1 & X1 & _). specialize (IH _ _ _ I1). destruct (raws l _) as [r h2]. destruct IH as (I2 & X2).
  split; [|eapply ext_trans; eauto]. eapply inv_perm; [apply Permutation_refl| |exact I2]. cbn. symmetry. apply Permutation_middle.
Qed.
Lemma frees_inv l : forall h hs rs, inv h hs (l ++ rs) -> exists h',
  (fix go l h := match l with [] => Ok h | (kd, b) :: l => let! h := hp_free kd b h in go l h end) l h = Ok h' /\ inv h' hs rs /\ ext h h'.
Proof.
  induction l as [|[kd b] l IH]; intros h hs rs I; [exists h; split; auto; split; auto; apply ext_refl|].
  destruct (free_inv _ _ _ _ _ _ I) as (h1 & E1 & I1 & X1). rewrite E1. cbn [bind].
  destruct (IH _ _ _ I1) as (h2 & E2 & I2 & X2). rewrite E2. exists h2. split; auto. split; auto. eapply ext_trans; eauto.
Qed.

(** what stays alive at the end *)
Definition blk_of (h : heap) (c : nat) : nat := match nth_error (hp_mem h) c with Some x => mm_blk x | None => 0 end.
Definition len_at (h : heap) (b : nat) : nat := match nth_error (hp_blk h) b with Some x => bk_len x | None => 0 end.
Definition live_at (h : heap) (b : nat) : bool := match nth_error (hp_blk h) b with Some x => bk_live x | None => false end.
Lemma list_sum_perm l m : Permutation l m -> list_sum l = list_sum m.
Proof. unfold list_sum. induction 1; cbn in *; lia. Qed.
Lemma left_idx : forall l h n, hp_blk h = firstn n (hp_blk h) ++ l -> n <= length (hp_blk h) ->
  list_sum (map bk_len (filter bk_live l)) = list_sum (map (len_at h) (filter (live_at h) (seq n (length l)))).
Proof.
  induction l as [|x l IH]; intros h n Hl Hn; cbn; auto.
  assert (Hx : nth_error (hp_blk h) n = Some x).
  { rewrite Hl. rewrite nth_error_app2; rewrite firstn_length; [|lia]. now replace (n - Nat.min n (length (hp_blk h))) with 0 by lia. }
  assert (Ln : n < length (hp_blk h)) by (now apply nth_lt in Hx).
  assert (Hs : firstn (S n) (hp_blk h) = firstn n (hp_blk h) ++ [x]).
  { rewrite Hl. rewrite (firstn_app (S n)), (firstn_app n). rewrite !firstn_length, !firstn_firstn.
    replace (Nat.min (S n) n) with n by lia. replace (Nat.min n n) with n by lia.
    replace (S n - Nat.min n (length (hp_blk h))) with 1 by lia. replace (n - Nat.min n (length (hp_blk h))) with 0 by lia. cbn. now rewrite app_nil_r. }
  unfold live_at at 1. rewrite Hx. specialize (IH h (S n)). rewrite Hs, <- app_assoc in IH. specialize (IH Hl Ln).
  destruct (bk_live x); cbn [map list_sum fold_right]; [|exact IH]. unfold list_sum in *. cbn. rewrite IH. f_equal. unfold len_at. now rewrite Hx.
Qed.
Lemma left_over_inv h lk lr : inv h (map fst lk) (map fst lr) -> NoDup (map fst lk) -> owned h lk -> rowned h lr ->
  left_over n0 h = list_sum (map snd lk) + list_sum (map snd lr).
Proof.
  intros I N O R. pose proof (old_len _ _ _ _ I) as [L1 L2]. unfold left_over.
  rewrite (left_idx _ h n0) by (auto; now rewrite firstn_skipn).
  assert (Hcell : forall c, In c (map fst lk) -> exists x l, nth_error (hp_mem h) c = Some x /\ length (hp_mem h0) <= c /\ mm_alloc x = true /\
      n0 <= mm_blk x /\ nth_error (hp_blk h) (mm_blk x) = Some (mk_blk (mm_kind x) l true)).
  { intros c Hc. destruct (cell_of _ _ _ _ _ I Hc) as (x & E & H1 & Er & Hr). apply in_map_iff in Hc as ([c' l] & <- & Hc). cbn in *.
    apply (proj1 (Forall_forall _ _) O) in Hc as (x' & y & A & B & C & D). cbn in *. rewrite E in A. injection A as <-.
    destruct (i_cell _ _ _ _ I _ _ H1 E) as (_ & Q & _). destruct (Q B) as (Q1 & l' & Q2).
    replace (0 <? mm_rc x) with true in Q2 by (symmetry; now apply Nat.ltb_lt). exists x, l'. auto. }
  pose proof (i_own _ _ _ _ I) as Own.
  assert (P : Permutation (filter (live_at h) (seq n0 (length (skipn n0 (hp_blk h))))) (map (blk_of h) (map fst lk) ++ map snd (map fst lr))).
  { apply NoDup_Permutation.
    - apply NoDup_filter, seq_NoDup.
    - apply NoDup_app.
      + clear O. revert N Hcell. generalize (map fst lk) as cs. clear I R L1 L2. intros cs N Hcell. induction N as [|c l Hc N IH]; cbn; constructor.
        * intros K. apply in_map_iff in K as (d & Ed & Hd). 
          destruct (Hcell c (or_introl eq_refl)) as (x & lx & A1 & A2 & A3 & A4 & A5). destruct (Hcell d (or_intror Hd)) as (y & ly & B1 & B2 & B3 & B4 & B5).
          unfold blk_of in Ed. rewrite A1, B1 in Ed. apply Hc. replace c with d; auto. exact (Own d c y x B2 A2 B1 A1 B3 A3 Ed).
        * apply IH. intros d Hd. apply Hcell. now right.
      + exact (i_nodup _ _ _ _ I).
      + intros b Hb K. apply in_map_iff in Hb as (c & Ec & Hc). destruct (Hcell c Hc) as (x & lx & A1 & A2 & A3 & A4 & A5).
        unfold blk_of in Ec. rewrite A1 in Ec. apply in_map_iff in K as ([k b'] & Eb & Hb). cbn in Eb. subst b'.
        destruct (i_raw _ _ _ _ I k b Hb) as (_ & _ & G). exact (G c x A2 A1 A3 Ec).
    - intros b. rewrite filter_In, in_seq, in_app_iff. unfold live_at. split.
      + intros [Hb Hl]. destruct (nth_error (hp_blk h) b) as [x|] eqn:E; [|discriminate].
        destruct (i_live _ _ _ _ I b x (proj1 Hb) E Hl) as [[k Hk]|(c & y & Hc & Hy & Ha & Eb)].
        * right. now apply (in_map snd) in Hk.
        * left. apply in_map_iff. exists c. unfold blk_of. rewrite Hy. split; auto. apply (count_occ_In Nat.eq_dec).
          destruct (i_cell _ _ _ _ I _ _ Hc Hy) as (Q0 & Q & _). destruct (Q Ha) as (_ & l & Q2). rewrite Eb, E in Q2. injection Q2 as ->. cbn [bk_live] in Hl.
          apply Nat.ltb_lt in Hl. lia.
      + rewrite skipn_length. intros [Hb|Hb].
        * apply in_map_iff in Hb as (c & Ec & Hc). destruct (Hcell c Hc) as (x & lx & A1 & A2 & A3 & A4 & A5). unfold blk_of in Ec. rewrite A1 in Ec. subst b.
          rewrite A5. pose proof (nth_lt _ _ _ A5). split; auto. lia.
        * apply in_map_iff in Hb as ([k b'] & Eb & Hb). cbn in Eb. subst b'. destruct (i_raw _ _ _ _ I k b Hb) as (G1 & (l & G2) & _).
          rewrite G2. pose proof (nth_lt _ _ _ G2). split; auto. lia. }
  rewrite (list_sum_perm _ _ (Permutation_map (len_at h) P)), map_app, list_sum_app. f_equal.
  - rewrite !map_map. f_equal. apply map_ext_in. intros [c l] Hc. apply (proj1 (Forall_forall _ _) O) in Hc as (x & y & A & _ & C & D). cbn in *.
    unfold len_at, blk_of. rewrite A, C. auto.
  - rewrite !map_map. f_equal. apply map_ext_in. intros [[k b] l] Hc. apply (proj1 (Forall_forall _ _) R) in Hc as (x & A & B). cbn in *.
    unfold len_at. rewrite A. auto.
Qed.
End Inv.
