(** the outer loop: bookkeeping, safety, final sort *)
From Coq Require Import List Arith ZArith Bool Lia Permutation.
Require Import Verif.Base Verif.AlgModel Verif.AlgSpec Verif.AlgProofs1 Verif.AlgProofs2.
Import ListNotations.

Lemma advance_inv {A} (p p' : ptr A) n : advance p n = Ok p' ->
  n <= length (snd p) /\ fst p' = fst p ++ firstn n (snd p) /\ snd p' = skipn n (snd p).
Proof. unfold advance. destruct (n <=? length (snd p)) eqn:E; intros H; inversion H. apply Nat.leb_le in E. auto. Qed.
Lemma advance_ok {A} (p : ptr A) n : n <= length (snd p) ->
  advance p n = Ok (fst p ++ firstn n (snd p), skipn n (snd p)).
Proof. intros H. unfold advance. apply Nat.leb_le in H. now rewrite H. Qed.

Section S1.
Context {F St : Type} (fo : fops F) (K : kernel F St).

(** *** final sort *)
Definition fs_by (sw : list (nat * nat)) (a a' : list F * St) : Prop :=
  fst a' = swps sw (fst a) /\ kswaps K 0 sw (snd a) = Ok (snd a').
Lemma fs_by_trans sw1 sw2 a b c : fs_by sw1 a b -> fs_by sw2 b c -> fs_by (sw1 ++ sw2) a c.
Proof. intros (A1 & A2) (B1 & B2). unfold fs_by. rewrite !swps_app, kswaps_app, <- A1, A2. auto. Qed.

Lemma final_exchange_spec i j a a' : final_exchange fo K i j a = Ok a' ->
  exists x y, nth_error (fst a) i = Some x /\ nth_error (fst a) j = Some y /\
  ((f_lt fo y x = true /\ fs_by [(i, j)] a a') \/ (f_lt fo y x = false /\ a' = a)).
Proof.
  destruct a as [r k]. unfold final_exchange. intros H.
  apply bind_ok in H as (x & Hx & H). apply bind_ok in H as (y & Hy & H). apply rd_ok in Hx, Hy.
  exists x, y. split; auto. split; auto. destruct (f_lt fo y x).
  - left. split; auto. apply bind_ok in H as (r' & Hr & H). apply bind_ok in H as (k' & Hk & H). inversion H; subst.
    apply swap_inv in Hr as (_ & _ & ->). split; auto. simpl. rewrite !Nat.add_0_r, Hk. reflexivity.
  - right. inversion H; auto.
Qed.

Lemma final_sort_by nev r k r' k' : nev <= length r -> final_sort fo K nev r k = Ok (r', k') ->
  1 <= nev /\ exists sw, in_range nev sw /\ fs_by sw (r, k) (r', k').
Proof.
  intros Hl H. unfold final_sort in H. destruct (nev =? 0) eqn:E; [discriminate|]. apply Nat.eqb_neq in E.
  split; [lia|].
  apply (for_inv_ok (fun _ a => exists sw, in_range nev sw /\ fs_by sw (r, k) a)) in H; auto.
  - exists []. split; [constructor|]. split; auto.
  - clear H. intros i a a' Hi Ha H.
    apply (for_inv_ok (fun _ a => exists sw, in_range nev sw /\ fs_by sw (r, k) a)) in H; auto.
    clear H. intros j b b' Hj (sw & Hr & Hb) H.
    apply final_exchange_spec in H as (x & y & _ & _ & [(_ & Hby)|(_ & ->)]); eauto.
    exists (sw ++ [(i, j)]). split; [apply Forall_app; split; auto; constructor; auto; simpl; lia|].
    eapply fs_by_trans; eauto.
Qed.

(** order laws on a set of values (e.g. non-NaN floats) *)
Local Notation order_on := (order_on fo).

Local Notation fsorted_upto := (fsorted_upto fo).

Context (P : F -> Prop) (HO : order_on P).

Lemma swp_in {A} (l : list A) i j x : In x (swp l i j) -> In x l.
Proof. apply Permutation_in. apply Permutation_sym, swp_perm. Qed.

Lemma final_inner n i a a' : i < n -> n <= length (fst a) -> Forall P (fst a) -> fsorted_upto n i (fst a) ->
  for_ (n - 1 - i) (i + 1) (fun j rk => final_exchange fo K i j rk) a = Ok a' ->
  length (fst a') = length (fst a) /\ Forall P (fst a') /\ fsorted_upto n (S i) (fst a').
Proof.
  intros Hi Hl HP Hs H.
  apply (for_inv_ok (fun j b => length (fst b) = length (fst a) /\ Forall P (fst b) /\ fsorted_upto n i (fst b) /\
     (forall p x y, nth_error (fst b) i = Some x -> i < p < j -> nth_error (fst b) p = Some y -> f_lt fo y x = false))) in H.
  - destruct H as (H1 & H2 & H3 & H4). split; auto. split; auto.
    intros p q x y Hp Hq Hx Hy. destruct (Nat.eq_dec p i) as [->|].
    + apply (H4 q x y); auto. lia.
    + apply (H3 p q); auto; lia.
  - split; auto. split; auto. split; auto. intros; lia.
  - clear H. intros j b b' Hj (H1 & H2 & H3 & H4) Hx.
    apply final_exchange_spec in Hx as (x & y & Ex & Ey & [(Hlt & Hby)|(Hge & ->)]).
    + destruct Hby as (Hd & _). unfold swps in Hd; simpl in Hd.
      assert (Hij : i <> j) by lia.
      assert (HPx : P x) by (rewrite Forall_forall in H2; eapply H2, nth_error_In; eauto).
      assert (HPy : P y) by (rewrite Forall_forall in H2; eapply H2, nth_error_In; eauto).
      assert (Hi' : nth_error (fst b') i = Some y).
      { rewrite Hd, swp_nth by lia. unfold tr. rewrite Nat.eqb_refl. auto. }
      assert (Hj' : nth_error (fst b') j = Some x).
      { rewrite Hd, swp_nth by lia. unfold tr. destruct (j =? i) eqn:E; [apply Nat.eqb_eq in E; lia|]. now rewrite Nat.eqb_refl. }
      assert (Ho : forall p, p <> i -> p <> j -> nth_error (fst b') p = nth_error (fst b) p).
      { intros p Hp1 Hp2. rewrite Hd, swp_nth by lia. unfold tr.
        apply Nat.eqb_neq in Hp1, Hp2. now rewrite Hp1, Hp2. }
      split; [rewrite Hd, swp_length; auto|]. split.
      { apply Forall_forall. intros z Hz. rewrite Hd in Hz. apply swp_in in Hz. rewrite Forall_forall in H2; auto. }
      split.
      * intros p q u v Hp Hq Hu Hv. rewrite Ho in Hu by lia.
        destruct (Nat.eq_dec q i) as [->|]; [rewrite Hi' in Hv; inversion Hv; subst; apply (H3 p j u v); auto; lia|].
        destruct (Nat.eq_dec q j) as [->|]; [rewrite Hj' in Hv; inversion Hv; subst; apply (H3 p i u v); auto; lia|].
        rewrite Ho in Hv by auto. apply (H3 p q u v); auto.
      * intros p u v Hu Hp Hv. rewrite Hi' in Hu. inversion Hu; subst u.
        destruct (Nat.eq_dec p j) as [->|].
        -- rewrite Hj' in Hv. inversion Hv; subst v. apply (oo_asym fo P HO); auto.
        -- rewrite Ho in Hv by lia. assert (HPv : P v) by (rewrite Forall_forall in H2; eapply H2, nth_error_In; eauto).
           apply (oo_trans fo P HO) with x; auto. 
           ++ eapply H4; eauto. lia.
           ++ apply (oo_asym fo P HO); auto.
    + split; auto. split; auto. split; auto.
      intros p u v Hu Hp Hv. destruct (Nat.eq_dec p j) as [->|].
      * rewrite Ex in Hu; rewrite Ey in Hv; inversion Hu; inversion Hv; subst; auto.
      * eapply H4; eauto. lia.
Qed.

Lemma final_sort_sorted nev r k r' k' : nev <= length r -> Forall P r ->
  final_sort fo K nev r k = Ok (r', k') -> fsorted_upto nev nev r'.
Proof.
  intros Hl HP H. unfold final_sort in H. destruct (nev =? 0) eqn:E; [discriminate|]. apply Nat.eqb_neq in E.
  apply (for_inv_ok (fun i a => length (fst a) = length r /\ Forall P (fst a) /\ fsorted_upto nev i (fst a))) in H.
  - destruct H as (_ & _ & H). intros i i' x y Hi Hi' Hx Hy. apply (H i i'); auto. lia.
  - split; auto. split; auto. intros i i' x y Hi; lia.
  - intros i a a' Hi (H1 & H2 & H3) Ha.
    apply final_inner in Ha as (A1 & A2 & A3); auto; try lia.
    split; [congruence|]. auto.
Qed.

Lemma final_sort_id nev r k : 1 <= nev -> nev <= length r -> fsorted_upto nev nev r ->
  final_sort fo K nev r k = Ok (r, k).
Proof.
  intros Hn Hl HS. unfold final_sort. replace (nev =? 0) with false by (symmetry; apply Nat.eqb_neq; lia).
  destruct (for_inv (fun _ a => a = (r, k)) (fun i rk => for_ (nev - 1 - i) (i + 1) (fun j rk => final_exchange fo K i j rk) rk)
     (nev - 1) 0 (r, k)) as (a & -> & ->); auto.
  intros i a Hi ->.
  destruct (for_inv (fun _ a => a = (r, k)) (fun j rk => final_exchange fo K i j rk) (nev - 1 - i) (i + 1) (r, k)) as (a & -> & ->); auto.
  - intros j a Hj ->. exists (r, k). split; auto. unfold final_exchange, rd.
    destruct (nth_error_ex r i) as [x Ex]; [lia|]. destruct (nth_error_ex r j) as [y Ey]; [lia|].
    rewrite Ex, Ey. cbn [bind]. rewrite (HS i j x y); auto; lia.
  - eauto.
Qed.
End S1.

Section S2.
Context {F St : Type} (fo : fops F) (K : kernel F St).
Context (sort_idx : list F -> list nat) (Hperm : forall keys, Permutation (sort_idx keys) (seq 0 (length keys))).

(** *** structural invariant of the outer loop *)
Record book (cf : conf F) (nr ns : nat) (s : @sstate F St) : Prop := {
  bk_sum : ss_locked s + ss_unconv s = c_nev cf + c_nex cf;
  bk_nex : c_nex cf <= ss_unconv s;
  bk_r : length (fst (ss_ritz s)) = ss_locked s /\ length (whole (ss_ritz s)) = nr;
  bk_s : length (fst (ss_res s)) = ss_locked s /\ length (whole (ss_res s)) = ns;
  bk_l : length (fst (ss_last s)) = ss_locked s /\ length (snd (ss_last s)) = ss_unconv s;
  bk_d : length (fst (ss_deg s)) = ss_locked s /\ length (snd (ss_deg s)) = ss_unconv s
}.

(** the degree window *)
Definition degs_ok (s : @sstate F St) : Prop :=
  ascending (snd (ss_deg s)) /\ Forall (fun d => 2 <= d /\ Nat.even d = true) (snd (ss_deg s)) /\
  Forall (fun d => d <= ss_d s) (snd (ss_deg s)) /\ (snd (ss_deg s) <> [] -> In (ss_d s) (snd (ss_deg s))).

(** what one iteration does, step by step *)
Lemma iterate_inv cf ub s s' : iterate fo K sort_idx cf ub s = Ok s' ->
  exists lb0 lambda deg a av k1 cond k2 vals k3 ritz last rs k4 resid new l k5,
  let lowerb := if f_lt fo ub lb0 then ub else lb0 in
  update_bounds fo (c_nev cf + c_nex cf) s = Ok (lb0, lambda) /\
  (if c_opt cf && negb (ss_iter s =? 0) then
       calc_degrees fo K cf (ss_unconv s) (c_nex cf) ub lowerb (ss_locked s)
         (mk_cd (snd (ss_deg s)) (snd (ss_ritz s)) (snd (ss_res s)) (snd (ss_last s)) (ss_k s))
     else Ok (ss_d s, mk_cd (snd (ss_deg s)) (snd (ss_ritz s)) (snd (ss_res s)) (snd (ss_last s)) (ss_k s))) = Ok (deg, a) /\
  filter_ fo K (ss_unconv s) deg (cd_deg a) lambda lowerb ub (cd_k a) = Ok (av, k1) /\
  k_qr K (ss_locked s) cond k1 = Ok k2 /\
  k_rr K (ss_unconv s) k2 = Ok (vals, k3) /\
  put_range (cd_ritz a) 0 vals = Ok ritz /\
  min_into fo (ss_unconv s) (cd_res a) (cd_last a) = Ok last /\
  k_resd K ritz (ss_locked s) k3 = Ok (rs, k4) /\
  put_range (cd_res a) 0 rs = Ok resid /\
  locking fo K sort_idx (ss_unconv s - c_nex cf) (c_tol cf) (ss_locked s) (mk_lk ritz resid last k4) = Ok (new, l) /\
  k_lock K new (lk_k l) = Ok k5 /\
  new <= length (lk_ritz l) /\ new <= length (lk_res l) /\ new <= length (lk_last l) /\ new <= length (cd_deg a) /\
  s' = mk_ss k5 (fst (ss_ritz s) ++ firstn new (lk_ritz l), skipn new (lk_ritz l))
                (fst (ss_res s) ++ firstn new (lk_res l), skipn new (lk_res l))
                (fst (ss_last s) ++ firstn new (lk_last l), skipn new (lk_last l))
                (fst (ss_deg s) ++ firstn new (cd_deg a), skipn new (cd_deg a))
                (ss_locked s + new) (ss_unconv s - new) (ss_iter s + 1) lowerb lambda deg.
Proof.
  unfold iterate. intros H.
  apply bind_ok in H as ([lb0 lambda] & H1 & H). apply bind_ok in H as ([deg a] & H2 & H).
  apply bind_ok in H as ([av k1] & H3 & H).
  apply bind_ok in H as (r0 & _ & H). apply bind_ok in H as (rk & _ & H).
  apply bind_ok in H as (d0 & _ & H). apply bind_ok in H as (dw & _ & H). apply bind_ok in H as (dm & _ & H).
  apply bind_ok in H as (k2 & H4 & H). apply bind_ok in H as ([vals k3] & H5 & H).
  apply bind_ok in H as (ritz & H6 & H). apply bind_ok in H as (last & H7 & H).
  apply bind_ok in H as ([rs k4] & H8 & H). apply bind_ok in H as (resid & H9 & H).
  apply bind_ok in H as ([new l] & H10 & H). apply bind_ok in H as (k5 & H11 & H).
  apply bind_ok in H as (pr & P1 & H). apply bind_ok in H as (ps & P2 & H).
  apply bind_ok in H as (pl & P3 & H). apply bind_ok in H as (pd & P4 & H).
  apply advance_inv in P1 as (Q1 & E1 & E1'), P2 as (Q2 & E2 & E2'), P3 as (Q3 & E3 & E3'), P4 as (Q4 & E4 & E4').
  cbn [fst snd] in *.
  do 18 eexists. cbv zeta.
  repeat (split; [eassumption|]).
  inversion H. destruct pr, ps, pl, pd; cbn [fst snd] in *; subst; reflexivity.
Qed.

Lemma min_into_length n res last last' : min_into fo n res last = Ok last' -> length last' = length last.
Proof.
  unfold min_into. intros H. apply (for_inv_ok (fun _ l => length l = length last)) in H; auto.
  intros k l l' _ Hl Hb. apply bind_ok in Hb as (a & _ & Hb). apply bind_ok in Hb as (b & _ & Hb).
  apply wr_inv in Hb as [_ ->]. now rewrite upd_length.
Qed.

(** lengths of what the degree step hands on *)
Lemma degree_step_len cf s ub lowerb deg a :
  c_nex cf < ss_unconv s -> ss_unconv s <= length (snd (ss_deg s)) ->
  (if c_opt cf && negb (ss_iter s =? 0) then
       calc_degrees fo K cf (ss_unconv s) (c_nex cf) ub lowerb (ss_locked s)
         (mk_cd (snd (ss_deg s)) (snd (ss_ritz s)) (snd (ss_res s)) (snd (ss_last s)) (ss_k s))
     else Ok (ss_d s, mk_cd (snd (ss_deg s)) (snd (ss_ritz s)) (snd (ss_res s)) (snd (ss_last s)) (ss_k s))) = Ok (deg, a) ->
  length (cd_deg a) = length (snd (ss_deg s)) /\
  exists sw, in_range (ss_unconv s) sw /\
    cd_ritz a = swps sw (snd (ss_ritz s)) /\ cd_res a = swps sw (snd (ss_res s)) /\
    cd_last a = swps sw (snd (ss_last s)) /\ kswaps K (ss_locked s) sw (ss_k s) = Ok (cd_k a).
Proof.
  intros Hn HL H. destruct (c_opt cf && negb (ss_iter s =? 0)).
  - apply calc_degrees_spec in H as (sw & w & Hr & Hw & _ & D & A1 & A2 & A3 & A4 & _); auto.
    simpl in *. split; [rewrite D, swps_length; auto|]. exists sw. auto.
  - inversion H; subst; simpl. split; auto. exists []. split; [constructor|]. auto.
Qed.

Lemma iterate_book cf nr ns ub s s' : book cf nr ns s -> c_nex cf < ss_unconv s ->
  iterate fo K sort_idx cf ub s = Ok s' ->
  book cf nr ns s' /\ ss_iter s' = S (ss_iter s) /\ ss_locked s <= ss_locked s' /\
  (exists v, fst (ss_ritz s') = fst (ss_ritz s) ++ v) /\ (exists v, fst (ss_res s') = fst (ss_res s) ++ v) .
Proof.
  intros [B1 B2 [B3 B3'] [B4 B4'] [B5 B5'] [B6 B6']] Hn H. unfold whole in *. rewrite app_length in *.
  apply iterate_inv in H as (lb0 & la & deg & a & av & k1 & cond & k2 & vals & k3 & ritz & last & rs & k4 & resid & new & l & k5 & H).
  cbv zeta in H. destruct H as (H1 & H2 & H3 & H4 & H5 & H6 & H7 & H8 & H9 & H10 & H11 & Q1 & Q2 & Q3 & Q4 & ->).
  apply degree_step_len in H2 as (L1 & sw & Hr & E1 & E2 & E3 & E4); auto; [|lia].
  apply locking_general in H10 as (Hnew & sw' & Hr' & (F1 & F2 & F3 & F4)); auto. simpl in F1, F2, F3.
  apply put_range_length in H6. apply put_range_length in H9. apply min_into_length in H7.
  assert (G1 : length (lk_ritz l) = length (snd (ss_ritz s))) by (rewrite F1, swps_length, H6, E1, swps_length; auto).
  assert (G2 : length (lk_res l) = length (snd (ss_res s))) by (rewrite F2, swps_length, H9, E2, swps_length; auto).
  assert (G3 : length (lk_last l) = length (snd (ss_last s))) by (rewrite F3, swps_length, H7, E3, swps_length; auto).
  split; [|cbn [ss_iter ss_locked ss_ritz ss_res fst snd]; split; [lia|]; split; [lia|]; eauto].
  constructor; cbn [ss_locked ss_unconv ss_ritz ss_res ss_last ss_deg fst snd]; unfold whole; cbn [fst snd];
    rewrite ?app_length, ?firstn_length, ?skipn_length; lia.
Qed.

(** reachable loop states *)
Local Notation reach := (reach fo K sort_idx).

Lemma reach_trans1 cf ub s t u : c_nex cf < ss_unconv s -> ss_iter s < c_maxiter cf ->
  iterate fo K sort_idx cf ub s = Ok t -> reach cf ub t u -> reach cf ub s u.
Proof.
  intros H1 H2 H3 HR. induction HR.
  - eapply reach_step; eauto. constructor.
  - eapply reach_step; eauto.
Qed.

Lemma solve_loop_reach cf ub : forall fuel s s',
  solve_loop fo K fuel sort_idx cf ub s = Ok s' ->
  reach cf ub s s' /\ (ss_unconv s' <= c_nex cf \/ c_maxiter cf <= ss_iter s').
Proof.
  induction fuel; intros s s' H; cbn [solve_loop] in H;
    destruct ((c_nex cf <? ss_unconv s) && (ss_iter s <? c_maxiter cf)) eqn:E; try discriminate.
  - inversion H; subst. split; [constructor|]. apply andb_false_iff in E as [E|E]; apply Nat.ltb_ge in E; auto.
  - apply andb_true_iff in E as [E1 E2]. apply Nat.ltb_lt in E1, E2.
    apply bind_ok in H as (t & Ht & H). apply IHfuel in H as (HR & HE). split; auto.
    eapply reach_trans1; eauto.
  - inversion H; subst. split; [constructor|]. apply andb_false_iff in E as [E|E]; apply Nat.ltb_ge in E; auto.
Qed.

Lemma reach_book cf nr ns ub s t : book cf nr ns s -> ss_iter s <= c_maxiter cf -> reach cf ub s t ->
  book cf nr ns t /\ ss_locked s <= ss_locked t /\ ss_iter s <= ss_iter t <= c_maxiter cf /\
  (exists v, fst (ss_ritz t) = fst (ss_ritz s) ++ v) /\ (exists v, fst (ss_res t) = fst (ss_res s) ++ v).
Proof.
  intros HB HI HR. induction HR.
  - repeat split; auto; try apply HB; try lia; exists []; now rewrite app_nil_r.
  - destruct IHHR as (B & L & I & [v1 V1] & [v2 V2]); auto.
    apply (iterate_book cf nr ns) in H1 as (B' & I' & L' & [w1 W1] & [w2 W2]); auto.
    split; auto. split; [lia|]. split; [lia|]. split.
    + exists (v1 ++ w1). rewrite W1, V1, app_assoc. auto.
    + exists (v2 ++ w2). rewrite W2, V2, app_assoc. auto.
Qed.

(** start-up *)
Lemma lz_fill_length idx nevex base Th la lb (r r' : list F) : lz_fill idx nevex base Th la lb r = Ok r' -> length r' = length r.
Proof.
  unfold lz_fill. intros H. apply bind_ok in H as (r1 & H1 & H). apply bind_ok in H as (r2 & H2 & H).
  apply (for_inv_ok (fun _ l => length l = length r)) in H1; auto.
  - apply (for_inv_ok (fun _ l => length l = length r)) in H2; auto.
    + unfold wrz in H. destruct (_ <? 0)%Z; [discriminate|]. apply wr_inv in H as [_ ->]. now rewrite upd_length.
    + intros k l l' _ Hl Hb. unfold wrz in Hb. destruct (_ <? 0)%Z; [discriminate|]. apply wr_inv in Hb as [_ ->]. now rewrite upd_length.
  - intros k l l' _ Hl Hb. apply bind_ok in Hb as (x & _ & Hb). apply wr_inv in Hb as [_ ->]. now rewrite upd_length.
Qed.

Lemma lz_intersperse_by idx nevex r k r' k' : lz_intersperse K idx nevex r k = Ok (r', k') ->
  exists sw, fs_by K sw (r, k) (r', k').
Proof.
  unfold lz_intersperse. intros H.
  apply (for_inv_ok (fun _ a => exists sw, fs_by K sw (r, k) a)) in H; auto.
  - exists []. split; auto.
  - intros i [r1 k1] a' _ (sw & Hsw) Hb. apply bind_ok in Hb as (k2 & Hk & Hb). apply bind_ok in Hb as (r2 & Hr & Hb).
    inversion Hb; subst. apply swap_inv in Hr as (_ & _ & ->).
    exists (sw ++ [(i, i * (nevex / idx))]). eapply fs_by_trans; eauto. split; auto.
    simpl kswaps. rewrite !Nat.add_0_r. cbn [fst snd]. rewrite Hk. reflexivity.
Qed.

Lemma lanczos_length fsort N nv m nevex mode r k idx ub r' k' :
  lanczos fo K fsort N nv m nevex mode r k = Ok (idx, ub, r', k') -> length r' = length r.
Proof.
  unfold lanczos. destruct (m =? 0); [discriminate|]. destruct (negb mode).
  - intros H. apply bind_ok in H as ([u k1] & _ & H). inversion H; subst; auto.
  - intros H. apply bind_ok in H as ([[[[u Th] Ta] rV] k1] & _ & H). apply bind_ok in H as (la & _ & H).
    apply bind_ok in H as (lb & _ & H). destruct lb as [lb|]; [|discriminate].
    apply bind_ok in H as (ix & _ & H). apply bind_ok in H as (k2 & _ & H). apply bind_ok in H as (r1 & H1 & H).
    apply bind_ok in H as ([r2 k3] & H2 & H). inversion H; subst.
    apply lz_fill_length in H1. apply lz_intersperse_by in H2 as (sw & (E & _)). simpl in E. subst. now rewrite swps_length.
Qed.

Lemma solve_init_book fsort cf k ritzv resid ub s0 :
  solve_init fo K fsort cf k ritzv resid = Ok (ub, s0) ->
  book cf (length ritzv) (length resid) s0 /\ ss_iter s0 = 0 /\ ss_locked s0 = 0 /\
  ss_d s0 = Nat.min (c_deg cf + c_deg cf mod 2) (c_maxdeg cf) /\ snd (ss_deg s0) = repeat (ss_d s0) (c_nev cf + c_nex cf) /\
  c_nev cf + c_nex cf <= length ritzv /\ c_nev cf + c_nex cf <= length resid /\ 1 <= c_nev cf + c_nex cf.
Proof.
  unfold solve_init. intros H. apply bind_ok in H as (k1 & _ & H). apply bind_ok in H as (r1 & H1 & H).
  apply bind_ok in H as (k2 & _ & H). apply bind_ok in H as (k3 & _ & H).
  apply bind_ok in H as ([[[ix u] ritz] k4] & HL & H). apply bind_ok in H as (w & Hw & H).
  apply bind_ok in H as (lo & Hlo & H). apply bind_ok in H as (la & _ & H). inversion H; subst; clear H.
  apply lanczos_length in HL. apply get_range_inv in Hw as [Hw ->].
  pose proof (put_range_length _ _ _ _ H1). apply put_range_inv in H1 as [Hp _]. rewrite repeat_length in Hp.
  simpl in Hw, Hp.
  assert (1 <= c_nev cf + c_nex cf).
  { destruct (c_nev cf + c_nex cf) eqn:E; [|lia]. simpl in Hlo. discriminate. }
  split; [|simpl; repeat split; auto; try lia].
  constructor; unfold whole; simpl; rewrite ?app_length, ?repeat_length; lia.
Qed.

(** *** degree window invariant *)

Lemma nth_skipn {A} (l : list A) n i : nth_error (skipn n l) i = nth_error l (n + i).
Proof. revert l; induction n; intros l; auto. destruct l; simpl; auto. now destruct i. Qed.

Lemma Forall_skipn {A} (Q : A -> Prop) n : forall l, Forall Q l -> Forall Q (skipn n l).
Proof. induction n; intros l H; auto. destruct H; simpl; auto. Qed.

Lemma degree_step_degs (cf : conf F) s ub lowerb deg a : conf_ok cf ->
  c_nex cf < ss_unconv s -> ss_unconv s = length (snd (ss_deg s)) -> degs_ok s ->
  (if c_opt cf && negb (ss_iter s =? 0) then
       calc_degrees fo K cf (ss_unconv s) (c_nex cf) ub lowerb (ss_locked s)
         (mk_cd (snd (ss_deg s)) (snd (ss_ritz s)) (snd (ss_res s)) (snd (ss_last s)) (ss_k s))
     else Ok (ss_d s, mk_cd (snd (ss_deg s)) (snd (ss_ritz s)) (snd (ss_res s)) (snd (ss_last s)) (ss_k s))) = Ok (deg, a) ->
  ascending (cd_deg a) /\ Forall (fun d => 2 <= d /\ Nat.even d = true) (cd_deg a) /\ Forall (fun d => d <= deg) (cd_deg a) /\
  In deg (cd_deg a).
Proof.
  intros (C1 & C2 & C3 & C4 & C5) Hn HL HD H. destruct (c_opt cf && negb (ss_iter s =? 0)) eqn:E.
  - apply andb_true_iff in E as [E _]. specialize (C5 E).
    pose proof (calc_degrees_bounds fo K cf _ _ _ _ _ (mk_cd (snd (ss_deg s)) (snd (ss_ritz s)) (snd (ss_res s)) (snd (ss_last s)) (ss_k s)) _ _ Hn ltac:(simpl; lia) C4 H) as (A1 & A2 & A3).
    pose proof (calc_degrees_spec fo K cf _ _ _ _ _ (mk_cd (snd (ss_deg s)) (snd (ss_ritz s)) (snd (ss_res s)) (snd (ss_last s)) (ss_k s)) _ _ Hn ltac:(simpl; lia) H) as (sw & w & _ & Hw & _ & D & _ & _ & _ & _ & As & _).
    simpl in Hw.
    assert (HLa : length (cd_deg a) = ss_unconv s) by (rewrite D, swps_length; lia).
    rewrite firstn_all2 in * by lia.
    split; auto. split.
    + eapply Forall_impl; [|exact A1]. intros d [Hev Hb]. split; auto.
      destruct d as [|[|d]]; simpl in *; try lia.
    + split; [apply Forall_forall|]; auto.
  - inversion H; subst. destruct HD as (D1 & D2 & D3 & D4). cbn [cd_deg]. repeat split; auto. apply D4.
    intros E'. rewrite E' in HL. simpl in HL. lia.
Qed.

Lemma iterate_degs (cf : conf F) nr ns ub s s' : conf_ok cf -> book cf nr ns s -> c_nex cf < ss_unconv s -> degs_ok s ->
  iterate fo K sort_idx cf ub s = Ok s' -> degs_ok s'.
Proof.
  intros HC HB Hn HD H.
  apply iterate_inv in H as (lb0 & la & deg & a & av & k1 & cond & k2 & vals & k3 & ritz & last & rs & k4 & resid & new & l & k5 & H).
  cbv zeta in H. destruct H as (H1 & H2 & H3 & H4 & H5 & H6 & H7 & H8 & H9 & H10 & H11 & Q1 & Q2 & Q3 & Q4 & ->).
  apply degree_step_degs in H2 as (A1 & A2 & A3 & A4); auto; [|now destruct (bk_d _ _ _ _ HB)].
  repeat split; cbn [ss_deg ss_d snd]; auto using ascending_skipn, Forall_skipn.
  intros Hne. destruct (skipn new (cd_deg a)) as [|x t] eqn:Es; [easy|].
  (* the maximum is the last element, which survives *)
  destruct (in_dec Nat.eq_dec deg (x :: t)) as [|Hno]; auto. exfalso.
  apply In_nth_error in A4 as (i & Hi).
  assert (Hn' : nth_error (cd_deg a) new = Some x).
  { rewrite <- (Nat.add_0_r new), <- nth_skipn, Es. reflexivity. }
  destruct (Nat.lt_ge_cases i new) as [Hlt|Hge].
  - assert (deg <= x) by (apply (A1 i new deg x); auto; lia).
    assert (x <= deg) by (rewrite Forall_forall in A3; apply A3; eapply nth_error_In; eauto).
    apply Hno. left. lia.
  - apply Hno. rewrite <- Es. apply (nth_error_In _ (i - new)). rewrite <- Hi.
    rewrite nth_skipn. f_equal. lia.
Qed.

Lemma ascending_repeat d n : ascending (repeat d n).
Proof.
  intros i j a b _ Ha Hb. apply nth_error_In in Ha, Hb. apply repeat_spec in Ha, Hb. lia.
Qed.

Lemma even_min_round d m : Nat.even m = true -> Nat.even (Nat.min (d + d mod 2) m) = true.
Proof.
  intros H. destruct (Nat.min_spec (d + d mod 2) m) as [[_ ->]|[_ ->]]; auto. apply round_even_even.
Qed.

Lemma init_degs (cf : conf F) s0 : conf_ok cf -> ss_d s0 = Nat.min (c_deg cf + c_deg cf mod 2) (c_maxdeg cf) ->
  snd (ss_deg s0) = repeat (ss_d s0) (c_nev cf + c_nex cf) -> degs_ok s0.
Proof.
  intros (C1 & C2 & C3 & C4 & _) HD HR. unfold degs_ok. rewrite HR. split; [apply ascending_repeat|].
  assert (H2 : 2 <= ss_d s0 /\ Nat.even (ss_d s0) = true).
  { rewrite HD. split; [|now apply even_min_round].
    pose proof (round_even_even (c_deg cf)) as E. unfold round_even in E.
    destruct (c_deg cf + c_deg cf mod 2) as [|[|x]] eqn:E'; simpl in E; try lia; discriminate. }
  split; [|split]; [apply Forall_forall; intros x Hx; apply repeat_spec in Hx; subst; auto ..|].
  intros Hne. destruct (c_nev cf + c_nex cf); [easy|]. now left.
Qed.

(** *** safety *)
Context (nevex : nat) (I0 : St -> Prop) (I : nat -> St -> Prop) (KS : kernel_safe K nevex I0 I).

Lemma min_element_ok (l : list F) : l <> [] -> exists x, min_element fo l = Ok x.
Proof. destruct l; [easy|]. simpl. eauto. Qed.
Lemma max_element_ok (l : list F) : l <> [] -> exists x, max_element fo l = Ok x.
Proof. destruct l; [easy|]. simpl. eauto. Qed.
Lemma max_element_nat_ok (l : list nat) : l <> [] -> exists x, max_element_nat l = Ok x.
Proof. destruct l; [easy|]. simpl. eauto. Qed.

Lemma update_bounds_safe n (s : @sstate F St) : 0 < ss_unconv s -> n <= length (whole (ss_ritz s)) -> 0 < n ->
  ss_unconv s <= length (snd (ss_res s)) -> ss_unconv s <= length (snd (ss_ritz s)) ->
  exists x, update_bounds fo n s = Ok x.
Proof.
  intros H0 H1 H2 H3 H4. unfold update_bounds. destruct (ss_unconv s <? n); eauto.
  rewrite get_range_ok by (simpl; auto). cbn [bind].
  destruct (min_element_ok (firstn n (skipn 0 (whole (ss_ritz s))))) as [la ->].
  { simpl. destruct (whole (ss_ritz s)); simpl in *; [lia|]. destruct n; [lia|easy]. }
  cbn [bind]. rewrite get_range_ok by (simpl; auto). cbn [bind].
  destruct (forallb _ _); eauto.
  destruct (rd_in (snd (ss_ritz s)) (ss_unconv s - 1)) as [x ->]; [lia|]. cbn [bind]. eauto.
Qed.

Lemma min_into_safe n res last : n <= length res -> n <= length last -> exists l, min_into fo n res last = Ok l.
Proof.
  intros H1 H2. unfold min_into.
  destruct (for_inv (fun _ l => length l = length last)
    (fun i l => let! a := rd l i in let! b := rd res i in wr l i (fmin fo a b)) n 0 last) as (l & -> & _); auto; eauto.
  intros k l Hk Hl. destruct (rd_in l k) as [a ->]; [lia|]. destruct (rd_in res k) as [b ->]; [lia|]. cbn [bind].
  rewrite wr_ok by lia. eexists. split; eauto. now rewrite upd_length.
Qed.

(** the degree formula of some wanted pair has no size_t value (NaN, infinite or out of range) *)
Local Notation undef_degree := (undef_degree fo).

Lemma bounded_dec (P : nat -> Prop) (D : forall i, {P i} + {~ P i}) : forall n, (exists i, i < n /\ P i) \/ (forall i, i < n -> ~ P i).
Proof.
  induction n; [right; intros; lia|]. destruct IHn as [(i & H & Hp)|H]; [left; exists i; split; auto|].
  destruct (D n); [left; exists n; auto|]. right. intros i Hi. destruct (Nat.eq_dec i n) as [->|]; auto. apply H; lia.
Qed.

Lemma iterate_safe cf nr ns ub s : conf_ok cf -> nevex = c_nev cf + c_nex cf -> nevex <= nr -> nevex <= ns ->
  ~ undef_degree cf ub s ->
  book cf nr ns s -> degs_ok s -> c_nex cf < ss_unconv s -> I (ss_locked s) (ss_k s) ->
  exists s', iterate fo K sort_idx cf ub s = Ok s' /\ I (ss_locked s') (ss_k s').
Proof.
  intros HC Hnv Hr Hs HD [B1 B2 [B3 B3'] [B4 B4'] [B5 B5'] [B6 B6']] HG Hn HI.
  unfold whole in *. rewrite app_length in *.
  unfold iterate.
  destruct (update_bounds_safe (c_nev cf + c_nex cf) s) as ([lb0 la] & HUB); unfold whole; rewrite ?app_length; try lia.
  rewrite HUB. cbn [bind]. set (lowerb := if f_lt fo ub lb0 then ub else lb0).
  match goal with |- context [bind ?X _] => set (step := X) end.
  assert (HX : exists deg a, step = Ok (deg, a) /\ I (ss_locked s) (cd_k a)).
  { unfold step. destruct (c_opt cf && negb (ss_iter s =? 0)) eqn:E.
    - apply andb_true_iff in E as [E Ei].
      eapply (calc_degrees_safe fo K nevex I0 I KS); eauto; try lia.
      { unfold cd_len; simpl; lia. }
      cbn [cd_ritz cd_res]. intros i r x Hi Hri Hxi HN. apply HD. split; auto. split.
      { apply negb_true_iff, Nat.eqb_neq in Ei. lia. }
      exists lb0, la, i, r, x. auto.
    - do 2 eexists. split; eauto. }
  destruct HX as (deg & a & HX & HIa). rewrite HX. cbn [bind].
  pose proof (degree_step_len cf s ub lowerb deg a Hn ltac:(lia) HX) as (L1 & sw & _ & E1 & E2 & E3 & _).
  pose proof (degree_step_degs cf s ub lowerb deg a HC Hn ltac:(lia) HG HX) as (A1 & A2 & A3 & _).
  assert (Lr : length (cd_ritz a) = length (snd (ss_ritz s))) by (rewrite E1, swps_length; auto).
  assert (Ls : length (cd_res a) = length (snd (ss_res s))) by (rewrite E2, swps_length; auto).
  assert (Ll : length (cd_last a) = length (snd (ss_last s))) by (rewrite E3, swps_length; auto).
  assert (Hdeg : exists d t, cd_deg a = d :: t /\ 2 <= d).
  { destruct (cd_deg a) as [|d t] eqn:E; [simpl in *; lia|]. exists d, t. split; auto. inversion A2; intuition. }
  destruct Hdeg as (d & t & Ed & Hd2).
  assert (HU : length (cd_deg a) = ss_unconv s) by lia.
  assert (HF : filter_ fo K (length (cd_deg a)) deg (cd_deg a) la lowerb ub (cd_k a) =
               filter_spec fo K deg (cd_deg a) la lowerb ub (cd_k a)).
  { apply filter_refines; auto.
    - eapply Forall_impl; [|exact A2]. simpl. intros; lia.
    - exists d. rewrite Ed. split; auto. left; auto.
    - rewrite Ed in A3. inversion A3; subst. lia. }
  rewrite HU in HF. rewrite HF.
  destruct (filter_spec_safe fo K nevex I0 I KS deg (cd_deg a) la lowerb ub (ss_locked s) (cd_k a)) as (av & k1 & -> & I1); auto; [lia|].
  cbn [bind].
  destruct (rd_in (fst (ss_ritz s) ++ cd_ritz a) 0) as [r0 ->]; [rewrite app_length; lia|]. cbn [bind].
  destruct (rd_in (cd_ritz a) 0) as [rk ->]; [lia|]. cbn [bind].
  destruct (rd_in (cd_deg a) 0) as [d0 ->]; [lia|]. cbn [bind].
  rewrite get_range_ok by lia. cbn [bind].
  destruct (max_element_nat_ok (firstn (c_nev cf + c_nex cf - ss_locked s) (skipn 0 (cd_deg a)))) as [dm ->].
  { rewrite Ed. simpl. destruct (c_nev cf + c_nex cf - ss_locked s) eqn:E; [lia|easy]. }
  cbn [bind].
  match goal with |- context [k_qr K (ss_locked s) ?c k1] => destruct (ks_qr _ _ _ _ KS (ss_locked s) c k1 I1) as (k2 & -> & I2) end.
  cbn [bind].
  destruct (ks_rr _ _ _ _ KS (ss_locked s) k2 I2) as (vals & k3 & H5 & Lv & I3); [lia|].
  replace (nevex - ss_locked s) with (ss_unconv s) in * by lia. rewrite H5. cbn [bind].
  rewrite put_range_ok by lia. cbn [bind].
  destruct (min_into_safe (ss_unconv s) (cd_res a) (cd_last a)) as [last Hlast]; try lia. rewrite Hlast. cbn [bind].
  set (ritz := firstn 0 (cd_ritz a) ++ vals ++ skipn (0 + length vals) (cd_ritz a)).
  assert (Lritz : length ritz = length (cd_ritz a)).
  { unfold ritz. rewrite !app_length, firstn_length, skipn_length. lia. }
  destruct (ks_resd _ _ _ _ KS (ss_locked s) ritz k3 I3) as (rs & k4 & -> & Lrs & I4); try lia. cbn [bind].
  rewrite put_range_ok by lia. cbn [bind].
  set (resid := firstn 0 (cd_res a) ++ rs ++ skipn (0 + length rs) (cd_res a)).
  assert (Lres : length resid = length (cd_res a)).
  { unfold resid. rewrite !app_length, firstn_length, skipn_length. lia. }
  pose proof (min_into_length _ _ _ _ Hlast) as Llast.
  destruct (locking_safe fo K nevex I0 I KS sort_idx (ss_unconv s - c_nex cf) (c_tol cf) (ss_locked s)
     (mk_lk ritz resid last k4)) as (new & l & HLk & I5); simpl; auto; try lia.
  rewrite HLk. cbn [bind].
  apply locking_general in HLk as (Hnew & sw' & _ & (F1 & F2 & F3 & _)); auto. simpl in F1, F2, F3.
  destruct (ks_lock _ _ _ _ KS (ss_locked s) new (lk_k l) I5) as (k5 & -> & I6); [lia|]. cbn [bind].
  rewrite !advance_ok by (cbn [fst snd]; rewrite ?F1, ?F2, ?F3, ?swps_length; lia).
  cbn [bind]. eexists. split; [reflexivity|]. cbn. exact I6.
Qed.

Lemma undef_degree_dec cf ub (s : @sstate F St) : undef_degree cf ub s \/ ~ undef_degree cf ub s.
Proof.
  unfold undef_degree. destruct (c_opt cf); [|right; intros (E & _); discriminate].
  destruct (le_dec 1 (ss_iter s)); [|right; intros (_ & E & _); lia].
  destruct (update_bounds fo (c_nev cf + c_nex cf) s) as [[lb la]| |].
  2,3: right; intros (_ & _ & lb & la & i & r & x & E & _); discriminate.
  destruct (bounded_dec (fun i => match nth_error (snd (ss_ritz s)) i, nth_error (snd (ss_res s)) i with
     | Some r, Some x => raw_degree fo ub (if f_lt fo ub lb then ub else lb) (c_tol cf) r x = None | _, _ => False end)) with (n := ss_unconv s - c_nex cf)
     as [(i & Hi & H)|H].
  - intros i. destruct (nth_error (snd (ss_ritz s)) i); [|auto]. destruct (nth_error (snd (ss_res s)) i); [|auto].
    destruct (raw_degree _ _ _ _ _ _); [right; discriminate|left; auto].
  - left. split; auto. split; auto. destruct (nth_error (snd (ss_ritz s)) i) eqn:E1; [|easy].
    destruct (nth_error (snd (ss_res s)) i) eqn:E2; [|easy]. exists lb, la, i, f, f0. auto.
  - right. intros (_ & _ & lb' & la' & i & r & x & E & Hi & E1 & E2 & E3). injection E as <- <-.
    apply (H i Hi). rewrite E1, E2. auto.
Qed.

Lemma solve_loop_safe cf nr ns ub : conf_ok cf -> nevex = c_nev cf + c_nex cf -> nevex <= nr -> nevex <= ns ->
  forall fuel s, c_maxiter cf - ss_iter s <= fuel -> book cf nr ns s -> degs_ok s -> I (ss_locked s) (ss_k s) ->
  (exists s', solve_loop fo K fuel sort_idx cf ub s = Ok s' /\ I (ss_locked s') (ss_k s')) \/
  (exists t, reach cf ub s t /\ c_nex cf < ss_unconv t /\ ss_iter t < c_maxiter cf /\ undef_degree cf ub t).
Proof.
  intros HC Hnv Hr Hs. induction fuel; intros s Hf HB HG HI; cbn [solve_loop].
  - replace (ss_iter s <? c_maxiter cf) with false by (symmetry; apply Nat.ltb_ge; lia).
    rewrite andb_false_r. eauto.
  - destruct ((c_nex cf <? ss_unconv s) && (ss_iter s <? c_maxiter cf)) eqn:E; [|eauto].
    apply andb_true_iff in E as [E1 E2]. apply Nat.ltb_lt in E1, E2.
    destruct (undef_degree_dec cf ub s) as [HU|HU].
    { right. exists s. split; [constructor|]. auto. }
    destruct (iterate_safe cf nr ns ub s) as (t & Ht & HIt); auto. rewrite Ht. cbn [bind].
    pose proof (iterate_book cf nr ns ub s t HB E1 Ht) as (HB' & Hi & _).
    pose proof (iterate_degs cf nr ns ub s t HC HB E1 HG Ht) as HG'.
    destruct (IHfuel t) as [?|(u & Hu & ?)]; auto; [lia|].
    right. exists u. split; auto. eapply reach_trans1; eauto.
Qed.

Lemma final_sort_safe l nev r k : 1 <= nev -> nev <= length r -> nev <= nevex -> I l k ->
  exists r' k', final_sort fo K nev r k = Ok (r', k') /\ I l k'.
Proof.
  intros Hn Hl Hx HI. unfold final_sort. replace (nev =? 0) with false by (symmetry; apply Nat.eqb_neq; lia).
  destruct (for_inv (fun _ a => length (fst a) = length r /\ I l (snd a))
    (fun i rk => for_ (nev - 1 - i) (i + 1) (fun j rk => final_exchange fo K i j rk) rk) (nev - 1) 0 (r, k)) as ([r' k'] & E & _ & HI'); auto.
  - intros i a Hi Ha.
    destruct (for_inv (fun _ a => length (fst a) = length r /\ I l (snd a))
      (fun j rk => final_exchange fo K i j rk) (nev - 1 - i) (i + 1) a) as (b & E & Hb); auto.
    + intros j [b kb] Hj [Hb HIb]. cbn [fst snd] in *. unfold final_exchange.
      destruct (rd_in b i) as [x ->]; [lia|]. destruct (rd_in b j) as [y ->]; [lia|]. cbn [bind].
      destruct (f_lt fo y x).
      * rewrite swap_ok by lia. cbn [bind]. destruct (ks_swap _ _ _ _ KS l i j kb HIb) as (k' & -> & I'); try lia.
        cbn [bind]. eexists. split; [reflexivity|]. cbn. rewrite swp_length. auto.
      * eexists. split; [reflexivity|]. auto.
    + eauto.
  - rewrite E. eauto.
Qed.

Lemma whole_length_book cf nr ns (s : @sstate F St) : book cf nr ns s -> length (whole (ss_ritz s)) = nr.
Proof. intros B. now destruct (bk_r _ _ _ _ B). Qed.

(** after a defined start-up everything is defined *)
Lemma solve_safe_after_init fsort cf k k0 ritzv resid ub s0 :
  conf_ok cf -> nevex = c_nev cf + c_nex cf ->
  (if c_symcheck cf then k_sym K k else Ok (true, k)) = Ok (true, k0) ->
  solve_init fo K fsort cf k0 ritzv resid = Ok (ub, s0) -> I 0 (ss_k s0) ->
  (exists o, solve fo K fsort sort_idx cf k ritzv resid = Ok o) \/
  (exists t, reach cf ub s0 t /\ c_nex cf < ss_unconv t /\ ss_iter t < c_maxiter cf /\ undef_degree cf ub t).
Proof.
  intros HC Hnv Hsym Hinit HI. unfold solve. rewrite Hsym. cbn [bind negb]. rewrite Hinit. cbn [bind].
  pose proof (solve_init_book fsort cf k0 ritzv resid ub s0 Hinit) as (HB & Hi & Hl & Hd & HdR & G1 & G2 & G3).
  destruct (solve_loop_safe cf (length ritzv) (length resid) ub HC Hnv ltac:(lia) ltac:(lia) (c_maxiter cf) s0) as [(s & Hs & HIs)|HX]; auto.
  - lia.
  - eapply init_degs; eauto.
  - now rewrite Hl.
  - left. rewrite Hs. cbn [bind]. pose proof (solve_loop_reach _ _ _ _ _ Hs) as [HR _].
    pose proof (reach_book cf _ _ ub s0 s HB ltac:(lia) HR) as (HB' & _).
    destruct (final_sort_safe (ss_locked s) (c_nev cf) (whole (ss_ritz s)) (ss_k s)) as (r' & k' & -> & HI'); auto.
    + apply HC.
    + rewrite (whole_length_book _ _ _ _ HB'). lia.
    + lia.
    + cbn [bind]. destruct (ks_end _ _ _ _ KS _ _ HI') as (k'' & -> & _). cbn [bind]. eauto.
Qed.

Lemma put_resid_ok resid n : n <= length resid -> exists r, put_range resid 0 (repeat (f_max fo) n) = Ok r.
Proof. intros. eexists. apply put_range_ok. rewrite repeat_length. auto. Qed.

(** in approximate mode the start-up is always defined *)
Lemma solve_init_safe_approx fsort cf k ritzv resid : c_approx cf = true ->
  nevex = c_nev cf + c_nex cf -> nevex <= length ritzv -> nevex <= length resid ->
  2 <= c_N cf -> 1 <= c_lanczositer cf -> 1 <= nevex -> I0 k ->
  exists ub s0, solve_init fo K fsort cf k ritzv resid = Ok (ub, s0) /\ I 0 (ss_k s0).
Proof.
  intros HA Hnv Hr Hs HN HLz H1 HI. unfold solve_init.
  destruct (ks_start _ _ _ _ KS k HI) as (k1 & -> & I1). cbn [bind].
  destruct (put_resid_ok resid (c_nev cf + c_nex cf)) as [rs ->]; [lia|]. cbn [bind].
  rewrite HA. cbn [negb].
  destruct (ks_init _ _ _ _ KS false k1 I1) as (k2 & -> & I2). cbn [bind].
  unfold lanczos.
  set (m := Nat.min (c_nev cf + c_nex cf) (Nat.min (c_N cf / 2) (c_lanczositer cf))).
  assert (Hm : 0 < m <= nevex).
  { unfold m. pose proof (Nat.div_le_lower_bound (c_N cf) 2 1). lia. }
  replace (m =? 0) with false by (symmetry; apply Nat.eqb_neq; lia). cbn [negb].
  destruct (ks_lanczos1 _ _ _ _ KS m k2 I2 Hm) as (u & k3 & -> & I3). cbn [bind].
  rewrite get_range_ok by lia. cbn [bind].
  assert (Hne : firstn (c_nev cf + c_nex cf) (skipn 0 ritzv) <> []).
  { simpl. destruct ritzv; simpl in *; [lia|]. destruct (c_nev cf + c_nex cf); [lia|easy]. }
  destruct (max_element_ok _ Hne) as [x ->]. destruct (min_element_ok _ Hne) as [y ->]. cbn [bind].
  do 2 eexists. split; [reflexivity|]. simpl. auto.
Qed.
End S2.
