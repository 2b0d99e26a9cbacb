(** The calls of the single-GPU backend in program order are those of GpuModel. *)
From Coq Require Import List Arith ZArith Bool Lia.
Require Import Verif.Base Verif.AlgModel Verif.AlgSim Verif.AlgSimLe Verif.DlaModel Verif.DlaSimLe Verif.ColModel Verif.ColProofs1 Verif.GpuModel
  Verif.AsyncModel Verif.AsyncSpec Verif.AsyncProofs.
Import ListNotations.

Lemma get_put_ {A} (l l' xs : list A) off k : put_range l off xs = Ok l' -> length xs = k -> get_range l' off k = Ok xs.
Proof.
  intros H <-. apply put_range_inv in H. destruct H as [L ->]. unfold get_range.
  assert (L1 : length (firstn off l) = off) by (rewrite firstn_length; lia).
  replace (off + length xs <=? _) with true; [|symmetry; apply Nat.leb_le; rewrite !app_length, skipn_length; lia].
  f_equal. rewrite skipn_app, L1, Nat.sub_diag, skipn_all2 by lia. cbn [app skipn]. rewrite firstn_app, Nat.sub_diag, firstn_O, app_nil_r.
  apply firstn_all.
Qed.
Lemma skip_skip {A} a b (l : list A) : skipn a (skipn b l) = skipn (b + a) l.
Proof. revert l. induction b; intros l; [reflexivity|]. destruct l; cbn [skipn Nat.add]; [now destruct a|auto]. Qed.
Lemma put_twice {A} (l l1 xs ys : list A) off : put_range l off xs = Ok l1 -> length xs = length ys -> put_range l1 off ys = put_range l off ys.
Proof.
  intros H E. apply put_range_inv in H. destruct H as [L ->].
  assert (L1 : length (firstn off l) = off) by (rewrite firstn_length; lia).
  rewrite !put_range_ok; [|lia|rewrite !app_length, skipn_length; lia]. f_equal. f_equal.
  - rewrite firstn_app, L1, Nat.sub_diag, firstn_O, app_nil_r. now rewrite firstn_firstn, Nat.min_id.
  - f_equal. rewrite !skipn_app, !L1. rewrite (skipn_all2 (firstn off l)) by lia. cbn [app].
    rewrite skipn_all2 by lia. cbn [app]. rewrite skip_skip. f_equal. lia.
Qed.
Lemma zip_map_self {A B C} (f : B -> A -> C) (g : A -> B) l : zip f (map g l) l = map (fun x => f (g x) x) l.
Proof. unfold zip. induction l; cbn; [reflexivity|now rewrite IHl]. Qed.
Lemma zip_length {A B C} (f : A -> B -> C) l m : length (zip f l m) = Nat.min (length l) (length m).
Proof. unfold zip. now rewrite map_length, combine_length. Qed.

Section G.
Context {F V M G T : Type} (fo : fops F) (bl : blas F V M G T) (n : nat) (trace : G -> F) (gshift : G -> F -> G).
Context (HSH : forall A, b_dshift bl A = gshift A (trace A)).
Local Notation dev := (dev (F := F) (V := V) (M := M) (G := G)).

(** program [p] computes what [r] says *)
Definition does {X} (p : prog dev (X * hobj)) (d : dev) (r : res (X * gst)) : Prop :=
  forall x g', r = Ok (x, g') -> exists h' d', in_order p d = Ok ((x, h'), d') /\ makes_up h' d' g'.
Definition does_ (p : prog dev hobj) (d : dev) (r : res gst) : Prop :=
  forall g', r = Ok g' -> exists h' d', in_order p d = Ok (h', d') /\ makes_up h' d' g'.

Ltac inv := repeat match goal with
  | H : Ok _ = Ok _ |- _ => injection H as ?; subst
  | H : UB = Ok _ |- _ => discriminate
  | H : Fuel = Ok _ |- _ => discriminate
  | H : bind ?x _ = Ok _ |- _ => let E := fresh "E" in destruct x eqn:E; cbn [bind fst snd] in H; try discriminate
  | H : (let '(_, _) := ?x in _) = Ok _ |- _ => destruct x
  end.
Ltac rew := repeat (match goal with E : _ = Ok _ |- _ => rewrite E; cbn [bind] end).
Ltac go := repeat (progress (rew; cbn [v_X v_Y v_A v_ritz v_H v_res v_info v_sum v_tmp v_L set_X set_Y set_A set_ritz set_res set_info set_sum set_tmp set_H the_G the_L bind])).

Lemma does_initrnd h d g : makes_up h d g -> does_ (a_initrnd bl n h) d (g_initrnd bl n g).
Proof.
  intros [-> HL] g'. unfold g_initrnd, on_dev, i_initrnd, a_initrnd. cbn [g_dev is_V1 is_V2 is_H is_sw g_H g_V1 g_ritz].
  destruct h as [hH hV sw]; cbn [h_H h_V1 h_sw]. intros H. inv. cbn [in_order]. unfold blk1, set1.
  destruct sw; go; do 2 eexists; (split; [reflexivity|]); (split; [reflexivity|exact HL]).
Qed.
Lemma does_init h d g : makes_up h d g -> does_ (a_init n h) d (g_init n g).
Proof.
  intros [-> HL] g'. unfold g_init, i_init, a_init. cbn [g_dev is_V1 is_V2 is_H is_sw g_H g_V1 g_ritz].
  destruct h as [hH hV sw]; cbn [h_H h_V1 h_sw]. intros H. inv. cbn [in_order]. unfold blk1, blk2, set2.
  destruct sw; go; do 2 eexists; (split; [reflexivity|]); (split; [reflexivity|exact HL]).
Qed.
Lemma does_shift c u h d g : makes_up h d g -> does_ (a_shift bl c u h) d (g_shift bl c u g).
Proof.
  intros [-> HL] g' H. unfold g_shift, on_dev, i_shift in H. cbn in H. inv. do 2 eexists. split; [reflexivity|].
  destruct h as [hH hV sw]; destruct sw; (split; [reflexivity|exact HL]).
Qed.
Lemma does_apply a b off blk l h d g : makes_up h d g -> does_ (a_apply bl a b off blk l h) d (g_apply bl a b off blk l g).
Proof.
  intros [-> HL] g'. unfold g_apply, on_dev, i_apply, a_apply. cbn [g_dev is_V1 is_V2 is_H is_sw g_H g_V1 g_ritz].
  destruct h as [hH hV sw]; cbn [h_H h_V1 h_sw]. intros H. inv. cbn [in_order]. unfold blk1, blk2, set2.
  destruct sw; go; do 2 eexists; (split; [reflexivity|]); (split; [reflexivity|exact HL]).
Qed.
Lemma does_rr blk l h d g : makes_up h d g -> does (a_rr bl blk l h) d (g_rr bl blk l g).
Proof.
  intros [-> HL] x g'. unfold g_rr, i_rr, a_rr. cbn [g_dev is_V1 is_V2 is_H is_sw g_H g_V1 g_ritz].
  destruct h as [hH hV sw]; cbn [h_H h_V1 h_sw]. intros H. inv. cbn [in_order].
  assert (Lc : length l0 = blk) by (eapply get_range_len; eauto).
  assert (Lp : l + blk <= length (if sw then v_X d else v_Y d)).
  { apply put_range_inv in E1. destruct E1 as [Q _]. rewrite map_length, seq_length in Q. exact Q. }
  destruct (put_ok (if sw then v_X d else v_Y d) l (map (b_mulH bl (v_H d)) l0)) as (w & Ew & _); [rewrite map_length; lia|].
  pose proof (get_put_ _ _ _ _ blk Ew ltac:(now rewrite map_length)) as Gw.
  assert (Gr : get_range l2 0 blk = Ok (map (b_eval bl (b_gram bl (map (b_mulH bl (v_H d)) l0) l0)) (seq 0 blk))).
  { eapply get_put_; eauto. now rewrite map_length, seq_length. }
  pose proof (put_twice _ _ _ (map (b_comb bl l0 (b_gram bl (map (b_mulH bl (v_H d)) l0) l0)) (seq 0 blk)) _ Ew
    ltac:(now rewrite !map_length, seq_length)) as Pt. rewrite E1 in Pt.
  assert (Lr : length l2 = length (v_ritz d)) by (eapply put_range_length; eauto).
  unfold k_mulH, blk1, blk2, set2.
  destruct sw; go; do 2 eexists; (split; [reflexivity|]); (split; [reflexivity|cbn; congruence]).
Qed.
Lemma does_resd v l u h d g : makes_up h d g -> does (a_resd fo bl v l u h) d (g_resd fo bl v l u g).
Proof.
  intros [-> HL] x g'. unfold g_resd, on_dev_v, dv_resd, a_resd. cbn [g_dev is_V1 is_V2 is_H is_sw g_H g_V1 g_ritz].
  destruct h as [hH hV sw]; cbn [h_H h_V1 h_sw]. intros H. inv. cbn [in_order].
  match goal with E : get_range (if sw then v_Y d else v_X d) l u = Ok ?c, E2 : put_range _ l ?w0 = Ok ?w |- _ => rename c into c0, E into Ec, w into w1, E2 into Ew end.
  match goal with E : get_range (v_ritz d) 0 u = Ok ?r |- _ => rename r into r0, E into Er end.
  assert (Lc : length c0 = u) by (eapply get_range_len; eauto). assert (Lr : length r0 = u) by (eapply get_range_len; eauto).
  pose proof (get_put_ _ _ _ _ u Ew ltac:(now rewrite map_length)) as Gw.
  match goal with |- context [map (b_nrm2 bl) ?z] => set (nr := map (b_nrm2 bl) z) in * end.
  assert (Ln : length nr = u) by (subst nr; rewrite map_length, zip_length, combine_length, map_length; lia).
  assert (Hr : 0 + length nr <= length (v_res d)) by (rewrite HL, Ln; apply get_range_inv in Er; lia).
  destruct (put_ok (v_res d) 0 nr Hr) as (w & Eq & Lw). pose proof (get_put_ _ _ _ _ u Eq Ln) as Gn. subst nr.
  unfold k_mulH, blk1, blk2, set2.
  destruct sw; go; do 2 eexists; (split; [reflexivity|]); (split; [reflexivity|cbn; congruence]).
Qed.

(** QR *)
Definition obj (h : hobj (V := V) (M := M)) (d : dev) : ist (V := V) (M := M) :=
  mk_ist (v_H d) (blk1 (h_sw h) d) (blk2 (h_sw h) d) (h_sw h).
Lemma k_save_i l h d s : i_save l (obj h d) = Ok s -> exists d', k_save (h_sw h) l d = Ok d' /\ obj h d' = s /\ v_ritz d' = v_ritz d /\ v_res d' = v_res d.
Proof.
  unfold i_save, k_save, obj. cbn [is_V1 is_V2 is_H is_sw]. intros H. inv. go. eexists. split; [reflexivity|].
  unfold set2, blk1, blk2. destruct (h_sw h); repeat split; reflexivity.
Qed.
Lemma k_set_i (g : dev -> res (list V -> nat -> V)) f h d s : g d = Ok f -> i_set n (obj h d) f = Ok s ->
  exists d', k_set n (h_sw h) g d = Ok d' /\ obj h d' = s /\ v_ritz d' = v_ritz d /\ v_res d' = v_res d /\ v_A d' = v_A d.
Proof.
  unfold i_set, k_set, obj. cbn [is_V1 is_V2 is_H is_sw]. intros Hg H. inv. go. eexists. split; [reflexivity|].
  unfold set1, blk1, blk2. destruct (h_sw h); repeat split; reflexivity.
Qed.
Lemma k_factor_i h d z R : i_factor bl n false (obj h d) = Ok (z, R) ->
  exists d1 d2, k_syherk bl n (h_sw h) d = Ok d1 /\ k_potrf bl d1 = Ok d2 /\ obj h d2 = obj h d /\ v_ritz d2 = v_ritz d /\ v_res d2 = v_res d /\ v_A d2 = AG R /\ v_info d2 = z.
Proof.
  unfold i_factor, k_syherk, obj. cbn [is_V1 is_V2 is_H is_sw]. intros H. inv. go. do 2 eexists. split; [reflexivity|].
  unfold k_potrf. cbn [v_A set_A the_G bind]. match goal with E : b_potrf bl _ = _ |- _ => rewrite E end. split; [reflexivity|].
  unfold blk1, blk2. destruct (h_sw h); repeat split; reflexivity.
Qed.
Lemma makes_up_obj h d g : makes_up h d g <-> g = mk_gst (h_H h) (h_V1 h) (obj h d) (v_ritz d) /\ length (v_res d) = length (v_ritz d).
Proof. reflexivity. Qed.

Lemma does_hhqr l h d g : makes_up h d g -> does_ (a_hhqr bl n l h) d (g_hhqr bl n l g).
Proof.
  rewrite makes_up_obj. intros [-> HL] g'. unfold g_hhqr, on_dev, i_hhqr, a_hhqr. cbn [g_dev g_H g_V1 g_ritz]. intros H. inv. cbn [in_order].
  match goal with E : i_save _ _ = Ok _ |- _ => destruct (k_save_i _ _ _ _ E) as (d1 & E1 & <- & R1 & R2) end.
  match goal with E : i_set _ _ _ = Ok _ |- _ => destruct (k_set_i (fun _ => Ok (b_hh bl)) _ _ _ _ eq_refl E) as (d2 & E2 & <- & R3 & R4 & _) end.
  rewrite E1. cbn [bind]. rewrite E2. cbn [bind]. do 2 eexists. split; [reflexivity|]. rewrite makes_up_obj. split; congruence.
Qed.

Ltac done_ := do 2 eexists; (split; [reflexivity|]); rewrite makes_up_obj; split; congruence.

Lemma k_trsm_i R h d s : v_A d = AG R -> i_set n (obj h d) (b_trsm bl R) = Ok s ->
  exists d', k_trsm bl n (h_sw h) d = Ok d' /\ obj h d' = s /\ v_ritz d' = v_ritz d /\ v_res d' = v_res d.
Proof.
  intros EA H. destruct (k_set_i (fun d => let! R := the_G (v_A d) in Ok (b_trsm bl R)) (b_trsm bl R) _ _ _ ltac:(cbv beta; rewrite EA; reflexivity) H) as (d1 & E1 & E2 & E3 & E4 & _).
  exists d1. auto.
Qed.
Lemma does_chol1 l h d g : makes_up h d g -> does (a_chol1 bl n l h) d (g_chol1 bl n l g).
Proof.
  rewrite makes_up_obj. intros [-> HL] x g'. unfold g_chol1, on_dev_v, i_chol1, a_chol1. cbn [g_dev g_H g_V1 g_ritz]. cbv zeta. intros H.
  destruct (i_save l (obj h d)) as [s0| |] eqn:E0; cbn [bind] in H; try discriminate.
  destruct (k_save_i _ _ _ _ E0) as (d1 & E1 & <- & R1 & R2). cbn [in_order]. rewrite E1. cbn [bind].
  destruct (i_factor bl n false (obj h d1)) as [[z R]| |] eqn:E2; cbn [bind] in H; try discriminate.
  destruct (k_factor_i _ _ _ _ E2) as (d2 & d3 & E3 & E4 & E5 & R3 & R4 & EA & EI). rewrite E3. cbn [bind]. rewrite E4. cbn [bind]. rewrite EI.
  destruct (negb (z =? 0)%Z).
  - inv. cbn [in_order]. done_.
  - rewrite <- E5 in H. destruct (i_set n (obj h d3) (b_trsm bl R)) as [s1| |] eqn:E6; cbn [bind] in H; try discriminate.
    destruct (k_trsm_i _ _ _ _ EA E6) as (d4 & E7 & <- & R5 & R6). cbn [in_order]. rewrite E7. cbn [bind]. inv. done_.
Qed.
Lemma does_chol2 l h d g : makes_up h d g -> does (a_chol2 bl n l h) d (g_chol2 bl n l g).
Proof.
  rewrite makes_up_obj. intros [-> HL] x g'. unfold g_chol2, on_dev_v, dv_chol2, a_chol2. cbn [g_dev g_H g_V1 g_ritz]. cbv zeta. intros H.
  destruct (i_save l (obj h d)) as [s0| |] eqn:E0; cbn [bind] in H; try discriminate.
  destruct (k_save_i _ _ _ _ E0) as (d1 & E1 & <- & R1 & R2). cbn [in_order]. rewrite E1. cbn [bind].
  destruct (i_factor bl n false (obj h d1)) as [[z R]| |] eqn:E2; cbn [bind] in H; try discriminate.
  destruct (k_factor_i _ _ _ _ E2) as (d2 & d3 & E3 & E4 & E5 & R3 & R4 & EA & EI). rewrite E3. cbn [bind]. rewrite E4. cbn [bind]. rewrite EI.
  destruct (negb (z =? 0)%Z).
  - inv. cbn [in_order]. done_.
  - rewrite <- E5 in H. destruct (i_set n (obj h d3) (b_trsm bl R)) as [s1| |] eqn:E6; cbn [bind] in H; try discriminate.
    destruct (k_trsm_i _ _ _ _ EA E6) as (d4 & E7 & <- & R5 & R6). cbn [in_order]. rewrite E7. cbn [bind].
    destruct (i_factor bl n false (obj h d4)) as [[z2 Rb]| |] eqn:E8; cbn [bind] in H; try discriminate.
    destruct (k_factor_i _ _ _ _ E8) as (d5 & d6 & E9 & E10 & E11 & R7 & R8 & EA2 & _). rewrite E9. cbn [bind]. rewrite E10. cbn [bind].
    rewrite <- E11 in H. destruct (i_set n (obj h d6) (b_trsm bl Rb)) as [s2| |] eqn:E12; cbn [bind] in H; try discriminate.
    destruct (k_trsm_i _ _ _ _ EA2 E12) as (d7 & E13 & <- & R9 & R10). rewrite E13. cbn [bind]. inv. done_.
Qed.
Lemma k_factor_s h d z R : i_factor bl n true (obj h d) = Ok (z, R) ->
  exists d1 A d2, k_syherk bl n (h_sw h) d = Ok d1 /\ v_A d1 = AG A /\
    k_potrf bl (set_A (set_sum d1 (trace A)) (AG (gshift A (trace A)))) = Ok d2 /\
    obj h d2 = obj h d /\ v_ritz d2 = v_ritz d /\ v_res d2 = v_res d /\ v_A d2 = AG R /\ v_info d2 = z.
Proof.
  unfold i_factor, k_syherk, obj. cbn [is_V1 is_V2 is_H is_sw]. intros H. inv. go. do 3 eexists. split; [reflexivity|]. split; [reflexivity|].
  unfold k_potrf. cbn [v_A set_A the_G bind]. match goal with E : b_potrf bl _ = _ |- _ => rewrite <- HSH, E end. split; [reflexivity|].
  unfold blk1, blk2. destruct (h_sw h); repeat split; reflexivity.
Qed.
Lemma does_schol2 l h d g : makes_up h d g -> does (a_schol2 bl n trace gshift l h) d (g_schol2 bl n l g).
Proof.
  rewrite makes_up_obj. intros [-> HL] x g'. unfold g_schol2, on_dev_v, dv_schol2, a_schol2. cbn [g_dev g_H g_V1 g_ritz]. cbv zeta. intros H.
  destruct (i_save l (obj h d)) as [s0| |] eqn:E0; cbn [bind] in H; try discriminate.
  destruct (k_save_i _ _ _ _ E0) as (d1 & E1 & <- & R1 & R2). cbn [in_order]. rewrite E1. cbn [bind].
  destruct (i_factor bl n true (obj h d1)) as [[z R]| |] eqn:E2; cbn [bind] in H; try discriminate.
  destruct (k_factor_s _ _ _ _ E2) as (d2 & A & d3 & E3 & EAA & E4 & E5 & R3 & R4 & EA & EI). rewrite E3. cbn [bind]. rewrite EAA. cbn [the_G bind v_sum set_sum v_A].
  rewrite EAA. cbn [the_G bind]. change (set_A _ (AG (gshift A (trace A)))) with (set_A (set_sum d2 (trace A)) (AG (gshift A (trace A)))). rewrite E4. cbn [bind]. rewrite EI.
  destruct (negb (z =? 0)%Z).
  - inv. cbn [in_order]. done_.
  - rewrite <- E5 in H. destruct (i_set n (obj h d3) (b_trsm bl R)) as [s1| |] eqn:E6; cbn [bind] in H; try discriminate.
    destruct (k_trsm_i _ _ _ _ EA E6) as (d4 & E7 & <- & R5 & R6). cbn [in_order]. rewrite E7. cbn [bind].
    destruct (i_factor bl n false (obj h d4)) as [[z2 Rb]| |] eqn:E8; cbn [bind] in H; try discriminate.
    destruct (k_factor_i _ _ _ _ E8) as (d5 & d6 & E9 & E10 & E11 & R7 & R8 & EA2 & EI2). rewrite E9. cbn [bind]. rewrite E10. cbn [bind]. rewrite EI2.
    destruct (negb (z2 =? 0)%Z); [inv; cbn [in_order]; done_|].
    rewrite <- E11 in H. destruct (i_set n (obj h d6) (b_trsm bl Rb)) as [s2| |] eqn:E12; cbn [bind] in H; try discriminate.
    destruct (k_trsm_i _ _ _ _ EA2 E12) as (d7 & E13 & <- & R9 & R10). cbn [in_order]. rewrite E13. cbn [bind].
    destruct (i_factor bl n false (obj h d7)) as [[z3 Rc]| |] eqn:E14; cbn [bind] in H; try discriminate.
    destruct (k_factor_i _ _ _ _ E14) as (d8 & d9 & E15 & E16 & E17 & R11 & R12 & EA3 & _). rewrite E15. cbn [bind]. rewrite E16. cbn [bind].
    rewrite <- E17 in H. destruct (i_set n (obj h d9) (b_trsm bl Rc)) as [s3| |] eqn:E18; cbn [bind] in H; try discriminate.
    destruct (k_trsm_i _ _ _ _ EA3 E18) as (d10 & E19 & <- & R13 & R14). rewrite E19. cbn [bind]. inv. done_.
Qed.
Lemma does_lockcopy l b h d g : makes_up h d g -> does_ (a_lockcopy l b h) d (g_lockcopy l b g).
Proof.
  intros [-> HL] g'. unfold g_lockcopy, on_dev, i_lockcopy, a_lockcopy. cbn [g_dev is_V1 is_V2 is_H is_sw g_H g_V1 g_ritz].
  destruct h as [hH hV sw]; cbn [h_H h_V1 h_sw]. intros H. inv. cbn [in_order]. unfold blk1, blk2, set1.
  destruct sw; go; do 2 eexists; (split; [reflexivity|]); (split; [reflexivity|exact HL]).
Qed.
Lemma rd_set (l : list V) i v : i < length l -> rd (upd l i v) i = Ok v.
Proof. intros H. unfold rd. now rewrite upd_same. Qed.
Lemma does_swap i j h d g : makes_up h d g -> does_ (a_swap i j h) d (g_swap i j g).
Proof.
  intros [-> HL] g'. unfold g_swap, on_dev, i_swap, swap_, a_swap. cbn [g_dev is_V1 is_V2 is_H is_sw g_H g_V1 g_ritz].
  destruct h as [hH hV sw]; cbn [h_H h_V1 h_sw]. intros H. inv. cbn [in_order]. unfold blk1, set1. cbv zeta.
  destruct sw; go; cbn [rd nth_error bind]; go; do 2 eexists; (split; [reflexivity|]); (split; [reflexivity|exact HL]).
Qed.
Lemma does_dos i m rv h d g : makes_up h d g -> does_ (a_dos bl i m rv h) d (g_dos bl i m rv g).
Proof.
  intros [-> HL] g'. unfold g_dos, on_dev, i_dos, a_dos. cbn [g_dev is_V1 is_V2 is_H is_sw g_H g_V1 g_ritz].
  destruct h as [hH hV sw]; cbn [h_H h_V1 h_sw]. intros H. inv. cbv zeta. cbn [host in_order]. unfold blk1, blk2, set1, set2.
  destruct sw; go; do 2 eexists; (split; [reflexivity|]); (split; [reflexivity|exact HL]).
Qed.
Lemma does_end h d g : makes_up h d g -> does_ (a_end n h) d (g_end n g).
Proof.
  intros [-> HL] g'. unfold g_end, a_end. cbn [g_dev is_V1 is_V2 is_H is_sw g_H g_V1 g_ritz].
  destruct h as [hH hV sw]; cbn [h_H h_V1 h_sw]. intros H. inv. cbn [in_order]. unfold blk1.
  destruct sw; go; cbn [host in_order]; rew; cbn [host in_order]; do 2 eexists; (split; [reflexivity|]); (split; [reflexivity|exact HL]).
Qed.

(** mLanczos: everything but the basis block and the three work arrays stays *)
Definition frame (sw : bool) (d d' : dev) : Prop :=
  v_H d' = v_H d /\ blk2 sw d' = blk2 sw d /\ v_ritz d' = v_ritz d /\ v_res d' = v_res d.
Definition holds (sw : bool) (i0 i1 : nat) (d : dev) (s : ml (F := F) (V := V)) : Prop :=
  blk1 sw d = ml_C s /\ v_L d i0 = ml_v0 s /\ v_L d i1 = ml_v1 s.
Lemma frame_trans sw a b c : frame sw a b -> frame sw b c -> frame sw a c.
Proof. intros (A1 & A2 & A3 & A4) (B1 & B2 & B3 & B4). repeat split; congruence. Qed.
Lemma set_L_same (d : dev) i x : v_L (set_L d i x) i = x.
Proof. cbn. now rewrite Nat.eqb_refl. Qed.
Lemma set_L_other (d : dev) i j x : j <> i -> v_L (set_L d i x) j = v_L d j.
Proof. intros H. cbn. apply Nat.eqb_neq in H. now rewrite H. Qed.
Lemma blk1_L sw (d : dev) i x : blk1 sw (set_L d i x) = blk1 sw d.
Proof. now destruct sw. Qed.
Lemma blk2_L sw (d : dev) i x : blk2 sw (set_L d i x) = blk2 sw d.
Proof. now destruct sw. Qed.
Lemma frame_L sw (d : dev) i x : frame sw d (set_L d i x).
Proof. repeat split. Qed.
Lemma L_set1 sw (d : dev) x i : v_L (set1 sw d x) i = v_L d i.
Proof. now destruct sw. Qed.
Lemma frame_set1 sw (d : dev) x : frame sw d (set1 sw d x).
Proof. now destruct sw. Qed.
Lemma blk1_set1 sw (d : dev) x : blk1 sw (set1 sw d x) = x.
Proof. now destruct sw. Qed.

Lemma body_run sw second Mn nv k i0 i1 i2 d s s1 v2 : i0 <> i2 -> i1 <> i2 -> holds sw i0 i1 d s ->
  g_body fo bl (v_H d) second Mn nv k s = Ok (s1, v2) ->
  exists d', frame sw d d' /\ holds sw i0 i1 d' s1 /\ v_L d' i2 = v2 /\ ml_e s1 = ml_e s /\
    forall A (K : list F -> list F -> prog dev A),
      in_order (a_body fo bl sw second Mn nv k i0 i1 i2 (ml_d s) (ml_b s) K) d = in_order (K (ml_d s1) (ml_b s1)) d'.
Proof.
  intros N0 N1 (HC & H0 & H1) H. unfold g_body in H.
  set (v := map (b_mulN bl (v_H d)) (ml_v1 s)) in *.
  set (al := map (b_tneg bl) (zip (b_dot bl) (ml_v1 s) v)) in *.
  assert (exists d1, frame sw d d1 /\ v_L d1 = v_L d /\ (let! C := (if second then Ok (ml_C s)
             else for_ nv 0 (fun i C => let! x := rd (ml_v1 s) i in wr C k x) (ml_C s)) in Ok C) = Ok (blk1 sw d1) /\
          forall A (r : prog dev A), in_order (if second then r
             else Dev Legacy (fun d => let! v := for_ nv 0 (fun i C => let! x := rd (v_L d i1) i in wr C k x) (blk1 sw d) in Ok (set1 sw d v)) r) d = in_order r d1) as (d1 & F1 & L1 & C1 & R1).
  { destruct second.
    - exists d. split; [repeat split|]. split; [reflexivity|]. split; [cbn; now rewrite HC|reflexivity].
    - destruct (for_ nv 0 _ (ml_C s)) as [C| |] eqn:E; cbn [bind] in H; try discriminate.
      exists (set1 sw d C). split; [apply frame_set1|]. split; [now destruct sw|]. split; [cbn; now rewrite blk1_set1|].
      intros A r. cbn [in_order]. rewrite HC, H1, E. reflexivity. }
  destruct F1 as (FH & FX & FR & FE).
  destruct (if second then _ else _) as [C| |] eqn:EC; cbn [bind] in H, C1; try discriminate. injection C1 as C1.
  destruct (for_ nv 0 _ (ml_d s)) as [ds| |] eqn:ED; cbn [bind] in H; try discriminate. injection H as <- <-.
  set (va := axpy_batch bl al (ml_v1 s) v) in *.
  set (d2 := set_L (set_L d1 i2 v) i2 va).
  set (vb := if k =? 0 then va else axpy_batch bl (map (fun b => b_inj bl (f_neg fo b)) (ml_b s)) (ml_v0 s) va).
  exists (if k =? 0 then d2 else set_L d2 i2 vb).
  assert (FF : frame sw d (if k =? 0 then d2 else set_L d2 i2 vb)).
  { apply frame_trans with d1; [repeat split; assumption|]. assert (frame sw d1 d2) by (eapply frame_trans; apply frame_L).
    destruct (k =? 0); [assumption|]. eapply frame_trans; [eassumption|apply frame_L]. }
  split; [exact FF|]. split.
  { unfold holds. cbn [ml_C ml_v0 ml_v1]. unfold d2. destruct (k =? 0); rewrite ?blk1_L, !set_L_other, ?L1 by assumption; repeat split; auto. }
  split; [unfold vb, d2; destruct (k =? 0); now rewrite set_L_same|].
  split; [reflexivity|].
  intros A K. unfold a_body. cbv zeta. rewrite R1. cbn [in_order bind]. rewrite FH, L1, H1. fold v.
  rewrite set_L_same, (set_L_other _ _ i1), L1, H1 by assumption. fold al.
  rewrite ED. cbn [host]. cbn [ml_d ml_b]. unfold axpy_batch1. fold (axpy_batch bl al (ml_v1 s) v). fold va. fold d2.
  subst vb. destruct (k =? 0).
  - cbn [in_order bind]. unfold d2 at 1. rewrite set_L_same. reflexivity.
  - cbn [in_order bind]. rewrite set_L_same. 
    assert (D2 : v_L d2 i2 = va) by (unfold d2; apply set_L_same).
    assert (D0 : v_L d2 i0 = ml_v0 s) by (unfold d2; rewrite !set_L_other, L1 by assumption; exact H0).
    rewrite D2, D0. reflexivity.
Qed.
Lemma loop_run t : forall k sw second Mn nv i0 i1 i2 d s s', i0 <> i1 -> i0 <> i2 -> i1 <> i2 -> holds sw i0 i1 d s ->
  g_loop fo bl t k (v_H d) second Mn nv s = Ok s' ->
  exists i d', frame sw d d' /\ blk1 sw d' = ml_C s' /\ v_L d' i = ml_v1 s' /\
    forall A (K : nat -> list F -> list F -> list F -> prog dev A),
      in_order (a_loop fo bl t k sw second Mn nv i0 i1 i2 (ml_d s) (ml_e s) (ml_b s) K) d = in_order (K i (ml_d s') (ml_e s') (ml_b s')) d'.
Proof.
  induction t as [|t IH]; intros k sw second Mn nv i0 i1 i2 d s s' N01 N02 N12 HS H.
  - injection H as <-. exists i1, d. destruct HS as (? & ? & ?). split; [repeat split|]. auto.
  - cbn [g_loop] in H. destruct (g_body _ _ _ _ _ _ _ _) as [[s1 v2]| |] eqn:EB; cbn [bind] in H; try discriminate.
    destruct (body_run _ _ _ _ _ _ _ _ _ _ _ _ N02 N12 HS EB) as (d1 & F1 & S1 & L2 & Ee & R1). destruct t.
    + injection H as <-. exists i1, d1. destruct S1 as (? & ? & ?). split; [assumption|]. split; [assumption|]. split; [assumption|].
      intros A K. cbn [a_loop]. rewrite R1, Ee. reflexivity.
    + destruct (ml_next _ _ _ _ _ _ _) as [s2| |] eqn:EN; cbn [bind] in H; try discriminate. unfold ml_next in EN.
      destruct (for_ nv 0 _ (ml_e s1)) as [es| |] eqn:EE; cbn [bind] in EN; try discriminate. injection EN as <-.
      set (v2s := zip _ (ml_b s1) v2) in *.
      destruct (IH (k + 1) sw second Mn nv i1 i2 i0 (set_L d1 i2 v2s) (mk_ml (ml_C s1) (ml_v1 s1) v2s (ml_d s1) es (ml_b s1)) s') as (i & d2 & F2 & B2 & L3 & R2); auto.
      * destruct S1 as (? & ? & ?). unfold holds. cbn [ml_C ml_v0 ml_v1]. rewrite blk1_L, set_L_same, set_L_other by assumption. auto.
      * destruct F1 as (FH & _). cbn [v_H set_L]. now rewrite FH.
      * exists i, d2. split; [eapply frame_trans; [exact F1|eapply frame_trans; [apply frame_L|exact F2]]|]. split; [assumption|]. split; [assumption|].
        intros A K. change (a_loop fo bl (S (S t)) k sw second Mn nv i0 i1 i2 (ml_d s) (ml_e s) (ml_b s) K) with
          (a_body fo bl sw second Mn nv k i0 i1 i2 (ml_d s) (ml_b s) (fun ds' bs' =>
             Dev S_ (fun d => Ok (set_L d i2 (zip (fun b x => b_scal bl (b_inj bl (f_div fo (f_one fo) b)) x) bs' (v_L d i2))))
                    (host (for_ nv 0 (fun i e => let! b := rd bs' i in wr e (k + Mn * i) b) (ml_e s)) (fun es' =>
                     a_loop fo bl (S t) (k + 1) sw second Mn nv i1 i2 i0 ds' es' bs' K)))).
        rewrite R1. cbn [in_order bind]. rewrite L2. fold v2s. rewrite <- Ee, EE. cbn [host]. apply R2.
Qed.
Lemma does_mlanczos Mn nv h d g : makes_up h d g -> does (a_mlanczos fo bl Mn nv h) d (g_mlanczos fo bl Mn nv g).
Proof.
  rewrite makes_up_obj. intros [-> HL] [[ds es] bs] g'. unfold g_mlanczos, dv_mlanczos, g_lanczos, a_mlanczos.
  cbn [g_dev is_V1 is_V2 is_H is_sw g_H g_V1 g_ritz obj]. intros H.
  destruct (match nv with None => _ | Some _ => _ end) as [second m] eqn:E0.
  cbv zeta in H. cbv zeta.
  destruct (get_range _ 0 m) as [st| |] eqn:E1; cbn [bind] in H; try discriminate.
  destruct (g_loop _ _ _ _ _ _ _ _ _) as [s| |] eqn:E2; cbn [bind] in H; try discriminate.
  destruct (if second then _ else _) as [C| |] eqn:E3; cbn [bind] in H; try discriminate. injection H as <- <- <- <-.
  cbn [in_order bind]. rewrite !blk1_L, E1. cbn [bind]. rewrite set_L_same, zip_map_self.
  set (z := repeat (b_zero bl) m) in *. set (v1 := map _ st) in *.
  set (d1 := set_L _ 1 v1).
  destruct (loop_run Mn 0 (h_sw h) second Mn m 0 1 2 d1 (mk_ml (blk1 (h_sw h) d) z v1 (repeat (f_zero fo) (Mn * m)) (repeat (f_zero fo) (Mn * m)) (repeat (f_zero fo) m)) s)
    as (i & d2 & F2 & B2 & L3 & R2); try discriminate.
  - unfold holds, d1. cbn [ml_C ml_v0 ml_v1]. rewrite !blk1_L. repeat split.
  - exact E2.
  - cbn [ml_d ml_e ml_b] in R2. rewrite R2.
    assert (FF : frame (h_sw h) d d2) by (eapply frame_trans; [|exact F2]; unfold d1; repeat (eapply frame_trans; [|apply frame_L]); repeat split).
    destruct FF as (FH & FX & FR & FE).
    destruct second.
    + injection E3 as <-. cbn [in_order]. do 2 eexists. split; [reflexivity|]. rewrite makes_up_obj. unfold obj. split; [congruence|congruence].
    + rewrite <- B2, <- L3 in E3. cbn [in_order]. rewrite E3. cbn [bind in_order]. do 2 eexists. split; [reflexivity|].
      rewrite makes_up_obj. unfold obj. destruct (frame_set1 (h_sw h) d2 C) as (GH & GX & GR & GE). rewrite blk1_set1. split; congruence.
Qed.
End G.
