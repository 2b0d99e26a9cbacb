From Coq Require Import List NArith ZArith Bool Lia.
Require Import Verif.Base Verif.AlgModel Verif.AlgSpec Verif.AlgProofs6 Verif.ConfigModel Verif.ConfigSpec.
Import ListNotations.
Local Open Scope N_scope.

(** ** configuration histories *)
Lemma W_even : W = 2 * 2 ^ 63. Proof. reflexivity. Qed.
Lemma bump_even_up x : x < 2 ^ 64 -> bump_even x = even_up x.
Proof.
  intros H. unfold bump_even, even_up, W. rewrite <- N.bit0_mod, N.bit0_odd.
  rewrite <- N.negb_odd. destruct (N.odd x) eqn:E; cbn [negb N.b2n].
  - destruct (N.eqb_spec x (2 ^ 64 - 1)) as [->|Hn]; [reflexivity|]. apply N.mod_small. lia.
  - rewrite N.add_0_r. now apply N.mod_small.
Qed.
Lemma even_up_even x : N.even (even_up x) = true.
Proof.
  unfold even_up. destruct (N.even x) eqn:E; auto. destruct (x =? 2 ^ 64 - 1); [reflexivity|].
  rewrite N.add_1_r, N.even_succ, <- N.negb_even, E. reflexivity.
Qed.
Lemma even_up_lt x : x < 2 ^ 64 -> even_up x < 2 ^ 64.
Proof. intros H. unfold even_up. destruct (N.even x); auto. destruct (N.eqb_spec x (2 ^ 64 - 1)); lia. Qed.
Lemma even_up_id x : N.even x = true -> even_up x = x.
Proof. unfold even_up. now intros ->. Qed.

Lemma last_written_snoc {T X} (f : setter T -> option X) d ops o :
  last_written f d (ops ++ [o]) = match f o with Some x => x | None => last_written f d ops end.
Proof.
  unfold last_written. rewrite flat_map_app. cbn [flat_map]. rewrite app_nil_r. destruct (f o); [apply last_last|now rewrite app_nil_r].
Qed.
Section C.
Context {T : Type} (tol5 tol10 : T).
Lemma configure_snoc ops (o : setter T) c : configure (ops ++ [o]) c = set o (configure ops c).
Proof. unfold configure. now rewrite fold_left_app. Qed.

Lemma configure_getters (c : config T) ops : N.even (g_deg c) = true -> N.even (g_maxdeg c) = true -> Forall setter_ok ops ->
  let d := configure ops c in
  g_N d = g_N c /\ g_nev d = g_nev c /\ g_nex d = g_nex c /\
  g_deg d = even_up (last_written (fun o => match o with SetDeg n => Some n | _ => None end) (g_deg c) ops) /\
  g_maxdeg d = even_up (last_written (fun o => match o with SetMaxDeg n => Some n | _ => None end) (g_maxdeg c) ops) /\
  g_tol d = last_written (fun o => match o with SetTol x => Some x | _ => None end) (g_tol c) ops /\
  g_degextra d = last_written (fun o => match o with SetDegExtra n => Some n | _ => None end) (g_degextra c) ops /\
  g_maxiter d = last_written (fun o => match o with SetMaxIter n => Some n | _ => None end) (g_maxiter c) ops /\
  g_lanczos d = last_written (fun o => match o with SetLanczosIter n => Some n | _ => None end) (g_lanczos c) ops /\
  g_numlanczos d = last_written (fun o => match o with SetNumLanczos n => Some n | _ => None end) (g_numlanczos c) ops /\
  g_opt d = last_written (fun o => match o with SetOpt b => Some b | _ => None end) (g_opt c) ops /\
  g_approx d = last_written (fun o => match o with SetApprox b => Some b | _ => None end) (g_approx c) ops /\
  g_cholqr d = last_written (fun o => match o with SetCholQR b => Some b | _ => None end) (g_cholqr c) ops /\
  g_sym d = last_written (fun o => match o with EnableSymCheck b => Some b | _ => None end) (g_sym c) ops.
Proof.
  intros E1 E2. induction ops as [|o ops IH] using rev_ind; intros H.
  - cbn. unfold last_written. cbn. rewrite !even_up_id by auto. repeat split.
  - apply Forall_app in H as [H1 H2]. inversion H2 as [|? ? Ho _]; subst. specialize (IH H1). cbv zeta in *.
    rewrite configure_snoc. destruct (configure ops c) as [n nev nex opt approx maxiter extra numl maxdeg deg lan tol chol sym].
    cbn in IH. rewrite !last_written_snoc. destruct o; cbn [set g_N g_nev g_nex g_deg g_maxdeg g_tol g_degextra g_maxiter g_lanczos g_numlanczos g_opt g_approx g_cholqr g_sym];
      cbn in Ho; rewrite ?bump_even_up by auto; intuition.
Qed.
Lemma new_config_even t n nev nex : N.even (g_deg (new_config tol5 tol10 t n nev nex)) = true /\ N.even (g_maxdeg (new_config tol5 tol10 t n nev nex)) = true.
Proof. destruct t; split; reflexivity. Qed.
Lemma configured_even t n nev nex ops : Forall setter_ok ops ->
  N.even (g_deg (configure ops (new_config tol5 tol10 t n nev nex))) = true /\ N.even (g_maxdeg (configure ops (new_config tol5 tol10 t n nev nex))) = true.
Proof.
  intros H. destruct (new_config_even t n nev nex) as [E1 E2].
  destruct (configure_getters _ ops E1 E2 H) as (_ & _ & _ & -> & -> & _). split; apply even_up_even.
Qed.
Lemma default_table t n nev nex : let c := new_config tol5 tol10 t n nev nex in
  (g_N c, g_nev c, g_nex c) = (n, nev, nex) /\
  (g_deg c, g_maxdeg c, g_lanczos c) = match t with SDouble | SCDouble => (20, 36, 25) | SFloat => (10, 18, 12) | SCFloat => (10, 12, 12) end /\
  g_tol c = match t with SDouble | SCDouble => tol10 | _ => tol5 end /\
  (g_maxiter c, g_degextra c, g_numlanczos c) = (25, 2, 4) /\ (g_opt c, g_approx c, g_cholqr c, g_sym c) = (true, false, true, true).
Proof. destruct t; repeat split. Qed.
Lemma even_nat x : N.even x = true -> Nat.even (N.to_nat x) = true.
Proof. intros H. apply N.even_spec in H as [y ->]. apply Nat.even_spec. exists (N.to_nat y). lia. Qed.
Lemma configured_conf_ok t n nev nex ops : Forall setter_ok ops ->
  let c := configure ops (new_config tol5 tol10 t n nev nex) in
  conf_ok (to_conf c) <-> 1 <= nev /\ g_deg c <> 0 /\ g_maxdeg c <> 0 /\ (g_opt c = true -> g_degextra c <> 0).
Proof.
  intros H. cbv zeta. destruct (configured_even t n nev nex ops H) as [E1 E2].
  destruct (new_config_even t n nev nex) as [F1 F2].
  destruct (configure_getters _ ops F1 F2 H) as (_ & NV & _).
  assert (g_nev (new_config tol5 tol10 t n nev nex) = nev) as NV' by now destruct t. rewrite NV' in NV.
  unfold conf_ok. cbn [to_conf c_nev c_deg c_maxdeg c_degextra c_opt]. rewrite NV. pose proof (even_nat _ E2) as E2'.
  set (c := configure ops _) in *. assert (g_maxdeg c <> 1) by (intros X; rewrite X in E2; discriminate).
  split.
  - intros (A & B & C & D & E). repeat split; try lia. intros X. specialize (E X). lia.
  - intros (A & B & C & D). repeat split; try lia; auto. intros X. specialize (D X). lia.
Qed.
Lemma default_conf_ok t n nev nex : 1 <= nev -> conf_ok (to_conf (new_config tol5 tol10 t n nev nex)).
Proof.
  intros H. pose proof (configured_conf_ok t n nev nex [] (Forall_nil _)) as X. cbn [configure fold_left] in X. apply X.
  destruct t; cbn; repeat split; auto; discriminate.
Qed.

(** ** the C interface *)
Notation op := (op T). Notation capi := (capi T).
Lemma scalar_eqb_eq a b : scalar_eqb a b = true <-> a = b.
Proof. destruct a, b; cbn; split; congruence. Qed.
Lemma handle_eqb_eq a b : handle_eqb a b = true <-> a = b.
Proof.
  destruct a as [[] x], b as [[] y]; unfold handle_eqb; cbn [fst snd]; try rewrite scalar_eqb_eq; split; try congruence.
Qed.
Lemma handle_eqb_refl a : handle_eqb a a = true. Proof. now apply handle_eqb_eq. Qed.
Lemma handle_eq_dec (a b : handle) : {a = b} + {a <> b}.
Proof. destruct (handle_eqb a b) eqn:E; [left; now apply handle_eqb_eq|right; intros X; apply handle_eqb_eq in X; congruence]. Qed.
Lemma handle_neqb a b : a <> b -> handle_eqb a b = false.
Proof. intros H. destruct (handle_eqb a b) eqn:E; auto. now apply handle_eqb_eq in E. Qed.

Lemma events_snoc h pre (o : op) : events h (pre ++ [o]) = events h pre ++ (if is_cycle o && on h o then [o] else []).
Proof. unfold events. rewrite filter_app. cbn. now destruct (is_cycle o && on h o). Qed.
Lemma last_event_snoc h pre (o : op) : last_event h (pre ++ [o]) = if is_cycle o && on h o then Some o else last_event h pre.
Proof. unfold last_event. rewrite events_snoc. destruct (is_cycle o && on h o); [rewrite map_app; apply last_last|now rewrite app_nil_r]. Qed.

Definition set5 deg tol opt approx chol (c : config T) : config T :=
  set (SetCholQR chol) (set (SetApprox approx) (set (SetOpt opt) (set (SetDeg deg) (set (SetTol tol) c)))).
Lemma set5_set5 a b c d e a' b' c' d' e' x : set5 a b c d e (set5 a' b' c' d' e' x) = set5 a b c d e x.
Proof. now destruct x. Qed.

Definition base (h : handle) (n nev nex : Z) : config T := new_config tol5 tol10 (snd h) (to_size n) (to_size nev) (to_size nex).
Record inv (pre : list op) (s : capi) : Prop := {
  i_props : forall t, st_props s t = st_ptr s (Dist, t);
  i_none : forall h, st_ptr s h = None -> never_init h pre;
  i_some : forall h id, st_ptr s h = Some id -> exists x, nth_error (st_heap s) id = Some x /\
     (ob_live x = true -> exists n nev nex, last_event h pre = Some (Init h n nev nex) /\
          forall a b c d e, set5 a b c d e (ob_cfg x) = set5 a b c d e (base h n nev nex)) /\
     (ob_live x = false -> last_event h pre = Some (Finalize h) /\ ~ never_init h pre);
  i_disj : forall h h' id, st_ptr s h = Some id -> st_ptr s h' = Some id -> h = h' }.

Lemma nth_upd (l : list (obj T)) i x j : (i < length l)%nat -> nth_error (upd_obj l i x) j = if Nat.eqb j i then Some x else nth_error l j.
Proof.
  intros H. unfold upd_obj. destruct (Nat.eqb_spec j i) as [->|Hn].
  - rewrite nth_error_app2; rewrite firstn_length_le by lia; [|lia]. now rewrite Nat.sub_diag.
  - destruct (Nat.lt_ge_cases j i) as [L|L].
    + rewrite nth_error_app1 by (rewrite firstn_length_le; lia). rewrite <- (firstn_skipn i l) at 2. rewrite nth_error_app1; auto. rewrite firstn_length_le; lia.
    + rewrite nth_error_app2 by (rewrite firstn_length_le; lia). rewrite firstn_length_le by lia.
      replace (j - i)%nat with (S (j - S i)) by lia. cbn [nth_error]. rewrite <- (firstn_skipn (S i) l) at 2. rewrite nth_error_app2 by (rewrite firstn_length_le; lia).
      rewrite firstn_length_le by lia. reflexivity.
Qed.

Lemma alive_not_fin h (pre : list op) : last_event h pre = Some (Finalize h) -> ~ alive h pre.
Proof. intros E (n & nev & nex & X). congruence. Qed.

(** one step: defined exactly for legal calls, and then preserves the invariant *)
Lemma step_spec pre (s : capi) (o : op) : inv pre s ->
  (legal pre o -> exists r s', step_op tol5 tol10 o s = Ok (r, s') /\ inv (pre ++ [o]) s' /\
     match o with
     | Solve h deg tol opt approx chol => exists n nev nex, last_event h pre = Some (Init h n nev nex) /\
         r = Some (set5 (to_size deg) tol opt approx chol (base h n nev nex))
     | _ => r = None end) /\
  (~ legal pre o -> step_op tol5 tol10 o s = UB).
Proof.
  intros [IP IN IS ID]. destruct o as [h n nev nex|h deg tol opt approx chol|t|h]; cbn [legal step_op].
  - split; [|tauto]. intros _. eexists _, _. split; [reflexivity|]. split; auto. split; cbn [st_props st_ptr st_heap].
    + intros t. destruct h as [[] u]; cbn [fst snd]; [rewrite IP; cbn; auto|]. unfold handle_eqb; cbn [fst snd]. destruct (scalar_eqb t u); auto.
    + intros h' Hh. destruct (handle_eqb h' h) eqn:E; [discriminate|]. intros a b c Hi. apply in_app_or in Hi as [Hi|[Hi|[]]].
      * eapply (IN h'); eauto.
      * injection Hi as -> _ _ _. rewrite handle_eqb_refl in E. discriminate.
    + intros h' id Hh. rewrite last_event_snoc. cbn [is_cycle op_handle andb]. unfold on; cbn [op_handle].
      destruct (handle_eqb h' h) eqn:E.
      * apply handle_eqb_eq in E. subst h'. injection Hh as <-. rewrite handle_eqb_refl. rewrite nth_error_app2 by lia. rewrite Nat.sub_diag.
        eexists. split; [reflexivity|]. cbn [ob_live ob_cfg]. split; [|discriminate]. intros _. exists n, nev, nex. auto.
      * assert (handle_eqb h h' = false) as -> by (apply handle_neqb; intros ->; rewrite handle_eqb_refl in E; discriminate).
        destruct (IS h' id Hh) as (x & Hx & A & B). exists x. split; [rewrite nth_error_app1; auto; apply nth_error_Some; congruence|]. split; auto.
        intros L. destruct (B L) as [B1 B2]. split; auto. intros NI. apply B2. intros a b c Hi. apply (NI a b c). apply in_or_app. auto.
    + intros h1 h2 id H1 H2.
      assert (Q : forall h3, st_ptr s h3 = Some (length (st_heap s)) -> False).
      { intros h3 H3. destruct (IS h3 _ H3) as (x & Hx & _). assert (nth_error (st_heap s) (length (st_heap s)) <> None) as Hl by congruence.
        apply nth_error_Some in Hl. lia. }
      destruct (handle_eqb h1 h) eqn:E1, (handle_eqb h2 h) eqn:E2.
      * apply handle_eqb_eq in E1, E2. congruence.
      * injection H1 as <-. now apply Q in H2.
      * injection H2 as <-. now apply Q in H1.
      * eauto.
  - destruct (st_ptr s h) as [id|] eqn:Eh.
    + destruct (IS h id Eh) as (x & Hx & A & B). rewrite Hx. destruct (ob_live x) eqn:El.
      * destruct (A eq_refl) as (n & nev & nex & L1 & L2). split; [|intros NL; exfalso; apply NL; now exists n, nev, nex]. intros _.
        eexists _, _. split; [reflexivity|]. split.
        -- assert (Hlen : (id < length (st_heap s))%nat) by (apply nth_error_Some; congruence).
           split; cbn [st_props st_ptr st_heap]; auto.
           ++ intros h' Hh' a b c Hi. apply in_app_or in Hi as [Hi|[Hi|[]]]; [|discriminate]. eapply (IN h'); eauto.
           ++ intros h' id' Hh'. rewrite last_event_snoc. cbn [is_cycle andb]. rewrite nth_upd by auto. destruct (Nat.eqb_spec id' id) as [->|Hn].
              ** assert (h' = h) as -> by eauto. eexists. split; [reflexivity|]. cbn [ob_live ob_cfg]. split; [|discriminate]. intros _. exists n, nev, nex.
                 split; auto. intros. fold (set5 (to_size deg) tol opt approx chol (ob_cfg x)). rewrite set5_set5. apply L2.
              ** destruct (IS h' id' Hh') as (y & Hy & A' & B'). exists y. split; auto. split; auto. intros L. destruct (B' L) as [B1 B2]. split; auto.
                 intros NI. apply B2. intros a b c Hi. apply (NI a b c). apply in_or_app. auto.
        -- exists n, nev, nex. split; auto. f_equal. apply L2.
      * destruct (B eq_refl) as [B1 B2]. split; auto. intros AL. now apply alive_not_fin in B1.
    + split; auto. intros (n & nev & nex & L). exfalso. pose proof (IN h Eh) as NI.
      assert (In (Some (Init h n nev nex)) (map Some (events h pre))) as Hi.
      { unfold last_event in L. destruct (events h pre) as [|e es] using rev_ind; [discriminate|]. rewrite map_app in *. cbn in *. rewrite last_last in L. rewrite L. apply in_or_app. right. left. auto. }
      apply in_map_iff in Hi as (y & Hy & Hi). injection Hy as ->. apply filter_In in Hi as [Hi _]. now apply NI in Hi.
  - destruct (st_props s t) as [id|] eqn:Eh; rewrite IP in Eh.
    + destruct (IS _ id Eh) as (x & Hx & A & B). rewrite Hx. destruct (ob_live x) eqn:El.
      * destruct (A eq_refl) as (n & nev & nex & L1 & L2). split; [|intros NL; exfalso; apply NL; now exists n, nev, nex]. intros _.
        eexists _, _. split; [reflexivity|]. split; auto. split; auto.
        -- intros h' Hh' a b c Hi. apply in_app_or in Hi as [Hi|[Hi|[]]]; [|discriminate]. eapply (IN h'); eauto.
        -- intros h' id' Hh'. rewrite last_event_snoc. cbn [is_cycle andb]. destruct (IS h' id' Hh') as (y & Hy & A' & B'). exists y. split; auto. split; auto.
           intros L. destruct (B' L) as [B1 B2]. split; auto. intros NI. apply B2. intros a b c Hi. apply (NI a b c). apply in_or_app. auto.
      * destruct (B eq_refl) as [B1 B2]. split; auto. intros AL. now apply alive_not_fin in B1.
    + split; auto. intros (n & nev & nex & L). exfalso. pose proof (IN _ Eh) as NI.
      assert (In (Some (Init (Dist, t) n nev nex)) (map Some (events (Dist, t) pre))) as Hi.
      { unfold last_event in L. destruct (events (Dist, t) pre) as [|e es] using rev_ind; [discriminate|]. rewrite map_app in *. cbn in *. rewrite last_last in L. rewrite L. apply in_or_app. right. left. auto. }
      apply in_map_iff in Hi as (y & Hy & Hi). injection Hy as ->. apply filter_In in Hi as [Hi _]. now apply NI in Hi.
  - destruct (st_ptr s h) as [id|] eqn:Eh.
    + destruct (IS h id Eh) as (x & Hx & A & B). rewrite Hx. destruct (ob_live x) eqn:El.
      * destruct (A eq_refl) as (n & nev & nex & L1 & L2). split; [|intros NL; exfalso; apply NL; right; now exists n, nev, nex]. intros _.
        assert (Hin : In (Init h n nev nex) pre).
        { unfold last_event in L1. destruct (events h pre) as [|e es] eqn:Ee using rev_ind; [discriminate|]. rewrite map_app in L1. cbn in L1. rewrite last_last in L1. injection L1 as ->.
          assert (In (Init h n nev nex) (events h pre)) as Hi by (rewrite Ee; apply in_or_app; right; left; auto). now apply filter_In in Hi. }
        eexists _, _. split; [reflexivity|]. split; auto.
        assert (Hlen : (id < length (st_heap s))%nat) by (apply nth_error_Some; congruence).
        split; cbn [st_props st_ptr st_heap]; auto.
        -- intros h' Hh' a b c Hi. apply in_app_or in Hi as [Hi|[Hi|[]]]; [|discriminate]. eapply (IN h'); eauto.
        -- intros h' id' Hh'. rewrite last_event_snoc. cbn [is_cycle andb]. unfold on; cbn [op_handle]. rewrite nth_upd by auto.
           destruct (Nat.eqb_spec id' id) as [->|Hn].
           ++ assert (h' = h) as -> by eauto. rewrite handle_eqb_refl. eexists. split; [reflexivity|]. cbn [ob_live]. split; [discriminate|]. intros _. split; auto.
              intros NI. apply (NI n nev nex). apply in_or_app. auto.
           ++ assert (handle_eqb h h' = false) as -> by (apply handle_neqb; intros ->; congruence).
              destruct (IS h' id' Hh') as (y & Hy & A' & B'). exists y. split; auto. split; auto. intros L. destruct (B' L) as [B1 B2]. split; auto.
              intros NI. apply B2. intros a b c Hi. apply (NI a b c). apply in_or_app. auto.
      * destruct (B eq_refl) as [B1 B2]. split; auto. intros [NI|AL]; [now apply B2 in NI|now apply alive_not_fin in B1].
    + split; [|intros NL; exfalso; apply NL; left; eauto]. intros _. eexists _, _. split; [reflexivity|]. split; auto. split; auto.
      * intros h' Hh' a b c Hi. apply in_app_or in Hi as [Hi|[Hi|[]]]; [|discriminate]. eapply (IN h'); eauto.
      * intros h' id' Hh'. rewrite last_event_snoc. cbn [is_cycle andb]. unfold on; cbn [op_handle].
        assert (handle_eqb h h' = false) as -> by (apply handle_neqb; intros ->; congruence).
        destruct (IS h' id' Hh') as (y & Hy & A' & B'). exists y. split; auto. split; auto. intros L. destruct (B' L) as [B1 B2]. split; auto.
        intros NI. apply B2. intros a b c Hi. apply (NI a b c). apply in_or_app. auto.
Qed.

Lemma inv0 : inv [] capi0.
Proof. split; cbn; auto; try discriminate. intros h _ a b c []. Qed.

Definition is_init_of (h : handle) (o : op) : bool := is_init o && on h o.
Lemma on_eq h (o : op) : on h o = true <-> op_handle o = h.
Proof. apply handle_eqb_eq. Qed.
Lemma events_on h pre (o : op) : In o (events h pre) -> op_handle o = h.
Proof. unfold events. rewrite filter_In, andb_true_iff. intros (_ & _ & H). now apply on_eq. Qed.
Lemma last_event_in h pre (o : op) : last_event h pre = Some o -> In o (events h pre).
Proof.
  unfold last_event. destruct (events h pre) as [|e es] using rev_ind; [discriminate|]. rewrite map_app. cbn. rewrite last_last.
  intros X. injection X as ->. apply in_or_app. right. left. auto.
Qed.
Lemma alive_dec h (pre : list op) : {alive h pre} + {~ alive h pre}.
Proof.
  destruct (last_event h pre) as [o|] eqn:E; [|right; intros (n & nev & nex & X); congruence].
  pose proof (events_on _ _ _ (last_event_in _ _ _ E)) as Ho.
  destruct o as [h' n nev nex|h' ? ? ? ? ?|t|h']; try (right; intros (? & ? & ? & X); congruence).
  left. cbn in Ho. subst h'. now exists n, nev, nex.
Qed.
Lemma never_dec h (pre : list op) : {never_init h pre} + {~ never_init h pre}.
Proof.
  destruct (existsb (is_init_of h) pre) eqn:E.
  - right. intros NI. apply existsb_exists in E as (o & Hi & Ho). unfold is_init_of in Ho. apply andb_true_iff in Ho as [H1 H2].
    destruct o; try discriminate. apply on_eq in H2. cbn in H2. subst. now apply NI in Hi.
  - left. intros n nev nex Hi. assert (existsb (is_init_of h) pre = true); [|congruence]. apply existsb_exists. eexists. split; [exact Hi|].
    unfold is_init_of, on. cbn. apply handle_eqb_refl.
Qed.
Lemma legal_dec pre (o : op) : {legal pre o} + {~ legal pre o}.
Proof.
  destruct o; cbn; [auto|apply alive_dec|apply alive_dec|].
  destruct (never_dec h pre); [auto|]. destruct (alive_dec h pre); [auto|tauto].
Qed.

(** arguments of a solve: what it runs with *)
Definition solve_conf (h : handle) (n nev nex deg : Z) (tol : T) (opt approx chol : bool) : config T :=
  mk_cfg (to_size n) (to_size nev) (to_size nex) opt approx 25 2 4
    (match snd h with SDouble | SCDouble => 36 | SFloat => 18 | SCFloat => 12 end) (even_up (to_size deg))
    (match snd h with SDouble | SCDouble => 25 | _ => 12 end) tol chol true.
Lemma to_size_lt z : to_size z < 2 ^ 64.
Proof. unfold to_size. pose proof (Z.mod_pos_bound z (2 ^ 64) ltac:(lia)). lia. Qed.
Lemma solve_conf_eq h n nev nex deg tol opt approx chol :
  set5 (to_size deg) tol opt approx chol (base h n nev nex) = solve_conf h n nev nex deg tol opt approx chol.
Proof.
  unfold solve_conf. rewrite <- bump_even_up by apply to_size_lt. unfold set5, base, new_config. cbn [set].
  destruct h as [kd []]; reflexivity.
Qed.

Lemma run_spec : forall ops pre (s : capi), inv pre s -> (forall a o b, ops = a ++ o :: b -> legal (pre ++ a) o) ->
  exists rs s', run_ops tol5 tol10 ops s = Ok (rs, s') /\ inv (pre ++ ops) s' /\ length rs = length ops /\
    forall i o, nth_error ops i = Some o -> exists r, nth_error rs i = Some r /\
      match o with
      | Solve h deg tol opt approx chol => exists n nev nex, last_event h (pre ++ firstn i ops) = Some (Init h n nev nex) /\
          r = Some (solve_conf h n nev nex deg tol opt approx chol)
      | _ => r = None end.
Proof.
  induction ops as [|o ops IH]; intros pre s I H; cbn [run_ops].
  - exists [], s. rewrite app_nil_r. split; auto. split; auto. split; auto. intros [|] ? X; discriminate.
  - pose proof (H [] o ops eq_refl) as Lo. rewrite app_nil_r in Lo. destruct (proj1 (step_spec pre s o I) Lo) as (r & s1 & E & I1 & R).
    destruct (IH (pre ++ [o]) s1 I1) as (rs & s' & E' & I' & L & RS).
    { intros a o' b ->. rewrite <- app_assoc. apply (H (o :: a) o' b). reflexivity. }
    exists (r :: rs), s'. rewrite E. cbn [bind]. rewrite E'. cbn [bind]. rewrite <- app_assoc in I'. split; auto. split; auto. split; [cbn; lia|].
    intros [|i] o' Ho; cbn [nth_error] in Ho |- *.
    + injection Ho as <-. exists r. split; auto. cbn [firstn]. rewrite app_nil_r. destruct o; auto. destruct R as (n & nev & nex & R1 & R2).
      exists n, nev, nex. split; auto. now rewrite R2, solve_conf_eq.
    + destruct (RS i o' Ho) as (r' & Hr & Q). exists r'. split; auto. cbn [firstn]. rewrite <- app_assoc in Q. exact Q.
Qed.
Lemma run_illegal : forall ops pre (s : capi), inv pre s -> forall a o b, ops = a ++ o :: b -> ~ legal (pre ++ a) o ->
  run_ops tol5 tol10 ops s = UB.
Proof.
  induction ops as [|o ops IH]; intros pre s I a o' b E NL; [destruct a; discriminate|]. cbn [run_ops].
  destruct (legal_dec pre o) as [Lo|Lo].
  - destruct (proj1 (step_spec pre s o I) Lo) as (r & s1 & Es & I1 & _). rewrite Es. cbn [bind].
    destruct a as [|x a]; cbn in E; injection E as -> E; [rewrite app_nil_r in NL; contradiction|].
    rewrite (IH (pre ++ [x]) s1 I1 a o' b E); [reflexivity|]. now rewrite <- app_assoc.
  - now rewrite (proj2 (step_spec pre s o I) Lo).
Qed.
Lemma run_ok_iff ops : (exists out, run_ops tol5 tol10 ops capi0 = Ok out) <-> legal_history ops.
Proof.
  split.
  - intros [out H] pre o post E. destruct (legal_dec pre o) as [L|L]; auto. exfalso.
    pose proof (run_illegal ops [] capi0 inv0 pre o post E L). congruence.
  - intros H. destruct (run_spec ops [] capi0 inv0 H) as (rs & s' & E & _). eauto.
Qed.
Lemma run_ub_iff ops : run_ops tol5 tol10 ops capi0 = UB <-> exists pre o post, ops = pre ++ o :: post /\ ~ legal pre o.
Proof.
  split.
  - intros H. assert (D : forall l : list op, (forall a o b, l = a ++ o :: b -> legal a o) \/ exists a o b, l = a ++ o :: b /\ ~ legal a o).
    { induction l as [|o l IH] using rev_ind; [left; intros [|] ? ? X; discriminate|].
      destruct IH as [IH|(a & o' & b & -> & N)]; [|right; exists a, o', (b ++ [o]); rewrite <- app_assoc; auto].
      destruct (legal_dec l o) as [L|L]; [|right; now exists l, o, []]. left. intros a o' b E.
      destruct b as [|y b] using rev_ind; [apply app_inj_tail in E as [-> ->]; auto|]. clear IHb.
      rewrite app_comm_cons, app_assoc in E. apply app_inj_tail in E as [-> _]. eapply IH; eauto. }
    destruct (D ops) as [L|L]; auto. exfalso. assert (E : exists out, run_ops tol5 tol10 ops capi0 = Ok out) by (apply run_ok_iff; exact L).
    destruct E. congruence.
  - intros (pre & o & post & E & N). eapply (run_illegal ops []); eauto using inv0.
Qed.
Lemma run_solve_conf ops rs s' : run_ops tol5 tol10 ops capi0 = Ok (rs, s') -> length rs = length ops /\
  forall i h deg tol opt approx chol, nth_error ops i = Some (Solve h deg tol opt approx chol) ->
    exists n nev nex, last_event h (firstn i ops) = Some (Init h n nev nex) /\
      nth_error rs i = Some (Some (solve_conf h n nev nex deg tol opt approx chol)).
Proof.
  intros H. assert (L : legal_history ops) by (apply run_ok_iff; eauto).
  destruct (run_spec ops [] capi0 inv0 L) as (rs' & s'' & E & _ & Ln & R). rewrite H in E. injection E as <- <-. split; auto.
  intros i h deg tol opt approx chol Hi. destruct (R i _ Hi) as (r & Hr & n & nev & nex & A & B). exists n, nev, nex. cbn in A. split; auto. congruence.
Qed.

(** calls on other handles do not matter *)
Lemma events_filter h pre : events h (filter (@on T h) pre) = events h pre.
Proof.
  unfold events. induction pre as [|o pre IH]; cbn; auto. destruct (on h o) eqn:E; cbn; rewrite ?E, ?andb_false_r, ?andb_true_r; auto.
  destruct (is_cycle o); congruence.
Qed.
Lemma legal_filter pre (o : op) : legal (filter (on (op_handle o)) pre) o <-> legal pre o.
Proof.
  assert (A : forall h, alive h (filter (@on T h) pre) <-> alive h pre).
  { intros h. unfold alive, last_event. now rewrite events_filter. }
  assert (B : forall h, never_init h (filter (@on T h) pre) <-> never_init h pre).
  { intros h. unfold never_init. split; intros X n nev nex Hi; apply (X n nev nex); [|now apply filter_In in Hi].
    apply filter_In. split; auto. apply on_eq. reflexivity. }
  destruct o; cbn [legal op_handle]; rewrite ?A, ?B; tauto.
Qed.
Lemma filter_split h : forall (l : list op) a o b, filter (on h) l = a ++ o :: b -> exists a' b', l = a' ++ o :: b' /\ filter (on h) a' = a.
Proof.
  induction l as [|x l IH]; intros a o b E; cbn in E; [destruct a; discriminate|]. destruct (on h x) eqn:Ex.
  - destruct a as [|y a]; cbn in E; injection E as -> E.
    + exists [], l. auto.
    + destruct (IH _ _ _ E) as (a' & b' & -> & <-). exists (y :: a'), b'. cbn. rewrite Ex. auto.
  - destruct (IH _ _ _ E) as (a' & b' & -> & <-). exists (x :: a'), b'. cbn. rewrite Ex. auto.
Qed.
Lemma legal_history_split ops : legal_history ops <-> forall h, legal_history (filter (@on T h) ops).
Proof.
  split.
  - intros H h a o b E. pose proof E as E0. apply filter_split in E as (a' & b' & -> & <-).
    assert (Ho : op_handle o = h). { apply on_eq. assert (In o (filter (on h) (a' ++ o :: b'))) as Hi by (rewrite E0; apply in_or_app; right; left; auto). now apply filter_In in Hi. }
    subst h. apply legal_filter. eapply H. reflexivity.
  - intros H a o b E. apply legal_filter. apply (H (op_handle o) _ _ (filter (on (op_handle o)) b)). rewrite E, filter_app. cbn.
    replace (on (op_handle o) o) with true by (symmetry; now apply on_eq). reflexivity.
Qed.
Lemma run_split ops : (exists out, run_ops tol5 tol10 ops capi0 = Ok out) <->
  forall h, exists out, run_ops tol5 tol10 (filter (on h) ops) capi0 = Ok out.
Proof. rewrite run_ok_iff, legal_history_split. split; intros H h; specialize (H h); now apply run_ok_iff. Qed.

(** leaks *)
Lemma count_frees_ext : forall ops f g, (forall h, f h = g h) -> @count_frees T f ops = count_frees g ops.
Proof.
  induction ops as [|o ops IH]; intros f g E; cbn; auto. destruct o; auto.
  - apply IH. intros h'. now rewrite E.
  - rewrite E, (IH f g E). auto.
Qed.
Lemma live_upd (l : list (obj T)) i x y : nth_error l i = Some x -> (length (filter (@ob_live T) (upd_obj l i y)) + (if ob_live x then 1 else 0) =
  length (filter (@ob_live T) l) + (if ob_live y then 1 else 0))%nat.
Proof.
  intros H. unfold upd_obj. apply nth_error_split in H as (a & b & -> & <-).
  rewrite firstn_app, firstn_all, Nat.sub_diag. cbn [firstn]. rewrite app_nil_r.
  replace (skipn (S (length a)) (a ++ x :: b)) with b.
  2:{ replace (a ++ x :: b) with ((a ++ [x]) ++ b) by now rewrite <- app_assoc. replace (S (length a)) with (length (a ++ [x])) by (rewrite app_length; cbn; lia).
      rewrite skipn_app, skipn_all, Nat.sub_diag. reflexivity. }
  rewrite !filter_app. cbn [filter]. rewrite !app_length. destruct (ob_live x), (ob_live y); cbn [length]; lia.
Qed.
Definition seen_in (s : capi) (h : handle) : bool := match st_ptr s h with Some _ => true | None => false end.
Lemma run_live : forall ops (s : capi) rs s', run_ops tol5 tol10 ops s = Ok (rs, s') ->
  (live_objects s' + count_frees (seen_in s) ops = live_objects s + count_inits ops)%nat.
Proof.
  unfold live_objects, count_inits. induction ops as [|o ops IH]; intros s rs s' H; cbn [run_ops count_frees filter] in *.
  - injection H as <- <-. cbn. lia.
  - apply bind_ok in H as ([r s1] & E & H). apply bind_ok in H as ([rs' s2] & E' & H). injection H as <- <-. specialize (IH _ _ _ E').
    destruct o as [h n nev nex|h deg tol opt approx chol|t|h]; cbn [step_op is_init] in *.
    + injection E as <- <-. cbn [st_heap] in IH. rewrite filter_app, app_length in IH. cbn [filter ob_live length] in IH. cbn [length].
      erewrite count_frees_ext; [rewrite Nat.add_succ_r, <- Nat.add_succ_l in *|].
      * replace (length (filter ob_live (st_heap s)) + 1)%nat with (S (length (filter (@ob_live T) (st_heap s)))) in IH by lia.
        rewrite IH. lia.
      * intros h'. unfold seen_in. cbn [st_ptr]. destruct (handle_eqb h' h); reflexivity.
    + destruct (st_ptr s h) as [id|] eqn:Eh; [|discriminate]. destruct (nth_error (st_heap s) id) as [x|] eqn:Ex; [|discriminate].
      destruct (ob_live x) eqn:El; [|discriminate]. injection E as <- <-. cbn [st_heap] in IH.
      match type of IH with context [upd_obj _ _ ?y] => pose proof (live_upd _ _ _ y Ex) as U end. rewrite El in U. cbn [ob_live] in U.
      change (seen_in (mk_capi (st_ptr s) _ _)) with (seen_in s) in IH. lia.
    + destruct (st_props s t) as [id|] eqn:Eh; [|discriminate]. destruct (nth_error (st_heap s) id) as [x|] eqn:Ex; [|discriminate].
      destruct (ob_live x) eqn:El; [|discriminate]. injection E as <- <-. exact IH.
    + unfold seen_in at 1. destruct (st_ptr s h) as [id|] eqn:Eh; [|injection E as <- <-; cbn; exact IH].
      destruct (nth_error (st_heap s) id) as [x|] eqn:Ex; [|discriminate].
      destruct (ob_live x) eqn:El; [|discriminate]. injection E as <- <-. cbn [st_heap] in IH.
      match type of IH with context [upd_obj _ _ ?y] => pose proof (live_upd _ _ _ y Ex) as U end. rewrite El in U. cbn [ob_live] in U.
      change (seen_in (mk_capi (st_ptr s) _ _)) with (seen_in s) in IH. lia.
Qed.
Lemma run_live0 ops rs s' : run_ops tol5 tol10 ops capi0 = Ok (rs, s') ->
  (live_objects s' + count_frees (fun _ => false) ops = count_inits ops)%nat.
Proof. intros H. apply run_live in H. cbn in H. exact H. Qed.
End C.

(** the degree argument of the C interface *)
Lemma even_up_zero d : (- 2 ^ 31 <= d < 2 ^ 31)%Z -> (even_up (to_size d) = 0 <-> d = 0%Z \/ d = (-1)%Z).
Proof.
  intros H. unfold to_size. destruct (Z.lt_ge_cases d 0) as [L|L].
  - assert (E : (d mod 2 ^ 64 = d + 2 ^ 64)%Z) by (symmetry; apply (Z.mod_unique _ _ (-1)); lia). rewrite E.
    destruct (Z.eq_dec d (-1)) as [->|Hn]; [split; auto; intros _; reflexivity|].
    split; [|lia]. unfold even_up. destruct (N.even _); [lia|]. destruct (N.eqb_spec (Z.to_N (d + 2 ^ 64)) (2 ^ 64 - 1)); lia.
  - rewrite Z.mod_small by lia. split.
    + unfold even_up. destruct (N.even _) eqn:E; [lia|]. destruct (N.eqb_spec (Z.to_N d) (2 ^ 64 - 1)); lia.
    + intros [->| ->]; [reflexivity|lia].
Qed.

Lemma bad_degree_undefined {F St} (fo : fops F) (K : kernel F St) sort_idx nevex I0 I : kernel_safe K nevex I0 I ->
  forall fsort h n nev nex deg tol opt approx chol k k0 ritzv resid ub s0,
  let cf := to_conf (@solve_conf F h n nev nex deg tol opt approx chol) in
  (deg = 0%Z \/ deg = (-1)%Z) -> nevex = (c_nev cf + c_nex cf)%nat -> (1 <= c_nev cf)%nat ->
  k_sym K k = Ok (true, k0) -> solve_init fo K fsort cf k0 ritzv resid = Ok (ub, s0) -> I 0%nat (ss_k s0) ->
  solve fo K fsort sort_idx cf k ritzv resid = UB.
Proof.
  intros KS fsort h n nev nex deg tol opt approx chol k k0 ritzv resid ub s0 cf Hd Hn Hv Hs Hi HI.
  eapply solve_low_degree_ub; eauto.
  - unfold cf, to_conf, solve_conf. cbn [c_maxiter g_maxiter]. lia.
  - assert (E : even_up (to_size deg) = 0) by (destruct Hd as [-> | ->]; reflexivity).
    unfold cf, to_conf, solve_conf. cbn [c_deg g_deg c_maxdeg]. rewrite E. cbn. lia.
Qed.
