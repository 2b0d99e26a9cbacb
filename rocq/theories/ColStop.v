(** The residuals the column backends compute after Rayleigh-Ritz, and what they decide. *)
From Coq Require Import List Arith ZArith Bool Lia Permutation.
Require Import Verif.Base Verif.AlgModel Verif.AlgSpec Verif.AlgProofs1 Verif.AlgProofs3 Verif.AlgProofs4 Verif.AlgProofs6 Verif.AlgKeep Verif.DlaModel Verif.ColModel Verif.ColSpec
  Verif.ColProofs1 Verif.ColProofs2 Verif.ColProofs3 Verif.FilterProofs Verif.ColOrth Verif.ConvSpec Verif.AlgSpan Verif.ColSpan Verif.ConvRun Verif.StopSpec Verif.AlgStop.
Import ListNotations.

Section Col.
Context {F V M G T : Type} (fo : fops F) (bl : blas F V M G T) (qe : qr_env F) (td : tridiag F) (nev nex : nat) (H0 : M).
Local Notation n := (nev + nex).
Context (w : nat) (Hw : n <= w).
Local Notation K mp := (cmK fo qe td (colD fo bl mp n) nev nex).
Local Notation nsK := (cmK fo qe td (stop_late (late_failure bl n) (colD fo bl false n)) nev nex).
(** the residual norm of the pair (v, y) *)
Definition rnorm (h : M) (v : F) (y : V) : F := b_nrm2 bl (b_axpy bl (b_inj bl (f_neg fo v)) y (b_mulH bl h y)).

Lemma nth_error_combine {X Y} (a : list X) (b : list Y) q u t : nth_error a q = Some u -> nth_error b q = Some t -> nth_error (combine a b) q = Some (u, t).
Proof. revert b q. induction a as [|a0 a IH]; intros [|b0 b] [|q]; cbn; intros Ha Hb; try discriminate; [congruence|auto]. Qed.

Lemma resd_val mp (s : cm (D := cst (V := V) (M := M))) v r s' : sJr fo bl nev nex H0 w 0 s -> k_resd (K mp) v 0 s = Ok (r, s') ->
  length r = n /\ drift fo bl H0 (cs_H (cm_dla s)) /\
  forall i x y, i < n -> nth_error v i = Some x -> nth_error (cs_C (cm_dla s)) i = Some y -> nth_error r i = Some (rnorm (cs_H (cm_dla s)) x y).
Proof.
  intros (A & B & C & D) H. cbn [cmK k_resd] in H. rewrite A, Nat.sub_0_r in H. apply lift_v_inv in H as (d & E & ->). cbn [colD d_resd] in E. unfold c_resd in E.
  apply bind_ok in E as (s1 & G1 & E). pose proof (gather_inv bl nev nex w Hw _ _ _ _ B G1) as ((L1 & L2 & L3 & L4) & E1 & E2 & E3 & E4 & _ & E5 & E6).
  apply bind_ok in E as (v1 & Hv & E). pose proof (get_range_len _ _ _ _ Hv) as Lv. apply get_range_inv in Hv as [Hv0 ->].
  rewrite E5, E6 in E. cbn [bind] in E. cbv zeta in E. apply bind_ok in E as (B' & HB & E). injection E as <- <-.
  destruct B as (LB & LB1 & LB2 & LB3). cbn [skipn] in *. rewrite D in *. rewrite (firstn_all2 (cs_C (cm_dla s))) by lia.
  split; [|split; auto].
  - rewrite map_length, zip_length, combine_length, map_length. lia.
  - intros i x y Hi Hx Hy. unfold zip. rewrite !nth_error_map.
    erewrite nth_error_combine; [|apply nth_error_combine; [rewrite nth_firstn by lia; exact Hx|exact Hy]|rewrite nth_error_map, Hy; reflexivity].
    reflexivity.
Qed.

Context (on : list V -> Prop) (tri : list V -> list V -> Prop) (Ray : F -> V -> Prop).
Hypothesis RU : on_rules fo bl H0 n on tri Ray.
Context (sub : list V -> list V -> Prop).
Hypothesis sub_refl : forall a, sub a a.
Hypothesis sub_trans : forall a b c, sub a b -> sub b c -> sub a c.
Hypothesis tri_sub : forall a b, tri a b -> sub a b.
Hypothesis swp_sub : forall cs i j, i < length cs -> j < length cs -> sub cs (swp cs i j).
Hypothesis rr_sub : forall h cs, drift fo bl H0 h -> length cs = n -> on cs -> sub cs (map (b_comb bl cs (b_gram bl cs (map (b_mulH bl h) cs))) (seq 0 n)).
Local Notation bJ0 := (bJ0 fo bl nev nex H0 w).
Local Notation bJ := (bJ fo bl nev nex H0 w on).
Local Notation bJf := (bJf fo bl nev nex H0 w on).
Local Notation bJr := (bJr fo bl nev nex H0 w on).
Context (Fl : F -> F -> F -> nat -> list V -> list V -> Prop).
Hypothesis HF : forall mp la lo up d s av s', bJ 0 s -> 2 <= d -> Nat.even d = true -> filter_ fo (K mp) n d (repeat d n) la lo up s = Ok (av, s') ->
  Fl la lo up d (cs_C (cm_dla s)) (cs_C (cm_dla s')).
Context (sort_idx : list F -> list nat) (Hperm : forall keys, Permutation (sort_idx keys) (seq 0 (length keys))).

(** what a run without locking has computed at its end *)
Definition stop_facts cf ub (s0 s : @sstate F (@cm (@cst V M))) (t : nat) : Prop :=
  let ft := filtered sub Fl (ss_lambda s0) (clamp fo ub (ss_lowerb s0)) ub (ss_d s0) t (cs_C (cm_dla (ss_k s0))) in
  length (cs_C (cm_dla (ss_k s0))) = n /\ ss_d s0 = Nat.min (c_deg cf + c_deg cf mod 2) (c_maxdeg cf) /\
  exists h cs h3 rs, drift fo bl H0 h /\ drift fo bl H0 h3 /\ length cs = n /\ on cs /\
    let A := b_gram bl cs (map (b_mulH bl h) cs) in
    ft (map (b_comb bl cs A) (seq 0 n)) /\ length rs = n /\ (forall i, i < n -> nth_error rs i = Some (rnorm h3 (b_eval bl A i) (b_comb bl cs A i))) /\
    (below fo (c_tol cf) (c_nev cf) rs -> converged fo cf s).

Lemma nth_map_seq {A} (f : nat -> A) m i : i < m -> nth_error (map f (seq 0 m)) i = Some (f i).
Proof. intros L. rewrite nth_error_map, (nth_error_nth' _ 0) by (rewrite seq_length; lia). rewrite seq_nth by lia. reflexivity. Qed.

Lemma stop_of cf ub s0 s t k2 k3 vals ritz rs k4 mp : n = c_nev cf + c_nex cf -> bJ 0 (ss_k s0) -> ss_d s0 = Nat.min (c_deg cf + c_deg cf mod 2) (c_maxdeg cf) ->
  let ft := filtered sub Fl (ss_lambda s0) (clamp fo ub (ss_lowerb s0)) ub (ss_d s0) t (cs_C (cm_dla (ss_k s0))) in
  bJr 0 k2 -> k_rr (K mp) n k2 = Ok (vals, k3) -> ft (cs_C (cm_dla k3)) -> bJr 0 k3 -> k_resd (K mp) ritz 0 k3 = Ok (rs, k4) -> firstn n ritz = vals ->
  (c_nev cf <= length rs -> below fo (c_tol cf) (c_nev cf) rs -> converged fo cf s) -> stop_facts cf ub s0 s t.
Proof.
  intros En Y1 Y2 ft X1 X2 X4 X5 X6 X7 X8. subst ft.
  split; [exact (bJ_JL fo bl nev nex H0 w on _ _ Y1)|]. split; auto.
  destruct X1 as ((X1 & X1') & _). destruct (rr_val fo bl qe td nev nex H0 w Hw mp k2 vals k3 X1 X2) as (D & L & Ev & Ec).
  destruct X5 as ((X5 & _) & _). destruct (resd_val mp k3 ritz rs k4 X5 X6) as (L3 & D3 & R3).
  exists (cs_H (cm_dla k2)), (cs_C (cm_dla k2)), (cs_H (cm_dla k3)), rs. cbv zeta. rewrite <- Ec.
  split; auto. split; auto. split; auto. split; auto. split; auto. split; auto. split; [|intros Hb; apply X8; auto; lia].
  intros i Hi. apply R3; auto.
  - rewrite <- (nth_firstn _ n) by auto. rewrite X7, Ev. apply nth_map_seq; auto.
  - rewrite Ec. apply nth_map_seq; auto.
Qed.

Lemma mpi_stop fsort cf k ritzv resid ub s0 h s : n = c_nev cf + c_nex cf -> conf_ok cf -> bJ0 k -> 1 <= c_maxiter cf ->
  entered fo (K true) fsort cf k ritzv resid ub s0 -> run fo (K true) sort_idx cf ub s0 h s -> Forall (fun t => ss_locked t = 0) h -> (c_opt cf = true -> length h <= 1) -> h <> [] ->
  stop_facts cf ub s0 s (length h).
Proof.
  intros En HC HJ Hm HE HR HU Ho Hh.
  destruct (init_stop fo (K true) sort_idx Hperm n _ bJ0 bJ bJf bJr (bJL nev nex) (mpi_bkeep fo bl qe td nev nex H0 w Hw on tri Ray RU) sub Fl sub_refl sub_trans
    (fun la lo up d s av s' => HF true la lo up d s av s') (mpi_qr_sub fo bl qe td nev nex H0 w Hw on tri Ray RU sub tri_sub)
    (rr_span fo bl qe td nev nex H0 w Hw on sub rr_sub true) (fun v r s s' => resd_span fo bl qe td nev nex H0 w Hw on sub sub_refl true v r s s') (bJ_JL fo bl nev nex H0 w on)
    (fun i j s s' => swap_span fo bl qe td nev nex w Hw sub sub_refl swp_sub true i j s s') fsort cf k ritzv resid ub s0 h s En HC HJ Hm HE HR HU Ho Hh)
    as (Y1 & Y2 & k2 & k3 & vals & ritz & rs & k4 & X1 & X2 & X3 & X4 & X5 & X6 & X7 & X8).
  exact (stop_of cf ub s0 s (length h) k2 k3 vals ritz rs k4 true En Y1 Y2 X1 X2 X4 X5 X6 X7 X8).
Qed.
Lemma ns_stop fsort cf k ritzv resid ub s0 h s : n = c_nev cf + c_nex cf -> conf_ok cf -> bJ0 k -> 1 <= c_maxiter cf ->
  entered fo nsK fsort cf k ritzv resid ub s0 -> run fo nsK sort_idx cf ub s0 h s -> Forall (fun t => ss_locked t = 0) h -> (c_opt cf = true -> length h <= 1) -> h <> [] ->
  stop_facts cf ub s0 s (length h).
Proof.
  intros En HC HJ Hm HE HR HU Ho Hh.
  destruct (init_stop fo nsK sort_idx Hperm n _ bJ0 bJ bJf bJr (bJL nev nex) (ns_bkeep fo bl qe td nev nex H0 w Hw on tri Ray RU) sub Fl sub_refl sub_trans
    (fun la lo up d s av s' => HF false la lo up d s av s') (ns_qr_sub fo bl qe td nev nex H0 w Hw on tri Ray RU sub tri_sub)
    (rr_span fo bl qe td nev nex H0 w Hw on sub rr_sub false) (fun v r s s' => resd_span fo bl qe td nev nex H0 w Hw on sub sub_refl false v r s s') (bJ_JL fo bl nev nex H0 w on)
    (fun i j s s' => swap_span fo bl qe td nev nex w Hw sub sub_refl swp_sub false i j s s') fsort cf k ritzv resid ub s0 h s En HC HJ Hm HE HR HU Ho Hh)
    as (Y1 & Y2 & k2 & k3 & vals & ritz & rs & k4 & X1 & X2 & X3 & X4 & X5 & X6 & X7 & X8).
  exact (stop_of cf ub s0 s (length h) k2 k3 vals ritz rs k4 false En Y1 Y2 X1 X2 X4 X5 X6 X7 X8).
Qed.
End Col.

(** with approximate vectors the loop starts from the caller's block and the extreme caller's values *)
Section Approx.
Context {F V M G T : Type} (fo : fops F) (bl : blas F V M G T) (qe : qr_env F) (td : tridiag F) (cf : conf F).
Local Notation n := (c_nev cf + c_nex cf).
Local Notation K mp := (cmK fo qe td (colD fo bl mp n) (c_nev cf) (c_nex cf)).
Local Notation nsK := (cmK fo qe td (stop_late (late_failure bl n) (colD fo bl false n)) (c_nev cf) (c_nex cf)).

Lemma approx_gen (L : dla F (cst (V := V) (M := M))) (mp : bool) fsort l0 d0 ritzv resid ub s0 :
  d_sym L = d_sym (colD fo bl mp n) -> d_start L = d_start (colD fo bl mp n) -> d_init L = d_init (colD fo bl mp n) -> d_mlanczos L = d_mlanczos (colD fo bl mp n) ->
  c_approx cf = true -> let k := mk_cm l0 d0 in
  entered fo (cmK fo qe td L (c_nev cf) (c_nex cf)) fsort cf k ritzv resid ub s0 ->
  cs_C (cm_dla (ss_k s0)) = cs_C d0 /\ max_element fo (firstn n ritzv) = Ok (ss_lowerb s0) /\ min_element fo (firstn n ritzv) = Ok (ss_lambda s0).
Proof.
  intros M1 M2 M3 M4 HA k (k0 & Hs & Hi).
  assert (Ek : cs_C (cm_dla k0) = cs_C d0).
  { destruct (c_symcheck cf); [|injection Hs as <-; reflexivity]. cbn [cmK k_sym] in Hs. rewrite M1 in Hs. apply lift_v_inv in Hs as (d & E & ->). injection E as _ <-. reflexivity. }
  unfold solve_init in Hi. rewrite HA in Hi. cbn [negb] in Hi.
  apply bind_ok in Hi as (k1 & S1 & Hi). apply bind_ok in Hi as (r1 & _ & Hi). apply bind_ok in Hi as (k2 & S2 & Hi).
  apply bind_ok in Hi as (k3 & S3 & Hi). injection S3 as <-. apply bind_ok in Hi as ([[[ix u] ritz] k4] & S4 & Hi).
  apply bind_ok in Hi as (w & Hw & Hi). apply bind_ok in Hi as (lb & Hb & Hi). apply bind_ok in Hi as (la & Ha & Hi). injection Hi as <- <-.
  cbn [ss_k ss_lowerb ss_lambda].
  unfold lanczos in S4. destruct (_ =? 0); [discriminate|]. cbn [negb] in S4. apply bind_ok in S4 as ([u1 k5] & S4 & Q). injection Q as <- <- <- <-.
  apply get_range_inv in Hw as [_ ->]. cbn [skipn] in Hb, Ha.
  cbn [cmK k_start] in S1. rewrite M2 in S1. cbn [colD d_start bind] in S1. injection S1 as <-.
  cbn [cmK k_init] in S2. unfold cm_init in S2. apply lift_inv in S2 as (d2 & S2 & ->). rewrite M3 in S2. cbn [bind colD d_init] in S2. unfold c_init in S2.
  apply bind_ok in S2 as (? & _ & S2). apply bind_ok in S2 as (? & _ & S2). injection S2 as <-.
  cbn [cmK k_lanczos1] in S4. unfold cm_lanczos1 in S4. apply bind_ok in S4 as ([[[d e] b] y] & S5 & S4).
  rewrite M4 in S5. cbn [colD d_mlanczos] in S5. unfold c_mlanczos in S5. apply bind_ok in S5 as ([[[? ?] ?] C'] & S5 & Q). injection Q as -> -> -> <-.
  unfold mlanczos in S5. apply bind_ok in S5 as (? & _ & S5). apply bind_ok in S5 as (ml & S5 & Q). cbn [bind] in Q. injection Q as <- <- <- <-.
  apply ml_loop_C in S5. cbn [ml_C] in S5.
  cbv zeta in S4. apply bind_ok in S4 as (q0 & R0 & S4). apply bind_ok in S4 as (q1 & R1 & S4). apply bind_ok in S4 as (b0 & _ & S4). injection S4 as <- <-.
  cbn [cm_dla cs_C]. rewrite S5. cbn [cm_dla cs_C]. auto.
Qed.
Lemma approx_entered mp fsort l0 d0 ritzv resid ub s0 : c_approx cf = true -> entered fo (K mp) fsort cf (mk_cm l0 d0) ritzv resid ub s0 ->
  cs_C (cm_dla (ss_k s0)) = cs_C d0 /\ max_element fo (firstn n ritzv) = Ok (ss_lowerb s0) /\ min_element fo (firstn n ritzv) = Ok (ss_lambda s0).
Proof. intros HA He. exact (approx_gen _ mp fsort l0 d0 ritzv resid ub s0 eq_refl eq_refl eq_refl eq_refl HA He). Qed.
Lemma approx_entered_ns fsort l0 d0 ritzv resid ub s0 : c_approx cf = true -> entered fo nsK fsort cf (mk_cm l0 d0) ritzv resid ub s0 ->
  cs_C (cm_dla (ss_k s0)) = cs_C d0 /\ max_element fo (firstn n ritzv) = Ok (ss_lowerb s0) /\ min_element fo (firstn n ritzv) = Ok (ss_lambda s0).
Proof. intros HA He. exact (approx_gen (stop_late (late_failure bl n) (colD fo bl false n)) false fsort l0 d0 ritzv resid ub s0 eq_refl eq_refl eq_refl eq_refl HA He). Qed.
End Approx.
