(** The eigensolver on top of ChaseMpi makes its backend calls as a program: one [client] reproduces [solve] on every backend. *)
From Coq Require Import List Arith ZArith Bool.
Require Import Verif.Base Verif.AlgModel Verif.DlaModel Verif.ClientModel Verif.DsSpec.
Import ListNotations.

Section Rep.
Context {F : Type}.

(** [f], which runs over any backend, is what some client does; the result is assembled from the client's result and
    the backend state by [mk] *)
Definition rep {X : Type} {W : Type -> Type} (mk : forall D, X -> D -> W D) (f : forall D, dla F D -> D -> res (W D)) : Type :=
  { t : client F X | forall D (L : dla F D) d, f D L d = let! (x, d') := run_client L t d in Ok (mk D x d') }.

Fixpoint cbind {X Y} (t : client F X) (k : X -> client F Y) : client F Y :=
  match t with CRet a => k a | CStop x => CStop x | CDo c h => CDo c (fun a => cbind (h a) k) end.
Lemma run_cbind {X Y D} (L : dla F D) (k : X -> client F Y) : forall t d,
  run_client L (cbind t k) d = let! (x, d') := run_client L t d in run_client L (k x) d'.
Proof.
  induction t as [a|x|c h IH]; intros d; simpl; auto; [destruct x as [[]| |]; auto|].
  destruct (exec L c d) as [[a d1]| |]; simpl; auto.
Qed.

Lemma rep_ret {X W} (mk : forall D, X -> D -> W D) x : rep mk (fun D L d => Ok (mk D x d)).
Proof. exists (CRet x). reflexivity. Defined.
Lemma rep_stop {X W} (mk : forall D, X -> D -> W D) x : rep mk (fun D L d => match x : res Empty_set with Ok e => match e with end | UB => UB | Fuel => Fuel end).
Proof. exists (CStop x). intros. simpl. now destruct x as [[]| |]. Defined.
Lemma rep_ub {X W} (mk : forall D, X -> D -> W D) : rep mk (fun D L d => UB).
Proof. apply (rep_stop mk UB). Defined.
Lemma rep_fuel {X W} (mk : forall D, X -> D -> W D) : rep mk (fun D L d => Fuel).
Proof. apply (rep_stop mk Fuel). Defined.
Lemma rep_ext {X W} (mk : forall D, X -> D -> W D) f g : (forall D L d, f D L d = g D L d) -> rep mk g -> rep mk f.
Proof. intros E [t H]. exists t. intros. now rewrite E. Defined.
Lemma rep_bind {X Y V W} (m1 : forall D, X -> D -> V D) (m2 : forall D, Y -> D -> W D) f g :
  rep m1 f -> (forall x, rep m2 (fun D L d => g D L (m1 D x d))) -> rep m2 (fun D L d => bind (f D L d) (g D L)).
Proof.
  intros [t H] K. exists (cbind t (fun x => proj1_sig (K x))). intros. rewrite H, run_cbind.
  destruct (run_client L t d) as [[x d']| |]; simpl; auto. destruct (K x) as [u Hu]. simpl. apply Hu.
Defined.
(** a computation that makes no call *)
Lemma rep_pure {A X W} (mk : forall D, X -> D -> W D) (e : res A) g :
  (forall a, rep mk (fun D L d => g D L d a)) -> rep mk (fun D L d => bind e (g D L d)).
Proof. intros H. destruct e; simpl; [apply H|apply rep_ub|apply rep_fuel]. Defined.
Lemma rep_call (c : call F) : rep (fun D x d => (x, d)) (fun D L d => exec L c d).
Proof.
  exists (CDo c CRet). intros. simpl. now destruct (exec L c d) as [[a d']| |].
Defined.
Lemma rep_for {X W} (mk : forall D, X -> D -> W D) body :
  (forall i x, rep mk (fun D L d => body D L i (mk D x d))) ->
  forall n i x, rep mk (fun D L d => for_ n i (body D L) (mk D x d)).
Proof.
  intros H. induction n; intros i x; cbn [for_]; [apply rep_ret|].
  apply (rep_bind mk mk (fun D L d => body D L i (mk D x d)) (fun D L s => for_ n (S i) (body D L) s)); auto.
Defined.
Lemma rep_if {X W} (mk : forall D, X -> D -> W D) (b : bool) f g :
  rep mk f -> rep mk g -> rep mk (fun D L d => if b then f D L d else g D L d).
Proof. now destruct b. Defined.
(** a call without answer *)
Lemma rep_do (c : call F) (E : answer c = unit) f :
  (forall D (L : dla F D) d, (let! (_, d') := exec L c d in Ok d') = f D L d) -> rep (fun D (_ : unit) d => d) f.
Proof.
  intros H. exists (CDo c (fun _ => CRet tt)). intros. rewrite <- H. simpl. now destruct (exec L c d) as [[a d']| |].
Defined.
End Rep.

Section Solve.
Context {F : Type} (fo : fops F) (qe : qr_env F) (td : tridiag F) (nev nex : nat).
Let KK D (L : dla F D) := cmK fo qe td L nev nex.

Definition kmk D (l : nat) (d : D) : @cm D := mk_cm l d.
Definition vmk A D (x : A * nat) (d : D) : A * @cm D := (fst x, mk_cm (snd x) d).
Definition dmk D (_ : unit) (d : D) : D := d.
Definition amk A D (x : A) (d : D) : A * D := (x, d).

Lemma rep_lift l (f : forall D, dla F D -> D -> res D) : rep dmk f -> rep kmk (fun D L d => lift (mk_cm l d) (f D L d)).
Proof.
  intros H. unfold lift. cbn [cm_locked].
  apply (rep_bind dmk kmk f (fun D L d => Ok (mk_cm l d)) H). intros ?. apply (rep_ret kmk l).
Defined.
Lemma rep_lift_v {A} l (f : forall D, dla F D -> D -> res (A * D)) :
  rep (amk A) f -> rep (vmk A) (fun D L d => lift_v (mk_cm l d) (f D L d)).
Proof.
  intros H. unfold lift_v. cbn [cm_locked].
  apply (rep_bind (amk A) (vmk A) f (fun D L r => let '(v, d) := r in Ok (v, mk_cm l d)) H).
  intros x. apply (rep_ret (vmk A) (x, l)).
Defined.
Ltac callu c := try unfold dmk at 2; apply (rep_do c eq_refl); intros; simpl;
  match goal with |- (let! _ := unit_ans ?x in _) = _ => destruct x as [?| |]; reflexivity end.

Lemma rep_swap i j l : rep kmk (fun D L d => k_swap (KK D L) i j (mk_cm l d)).
Proof. apply (rep_lift l (fun D L d => d_swap L i j d)). callu (@QSwap F i j). Defined.
Lemma rep_dos i m rv l : rep kmk (fun D L d => k_dos (KK D L) i m rv (mk_cm l d)).
Proof. apply (rep_lift l (fun D L d => d_dos L i m rv d)). callu (@QDos F i m rv). Defined.
Lemma rep_shift c u l : rep kmk (fun D L d => k_shift (KK D L) c u (mk_cm l d)).
Proof. apply (rep_lift l (fun D L d => d_shift L c u d)). callu (@QShift F c u). Defined.
Lemma rep_hemm n a b o l : rep kmk (fun D L d => k_hemm (KK D L) n a b o (mk_cm l d)).
Proof. apply (rep_lift l (fun D L d => d_apply L a b o n l d)). callu (@QApply F a b o n l). Defined.
Lemma rep_end l : rep kmk (fun D L d => k_end (KK D L) (mk_cm l d)).
Proof. apply (rep_lift l (fun D L d => d_end L d)). callu (@QEnd F). Defined.
Lemma rep_lock n l : rep kmk (fun D L d => k_lock (KK D L) n (mk_cm l d)).
Proof. apply (rep_ret kmk (l + n)). Defined.
Lemma rep_start l : rep kmk (fun D L d => k_start (KK D L) (mk_cm l d)).
Proof.
  apply (rep_bind dmk kmk (fun D L d => d_start L d) (fun D L d => Ok (mk_cm 0 d))); [|intros; apply (rep_ret kmk 0)].
  callu (@QStart F).
Defined.
Lemma rep_init r l : rep kmk (fun D L d => k_init (KK D L) r (mk_cm l d)).
Proof.
  apply (rep_lift l (fun D L d => let! d := (if r then d_initrnd L d else Ok d) in d_init L d)).
  apply (rep_bind dmk dmk (fun D L d => if r then d_initrnd L d else Ok d) (fun D L d => d_init L d)).
  - destruct r; [callu (@QInitRnd F)|apply (rep_ret dmk tt)].
  - intros ?. callu (@QInit F).
Defined.
Lemma rep_sym l : rep (vmk bool) (fun D L d => k_sym (KK D L) (mk_cm l d)).
Proof. apply (rep_lift_v l (fun D L d => d_sym L d)). apply (rep_call QSym). Defined.
Lemma rep_rr n l : rep (vmk (list F)) (fun D L d => k_rr (KK D L) n (mk_cm l d)).
Proof. apply (rep_lift_v l (fun D L d => d_rr L n l d)). apply (rep_call (QRr n l)). Defined.
Lemma rep_resd v m l : rep (vmk (list F)) (fun D L d => k_resd (KK D L) v m (mk_cm l d)).
Proof. apply (rep_lift_v l (fun D L d => d_resd L v l (nev + nex - m) d)). apply (rep_call (QResd v l (nev + nex - m))). Defined.

(* the first operation makes calls / makes none *)
Ltac rb m1 := match goal with |- rep ?m (fun D L d => bind (@?f D L d) (@?g D L)) => apply (rep_bind m1 m f g); cbn beta end.
Ltac rp := match goal with |- rep ?m (fun D L d => bind ?e (@?g D L d)) => apply (rep_pure m e g); cbn beta end.

Lemma rep_qr m cond l : rep kmk (fun D L d => k_qr (KK D L) m cond (mk_cm l d)).
Proof.
  cbn [KK cmK k_qr]. unfold cm_qr, lift. cbn [cm_locked cm_dla]. cbv zeta.
  assert (HH : rep (amk bool) (fun D (L : dla F D) d => let! d := d_hhqr L l d in Ok (true, d))).
  { rb dmk; [callu (@QHhqr F l)|]. intros ?. apply (rep_ret (amk bool) true). }
  rb (amk bool).
  - match goal with |- rep _ (fun D L d => if ?b then _ else _) => destruct b end; [exact HH|].
    rb (amk Z).
    + destruct (f_lt fo (q_upper qe) cond); [apply (rep_call (QSchol2 l))|].
      destruct (f_lt fo cond _); [apply (rep_call (QChol1 l))|apply (rep_call (QChol2 l))].
    + intros info. unfold amk. cbn beta iota. destruct (info =? 0)%Z; [apply (rep_ret (amk bool) false)|exact HH].
  - intros hh. unfold amk. cbn beta iota. rb dmk; [callu (@QLockCopy F l hh)|].
    intros ?. apply (rep_ret kmk l).
Defined.
Lemma rep_lanczos1 M l : rep (vmk F) (fun D L d => k_lanczos1 (KK D L) M (mk_cm l d)).
Proof.
  cbn [KK cmK k_lanczos1]. unfold cm_lanczos1. cbn [cm_locked cm_dla]. cbv zeta.
  rb (amk (list F * list F * list F)); [apply (rep_call (QLanczos M None))|].
  intros [[d e] b]. unfold amk. cbn beta iota. do 3 (rp; intros).
  match goal with |- rep _ (fun D L d => Ok (?u, _)) => apply (rep_ret (vmk F) (u, l)) end.
Defined.
Definition vmk3 A B C E D (x : A * B * C * E * nat) (d : D) : A * B * C * E * @cm D :=
  let '(a, b, c, e, l) := x in (a, b, c, e, mk_cm l d).
Lemma rep_lanczos2 M nv l : rep (vmk3 F (list F) (list F) (list F)) (fun D L d => k_lanczos2 (KK D L) M nv (mk_cm l d)).
Proof.
  cbn [KK cmK k_lanczos2]. unfold cm_lanczos2. cbn [cm_locked cm_dla]. cbv zeta.
  rb (amk (list F * list F * list F)); [apply (rep_call (QLanczos M (Some nv)))|].
  intros [[d e] b]. unfold amk. cbn beta iota. rp. intros [[th ta] rv]. cbn beta iota. do 4 (rp; intros).
  match goal with |- rep _ (fun D L d => Ok (?u, _, _, _, _)) => apply (rep_ret (vmk3 F (list F) (list F) (list F)) (u, th, ta, rv, l)) end.
Defined.

(** ** the algorithm *)
Definition cdmk D (x : list nat * list F * list F * list F * nat) (d : D) : @cd_arrays F (@cm D) :=
  let '(a, b, c, e, l) := x in mk_cd a b c e (mk_cm l d).
Lemma rep_cd_exchange lk j k x : rep cdmk (fun D L d => cd_exchange (KK D L) lk j k (cdmk D x d)).
Proof.
  destruct x as [[[[a b] c] e] l]. unfold cdmk at 2, cd_exchange. cbn [cd_deg cd_ritz cd_res cd_last cd_k].
  rp. intros dk. rp. intros dj. destruct (dk <? dj); [|apply (rep_ret cdmk (a, b, c, e, l))].
  do 4 (rp; intros). rb kmk; [apply rep_swap|]. intros l'.
  match goal with |- rep _ (fun D L d => Ok (mk_cd ?a ?b ?c ?e _)) => apply (rep_ret cdmk (a, b, c, e, l')) end.
Defined.
Definition vcmk D (x : nat * (list nat * list F * list F * list F * nat)) (d : D) : nat * @cd_arrays F (@cm D) := (fst x, cdmk D (snd x) d).
Lemma rep_calc_degrees cf u nx ub lb lk x : rep vcmk (fun D L d => calc_degrees fo (KK D L) cf u nx ub lb lk (cdmk D x d)).
Proof.
  destruct x as [[[[a b] c] e] l]. unfold cdmk, calc_degrees. cbn [cd_deg cd_ritz cd_res cd_last cd_k].
  rp. intros d1. rp. intros d2. rp. intros d3.
  rb cdmk.
  - unfold cd_sort.
    apply (rep_for cdmk (fun D L j a => for_ (u - j) j (fun k a => cd_exchange (KK D L) lk j k a) a)) with (x := (d3, b, c, e, l)).
    intros i x. apply (rep_for cdmk (fun D L k a => cd_exchange (KK D L) lk i k a)). intros. apply rep_cd_exchange.
  - intros [[[[a' b'] c'] e'] l']. unfold cdmk. cbn [cd_deg]. rp. intros r. apply (rep_ret vcmk (r, (a', b', c', e', l'))).
Defined.

Definition lkmk D (x : list F * list F * list F * nat) (d : D) : @lk_arrays F (@cm D) := let '(a, b, c, l) := x in mk_lk a b c (mk_cm l d).
Definition vlmk D (x : nat * (list F * list F * list F * nat)) (d : D) : nat * @lk_arrays F (@cm D) := (fst x, lkmk D (snd x) d).
Lemma rep_lk_walk tol lk : forall index c x, rep vlmk (fun D L d => lk_walk fo (KK D L) tol lk index c (lkmk D x d)).
Proof.
  induction index as [|j index IH]; intros cv x; cbn [lk_walk]; [apply (rep_ret vlmk (cv, x))|].
  destruct x as [[[a b] c] l]. unfold lkmk. cbn [lk_ritz lk_res lk_last lk_k].
  rp. intros r. rp. intros la. destruct (lk_stop fo tol r la); [apply (rep_ret vlmk (cv, (a, b, c, l)))|].
  rb lkmk; [|intros; apply IH].
  destruct (negb _); [|apply (rep_ret lkmk (a, b, c, l))].
  do 3 (rp; intros). rb kmk; [apply rep_swap|]. intros l'.
  match goal with |- rep _ (fun D L d => Ok (mk_lk ?a ?b ?c _)) => apply (rep_ret lkmk (a, b, c, l')) end.
Defined.
Lemma rep_locking si n tol lk x : rep vlmk (fun D L d => locking fo (KK D L) si n tol lk (lkmk D x d)).
Proof.
  destruct x as [[[a b] c] l]. unfold locking. cbn [lkmk lk_ritz]. rp. intros keys. apply (rep_lk_walk tol lk (si keys) 0 (a, b, c, l)).
Defined.

Definition fsmk D (x : F * nat * nat * list nat * nat * nat * nat) (d : D) : @fstate F (@cm D) :=
  let '(sg, off, un, dg, av, nu, l) := x in mk_fs (mk_cm l d) sg off un dg av nu.
Lemma rep_filter_step s1 e x : rep fsmk (fun D L d => filter_step fo (KK D L) s1 e (fsmk D x d)).
Proof.
  destruct x as [[[[[[sg off] un] dg] av] nu] l]. unfold fsmk at 2, filter_step. cbv zeta. cbn [fs_k fs_sigma fs_off fs_unproc fs_deg fs_Av fs_num].
  rb kmk; [apply rep_hemm|]. intros l'. rp. intros [[dg' un'] off'].
  match goal with |- rep _ (fun D L d => Ok (mk_fs _ ?a ?b ?c ?e ?f ?g)) => apply (rep_ret fsmk (a, b, c, e, f, g, l')) end.
Defined.
Lemma rep_filter u deg dg la lo up l : rep (vmk nat) (fun D L d => filter_ fo (KK D L) u deg dg la lo up (mk_cm l d)).
Proof.
  unfold filter_. cbv zeta. rb kmk; [apply rep_shift|]. intros l1. unfold kmk. rb kmk; [apply rep_hemm|]. intros l2.
  rp. intros [[dg' un] off]. cbn beta iota. rb fsmk.
  - match goal with |- rep _ (fun D L d => for_ _ _ _ (mk_fs _ ?a ?b ?c ?e ?f ?g)) =>
      apply (rep_for fsmk (fun D L _ st => filter_step fo (KK D L) a (halfw fo up lo) st)) with (x := (a, b, c, e, f, g, l2)) end.
    intros. apply rep_filter_step.
  - intros [[[[[[sg off'] un'] dg2] av] nu] l']. unfold fsmk. cbn [fs_k fs_Av]. rb kmk; [apply rep_shift|]. intros l3.
    apply (rep_ret (vmk nat) (av, l3)).
Defined.

Definition lzmk D (x : Z * F * list F * nat) (d : D) : Z * F * list F * @cm D := let '(a, b, c, l) := x in (a, b, c, mk_cm l d).
Lemma rep_lanczos fsort N nv m nevex mode r l :
  rep lzmk (fun D L d => lanczos fo (KK D L) fsort N nv m nevex mode r (mk_cm l d)).
Proof.
  unfold lanczos. destruct (m =? 0); [apply rep_ub|]. destruct (negb mode).
  - rb (vmk F); [apply rep_lanczos1|]. intros [u l']. apply (rep_ret lzmk (0%Z, u, r, l')).
  - rb (vmk3 F (list F) (list F) (list F)); [apply rep_lanczos2|]. intros [[[[u th] ta] rv] l']. cbv zeta. unfold vmk3. cbn beta iota.
    rp. intros lam. rp. intros [lb|]; [|apply rep_ub]. rp. intros idx. rb kmk.
    + destruct (0 <? idx)%Z; [apply rep_dos|apply (rep_ret kmk l')].
    + intros l2. unfold kmk. rp. intros r2. rb (vmk (list F)).
      * unfold lz_intersperse.
        apply (rep_for (vmk (list F)) (fun D L i rk => let '(r, k) := rk in
          let! k' := k_swap (KK D L) i (i * (nevex / Z.to_nat idx)) k in let! r' := swap_ r i (i * (nevex / Z.to_nat idx)) in Ok (r', k')))
          with (x := (r2, l2)).
        intros i [r3 l3]. unfold vmk at 2. cbn [fst snd]. rb kmk; [apply rep_swap|]. intros l4. rp. intros r4. apply (rep_ret (vmk (list F)) (r4, l4)).
      * intros [r3 l3]. apply (rep_ret lzmk (idx, u, r3, l3)).
Defined.

Definition ssmk D (x : nat * ptr F * ptr F * ptr F * ptr nat * nat * nat * nat * F * F * nat) (d : D) : @sstate F (@cm D) :=
  let '(l, a, b, c, e, f, g, h, i, j, k) := x in mk_ss (mk_cm l d) a b c e f g h i j k.
Lemma rep_iterate si cf ub x : rep ssmk (fun D L d => iterate fo (KK D L) si cf ub (ssmk D x d)).
Proof.
  destruct x as [[[[[[[[[[l a] b] c] e] f] g] h] i] j] k]. unfold ssmk at 2, iterate, update_bounds. cbv zeta.
  cbn [ss_k ss_ritz ss_res ss_last ss_deg ss_locked ss_unconv ss_iter ss_lowerb ss_lambda ss_d].
  rp. intros [lb0 lam]. cbn beta iota. rb vcmk.
  { destruct (_ && _).
    - apply (rep_calc_degrees cf g (c_nex cf) ub (if f_lt fo ub lb0 then ub else lb0) f (snd e, snd a, snd b, snd c, l)).
    - apply (rep_ret vcmk (k, (snd e, snd a, snd b, snd c, l))). }
  intros [dg [[[[a1 b1] c1] e1] l1]]. unfold vcmk, cdmk. cbn [fst snd cd_deg cd_ritz cd_res cd_last cd_k].
  rb (vmk nat); [apply rep_filter|]. intros [av l2]. unfold vmk. cbn [fst snd].
  do 5 (rp; intros). rb kmk; [apply rep_qr|]. intros l3. unfold kmk.
  rb (vmk (list F)); [apply rep_rr|]. intros [vals l4]. unfold vmk. cbn [fst snd]. rp. intros ritz. rp. intros last.
  rb (vmk (list F)); [apply rep_resd|]. intros [rs l5]. unfold vmk. cbn [fst snd]. rp. intros resid.
  rb vlmk; [apply (rep_locking si (g - c_nex cf) (c_tol cf) f (ritz, resid, last, l5))|].
  intros [new [[[a7 b7] c7] l6]]. unfold vlmk, lkmk. cbn [fst snd lk_ritz lk_res lk_last lk_k].
  rb kmk; [apply rep_lock|]. intros l7. unfold kmk. do 4 (rp; intros).
  match goal with |- rep _ (fun D L d => Ok (mk_ss _ ?a ?b ?c ?e ?f ?g ?h ?i ?j ?k)) => apply (rep_ret ssmk (l7, a, b, c, e, f, g, h, i, j, k)) end.
Defined.
Lemma rep_solve_loop si cf ub : forall fuel x, rep ssmk (fun D L d => solve_loop fo (KK D L) fuel si cf ub (ssmk D x d)).
Proof.
  induction fuel; intros x; destruct x as [[[[[[[[[[l a] b] c] e] f] g] h] i] j] k]; cbn [solve_loop ssmk ss_unconv ss_iter];
    (destruct (_ && _); [|apply (rep_ret ssmk (l, a, b, c, e, f, g, h, i, j, k))]); [apply rep_fuel|].
  rb ssmk; [apply (rep_iterate si cf ub (l, a, b, c, e, f, g, h, i, j, k))|]. auto.
Defined.

Lemma rep_final_sort n r l : rep (vmk (list F)) (fun D L d => final_sort fo (KK D L) n r (mk_cm l d)).
Proof.
  unfold final_sort. destruct (n =? 0); [apply rep_ub|].
  apply (rep_for (vmk (list F)) (fun D L i rk => for_ (n - 1 - i) (i + 1) (fun j rk => final_exchange fo (KK D L) i j rk) rk)) with (x := (r, l)).
  intros i x. apply (rep_for (vmk (list F)) (fun D L j rk => final_exchange fo (KK D L) i j rk)).
  intros j [r' l']. unfold vmk at 2, final_exchange. cbn [fst snd]. rp. intros. rp. intros.
  destruct (f_lt _ _ _); [|apply (rep_ret (vmk (list F)) (r', l'))].
  rp. intros r2. rb kmk; [apply rep_swap|]. intros l2. apply (rep_ret (vmk (list F)) (r2, l2)).
Defined.

Definition inmk D (x : F * (nat * ptr F * ptr F * ptr F * ptr nat * nat * nat * nat * F * F * nat)) (d : D) : F * @sstate F (@cm D) :=
  (fst x, ssmk D (snd x) d).
Lemma rep_solve_init fsort cf l ritzv resid : rep inmk (fun D L d => solve_init fo (KK D L) fsort cf (mk_cm l d) ritzv resid).
Proof.
  unfold solve_init. cbv zeta. rb kmk; [apply rep_start|]. intros l1. unfold kmk. rp. intros resid1.
  rb kmk; [apply rep_init|]. intros l2. unfold kmk.
  rb kmk; [destruct (negb _); [apply rep_qr|apply (rep_ret kmk l2)]|]. intros l3. unfold kmk.
  rb lzmk; [apply rep_lanczos|]. intros [[[i u] r] l4]. unfold lzmk. cbn beta iota. do 3 (rp; intros).
  match goal with |- rep _ (fun D L d => Ok (u, mk_ss _ ?a ?b ?c ?e ?f ?g ?h ?i ?j ?k)) => apply (rep_ret inmk (u, (l4, a, b, c, e, f, g, h, i, j, k))) end.
Defined.

Definition outmk D (x : list F * list F * nat) (d : D) : list F * list F * @cm D := (fst (fst x), snd (fst x), mk_cm (snd x) d).
Lemma rep_solve fsort si cf l ritzv resid :
  rep outmk (fun D L d => let! o := solve fo (KK D L) fsort si cf (mk_cm l d) ritzv resid in Ok (seen o)).
Proof.
  eapply rep_ext with (g := fun D L d =>
    let! (cont, k0) := (if c_symcheck cf then k_sym (KK D L) (mk_cm l d) else Ok (true, mk_cm l d)) in
    if negb cont then Ok (ritzv, resid, k0)
    else let! (upperb, s0) := solve_init fo (KK D L) fsort cf k0 ritzv resid in
    let! s := solve_loop fo (KK D L) (c_maxiter cf) si cf upperb s0 in
    let! (r, k') := final_sort fo (KK D L) (c_nev cf) (whole (ss_ritz s)) (ss_k s) in
    let! k'' := k_end (KK D L) k' in Ok (r, whole (ss_res s), k'')).
  { intros. unfold solve.
    destruct (if c_symcheck cf then _ else _) as [[ct k0]| |]; auto. cbn [bind]. destruct (negb ct); auto.
    destruct (solve_init _ _ _ _ _ _ _) as [[u s0]| |]; auto. cbn [bind].
    destruct (solve_loop _ _ _ _ _ _ _) as [s| |]; auto. cbn [bind].
    destruct (final_sort _ _ _ _ _) as [[r k1]| |]; auto. cbn [bind]. destruct (k_end _ _); auto. }
  rb (vmk bool); [destruct (c_symcheck cf); [apply rep_sym|apply (rep_ret (vmk bool) (true, l))]|].
  intros [ct l1]. unfold vmk. cbn [fst snd]. destruct (negb ct); [apply (rep_ret outmk (ritzv, resid, l1))|].
  rb inmk; [apply rep_solve_init|]. intros [u s0]. unfold inmk. cbn [fst snd].
  rb ssmk; [apply rep_solve_loop|]. intros [[[[[[[[[[l2 a] b] c] e] f] g] h] i] j] k]. unfold ssmk. cbn [ss_ritz ss_res ss_k].
  rb (vmk (list F)); [apply rep_final_sort|]. intros [r l3]. unfold vmk. cbn [fst snd].
  rb kmk; [apply rep_end|]. intros l4. apply (rep_ret outmk (r, whole b, l4)).
Defined.

(** the solver as a program of calls *)
Definition solver_program fsort si cf l ritzv resid : client F (list F * list F * nat) := proj1_sig (rep_solve fsort si cf l ritzv resid).
Lemma solver_program_ok fsort si cf l ritzv resid : is_solver fo qe td nev nex fsort si cf l ritzv resid (solver_program fsort si cf l ritzv resid).
Proof.
  intros D L d. unfold solver_program. pose proof (proj2_sig (rep_solve fsort si cf l ritzv resid) D L d) as H. unfold KK in H. cbv beta in H. rewrite H.
  now destruct (run_client L _ d) as [[[[r s] m] d']| |].
Qed.
End Solve.
