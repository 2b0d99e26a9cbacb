(** Streams that cannot overtake each other make asynchronous execution equal to program order. *)
From Coq Require Import List Arith ZArith Bool Lia.
Require Import Verif.Base Verif.AsyncModel Verif.AsyncSpec.
Import ListNotations.

Section M.
Context {D : Type} (U : stream -> Prop) (HU : one_line U).
Definition lined (q : list (op D)) : Prop := Forall (fun o => U (fst o)) q.

Lemma take_later i before (q : list (op D)) : before <> [] -> lined before -> lined q -> take i before q = None.
Proof.
  revert i before. induction q as [|o q IH]; intros i before NE HB HQ; [destruct i; reflexivity|].
  inversion HQ; subst. destruct i; cbn [take].
  - destruct before as [|e before]; [easy|]. cbn [forallb]. inversion HB; subst. rewrite (HU (fst e) (fst o)); auto.
  - apply IH; auto; [destruct before; easy|]. apply Forall_app. split; auto.
Qed.
Lemma take_line i (q : list (op D)) : lined q ->
  take i [] q = match i, q with O, o :: q' => Some (o, q') | _, _ => None end.
Proof.
  intros H. destruct q as [|o q]; [destruct i; reflexivity|]. destruct i; cbn [take app forallb]; [reflexivity|].
  inversion H; subst. apply take_later; auto; [easy|]. constructor; auto.
Qed.

(** results agree when they are defined *)
Definition agree {A} (x y : res A) : Prop := forall a, x = Ok a <-> y = Ok a.
Lemma pick_line i (c : cfg D) : lined (c_queue c) ->
  match pick i c with
  | Ok c1 => lined (c_queue c1) /\ finished c1 = finished c /\ length (c_queue c1) = length (c_queue c) - (if i =? 0 then 1 else 0)
  | _ => forall d, finished c <> Ok d
  end.
Proof.
  intros H. unfold pick. rewrite take_line by auto. destruct i; [|repeat split; auto; cbn; lia].
  destruct c as [d q]. cbn [c_queue c_mem] in *. destruct q as [|[s f] q]; [repeat split; auto|].
  inversion H; subst. unfold finished. cbn [c_queue c_mem drained]. destruct (f d) eqn:E; cbn [bind].
  - repeat split; auto. cbn. lia.
  - intros d'. cbn. discriminate.
  - intros d'. cbn. discriminate.
Qed.
Lemma picks_line l : forall c : cfg D, lined (c_queue c) ->
  match picks l c with Ok c1 => lined (c_queue c1) /\ finished c1 = finished c | _ => forall d, finished c <> Ok d end.
Proof.
  induction l as [|i l IH]; intros c H; cbn [picks]; [auto|].
  pose proof (pick_line i c H) as P. destruct (pick i c) as [c1| |]; cbn [bind]; auto.
  destruct P as (P1 & P2 & _). specialize (IH c1 P1). destruct (picks l c1); rewrite <- P2; auto.
Qed.
Lemma wait_line s (Hs : U s) : forall k (c : cfg D), length (c_queue c) <= k -> lined (c_queue c) ->
  match wait k s c with Ok c1 => c_queue c1 = [] /\ finished c1 = finished c | _ => forall d, finished c <> Ok d end.
Proof.
  induction k; intros c L H.
  - assert (E : c_queue c = []) by (destruct (c_queue c); [reflexivity|cbn in L; lia]). cbn [wait]. rewrite E. cbn [existsb]. now rewrite E.
  - cbn [wait]. match goal with |- context [existsb ?g (c_queue c)] => destruct (existsb g (c_queue c)) eqn:E end.
    + pose proof (pick_line 0 c H) as P. destruct (pick 0 c) as [c1| |]; cbn [bind]; auto. destruct P as (P1 & P2 & P3). cbn in P3.
      specialize (IHk c1 ltac:(lia) P1). destruct (wait k s c1); rewrite <- P2; auto.
    + split; auto. destruct (c_queue c) as [|o q]; auto. inversion H; subst. cbn in E. now rewrite (HU (fst o) s) in E.
Qed.

Lemma picks_nil l : forall c : cfg D, c_queue c = [] -> picks l c = Ok c.
Proof.
  induction l as [|i l IHl]; intros c E; cbn [picks]; [reflexivity|]. unfold pick. rewrite E. destruct i; cbn [take bind]; auto.
Qed.

Lemma drained_app q s f (d : D) : drained (q ++ [(s, f)]) d = let! d' := drained q d in f d'.
Proof. revert d. induction q as [|[s' g] q IH]; intros d; cbn [app drained bind]; [destruct (f d); reflexivity|]. destruct (g d); cbn [bind]; auto. Qed.

Lemma exec_line sch {A} (p : prog D A) : forall idle t (c : cfg D), uses U p -> guarded idle p -> (idle = true -> c_queue c = []) -> lined (c_queue c) ->
  match exec sch p t c with
  | Ok (a, (_, c')) => lined (c_queue c') /\ forall a1 d1, (finished c' = Ok d1 /\ a1 = a) <-> (let! d := finished c in in_order p d) = Ok (a1, d1)
  | _ => forall y, (let! d := finished c in in_order p d) <> Ok y
  end.
Proof.
  induction p as [a| |s f k IH|X s f k IH|f k IH]; intros idle t c HS HG HI HL; cbn [exec uses guarded] in *.
  - split; auto. intros a1 d1. cbn [in_order]. destruct (finished c); cbn [bind]; split; try (intros [? ?]; congruence); try discriminate.
    intros E. injection E as <- <-. auto.
  - intros y. cbn [in_order]. destruct (finished c); cbn [bind]; discriminate.
  - destruct HS as [Hs Hk]. pose proof (picks_line (sch t) c HL) as P. destruct (picks (sch t) c) as [c1| |]; cbn [bind].
    2, 3: intros y E; destruct (finished c); cbn [bind] in E; [eapply P; eauto|discriminate|discriminate].
    destruct P as [P1 P2]. assert (L2 : lined (c_queue c1 ++ [(s, f)])) by (apply Forall_app; split; auto).
    specialize (IH false (S t) (mk_cfg (c_mem c1) (c_queue c1 ++ [(s, f)])) Hk HG ltac:(discriminate) L2).
    assert (E : (let! d := finished (mk_cfg (c_mem c1) (c_queue c1 ++ [(s, f)])) in in_order k d)
                = let! d := finished c in in_order (Dev s f k) d).
    { unfold finished at 1. cbn [c_queue c_mem]. rewrite drained_app. fold (finished c1). rewrite P2.
      destruct (finished c); cbn [bind in_order]; auto. }
    rewrite E in IH. exact IH.
  - destruct HS as [Hs Hk]. pose proof (picks_line (sch t) c HL) as P. destruct (picks (sch t) c) as [c1| |]; cbn [bind].
    2, 3: intros y E; destruct (finished c); cbn [bind] in E; [eapply P; eauto|discriminate|discriminate].
    destruct P as [P1 P2]. pose proof (wait_line s Hs _ c1 (Nat.le_refl _) P1) as W. rewrite P2 in W. clear P1 P2.
    destruct (wait _ s c1) as [c2| |]; cbn [bind].
    2, 3: intros y E; destruct (finished c); cbn [bind] in E; [eapply W; eauto|discriminate|discriminate].
    destruct W as [W1 W2]. unfold finished in W2 at 1. rewrite W1 in W2. cbn [drained] in W2. rewrite <- W2. cbn [bind in_order].
    destruct (f (c_mem c2)) as [x| |] eqn:Ex; cbn [bind]; try (intros y; discriminate).
    specialize (IH x true (S t) c2 (Hk x) (HG x) (fun _ => W1)). rewrite W1 in IH. specialize (IH (Forall_nil _)).
    unfold finished in IH at 2. rewrite W1 in IH. cbn [drained bind] in IH.
    assert (E2 : finished c2 = Ok (c_mem c2)) by (unfold finished; rewrite W1; reflexivity). rewrite ?E2 in IH. cbn [bind] in IH. exact IH.
  - destruct HG as [-> Hg]. specialize (HI eq_refl). rewrite picks_nil by auto. cbn [bind].
    assert (E2 : finished c = Ok (c_mem c)) by (unfold finished; now rewrite HI). rewrite E2. cbn [bind in_order].
    destruct (f (c_mem c)) as [d| |] eqn:Ex; cbn [bind]; try (intros y; discriminate).
    specialize (IH true (S t) (mk_cfg d (c_queue c)) HS Hg (fun _ => HI) HL).
    assert (E3 : finished (mk_cfg d (c_queue c)) = Ok d) by (unfold finished; cbn [c_queue c_mem]; now rewrite HI).
    rewrite E3 in IH. cbn [bind] in IH. exact IH.
Qed.

(** from an idle device *)
Lemma exec_in_order sch {A} (p : prog D A) d0 a d1 : uses U p -> guarded true p ->
  (exists t c, exec sch p 0 (mk_cfg d0 []) = Ok (a, (t, c)) /\ finished c = Ok d1) <-> in_order p d0 = Ok (a, d1).
Proof.
  intros HS HG. pose proof (exec_line sch p true 0 (mk_cfg d0 []) HS HG (fun _ => eq_refl) (Forall_nil _)) as P.
  unfold finished in P at 2 3. cbn [c_queue c_mem drained bind] in P.
  destruct (exec sch p 0 (mk_cfg d0 [])) as [[a' [t c]]| |]; [destruct P as [_ P]| |].
  - rewrite <- P. split; [intros (t' & c' & E & Ef); assert (X1 : a = a') by congruence; assert (X2 : c = c') by congruence; rewrite X2; auto|intros [E ->]; eauto].
  - split; [intros (t' & c' & E & _); discriminate|intros E; now apply P in E].
  - split; [intros (t' & c' & E & _); discriminate|intros E; now apply P in E].
Qed.
(** from any state: the results and the final memory of program order *)
Lemma exec_ok sch {A} (p : prog D A) t c d0 a d1 : uses U p -> guarded false p -> lined (c_queue c) -> finished c = Ok d0 ->
  in_order p d0 = Ok (a, d1) -> exists t' c', exec sch p t c = Ok (a, (t', c')) /\ finished c' = Ok d1 /\ lined (c_queue c').
Proof.
  intros HS HG HL E0 E. pose proof (exec_line sch p false t c HS HG ltac:(discriminate) HL) as P. rewrite E0 in P. cbn [bind] in P.
  destruct (exec sch p t c) as [[a' [t' c']]| |]; [destruct P as [P1 P]; apply P in E; destruct E as [E Ea]; rewrite Ea; eauto 6|now apply P in E|now apply P in E].
Qed.
End M.
