(** Proofs about the templates around BLAS, LAPACK and ScaLAPACK. *)
From Coq Require Import List ZArith String Ascii Bool Lia.
Require Import Verif.Base Verif.ConfigModel Verif.BlasDoc Verif.WrapModel Verif.WrapTable Verif.WrapSpec.
Import ListNotations.
Local Open Scope Z_scope.

Lemma narrow_id z : is_int z -> narrow z = z.
Proof.
  unfold is_int, narrow. intros H.
  destruct (Z.leb_spec 0 z).
  - rewrite Z.mod_small by lia. destruct (Z.ltb_spec z (2 ^ 31)); lia.
  - replace (z mod 2 ^ 32) with (z + 2 ^ 32) by (apply (Z.mod_unique_pos _ _ (-1)); lia).
    destruct (Z.ltb_spec (z + 2 ^ 32) (2 ^ 31)); lia.
Qed.

Lemma narrow_signed z : 0 <= z < 2 ^ 64 -> is_int (signed64 z) -> narrow z = signed64 z.
Proof.
  intros H I. rewrite <- (narrow_id _ I). unfold signed64, narrow.
  destruct (z <? 2 ^ 63); auto.
  replace ((z - 2 ^ 64) mod 2 ^ 32) with (z mod 2 ^ 32); auto.
  replace (z - 2 ^ 64) with (z + (- 2 ^ 32) * 2 ^ 32) by lia. now rewrite Z.mod_add by lia.
Qed.

Lemma narrow_desc l :
  Forall (fun z => 0 <= z < 2 ^ 64 /\ is_int (signed64 z)) l -> map narrow l = map signed64 l.
Proof. induction 1 as [|z l [H1 H2] _ IH]; cbn [map]; auto. now rewrite IH, narrow_signed. Qed.

(** the numbers a wrapper narrows *)
Ltac sizes H :=
  repeat match goal with
  | |- context [narrow (num ?a ?p)] =>
      rewrite (narrow_id (num a p)) by (let K := fresh in pose proof (H p KSize ltac:(cbn; tauto)) as K; cbv beta iota in K; unfold is_int; lia)
  end.
Lemma and_swap (P Q : Prop) : Q -> P -> P /\ Q.
Proof. auto. Qed.



Lemma exec_next cf lb rt a c r s s' (P : outcome -> Prop) :
  exec cf lb rt a c s = Next s' -> P (exec_all cf lb rt a r s') -> P (exec_all cf lb rt a (c :: r) s).
Proof. intros E. cbn [exec_all]. now rewrite E. Qed.
Lemma exec_stop cf lb rt a c r s v s' (P : outcome -> Prop) :
  exec cf lb rt a c s = Stop v s' -> P (Stop v s') -> P (exec_all cf lb rt a (c :: r) s).
Proof. intros E. cbn [exec_all]. now rewrite E. Qed.
(** an assertion on a status written by a routine: continue, or stop with a non-zero status *)
Lemma exec_assert cf lb rt a x r s t z (P : outcome -> Prop) :
  lookup s x = Some (t, VInt z) ->
  P (exec_all cf lb rt a r s) -> (ndebug cf = false -> z <> 0 -> P (Abort s)) -> P (exec_all cf lb rt a (AssertZ x :: r) s).
Proof.
  intros E H1 H2. cbn [exec_all exec]. rewrite E. destruct (ndebug cf); auto.
  destruct (Z.eqb_spec z 0); auto.
Qed.
Lemma exec_assert0 cf lb rt a x r s t (P : outcome -> Prop) :
  lookup s x = Some (t, VInt 0) -> P (exec_all cf lb rt a r s) -> P (exec_all cf lb rt a (AssertZ x :: r) s).
Proof. intros E. cbn [exec_all exec]. rewrite E. now destruct (ndebug cf). Qed.
Lemma routine_same cf lo up : lower up = lo -> routine cf lo up = lo.
Proof. unfold routine. intros E. destruct (upper cf); auto. Qed.


Lemma exec_call cf lb rt a lo up l r s bs s' i (P : outcome -> Prop) :
  routine cf lo up = lo -> mapo (actual s) l = Some bs -> call lb lo bs s = Some (s', i) ->
  P (exec_all cf lb rt a r s') -> P (exec_all cf lb rt a (Call lo up l :: r) s).
Proof. intros E1 E2 E3 H. apply (exec_next cf lb rt a _ r s s'); auto. cbn [exec]. now rewrite E2, E1, E3. Qed.
Lemma exec_retcall cf lb rt a lo up l r s bs s' i d (P : outcome -> Prop) :
  routine cf lo up = lo -> mapo (actual s) l = Some bs -> call lb lo bs s = Some (s', i) -> doc_of lo = Some d ->
  fret_eqb (proto_ret lo) (d_ret d) = true ->
  P (Stop (RFun lo i) s') -> P (exec_all cf lb rt a (RetCall lo up l :: r) s).
Proof.
  intros E1 E2 E3 E4 E5 H. apply (exec_stop cf lb rt a _ r s (RFun lo i) s'); auto. cbn [exec].
  now rewrite E2, E1, E3, E4, E5.
Qed.
Lemma exec_setnum cf lb rt a x y r s t u v z (P : outcome -> Prop) :
  lookup s y = Some (TNum t, VInt z) -> 0 <= z < 2 ^ 31 -> lookup s x = Some (u, v) ->
  P (exec_all cf lb rt a r (put s x u (VInt z))) -> P (exec_all cf lb rt a (SetNum x y :: r) s).
Proof.
  intros E1 Z1 E2 H. eapply exec_next; [|exact H]. cbn [exec]. rewrite E1. unfold assign. rewrite E2.
  rewrite narrow_id by (unfold is_int; lia).
  now replace ((0 <=? z) && (z <? 2 ^ 64)) with true by (symmetry; apply andb_true_iff; split; [apply Z.leb_le|apply Z.ltb_lt]; lia).
Qed.
Lemma exec_setnum_int cf lb rt a x y r s u v z (P : outcome -> Prop) :
  lookup s y = Some (TInt, VInt z) -> 0 <= z < 2 ^ 31 -> lookup s x = Some (u, v) ->
  P (exec_all cf lb rt a r (put s x u (VInt z))) -> P (exec_all cf lb rt a (SetNum x y :: r) s).
Proof.
  intros E1 Z1 E2 H. eapply exec_next; [|exact H]. cbn [exec]. rewrite E1. unfold assign. rewrite E2.
  now rewrite Z.mod_small, narrow_id by (unfold is_int; lia).
Qed.
Lemma exec_setnumi cf lb rt a x y r s t u v z (P : outcome -> Prop) :
  lookup s y = Some (TNum t, VInt z) -> 0 <= z < 2 ^ 31 -> lookup s x = Some (u, v) ->
  P (exec_all cf lb rt a r (put s x u (VInt z))) -> P (exec_all cf lb rt a (SetNumI x y :: r) s).
Proof.
  intros E1 Z1 E2 H. eapply exec_next; [|exact H]. cbn [exec]. rewrite E1. unfold assign. rewrite E2.
  now replace ((- 2 ^ 31 <=? z) && (z <? 2 ^ 31)) with true
    by (symmetry; apply andb_true_iff; split; [apply Z.leb_le|apply Z.ltb_lt]; lia).
Qed.
Lemma exec_own cf lb rt a x e r s n (P : outcome -> Prop) :
  eval a s e = Some n -> 0 <= n -> P (exec_all cf lb rt a r (alloc s x n false)) -> P (exec_all cf lb rt a (Own x e :: r) s).
Proof.
  intros E Z1 H. eapply exec_next; [|exact H]. cbn [exec]. rewrite E. now replace (n <? 0) with false by (symmetry; apply Z.ltb_ge; lia).
Qed.
Lemma exec_ifeq cf lb rt a p v x ch r s u q (P : outcome -> Prop) :
  lookup s x = Some (u, q) ->
  P (exec_all cf lb rt a r (if num a p =? v then put s x u (VInt (Z.of_N (N_of_ascii ch))) else s)) ->
  P (exec_all cf lb rt a (IfEq p v x ch :: r) s).
Proof. intros E H. eapply exec_next; [|exact H]. cbn [exec]. unfold assign. rewrite E. now destruct (num a p =? v). Qed.
Lemma exec_copydesc cf lb rt a x p r s t q b k (P : outcome -> Prop) :
  lookup s x = Some (t, VPtr q) -> blk s q = Some (b, k) -> 9 <= b_len k ->
  P (exec_all cf lb rt a r (set_blk s b (mk_block (b_len k) (b_raw k) true (Some (narrow_all (desc a p)))))) ->
  P (exec_all cf lb rt a (CopyDesc x p :: r) s).
Proof. intros E1 E2 E3 H. eapply exec_next; [|exact H]. cbn [exec]. rewrite E1, E2. now rewrite (proj2 (Z.leb_le _ _) E3). Qed.

(** a workspace query, and a computation with sufficient workspaces *)
Lemma call_query lb r l s d b i ls s1 s2 :
  doc_of r = Some d -> bind_formals (d_sig d) l = Some b -> inputs s b = Some i -> lengths s 1 b = Some ls ->
  existsb (fun e => snd (fst e) =? -1) ls = true ->
  answer_query lb r (d_type d) i b s = Some s1 -> set_info 0 b s1 = Some s2 ->
  call lb r l s = Some (s2, i).
Proof. intros E1 E2 E3 E4 E5 E6 E7. unfold call. now rewrite E1, E2, E3, E4, E5, E6, E7. Qed.
Lemma call_compute lb r l s d b i ls s1 :
  doc_of r = Some d -> bind_formals (d_sig d) l = Some b -> inputs s b = Some i -> lengths s 1 b = Some ls ->
  Forall (fun e => snd (fst e) <> -1 /\ least lb r i (fst (fst e)) <= snd (fst e)) ls -> room_all s i ls b = true ->
  set_info (status lb r i) b (mk_state (env s) (heap s) (done s ++ [(r, i)])) = Some s1 ->
  call lb r l s = Some (s1, i).
Proof.
  intros E1 E2 E3 E4 E5 E6 E7. unfold call. rewrite E1, E2, E3, E4.
  replace (existsb _ ls) with false
    by (symmetry; clear - E5; induction E5 as [|x q [K _] _ IH]; cbn; auto; now rewrite IH, (proj2 (Z.eqb_neq _ _) K)).
  replace (find _ ls) with (@None (wk * Z * Z))
    by (symmetry; clear - E5; induction E5 as [|x q [_ K] _ IH]; cbn; auto; now rewrite (proj2 (Z.ltb_ge _ _) K)).
  now rewrite E6, E7.
Qed.

Lemma run_start cf lb w a rt b e (P : outcome -> Prop) :
  w_ret w = rt -> w_body w = b -> map (par a) (w_params w) = e ->
  P (exec_all cf lb rt a b (mk_state e [] [])) -> P (run cf lb w a).
Proof. now intros <- <- <-. Qed.

(** evaluation of the parts of a step that do not depend on numbers *)
Ltac ev := lazy beta iota zeta delta -[narrow reported Z.modulo Z.pow Z.min Z.mul Z.leb Z.ltb Z.eqb Z.opp
  num desc opt least enc status upper ndebug signed64 narrow_all].
Ltac by_ev := ev; reflexivity.
Ltac by_rep RE :=
  match goal with |- context [reported _ _ _ ?i ?w] => let K := fresh in pose proof (RE i w) as K; lia end.
(** lengths that are equal, the length of RWORK of the complex xGESVD, and norms other than 'I' *)
Lemma svd_room a (m n : string) :
  0 <= num a m < 2 ^ 31 -> 0 <= num a n < 2 ^ 31 ->
  (5 * Z.min (num a m) (num a n) <=? (5 * Z.min (num a m) (num a n)) mod 2 ^ 64) = true.
Proof. intros. rewrite Z.mod_small by lia. apply Z.leb_refl. Qed.
Ltac by_room H :=
  ev; rewrite ?Z.leb_refl;
  try rewrite (svd_room _ "m" "n" (H "m"%string KSize ltac:(cbn; tauto)) (H "n"%string KSize ltac:(cbn; tauto)));
  repeat match goal with K : num ?a ?p <> ?v |- context [num ?a ?p =? ?v] => rewrite (proj2 (Z.eqb_neq _ _) K) end;
  reflexivity.
Ltac by_routine :=
  first [ apply routine_same; vm_compute; reflexivity
        | match goal with U : upper ?cf = false |- _ => unfold routine; rewrite U; reflexivity end ].
Ltac by_call H RE :=
  first [ eapply call_query; [vm_compute; reflexivity|by_ev|by_ev|by_ev|reflexivity|by_ev|by_ev]
        | eapply call_compute; [vm_compute; reflexivity|by_ev|by_ev|by_ev
            |repeat (apply Forall_cons; [cbn [fst snd]; by_rep RE|]); apply Forall_nil|by_room H|by_ev] ].

Ltac step1 H RE :=
  lazymatch goal with
  | |- _ (exec_all ?cf ?lb ?rt ?a (DeclInt ?x ?p :: ?r) ?s) =>
      apply (exec_next cf lb rt a (DeclInt x p) r s (put s x TInt (VInt (num a p)))); [cbn [exec]; sizes H; reflexivity|]
  | |- _ (exec_all ?cf ?lb ?rt ?a (DeclUn ?x ?p :: ?r) ?s) =>
      apply (exec_next cf lb rt a (DeclUn x p) r s (put s x p VU)); [reflexivity|]
  | |- _ (exec_all ?cf ?lb ?rt ?a (AssertZ ?x :: ?r) ?s) =>
      let v := eval lazy beta iota zeta delta [lookup assoc env put String.eqb Ascii.eqb Bool.eqb] in (lookup s x) in
      lazymatch v with
      | Some (?t, VInt 0) => apply (exec_assert0 cf lb rt a x r s t); [by_ev|]
      | Some (?t, VInt ?z) => apply (exec_assert cf lb rt a x r s t z); [by_ev| |intros ? ?]
      end
  | |- _ (exec_all ?cf ?lb ?rt ?a (SetNum ?x ?y :: ?r) ?s) =>
      first [ eapply exec_setnum; [by_ev|by_rep RE|by_ev|] | eapply exec_setnum_int; [by_ev|by_rep RE|by_ev|] ]
  | |- _ (exec_all ?cf ?lb ?rt ?a (SetNumI ?x ?y :: ?r) ?s) => eapply exec_setnumi; [by_ev|by_rep RE|by_ev|]
  | |- _ (exec_all ?cf ?lb ?rt ?a (Own ?x ?y :: ?r) ?s) => eapply exec_own; [by_ev|by_rep RE|]
  | |- _ (exec_all ?cf ?lb ?rt ?a (Call _ _ _ :: ?r) ?s) =>
      eapply exec_call; [by_routine|by_ev|by_call H RE|]
  | |- _ (exec_all ?cf ?lb ?rt ?a (RetCall _ _ _ :: ?r) ?s) =>
      eapply exec_retcall; [by_routine|by_ev|by_call H RE|vm_compute; reflexivity|reflexivity|]
  | |- _ (exec_all ?cf ?lb ?rt ?a (IfEq ?p ?v _ _ :: ?r) ?s) =>
      eapply exec_ifeq; [by_ev|]; match goal with E : num a p = _ |- _ => rewrite E end;
      match goal with |- _ (exec_all _ _ _ _ _ (if ?x =? v then _ else _)) => let b := eval vm_compute in (x =? v) in
        change (x =? v) with b; cbv iota end
  | |- _ (exec_all ?cf ?lb ?rt ?a (CopyDesc _ _ :: ?r) ?s) => eapply exec_copydesc; [by_ev|by_ev|cbn; lia|]
  | |- _ (exec_all ?cf ?lb ?rt ?a (RetVar _ :: ?r) ?s) =>
      eapply exec_stop; [by_ev|]
  | |- _ (exec_all ?cf ?lb ?rt ?a (?c :: ?r) ?s) =>
      eapply exec_next; [by_ev|]
  end.

Ltac by_cbn := cbn; reflexivity.
Ltac start := eapply run_start; [by_cbn|by_cbn|by_cbn|].

Definition both (cf : conf) (lb : lib) (w : wrapper) (a : args) (r : string) (i : ins) (o : outcome) : Prop :=
  outcome_ok cf lb w r i o /\ tidy w a o.
Lemma both_eq cf lb w a i o r :
  routine_for (w_name w) (w_type w) = r -> both cf lb w a r i o ->
  outcome_ok cf lb w (routine_for (w_name w) (w_type w)) i o /\ tidy w a o.
Proof. now intros <-. Qed.

(** what the routine sees is what the specification expects *)
Ltac by_expected H :=
  first [ reflexivity
        | match goal with E : num ?a ?p = _ |- _ => cbn; rewrite E; reflexivity end
        | cbn; do 2 f_equal; symmetry; apply narrow_desc;
          match goal with |- Forall _ (desc ?a ?p) => exact (proj2 (H p KDesc ltac:(cbn; tauto))) end ].
(** what remains allocated *)
Lemma svd_len a (m n : string) :
  0 <= num a m < 2 ^ 31 -> 0 <= num a n < 2 ^ 31 ->
  (5 * Z.min (num a m) (num a n)) mod 2 ^ 64 = 5 * Z.min (num a m) (num a n).
Proof. intros. apply Z.mod_small. lia. Qed.
Ltac by_tidy H :=
  first [ exact I | reflexivity
        | ev; rewrite (svd_len _ "m" "n" (H "m"%string KSize ltac:(cbn; tauto)) (H "n"%string KSize ltac:(cbn; tauto))); reflexivity ].
Definition done_all (cf : conf) (lb : lib) (w : wrapper) (a : args) : Prop :=
  performs cf lb w a /\ tidy w a (run cf lb w a).
Lemma done_all_intro cf lb w a d i :
  let r := routine_for (w_name w) (w_type w) in
  doc_of r = Some d -> d_type d = w_type w ->
  outcome_ok cf lb w r i (run cf lb w a) /\ tidy w a (run cf lb w a) ->
  (forall f, In (A f) (d_sig d) -> exists o, expected w a f = Some o /\ assoc f i = Some o) ->
  done_all cf lb w a.
Proof. intros r E1 E2 [E3 E4] E5. split; auto. exists d, i. auto. Qed.
Ltac perform H RE :=
  eapply done_all_intro; [vm_compute; reflexivity|reflexivity| |];
  [ eapply both_eq; [vm_compute; reflexivity|]; start;
    repeat step1 H RE;
    try (cbn [exec_all]; split; [cbn [outcome_ok done]; repeat split; auto|by_tidy H])
  | let f := fresh "f" in let K := fresh "K" in
    intros f K; cbn in K;
    repeat match type of K with _ \/ _ => destruct K as [K|K] end;
    lazymatch type of K with
    | False => destruct K
    | A _ = A _ => injection K as <-; eexists; apply and_swap; [reflexivity|by_expected H]
    | _ => discriminate K
    end ].
Ltac trans_cases H :=
  try (destruct (H "transa"%string KTrans ltac:(cbn; tauto)) as [?|[?|?]]);
  try (destruct (H "transb"%string KTrans ltac:(cbn; tauto)) as [?|[?|?]]);
  try (destruct (H "trans"%string KTrans ltac:(cbn; tauto)) as [?|[?|?]]).
