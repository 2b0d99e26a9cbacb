(** Common definitions: outcomes of C++ code fragments and checked array
    accesses.  [UB] is undefined behaviour (out-of-bounds access, unsigned
    underflow used as an index, ...); [Fuel] is a loop that did not finish
    within its fuel (theorems show it does not occur). *)
From Coq Require Import List Arith Lia.
Import ListNotations.

Inductive res (A : Type) : Type :=
| Ok : A -> res A
| UB : res A
| Fuel : res A.
Arguments Ok {A} _.
Arguments UB {A}.
Arguments Fuel {A}.

Definition bind {A B} (x : res A) (f : A -> res B) : res B :=
  match x with Ok a => f a | UB => UB | Fuel => Fuel end.

Notation "'let!' x ':=' e 'in' f" := (bind e (fun x => f))
  (at level 200, x pattern, e at level 100, f at level 200, right associativity).

(** checked read [l[i]] *)
Definition rd {A} (l : list A) (i : nat) : res A :=
  match nth_error l i with Some a => Ok a | None => UB end.

(** unchecked functional update, used only below the check in [wr] *)
Fixpoint upd {A} (l : list A) (i : nat) (v : A) : list A :=
  match l, i with
  | [], _ => []
  | _ :: t, O => v :: t
  | h :: t, S j => h :: upd t j v
  end.

(** checked write [l[i] = v] *)
Definition wr {A} (l : list A) (i : nat) (v : A) : res (list A) :=
  if i <? length l then Ok (upd l i v) else UB.

Lemma upd_length {A} (l : list A) i v : length (upd l i v) = length l.
Proof. revert i; induction l; destruct i; simpl; auto. Qed.

Lemma upd_same {A} (l : list A) i v : i < length l -> nth_error (upd l i v) i = Some v.
Proof. revert i; induction l; destruct i; simpl; intros; try lia; auto. apply IHl; lia. Qed.

Lemma upd_other {A} (l : list A) i j v : i <> j -> nth_error (upd l i v) j = nth_error l j.
Proof. revert i j; induction l; destruct i, j; simpl; intros; try lia; auto. Qed.

Lemma rd_ok {A} (l : list A) i a : rd l i = Ok a <-> nth_error l i = Some a.
Proof. unfold rd. destruct (nth_error l i); split; intros H; inversion H; auto. Qed.

Lemma rd_in {A} (l : list A) i : i < length l -> exists a, rd l i = Ok a.
Proof.
  intros H. unfold rd. destruct (nth_error l i) eqn:E; eauto.
  apply nth_error_None in E. lia.
Qed.

Lemma wr_ok {A} (l : list A) i v : i < length l -> wr l i v = Ok (upd l i v).
Proof. intros H. unfold wr. apply Nat.ltb_lt in H. now rewrite H. Qed.

Lemma wr_inv {A} (l l' : list A) i v : wr l i v = Ok l' -> i < length l /\ l' = upd l i v.
Proof. unfold wr. destruct (i <? length l) eqn:E; intros H; inversion H. apply Nat.ltb_lt in E. auto. Qed.

Lemma bind_ok {A B} (x : res A) (f : A -> res B) b :
  bind x f = Ok b <-> exists a, x = Ok a /\ f a = Ok b.
Proof.
  destruct x; simpl; split; intros H; try discriminate; eauto;
    destruct H as [a' [H1 H2]]; inversion H1; subst; auto.
Qed.

(** [for (i = i0; i < i0 + todo; ++i) body] *)
Fixpoint for_ {A} (todo i : nat) (body : nat -> A -> res A) (s : A) : res A :=
  match todo with
  | O => Ok s
  | S t => let! s' := body i s in for_ t (S i) body s'
  end.

Lemma for_inv {A} (P : nat -> A -> Prop) (body : nat -> A -> res A) : forall todo i s,
  P i s ->
  (forall k s, i <= k < i + todo -> P k s -> exists s', body k s = Ok s' /\ P (S k) s') ->
  exists s', for_ todo i body s = Ok s' /\ P (i + todo) s'.
Proof.
  induction todo; intros i s Hi Hb; simpl.
  - exists s. rewrite Nat.add_0_r. auto.
  - destruct (Hb i s) as (s' & -> & H); [lia|auto|]. simpl.
    destruct (IHtodo (S i) s' H) as (s2 & -> & H2).
    + intros; apply Hb; auto; lia.
    + exists s2. split; auto. now rewrite Nat.add_succ_r.
Qed.

(** partial-correctness version *)
Lemma for_inv_ok {A} (P : nat -> A -> Prop) (body : nat -> A -> res A) : forall todo i s s',
  P i s ->
  (forall k s s', i <= k < i + todo -> P k s -> body k s = Ok s' -> P (S k) s') ->
  for_ todo i body s = Ok s' -> P (i + todo) s'.
Proof.
  induction todo; intros i s s' Hi Hb; simpl.
  - intros H; inversion H; subst. now rewrite Nat.add_0_r.
  - intros H. apply bind_ok in H as (s1 & H1 & H2).
    rewrite Nat.add_succ_r. apply (IHtodo (S i) s1); auto.
    + eapply Hb; eauto. lia.
    + intros. eapply Hb; eauto. lia.
Qed.

(** checked copy out of / into an array: [l[off .. off+n)] *)
Definition get_range {A} (l : list A) (off n : nat) : res (list A) :=
  if off + n <=? length l then Ok (firstn n (skipn off l)) else UB.
Definition put_range {A} (l : list A) (off : nat) (xs : list A) : res (list A) :=
  if off + length xs <=? length l
  then Ok (firstn off l ++ xs ++ skipn (off + length xs) l) else UB.

Lemma put_range_ok {A} (l : list A) off xs : off + length xs <= length l ->
  put_range l off xs = Ok (firstn off l ++ xs ++ skipn (off + length xs) l).
Proof. intros H. unfold put_range. apply Nat.leb_le in H. now rewrite H. Qed.
Lemma get_range_ok {A} (l : list A) off n : off + n <= length l ->
  get_range l off n = Ok (firstn n (skipn off l)).
Proof. intros H. unfold get_range. apply Nat.leb_le in H. now rewrite H. Qed.
Lemma put_range_inv {A} (l l' : list A) off xs : put_range l off xs = Ok l' ->
  off + length xs <= length l /\ l' = firstn off l ++ xs ++ skipn (off + length xs) l.
Proof. unfold put_range. destruct (_ <=? _) eqn:E; intros H; inversion H. apply Nat.leb_le in E. auto. Qed.
Lemma get_range_inv {A} (l l' : list A) off n : get_range l off n = Ok l' ->
  off + n <= length l /\ l' = firstn n (skipn off l).
Proof. unfold get_range. destruct (_ <=? _) eqn:E; intros H; inversion H. apply Nat.leb_le in E. auto. Qed.
Lemma put_range_length {A} (l l' : list A) off xs : put_range l off xs = Ok l' -> length l' = length l.
Proof.
  intros H. apply put_range_inv in H as [H ->].
  rewrite !app_length, firstn_length, skipn_length. lia.
Qed.

(** exchange of two array elements *)
Definition swap_ {A} (l : list A) (k j : nat) : res (list A) :=
  let! tmp := rd l k in
  let! x := rd l j in
  let! l1 := wr l k x in
  wr l1 j tmp.
