(** Concrete instances used by the examples and counterexamples: integers with NaN as numbers and a scripted
    backend that returns prescribed Ritz values and residuals. *)
From Coq Require Import List Arith ZArith Bool Lia Permutation.
Require Import Verif.Base Verif.AlgModel Verif.AlgSpec.
Import ListNotations.

(** integers with NaN; divisions truncate, log is the integer binary logarithm *)
Definition oz := option Z.
Definition lift2 (f : Z -> Z -> Z) (a b : oz) : oz := match a, b with Some x, Some y => Some (f x y) | _, _ => None end.
Definition lift1 (f : Z -> Z) (a : oz) : oz := option_map f a.
Definition zf : fops oz := {|
  f_add := lift2 Z.add; f_sub := lift2 Z.sub; f_mul := lift2 Z.mul;
  f_div := fun a b => match a, b with Some x, Some y => if Z.eqb y 0 then None else Some (Z.quot x y) | _, _ => None end;
  f_neg := lift1 Z.opp; f_abs := lift1 Z.abs;
  f_sqrt := fun a => match a with Some x => if Z.ltb x 0 then None else Some (Z.sqrt x) | None => None end;
  f_log := fun a => match a with Some x => if Z.leb x 0 then None else Some (Z.log2 x) | None => None end;
  f_ceil := fun a => a;
  f_pow := fun a n => lift1 (fun x => Z.pow x (Z.of_nat n)) a;
  f_lt := fun a b => match a, b with Some x, Some y => Z.ltb x y | _, _ => false end;
  f_zero := Some 0%Z; f_one := Some 1%Z; f_two := Some 2%Z; f_half := Some 0%Z;
  f_max := Some 1000000000%Z; f_of_nat := fun n => Some (Z.of_nat n);
  f_threshold := Some 0%Z; f_G := fun _ => Some 1%Z;
  f_to_size := fun a => match a with Some x => if Z.ltb x 0 then None else Some (Z.to_nat x) | None => None end |}.

(** scripted backend: column labels, locked counter, prescribed Ritz values and residuals for the next iterations *)
Record script := mk_script { sc_cols : list nat; sc_locked : nat; sc_sym : bool; sc_ub : oz; sc_lan : list oz * list oz;
  sc_rr : list (list oz); sc_resd : list (list oz) }.
Definition sc_with_cols c (s : script) := mk_script c (sc_locked s) (sc_sym s) (sc_ub s) (sc_lan s) (sc_rr s) (sc_resd s).
Definition sk : kernel oz script := {|
  k_sym := fun s => Ok (sc_sym s, s);
  k_start := fun s => Ok (mk_script (sc_cols s) 0 (sc_sym s) (sc_ub s) (sc_lan s) (sc_rr s) (sc_resd s));
  k_end := fun s => Ok s;
  k_init := fun _ s => Ok s;
  k_shift := fun _ _ s => Ok s;
  k_hemm := fun n _ _ off s => if sc_locked s + off + n <=? length (sc_cols s) then Ok s else UB;
  k_qr := fun _ _ s => Ok s;
  k_rr := fun n s => match sc_rr s with
            | [] => Ok (repeat (Some 0%Z) n, s)
            | v :: t => Ok (firstn n (v ++ repeat (Some 0%Z) n),
                            mk_script (sc_cols s) (sc_locked s) (sc_sym s) (sc_ub s) (sc_lan s) t (sc_resd s)) end;
  k_resd := fun _ l s => let n := length (sc_cols s) - l in match sc_resd s with
            | [] => Ok (repeat (Some 0%Z) n, s)
            | v :: t => Ok (firstn n (v ++ repeat (Some 0%Z) n),
                            mk_script (sc_cols s) (sc_locked s) (sc_sym s) (sc_ub s) (sc_lan s) (sc_rr s) t) end;
  k_swap := fun i j s => let! c := swap_ (sc_cols s) i j in Ok (sc_with_cols c s);
  k_lock := fun n s => Ok (mk_script (sc_cols s) (sc_locked s + n) (sc_sym s) (sc_ub s) (sc_lan s) (sc_rr s) (sc_resd s));
  k_lanczos1 := fun _ s => Ok (sc_ub s, s);
  k_lanczos2 := fun m nv s => Ok (sc_ub s, firstn (nv * m) (fst (sc_lan s) ++ repeat (Some 0%Z) (nv * m)),
                                  firstn (nv * m) (snd (sc_lan s) ++ repeat (Some 0%Z) (nv * m)), repeat (Some 0%Z) (m * m), s);
  k_dos := fun _ _ _ s => Ok s |}.

(** insertion sorts (stable) for std::sort *)
Fixpoint ins {A} (le : A -> A -> bool) (x : A) (l : list A) : list A :=
  match l with [] => [x] | y :: t => if le x y then x :: l else y :: ins le x t end.
Definition isort {A} (le : A -> A -> bool) (l : list A) : list A := fold_right (ins le) [] l.
Definition ozle (a b : oz) : bool := negb (f_lt zf b a).
Definition fsort_ex (l : list oz) : list oz := isort ozle l.
Definition sort_ex (keys : list oz) : list nat :=
  map snd (isort (fun a b => ozle (fst a) (fst b)) (combine keys (seq 0 (length keys)))).

Lemma ins_perm {A} le (x : A) l : Permutation (x :: l) (ins le x l).
Proof.
  induction l as [|y t IH]; simpl; auto. destruct (le x y); auto.
  eapply perm_trans; [apply perm_swap|]. auto.
Qed.
Lemma isort_perm {A} le (l : list A) : Permutation l (isort le l).
Proof. induction l; simpl; auto. eapply perm_trans; [|apply ins_perm]. auto. Qed.
Lemma combine_snd {A B} : forall (l : list A) (l' : list B), length l = length l' -> map snd (combine l l') = l'.
Proof. induction l; destruct l'; simpl; intros; try lia; auto. f_equal. apply IHl. lia. Qed.
Lemma sort_ex_perm keys : Permutation (sort_ex keys) (seq 0 (length keys)).
Proof.
  unfold sort_ex. eapply perm_trans; [apply Permutation_map; symmetry; apply isort_perm|].
  rewrite combine_snd; auto. now rewrite seq_length.
Qed.

(** the scripted backend respects the calling convention *)
Lemma sk_safe n : kernel_safe sk n (fun s => length (sc_cols s) = n) (fun l s => length (sc_cols s) = n /\ sc_locked s = l).
Proof.
  constructor; simpl.
  - eauto.
  - intros s H. eexists. split; [reflexivity|]. auto.
  - eauto.
  - eauto.
  - intros l m a b off s [H1 H2] H. rewrite H1, H2. replace (_ <=? _) with true by (symmetry; apply Nat.leb_le; lia). eauto.
  - eauto.
  - intros l s [H1 H2] H. destruct (sc_rr s); do 2 eexists; (split; [reflexivity|]); rewrite ?repeat_length; simpl; auto.
    split; auto. rewrite firstn_length, app_length, repeat_length. lia.
  - intros l v s [H1 H2] H H3. rewrite H1. destruct (sc_resd s); do 2 eexists; (split; [reflexivity|]); rewrite ?repeat_length; simpl; auto.
    split; auto. rewrite firstn_length, app_length, repeat_length. lia.
  - intros l i j s [H1 H2] Hi Hj.
    unfold swap_.
    destruct (rd_in (sc_cols s) i) as [x ->]; [lia|]. destruct (rd_in (sc_cols s) j) as [y ->]; [lia|]. simpl.
    rewrite wr_ok by lia. simpl. rewrite wr_ok by (rewrite upd_length; lia). simpl. eexists. split; [reflexivity|].
    simpl. now rewrite !upd_length.
  - intros l m s [H1 H2] H. eexists. split; [reflexivity|]. simpl. auto.
  - eauto.
  - intros m nv s [H1 H2] H H3. do 5 eexists. split; [reflexivity|]. rewrite !firstn_length, !app_length, !repeat_length. repeat split; auto; lia.
  - eauto.
  - eauto.
Qed.
