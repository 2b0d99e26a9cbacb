(** Proofs about matrix files. *)
From Coq Require Import List Arith ZArith Bool Lia Permutation.
Require Import Verif.Base Verif.GridModel Verif.GridProofs Verif.SpmdModel Verif.DistSpec Verif.DistProofs2 Verif.FlatSpec Verif.IoModel Verif.IoSpec.
Import ListNotations.

Lemma io_count_ok m n : (Z.of_nat m * Z.of_nat n < 2 ^ 31)%Z -> io_count m n = Ok (m * n).
Proof.
  intros H. unfold io_count, cast_int. rewrite Z.mod_small by lia.
  replace (Z.of_nat m * Z.of_nat n + 2 ^ 31 - 2 ^ 31)%Z with (Z.of_nat (m * n)) by lia.
  destruct (Z.ltb_spec (Z.of_nat (m * n)) 0); [lia|]. now rewrite Nat2Z.id.
Qed.
Lemma cells_length N rows cols : length (cells N rows cols) = length rows * length cols.
Proof. unfold cells. induction cols as [|h cols IH]; cbn [flat_map length]; [lia|]. rewrite app_length, map_length, IH. lia. Qed.
Lemma in_cells N rows cols k : In k (cells N rows cols) <-> exists g h, In g rows /\ In h cols /\ k = g + N * h.
Proof.
  unfold cells. rewrite in_flat_map. split.
  - intros (h & Hh & Hk). apply in_map_iff in Hk as (g & <- & Hg). eauto.
  - intros (g & h & Hg & Hh & ->). exists h. split; auto. apply in_map_iff. eauto.
Qed.
Lemma cell_inj N g h g' h' : g < N -> g' < N -> g + N * h = g' + N * h' -> g = g' /\ h = h'.
Proof. intros Hg Hg' E. assert (h = h') by nia. subst. lia. Qed.
Lemma NoDup_map_inj {A B} (f : A -> B) l : (forall x y, In x l -> In y l -> f x = f y -> x = y) -> NoDup l -> NoDup (map f l).
Proof.
  induction l as [|a l IH]; intros Hf HN; cbn; [constructor|]. inversion HN; subst. constructor.
  - intros Hi. apply in_map_iff in Hi as (b & E & Hb). apply Hf in E; [subst; auto|now right|now left].
  - apply IH; auto. intros; apply Hf; auto; now right.
Qed.
Lemma NoDup_app_intro {A} (l l' : list A) : NoDup l -> NoDup l' -> (forall x, In x l -> In x l' -> False) -> NoDup (l ++ l').
Proof.
  induction l as [|a l IH]; intros H1 H2 H3; cbn; auto. inversion H1; subst. constructor.
  - rewrite in_app_iff. intros [H|H]; [auto|eapply H3; [left; reflexivity|exact H]].
  - apply IH; auto. intros x Hx Hx'. eapply H3; [right|]; eauto.
Qed.
Lemma cells_NoDup N rows cols : NoDup rows -> NoDup cols -> (forall g, In g rows -> g < N) -> NoDup (cells N rows cols).
Proof.
  intros HR HC HB. unfold cells. induction cols as [|h cols IH]; cbn [flat_map]; [constructor|]. inversion HC; subst. apply NoDup_app_intro.
  - apply NoDup_map_inj; auto. intros x y _ _. lia.
  - auto.
  - intros k Hk Hk'. apply in_map_iff in Hk as (g & <- & Hg). apply (in_cells N rows cols) in Hk' as (g' & h' & Hg' & Hh' & E).
    apply cell_inj in E as [_ ->]; auto.
Qed.
Lemma concat_NoDup {A} (f : nat -> list A) : forall P a, (forall r, a <= r < a + P -> NoDup (f r)) ->
  (forall r r' x, a <= r < a + P -> a <= r' < a + P -> In x (f r) -> In x (f r') -> r = r') -> NoDup (concat (map f (seq a P))).
Proof.
  induction P; intros a H1 H2; cbn; [constructor|]. apply NoDup_app_intro.
  - apply H1; lia.
  - apply IHP; intros; [apply H1; lia|]. eapply H2; eauto; lia.
  - intros x Hx Hx'. apply in_concat in Hx' as (l & Hl & Hx'). apply in_map_iff in Hl as (r & <- & Hr). apply in_seq in Hr.
    assert (a = r) by (eapply H2; eauto; lia). lia.
Qed.

(** element writes *)
Lemma after_other {T} (ws : list (nat * T)) : forall f k, ~ In k (map fst ws) -> after f ws k = f k.
Proof.
  induction ws as [|w ws IH]; intros f k H; cbn in *; auto. fold (after (put f w) ws). rewrite IH by tauto.
  unfold put. destruct (Nat.eqb_spec k (fst w)); auto. exfalso. apply H. left. auto.
Qed.
Lemma after_in {T} (ws : list (nat * T)) : forall f k v, NoDup (map fst ws) -> In (k, v) ws -> after f ws k = Some v.
Proof.
  induction ws as [|w ws IH]; intros f k v HN Hi; cbn in *; [tauto|]. inversion HN; subst. fold (after (put f w) ws).
  destruct Hi as [->|Hi]; [|auto]. rewrite after_other; auto. unfold put. cbn. now rewrite Nat.eqb_refl.
Qed.
Lemma map_fst_combine {A B} (l : list A) (l' : list B) : length l = length l' -> map fst (combine l l') = l.
Proof. revert l'; induction l; intros [|b l'] H; cbn in *; try discriminate; auto. f_equal. auto. Qed.
Lemma interleaved {T} P (w : nat -> list (nat * T)) ws f : interleaving P w ws ->
  (forall r, r < P -> NoDup (map fst (w r))) -> (forall r r' k, r < P -> r' < P -> In k (map fst (w r)) -> In k (map fst (w r')) -> r = r') ->
  forall r k v, r < P -> In (k, v) (w r) -> after f ws k = Some v.
Proof.
  intros HI H1 H2 r k v Hr Hk. apply after_in.
  - eapply Permutation_NoDup; [apply Permutation_map; exact HI|]. rewrite concat_map, map_map.
    apply concat_NoDup; intros; [apply H1; lia|]. eapply H2; eauto; lia.
  - eapply Permutation_in; [exact HI|]. apply in_concat. exists (w r). split; auto. apply in_map. apply in_seq. lia.
Qed.

(** a view that is walked through once *)
Lemma view_all_tail view ext : forall todo k, k + todo <= length view -> view_all view ext k todo = Ok (firstn todo (skipn k view)).
Proof.
  induction todo as [|t IH]; intros k H; [reflexivity|]. cbn [view_all]. unfold view_at. destruct (length view) as [|L] eqn:E; [lia|].
  rewrite Nat.mod_small, Nat.div_small by lia.
  destruct (nth_error view k) as [x|] eqn:Ex; [|apply nth_error_None in Ex; lia]. unfold rd. rewrite Ex. cbn [bind]. rewrite IH by lia. cbn [bind].
  assert (Es : skipn k view = x :: skipn (S k) view).
  { clear - Ex. revert k Ex; induction view; intros [|k] Ex; cbn in *; try discriminate; [now inversion Ex|auto]. }
  rewrite Es. reflexivity.
Qed.
Lemma view_all_once view ext : view_all view ext 0 (length view) = Ok view.
Proof. rewrite view_all_tail by lia. cbn [skipn]. now rewrite firstn_all. Qed.
Lemma write_once {T} view N m n (H : list T) : length view = m * n -> length H = m * n -> (Z.of_nat m * Z.of_nat n < 2 ^ 31)%Z ->
  write_view view N m n H = Ok (combine view H).
Proof.
  intros Hv HH Hc. unfold write_view. rewrite io_count_ok by auto. cbn [bind]. rewrite <- Hv, view_all_once. cbn [bind].
  unfold get_range. cbn [skipn Nat.add]. rewrite Hv, <- HH, Nat.leb_refl, firstn_all. reflexivity.
Qed.

(** the stored matrix next to the positions *)
Lemma cells_nth N rows cols : forall x y g h, nth_error rows x = Some g -> nth_error cols y = Some h ->
  nth_error (cells N rows cols) (x + y * length rows) = Some (g + N * h).
Proof.
  unfold cells. induction cols as [|h' cols IH]; intros x y g h Hx Hy; [destruct y; discriminate|]. cbn [flat_map].
  assert (Hl : x < length rows) by (apply nth_error_Some; congruence). destruct y as [|y]; cbn [nth_error] in Hy.
  - inversion Hy; subst. rewrite nth_error_app1 by (rewrite map_length; lia). rewrite Nat.add_0_r, nth_error_map, Hx. reflexivity.
  - rewrite nth_error_app2 by (rewrite map_length; cbn; lia). rewrite map_length. replace (x + S y * length rows - length rows) with (x + y * length rows) by (cbn; lia). auto.
Qed.
Lemma combine_nth_error {A B} (l : list A) : forall (l' : list B) k a b, nth_error l k = Some a -> nth_error l' k = Some b -> nth_error (combine l l') k = Some (a, b).
Proof. induction l as [|x l IH]; intros [|y l'] [|k] a b H1 H2; cbn in *; try discriminate; [congruence|auto]. Qed.
Lemma written_cell {T} N rows cols (G : nat -> nat -> T) H g h : stores rows cols (length rows) G H -> In g rows -> In h cols ->
  In (g + h * N, G g h) (combine (cells N rows cols) H).
Proof.
  intros HS Hg Hh. apply In_nth_error in Hg as (x & Hx). apply In_nth_error in Hh as (y & Hy).
  apply nth_error_In with (x + y * length rows). rewrite (Nat.mul_comm h). apply combine_nth_error; [now apply cells_nth|now apply HS].
Qed.

Section Family.
Context {T : Type} (N P p q : nat) (co : nat -> nat * nat) (rows cols : nat -> list nat).
Hypothesis HB : forall r, r < P -> fst (co r) < p /\ snd (co r) < q.
Hypothesis HI : forall r r', r < P -> r' < P -> co r = co r' -> r = r'.
Hypothesis HS : forall i j, i < p -> j < q -> exists r, r < P /\ co r = (i, j).
Hypothesis HR : forall i g, i < p -> In g (rows i) -> g < N.
Hypothesis HR1 : forall i, i < p -> NoDup (rows i).
Hypothesis HR2 : forall i i' g, i < p -> i' < p -> In g (rows i) -> In g (rows i') -> i = i'.
Hypothesis HR3 : forall g, g < N -> exists i, i < p /\ In g (rows i).
Hypothesis HC1 : forall j, j < q -> NoDup (cols j).
Hypothesis HC2 : forall j j' h, j < q -> j' < q -> In h (cols j) -> In h (cols j') -> j = j'.
Hypothesis HC3 : forall h, h < N -> exists j, j < q /\ In h (cols j).

Lemma cells_disjoint r r' k : r < P -> r' < P -> In k (cells N (rows (fst (co r))) (cols (snd (co r)))) ->
  In k (cells N (rows (fst (co r'))) (cols (snd (co r')))) -> r = r'.
Proof.
  intros Hr Hr' H1 H2. apply in_cells in H1 as (g & h & Hg & Hh & ->). apply in_cells in H2 as (g' & h' & Hg' & Hh' & E).
  destruct (HB r Hr), (HB r' Hr'). apply cell_inj in E as [-> ->]; [|eauto|eauto].
  apply HI; auto. destruct (co r), (co r'). cbn [fst snd] in *. f_equal; eauto.
Qed.
Lemma family_file (G : nat -> nat -> T) (H : nat -> list T) w ws f :
  (forall r, r < P -> stores (rows (fst (co r))) (cols (snd (co r))) (length (rows (fst (co r)))) G (H r) /\
     length (H r) = length (rows (fst (co r))) * length (cols (snd (co r))) /\
     w r = combine (cells N (rows (fst (co r))) (cols (snd (co r)))) (H r)) ->
  interleaving P w ws -> matrix_file N G (after f ws).
Proof.
  intros HW Hws g h Hg Hh. destruct (HR3 g Hg) as (i & Hi & Hgi). destruct (HC3 h Hh) as (j & Hj & Hhj). destruct (HS i j Hi Hj) as (r & Hr & E).
  assert (K : forall r, r < P -> map fst (w r) = cells N (rows (fst (co r))) (cols (snd (co r)))).
  { intros r' Hr'. destruct (HW r' Hr') as (_ & L & ->). apply map_fst_combine. now rewrite cells_length. }
  eapply interleaved; [exact Hws| | |exact Hr|].
  - intros r' Hr'. rewrite K by auto. destruct (HB r' Hr'). apply cells_NoDup; eauto.
  - intros r1 r2 k H1 H2. rewrite !K by auto. now apply cells_disjoint.
  - destruct (HW r Hr) as (S & _ & ->). rewrite E in *. cbn [fst snd] in *. now apply written_cell.
Qed.
End Family.

Lemma grid_facts cm p q : (forall r, r < p * q -> fst (grid_coord cm p q r) < p /\ snd (grid_coord cm p q r) < q) /\
  (forall r r', r < p * q -> r' < p * q -> grid_coord cm p q r = grid_coord cm p q r' -> r = r') /\
  (forall i j, i < p -> j < q -> exists r, r < p * q /\ grid_coord cm p q r = (i, j)).
Proof.
  repeat split.
  - destruct (grid_rank_coord cm p q r H) as (A & B & _); auto.
  - destruct (grid_rank_coord cm p q r H) as (A & B & _); auto.
  - intros r r' Hr Hr' E. destruct (grid_rank_coord cm p q r Hr) as (_ & _ & A). destruct (grid_rank_coord cm p q r' Hr') as (_ & _ & B). rewrite <- A, <- B, E. reflexivity.
  - intros i j Hi Hj. exists (grid_rank cm p q i j). split; [now apply grid_rank_lt|now apply grid_coord_rank].
Qed.

Lemma owned_zero N b p i : darray_dim N b p i = owned N b p 0 i.
Proof. unfold darray_dim, owned, owner. apply filter_ext. intros g. now rewrite Nat.add_0_r. Qed.
Lemma darray_owned N p q mb nb r : darray N p q mb nb r = cells N (owned N mb p 0 (fst (grid_coord false p q r))) (owned N nb q 0 (snd (grid_coord false p q r))).
Proof. unfold darray. now rewrite !owned_zero. Qed.

(** block-cyclic, row-major grid, source (0, 0) *)
Theorem cyclic_file {T} N p q mb nb (G : nat -> nat -> T) (H : nat -> list T) : 0 < p -> 0 < q ->
  (forall r, r < p * q -> let rows := owned N mb p 0 (fst (grid_coord false p q r)) in let cols := owned N nb q 0 (snd (grid_coord false p q r)) in
     stores rows cols (length rows) G (H r) /\ length (H r) = length rows * length cols /\ (Z.of_nat (length rows) * Z.of_nat (length cols) < 2 ^ 31)%Z) ->
  exists w, (forall r, r < p * q -> write_cyclic_mpi N p q mb nb r (length (owned N mb p 0 (fst (grid_coord false p q r))))
                                      (length (owned N nb q 0 (snd (grid_coord false p q r)))) (H r) = Ok (w r)) /\
    forall ws f, interleaving (p * q) w ws -> matrix_file N G (after f ws).
Proof.
  intros Hp Hq HH. exists (fun r => combine (darray N p q mb nb r) (H r)). split.
  - intros r Hr. destruct (HH r Hr) as (A & B & C). apply write_once; auto. rewrite darray_owned. apply cells_length.
  - intros ws f Hws. destruct (grid_facts false p q) as (F1 & F2 & F3).
    apply (family_file N (p * q) p q (grid_coord false p q) (fun i => owned N mb p 0 i) (fun j => owned N nb q 0 j)) with (H := H) (w := fun r => combine (darray N p q mb nb r) (H r)); auto.
    + intros i g _ Hg. apply in_owned in Hg. tauto.
    + intros i _. apply owned_NoDup.
    + intros i i' g _ _ A B. apply in_owned in A, B. destruct A, B. congruence.
    + intros g Hg. exists (owner mb p 0 g). rewrite in_owned. split; auto. apply Nat.mod_upper_bound. lia.
    + intros j _. apply owned_NoDup.
    + intros i i' g _ _ A B. apply in_owned in A, B. destruct A, B. congruence.
    + intros g Hg. exists (owner nb q 0 g). rewrite in_owned. split; auto. apply Nat.mod_upper_bound. lia.
    + intros r Hr. destruct (HH r Hr) as (A & B & _). rewrite darray_owned. auto.
Qed.

(** block-block, either order of the grid *)
Theorem block_file {T} cm N p q off0 off1 m n (G : nat -> nat -> T) (H : nat -> list T) : partitions N p off0 m -> partitions N q off1 n ->
  (forall r, r < p * q -> let i := fst (grid_coord cm p q r) in let j := snd (grid_coord cm p q r) in
     stores (seq (off0 i) (m i)) (seq (off1 j) (n j)) (m i) G (H r) /\ length (H r) = m i * n j /\ (Z.of_nat (m i) * Z.of_nat (n j) < 2 ^ 31)%Z) ->
  exists w, (forall r, r < p * q -> let i := fst (grid_coord cm p q r) in let j := snd (grid_coord cm p q r) in
               write_block_mpi N (m i) (n j) (off0 i) (off1 j) (H r) = Ok (w r)) /\
    forall ws f, interleaving (p * q) w ws -> matrix_file N G (after f ws).
Proof.
  intros [P1 P2] [Q1 Q2] HH.
  exists (fun r => combine (subarray N (m (fst (grid_coord cm p q r))) (n (snd (grid_coord cm p q r))) (off0 (fst (grid_coord cm p q r))) (off1 (snd (grid_coord cm p q r)))) (H r)). split.
  - intros r Hr. cbv zeta. destruct (HH r Hr) as (A & B & C). apply write_once; auto. unfold subarray. now rewrite cells_length, !seq_length.
  - intros ws f Hws. destruct (grid_facts cm p q) as (F1 & F2 & F3).
    assert (U : forall d (off s : nat -> nat), (forall g, g < N -> exists i, i < d /\ off i <= g < off i + s i /\ forall j, j < d -> off j <= g < off j + s j -> j = i) ->
      (forall i g, i < d -> off i <= g < off i + s i -> g < N) ->
      (forall i i' g, i < d -> i' < d -> In g (seq (off i) (s i)) -> In g (seq (off i') (s i')) -> i = i') /\ (forall g, g < N -> exists i, i < d /\ In g (seq (off i) (s i)))).
    { intros d off s X Y. split.
      - intros i i' g Hi Hi' A B. apply in_seq in A, B. destruct (X g (Y i g Hi A)) as (k & _ & _ & U). rewrite (U i), (U i'); auto.
      - intros g Hg. destruct (X g Hg) as (i & Hi & A & _). exists i. rewrite in_seq. auto. }
    destruct (U p off0 m P1 P2) as [U1 U2]. destruct (U q off1 n Q1 Q2) as [U3 U4].
    apply (family_file N (p * q) p q (grid_coord cm p q) (fun i => seq (off0 i) (m i)) (fun j => seq (off1 j) (n j))) with (H := H) (w := fun r => combine (subarray N (m (fst (grid_coord cm p q r))) (n (snd (grid_coord cm p q r))) (off0 (fst (grid_coord cm p q r))) (off1 (snd (grid_coord cm p q r)))) (H r)); auto.
    + intros i g Hi Hg. apply in_seq in Hg. eauto.
    + intros. apply seq_NoDup.
    + intros. apply seq_NoDup.
    + intros r Hr. destruct (HH r Hr) as (A & B & _). rewrite !seq_length. auto.
Qed.

Lemma file_contents {T} N (G : nat -> nat -> T) f l : matrix_file N G f -> contents f l -> length l = N * N -> in_file l N G.
Proof.
  intros HM HC HL. split; auto. intros g h Hg Hh. destruct (nth_error l (g + h * N)) as [x|] eqn:E.
  - apply HC in E as E'. rewrite HM in E' by auto. congruence.
  - apply nth_error_None in E. nia.
Qed.

(** every process reads back what it wrote *)
Definition at_view (view : list nat) (ext k : nat) : nat := k / length view * ext + nth (k mod length view) view 0.
Lemma view_all_map view ext : view <> [] -> forall todo k, view_all view ext k todo = Ok (map (at_view view ext) (seq k todo)).
Proof.
  intros Hv. assert (L : length view <> 0) by (destruct view; cbn; congruence).
  induction todo as [|t IH]; intros k; [reflexivity|]. cbn [view_all seq map]. rewrite IH. unfold view_at.
  destruct (length view) as [|z] eqn:E; [lia|]. rewrite <- E in *.
  destruct (nth_error view (k mod length view)) as [x|] eqn:Ex; [|apply nth_error_None in Ex; pose proof (Nat.mod_upper_bound k (length view)); lia].
  unfold rd. rewrite Ex. cbn [bind]. unfold at_view. now rewrite (nth_error_nth _ _ 0 Ex).
Qed.
Lemma at_view_inj view ext k k' : NoDup view -> (forall x, In x view -> x < ext) -> view <> [] ->
  at_view view ext k = at_view view ext k' -> k = k'.
Proof.
  intros HN HE Hv E. assert (L : length view <> 0) by (destruct view; cbn; congruence). unfold at_view in E.
  pose proof (Nat.mod_upper_bound k _ L). pose proof (Nat.mod_upper_bound k' _ L).
  assert (A : nth (k mod length view) view 0 < ext) by (apply HE, nth_In; auto).
  assert (B : nth (k' mod length view) view 0 < ext) by (apply HE, nth_In; auto).
  assert (k / length view = k' / length view) by nia.
  assert (C : nth (k mod length view) view 0 = nth (k' mod length view) view 0) by nia.
  apply (proj1 (NoDup_nth view 0) HN) in C; auto. rewrite (Nat.div_mod k (length view)), (Nat.div_mod k' (length view)) by auto. congruence.
Qed.
Lemma at_view_mod view ext k : (forall x, In x view -> x < ext) -> view <> [] -> In (at_view view ext k mod ext) view.
Proof.
  intros HE Hv. assert (L : length view <> 0) by (destruct view; cbn; congruence). unfold at_view.
  assert (I : In (nth (k mod length view) view 0) view) by (apply nth_In, Nat.mod_upper_bound; auto).
  pose proof (HE _ I). rewrite Nat.add_comm, Nat.mod_add by lia. rewrite Nat.mod_small; auto.
Qed.
Lemma fetch_all {T} (f : file T) : forall ps xs, length ps = length xs -> (forall k v, In (k, v) (combine ps xs) -> f k = Some v) -> fetch f ps = Ok xs.
Proof.
  induction ps as [|k ps IH]; intros [|x xs] L H; cbn in *; try discriminate; auto. rewrite (H k x) by auto. rewrite (IH xs); auto.
Qed.

Theorem views_roundtrip {T} N P (v : nat -> list nat) (m n : nat -> nat) (H : nat -> list T) :
  (forall r, r < P -> v r <> [] /\ NoDup (v r) /\ (forall x, In x (v r) -> x < N * N)) ->
  (forall r r' x, r < P -> r' < P -> In x (v r) -> In x (v r') -> r = r') ->
  (forall r, r < P -> length (H r) = m r * n r /\ (Z.of_nat (m r) * Z.of_nat (n r) < 2 ^ 31)%Z) ->
  exists w, (forall r, r < P -> write_view (v r) N (m r) (n r) (H r) = Ok (w r)) /\
    forall ws f r buf, interleaving P w ws -> r < P -> length buf = m r * n r -> read_view (v r) N (m r) (n r) (after f ws) buf = Ok (H r).
Proof.
  intros HV HD HH. set (ps := fun r => map (at_view (v r) (N * N)) (seq 0 (m r * n r))).
  exists (fun r => combine (ps r) (H r)). split.
  - intros r Hr. destruct (HH r Hr) as [L C]. destruct (HV r Hr) as (V1 & _). unfold write_view. rewrite io_count_ok by auto. cbn [bind].
    rewrite view_all_map by auto. cbn [bind]. unfold get_range. cbn [skipn Nat.add]. rewrite <- L, Nat.leb_refl, firstn_all. cbn [bind]. unfold ps. now rewrite L.
  - intros ws f r buf Hws Hr Hb. destruct (HH r Hr) as [L C]. destruct (HV r Hr) as (V1 & _). unfold read_view. rewrite io_count_ok by auto. cbn [bind].
    rewrite view_all_map by auto. cbn [bind]. fold (ps r).
    assert (LP : forall r, r < P -> length (ps r) = length (H r)) by (intros r' Hr'; unfold ps; rewrite map_length, seq_length; symmetry; now apply HH).
    rewrite (fetch_all _ (ps r) (H r)).
    + cbn [bind]. unfold put_range. cbn [Nat.add]. rewrite L, <- Hb, Nat.leb_refl. f_equal. cbn [firstn app]. rewrite skipn_all2 by lia. apply app_nil_r.
    + now apply LP.
    + intros k x Hk. eapply interleaved; [exact Hws| | |exact Hr|exact Hk].
      * intros r' Hr'. cbv beta. rewrite map_fst_combine by now apply LP. destruct (HV r' Hr') as (X & Y & Z). apply NoDup_map_inj; [|apply seq_NoDup].
        intros a b _ _. now apply at_view_inj.
      * intros r1 r2 a H1 H2. cbv beta. rewrite !map_fst_combine by now apply LP. intros A B. apply in_map_iff in A as (x1 & <- & _). apply in_map_iff in B as (x2 & E & _).
        destruct (HV r1 H1) as (X1 & _ & Z1). destruct (HV r2 H2) as (X2 & _ & Z2).
        pose proof (at_view_mod (v r1) (N * N) x1 Z1 X1) as M1. pose proof (at_view_mod (v r2) (N * N) x2 Z2 X2) as M2. rewrite E in M2. eauto.
Qed.

(** block-cyclic files, any order of the grid and any source: every process gets its local matrix back *)
Theorem cyclic_roundtrip {T} cm N p q mb nb rsrc csrc (H : nat -> list T) :
  (forall i, i < p -> owned N mb p 0 i <> []) -> (forall j, j < q -> owned N nb q 0 j <> []) ->
  let m := fun r => length (owned N mb p rsrc (fst (grid_coord cm p q r))) in
  let n := fun r => length (owned N nb q csrc (snd (grid_coord cm p q r))) in
  (forall r, r < p * q -> length (H r) = m r * n r /\ (Z.of_nat (m r) * Z.of_nat (n r) < 2 ^ 31)%Z) ->
  exists w, (forall r, r < p * q -> write_cyclic_mpi N p q mb nb r (m r) (n r) (H r) = Ok (w r)) /\
    forall ws f r buf, interleaving (p * q) w ws -> r < p * q -> length buf = m r * n r ->
      read_cyclic_mpi N p q mb nb r (m r) (n r) (after f ws) buf = Ok (H r).
Proof.
  intros HR HC m n HH. destruct (grid_facts false p q) as (F1 & F2 & F3).
  apply (views_roundtrip N (p * q) (darray N p q mb nb) m n H); auto.
  - intros r Hr. destruct (F1 r Hr) as [A B]. rewrite darray_owned. split; [|split].
    + intros E. apply (f_equal (@length nat)) in E. rewrite cells_length in E. cbn [length] in E.
      apply Nat.eq_mul_0 in E as [E|E]; apply length_zero_iff_nil in E; [now apply (HR _ A)|now apply (HC _ B)].
    + apply cells_NoDup; try apply owned_NoDup. intros g Hg. apply in_owned in Hg. tauto.
    + intros x Hx. apply in_cells in Hx as (g & h & Hg & Hh & ->). apply in_owned in Hg, Hh. nia.
  - intros r r' x Hr Hr'. rewrite !darray_owned.
    apply (cells_disjoint N (p * q) p q (grid_coord false p q) (fun i => owned N mb p 0 i) (fun j => owned N nb q 0 j)); auto.
    + intros i g _ Hg. apply in_owned in Hg. tauto.
    + intros i i' g _ _ A B. apply in_owned in A, B. destruct A, B. congruence.
    + intros i i' g _ _ A B. apply in_owned in A, B. destruct A, B. congruence.
Qed.
Theorem block_roundtrip {T} cm N p q off0 off1 m n (H : nat -> list T) : partitions N p off0 m -> partitions N q off1 n ->
  (forall i, i < p -> 0 < m i) -> (forall j, j < q -> 0 < n j) ->
  (forall r, r < p * q -> let i := fst (grid_coord cm p q r) in let j := snd (grid_coord cm p q r) in
     length (H r) = m i * n j /\ (Z.of_nat (m i) * Z.of_nat (n j) < 2 ^ 31)%Z) ->
  exists w, (forall r, r < p * q -> let i := fst (grid_coord cm p q r) in let j := snd (grid_coord cm p q r) in
               write_block_mpi N (m i) (n j) (off0 i) (off1 j) (H r) = Ok (w r)) /\
    forall ws f r buf, interleaving (p * q) w ws -> r < p * q -> let i := fst (grid_coord cm p q r) in let j := snd (grid_coord cm p q r) in
      length buf = m i * n j -> read_block_mpi N (m i) (n j) (off0 i) (off1 j) (after f ws) buf = Ok (H r).
Proof.
  intros [P1 P2] [Q1 Q2] Hm Hn HH. destruct (grid_facts cm p q) as (F1 & F2 & F3).
  assert (U : forall d (off s : nat -> nat), (forall g, g < N -> exists i, i < d /\ off i <= g < off i + s i /\ forall j, j < d -> off j <= g < off j + s j -> j = i) ->
      (forall i g, i < d -> off i <= g < off i + s i -> g < N) ->
      forall i i' g, i < d -> i' < d -> In g (seq (off i) (s i)) -> In g (seq (off i') (s i')) -> i = i').
  { intros d off s X Y i i' g Hi Hi' A B. apply in_seq in A, B. destruct (X g (Y i g Hi A)) as (k & _ & _ & U). rewrite (U i), (U i'); auto. }
  apply (views_roundtrip N (p * q) (fun r => subarray N (m (fst (grid_coord cm p q r))) (n (snd (grid_coord cm p q r))) (off0 (fst (grid_coord cm p q r))) (off1 (snd (grid_coord cm p q r))))
           (fun r => m (fst (grid_coord cm p q r))) (fun r => n (snd (grid_coord cm p q r))) H); auto.
  - intros r Hr. destruct (F1 r Hr) as [A B]. unfold subarray. split; [|split].
    + intros E. apply (f_equal (@length nat)) in E. rewrite cells_length, !seq_length in E. cbn in E. pose proof (Hm _ A). pose proof (Hn _ B). nia.
    + apply cells_NoDup; try apply seq_NoDup. intros g Hg. apply in_seq in Hg. eauto.
    + intros x Hx. apply in_cells in Hx as (g & h & Hg & Hh & ->). apply in_seq in Hg, Hh. pose proof (P2 _ _ A Hg). pose proof (Q2 _ _ B Hh). nia.
  - intros r r' x Hr Hr'. unfold subarray.
    apply (cells_disjoint N (p * q) p q (grid_coord cm p q) (fun i => seq (off0 i) (m i)) (fun j => seq (off1 j) (n j))); eauto.
    intros i g Hi Hg. apply in_seq in Hg. eauto.
Qed.

(** 2 x 3 processes, 3 x 3 symmetric matrix *)
Definition io_G (g h : nat) : nat := nth h (nth g [[1; 2; 3]; [2; 5; 6]; [3; 6; 9]] []) 0.
Definition io_part (rows cols : list nat) : list nat := flat_map (fun h => map (fun g => io_G g h) rows) cols.
Definition written (N p q mb nb : nat) (m n : nat -> nat) (H : nat -> list nat) : list (nat * nat) :=
  concat (map (fun r => match write_cyclic_mpi N p q mb nb r (m r) (n r) (H r) with Ok w => w | _ => [] end) (seq 0 (p * q))).
Lemma part_stores rows cols : stores rows cols (length rows) io_G (io_part rows cols).
Proof.
  unfold io_part. induction cols as [|h' cols IH]; intros x y g h Hx Hy; [destruct y; discriminate|]. cbn [flat_map].
  assert (Hl : x < length rows) by (apply nth_error_Some; congruence). destruct y as [|y]; cbn [nth_error] in Hy.
  - inversion Hy; subst. rewrite nth_error_app1 by (rewrite map_length; lia). rewrite Nat.add_0_r, nth_error_map, Hx. reflexivity.
  - rewrite nth_error_app2 by (rewrite map_length; cbn; lia). rewrite map_length. replace (x + S y * length rows - length rows) with (x + y * length rows) by (cbn; lia). now apply IH.
Qed.
Lemma col_major_witness : exists N p q mb nb (G : nat -> nat -> nat) H w,
  (forall g h, g < N -> h < N -> G g h = G h g) /\
  (forall r, r < p * q -> let rows := owned N mb p 0 (fst (grid_coord true p q r)) in let cols := owned N nb q 0 (snd (grid_coord true p q r)) in
     stores rows cols (length rows) G (H r) /\ length (H r) = length rows * length cols /\
     write_cyclic_mpi N p q mb nb r (length rows) (length cols) (H r) = Ok (w r)) /\
  forall ws f, interleaving (p * q) w ws -> ~ matrix_file N G (after f ws).
Proof.
  set (R := fun r => owned 3 1 2 0 (fst (grid_coord true 2 3 r))). set (C := fun r => owned 3 1 3 0 (snd (grid_coord true 2 3 r))).
  set (H := fun r => io_part (R r) (C r)).
  set (w := fun r => match write_cyclic_mpi 3 2 3 1 1 r (length (R r)) (length (C r)) (H r) with Ok w => w | _ => [] end).
  exists 3, 2, 3, 1, 1, io_G, H, w. split; [|split].
  - intros g h Hg Hh. destruct g as [|[|[|g]]]; [| | |lia]; (destruct h as [|[|[|h]]]; [| | |lia]); reflexivity.
  - intros r Hr. cbv zeta. split; [apply part_stores|]. do 6 (destruct r as [|r]; [split; reflexivity|]). lia.
  - intros ws f Hws M. specialize (M 0 2 ltac:(lia) ltac:(lia)).
    assert (E : after f ws (0 + 2 * 3) = Some 2); [|rewrite E in M; discriminate].
    apply after_in.
    + eapply Permutation_NoDup; [apply Permutation_map; exact Hws|]. vm_compute.
      repeat (constructor; [intros X; repeat (destruct X as [X|X]; [discriminate|]); exact X|]). constructor.
    + eapply Permutation_in; [exact Hws|]. vm_compute. tauto.
Qed.
Lemma source_witness : exists N p q mb nb rsrc csrc (G : nat -> nat -> nat) H w, rsrc < p /\ csrc < q /\
  (forall g h, g < N -> h < N -> G g h = G h g) /\
  (forall r, r < p * q -> let rows := owned N mb p rsrc (fst (grid_coord false p q r)) in let cols := owned N nb q csrc (snd (grid_coord false p q r)) in
     stores rows cols (length rows) G (H r) /\ length (H r) = length rows * length cols /\
     write_cyclic_mpi N p q mb nb r (length rows) (length cols) (H r) = Ok (w r)) /\
  forall ws f, interleaving (p * q) w ws -> ~ matrix_file N G (after f ws).
Proof.
  set (R := fun r => owned 2 1 2 1 (fst (grid_coord false 2 1 r))). set (C := fun r => owned 2 1 1 0 (snd (grid_coord false 2 1 r))).
  set (H := fun r => io_part (R r) (C r)).
  set (w := fun r => match write_cyclic_mpi 2 2 1 1 1 r (length (R r)) (length (C r)) (H r) with Ok w => w | _ => [] end).
  exists 2, 2, 1, 1, 1, 1, 0, io_G, H, w. split; [lia|]. split; [lia|]. split; [|split].
  - intros g h Hg Hh. destruct g as [|[|g]]; [| |lia]; (destruct h as [|[|h]]; [| |lia]); reflexivity.
  - intros r Hr. cbv zeta. split; [apply part_stores|]. do 2 (destruct r as [|r]; [split; reflexivity|]). lia.
  - intros ws f Hws M. specialize (M 0 0 ltac:(lia) ltac:(lia)).
    assert (E : after f ws (0 + 0 * 2) = Some 2); [|rewrite E in M; discriminate].
    apply after_in.
    + eapply Permutation_NoDup; [apply Permutation_map; exact Hws|]. vm_compute.
      repeat (constructor; [intros X; repeat (destruct X as [X|X]; [discriminate|]); exact X|]). constructor.
    + eapply Permutation_in; [exact Hws|]. vm_compute. tauto.
Qed.
(** local blocks with 2^31 or more elements *)
Lemma large_block {T} view N m n (H : list T) :
  ((2 ^ 31 <= Z.of_nat m * Z.of_nat n < 2 ^ 32)%Z -> write_view view N m n H = UB) /\
  ((Z.of_nat m * Z.of_nat n = 2 ^ 32)%Z -> write_view view N m n H = Ok []).
Proof.
  unfold write_view, io_count, cast_int. split; intros E.
  - replace ((Z.of_nat m * Z.of_nat n + 2 ^ 31) mod 2 ^ 32 - 2 ^ 31)%Z with (Z.of_nat m * Z.of_nat n - 2 ^ 32)%Z.
    + destruct (Z.ltb_spec (Z.of_nat m * Z.of_nat n - 2 ^ 32) 0); [reflexivity|lia].
    + replace (Z.of_nat m * Z.of_nat n + 2 ^ 31)%Z with ((Z.of_nat m * Z.of_nat n - 2 ^ 31) + 1 * 2 ^ 32)%Z by lia. rewrite Z.mod_add, Z.mod_small by lia. lia.
  - rewrite E. cbn [bind]. reflexivity.
Qed.

(** written through MPI-IO, read with a stream by any process of any grid *)
Theorem write_then_stream_read {T} N p q mb nb (G : nat -> nat -> T) (H : nat -> list T) : 0 < p -> 0 < q ->
  (forall r, r < p * q -> let rows := owned N mb p 0 (fst (grid_coord false p q r)) in let cols := owned N nb q 0 (snd (grid_coord false p q r)) in
     stores rows cols (length rows) G (H r) /\ length (H r) = length rows * length cols /\ (Z.of_nat (length rows) * Z.of_nat (length cols) < 2 ^ 31)%Z) ->
  exists w, (forall r, r < p * q -> write_cyclic_mpi N p q mb nb r (length (owned N mb p 0 (fst (grid_coord false p q r))))
                                      (length (owned N nb q 0 (snd (grid_coord false p q r)))) (H r) = Ok (w r)) /\
    forall ws f l, interleaving (p * q) w ws -> contents (after f ws) l -> length l = N * N -> in_file l N G.
Proof.
  intros Hp Hq HH. destruct (cyclic_file N p q mb nb G H Hp Hq HH) as (w & A & B). exists w. split; auto.
  intros ws f l Hws HC HL. eapply file_contents; eauto.
Qed.
