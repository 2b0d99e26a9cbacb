(** Column-wise loops on local arrays; the combination of the Lanczos vectors. *)
From Coq Require Import List Arith Bool ZArith Lia Ring_theory Ring.
Require Import Verif.Base Verif.AlgModel Verif.DlaModel Verif.ColModel Verif.DistModel Verif.DistSpec Verif.DistProofs Verif.DistProofs2 Verif.FlatModel Verif.FlatSpec Verif.FlatProofs Verif.FlatProofs2 Verif.FlatProofs4 Verif.RedistModel Verif.RedistSpec Verif.RedistProofs.
Require Import Verif.SpmdModel Verif.SpmdSpec Verif.SpmdProofs Verif.SpmdProofs2 Verif.KerModel Verif.KerSpec Verif.KerProofs1 Verif.KerProofs2 Verif.KerProofs3 Verif.KerProofs4 Verif.KerProofs5 Verif.KerProofs8 Verif.KerProofs9.
Require Import Verif.ClientModel Verif.DsModel Verif.DsSpec.
Require Import Verif.AlgProofs1 Verif.FilterProofs Verif.DsProofs1 Verif.DsProofs2 Verif.DsProofs3.
Import ListNotations.

Lemma for_ext_in {A} (f g : nat -> A -> res A) todo : forall i s, (forall k s, i <= k < i + todo -> f k s = g k s) -> for_ todo i f s = for_ todo i g s.
Proof.
  induction todo; intros i s H; [reflexivity|]. cbn [for_]. rewrite H by lia. destruct (g i s); cbn [bind]; auto. apply IHtodo. intros k s' Hk. apply H. lia.
Qed.
Lemma rd_map {A B} (f : A -> B) l i : rd (map f l) i = (let! x := rd l i in Ok (f x)).
Proof. unfold rd. rewrite nth_error_map. now destruct (nth_error l i). Qed.

Section Local.
Context {D : Type} (o : sops D) (RT : is_ring o).
Let rsub (x y : D) : D := sadd o x (sopp o y).
Let RT' : ring_theory (s0 o) (s1 o) (sadd o) (smul o) rsub (sopp o) eq := RT.
Add Ring Rl : RT'.
Notation V := (nat -> D).
Notation blk := (blk o).
Variables (rs : list nat).
Hypothesis Hm : 0 < length rs.
Notation m := (length rs).

Lemma flat_at (vs : list V) a c g : nth_error rs a = Some g -> c < length vs -> rd (flat rs vs) (c * m + a) = Ok (blk vs g c).
Proof. intros H1 H2. apply rd_ok. rewrite Nat.add_comm. now apply (flat_nth o). Qed.
Lemma row_at a : a < m -> exists g, nth_error rs a = Some g.
Proof. intros H. destruct (nth_error rs a) eqn:E; eauto. apply nth_error_None in E. lia. Qed.

(** array equal to a flattened block *)
Lemma is_flat (vs : list V) l : length l = length vs * m -> (forall a c g, nth_error rs a = Some g -> c < length vs -> nth_error l (a + c * m) = Some (blk vs g c)) -> l = flat rs vs.
Proof.
  intros L H. destruct (nth_error_carries o rs vs l) as [rest E]; [lia|auto|]. assert (X : length l = length (flat rs vs) + length rest) by (rewrite E at 1; apply app_length).
  rewrite flat_len, L in X. destruct rest; [|simpl in X; lia]. now rewrite app_nil_r in E.
Qed.
Lemma only_flat (vs : list V) W l l' : length l = length vs * m -> only_columns rs 0 (length vs) W l l' -> (forall c g, c < length vs -> In g rs -> W g c = blk vs g c) -> l' = flat rs vs.
Proof.
  intros L (L' & Hh & _) HW. apply is_flat; [congruence|]. intros a c g Ha Hc. rewrite <- HW by (auto; eapply nth_error_In; eauto). apply Hh; auto. lia.
Qed.

Lemma cols_loop (f : nat -> list D -> res (list D)) (body : nat -> nat -> list D -> res (list D)) (ys new : list V) :
  length new = length ys ->
  (forall i y, i < length ys -> f i y = for_ m 0 (body i) y) ->
  (forall i r g y, i < length ys -> nth_error rs r = Some g -> i * m + r < length y -> nth_error y (i * m + r) = Some (blk ys g i) -> body i r y = Ok (upd y (i * m + r) (blk new g i))) ->
  for_ (length ys) 0 f (flat rs ys) = Ok (flat rs new).
Proof.
  intros L Hf Hb. set (tgt := fun k => match nth_error rs (k mod m) with Some g => Some (blk new g (k / m)) | None => None end).
  destruct (for_run (fun i y => Verif.FlatProofs.prog m (flat rs ys) tgt (fun x c => x < m /\ c < i) y) (fun y => y = flat rs new) f (length ys) 0 (flat rs ys)) as (y & E & ->); [| | |exact E].
  - split; auto. intros k. split; [lia|auto].
  - intros i y Hi P. rewrite Hf by lia.
    apply (for_run (fun r y => Verif.FlatProofs.prog m (flat rs ys) tgt (fun x c => (x < m /\ c < i) \/ (c = i /\ x < r)) y)).
    + eapply prog_ext; [|exact P]. intros; cbv beta; lia.
    + intros r y1 [_ Hr] P1. destruct (row_at r ltac:(lia)) as [g Eg]. pose proof P1 as [L1 P2].
      assert (Hb1 : r + i * m < length (flat rs ys)) by (rewrite flat_len; nia).
      rewrite (Hb i r g) ; [|lia|auto|lia|].
      * eexists. split; [reflexivity|]. rewrite (Nat.add_comm (i * m)). assert (Et : tgt (r + i * m) = Some (blk new g i)) by (unfold tgt; now rewrite pos_mod, pos_div, Eg by lia).
        eapply prog_ext; [|exact (prog_upd m _ tgt _ y1 r i _ ltac:(lia) Hb1 Et P1)]. intros; cbv beta; lia.
      * rewrite (Nat.add_comm (i * m)). destruct (P2 (r + i * m)) as [_ P3]. rewrite P3 by (rewrite pos_mod, pos_div by lia; lia). apply flat_nth; auto. lia.
    + intros y1 P1. eapply prog_ext; [|exact P1]. intros; cbv beta; lia.
  - intros y [L1 P]. apply is_flat; [rewrite L1, flat_len; congruence|]. intros a c g Ha Hc. assert (a < m) by (apply nth_error_Some; congruence).
    destruct (P (a + c * m)) as [P1 _]. rewrite pos_mod, pos_div in P1 by lia. rewrite P1 by (simpl; lia). unfold tgt. now rewrite pos_mod, pos_div, Ha by lia.
Qed.

Lemma dots_ok (xs ys : list V) : length xs = length ys ->
  dots o m (length xs) (flat rs xs) (flat rs ys) = Ok (map (fun c => lsum o (map (fun g => smul o (scj o (blk xs g c)) (blk ys g c)) rs)) (seq 0 (length xs))).
Proof.
  intros L. unfold dots. set (val := fun c => lsum o (map (fun g => smul o (scj o (blk xs g c)) (blk ys g c)) rs)).
  destruct (for_run (fun i acc => acc = map val (seq 0 i)) (fun acc => acc = map val (seq 0 (length xs)))
    (fun i acc => let! d := dotp o m (fun r => let! a := rd (flat rs xs) (i * m + r) in Ok (scj o a)) (fun r => rd (flat rs ys) (i * m + r)) in Ok (acc ++ [d])) (length xs) 0 []) as (s & E & ->); auto.
  intros i s Hi ->. set (gt := fun t => nth t rs 0).
  assert (Eg : forall t, t < m -> nth_error rs t = Some (gt t)) by (intros t Ht; now apply nth_error_nth').
  rewrite (dotp_spec o m _ _ (fun t => scj o (blk xs (gt t) i)) (fun t => blk ys (gt t) i)).
  - cbn [bind]. eexists. split; [reflexivity|]. rewrite seq_S, map_app. simpl. f_equal. f_equal. unfold val.
    apply lsum_nth; auto. intros t x Hx. unfold gt. erewrite nth_error_nth by eauto. reflexivity.
  - intros t Ht. rewrite (flat_at xs t i (gt t)) by (auto; lia). reflexivity.
  - intros t Ht. apply flat_at; [auto|lia].
Qed.

Lemma axpys_ok (a : list D) (xs ys : list V) : length a = length ys -> length xs = length ys ->
  axpys o m (length ys) a (flat rs xs) (flat rs ys) = Ok (flat rs (zip (fun av y g => sadd o (y g) (smul o (fst av) (snd av g))) (combine a xs) ys)).
Proof.
  intros La Lx. unfold axpys. assert (Lc : length (combine a xs) = length ys) by (rewrite combine_length; lia).
  apply (cols_loop _ (fun i r y => let! u := rd (flat rs xs) (i * m + r) in let! v := rd y (i * m + r) in wr y (i * m + r) (sadd o v (smul o (nth i a (s0 o)) u)))).
  - rewrite zip_length; lia.
  - intros i y Hi. assert (E : rd a i = Ok (nth i a (s0 o))) by (apply rd_ok, nth_error_nth'; lia). now rewrite E.
  - intros i r g y Hi Hr Hb Hy. rewrite (flat_at xs r i g) by (auto; lia). cbn [bind]. assert (E : rd y (i * m + r) = Ok (blk ys g i)) by now apply rd_ok. rewrite E. cbn [bind].
    rewrite wr_ok by auto. f_equal. f_equal. unfold DsSpec.blk at 3. rewrite (nth_zip _ (combine a xs) ys i (s0 o, fun _ => s0 o) (fun _ => s0 o)) by lia. rewrite nth_combine by lia. reflexivity.
Qed.
Lemma scals_ok (a : list D) (ys : list V) : length a = length ys ->
  scals o m (length ys) a (flat rs ys) = Ok (flat rs (zip (fun a y g => smul o a (y g)) a ys)).
Proof.
  intros La. unfold scals.
  apply (cols_loop _ (fun i r y => let! v := rd y (i * m + r) in wr y (i * m + r) (smul o (nth i a (s0 o)) v))).
  - rewrite zip_length; lia.
  - intros i y Hi. assert (E : rd a i = Ok (nth i a (s0 o))) by (apply rd_ok, nth_error_nth'; lia). now rewrite E.
  - intros i r g y Hi Hr Hb Hy. assert (E : rd y (i * m + r) = Ok (blk ys g i)) by now apply rd_ok. rewrite E. cbn [bind].
    rewrite wr_ok by auto. f_equal. f_equal. unfold DsSpec.blk at 2. rewrite (nth_zip _ a ys i (s0 o) (fun _ => s0 o)) by lia. reflexivity.
Qed.
End Local.
