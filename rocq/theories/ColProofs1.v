(** Proofs about the column backends: no call leaves its buffers. *)
From Coq Require Import List Arith ZArith Bool Lia.
Require Import Verif.Base Verif.AlgModel Verif.AlgSpec Verif.AlgProofs1 Verif.DlaModel Verif.ColModel.
Import ListNotations.

Lemma zip_length {A B C} (f : A -> B -> C) l m : length (zip f l m) = Nat.min (length l) (length m).
Proof. unfold zip. now rewrite map_length, combine_length. Qed.
Lemma get_range_len {A} (l x : list A) off n : get_range l off n = Ok x -> length x = n.
Proof. intros H. apply get_range_inv in H as [H ->]. rewrite firstn_length, skipn_length. lia. Qed.
Lemma swap_ok {A} (l : list A) i j : i < length l -> j < length l -> exists l', swap_ l i j = Ok l' /\ length l' = length l.
Proof.
  intros Hi Hj. unfold swap_. destruct (rd_in l i Hi) as (a & ->). destruct (rd_in l j Hj) as (b & ->). cbn [bind].
  rewrite wr_ok by auto. cbn [bind]. rewrite wr_ok by (rewrite upd_length; auto). eexists. split; eauto. now rewrite !upd_length.
Qed.
Lemma get_ok {A} (l : list A) off n : off + n <= length l -> exists x, get_range l off n = Ok x /\ length x = n.
Proof. intros H. rewrite get_range_ok by auto. eexists. split; eauto. rewrite firstn_length, skipn_length. lia. Qed.
Lemma put_ok {A} (l : list A) off xs : off + length xs <= length l -> exists l', put_range l off xs = Ok l' /\ length l' = length l.
Proof. intros H. rewrite put_range_ok by auto. eexists. split; eauto. rewrite !app_length, firstn_length, skipn_length. lia. Qed.

(** resolve one checked access, leaving a length fact *)
Ltac lens := repeat first [rewrite zip_length | rewrite map_length | rewrite seq_length | rewrite repeat_length | rewrite combine_length | rewrite app_length]; try lia.
Ltac acc := match goal with
  | |- context [bind (get_range ?l ?o ?n) _] =>
      let x := fresh "x" in let E := fresh "E" in let L := fresh "L" in
      destruct (get_ok l o n) as (x & E & L); [lens | rewrite E; cbn [bind]]
  | |- context [bind (put_range ?l ?o ?xs) _] =>
      let x := fresh "x" in let E := fresh "E" in let L := fresh "L" in
      destruct (put_ok l o xs) as (x & E & L); [lens | rewrite E; cbn [bind]]
  | |- context [bind (swap_ ?l ?i ?j) _] =>
      let x := fresh "x" in let E := fresh "E" in let L := fresh "L" in
      destruct (swap_ok l i j) as (x & E & L); [lens | lens | rewrite E; cbn [bind]]
  end.

Section Safe.
Context {F V M G T : Type} (fo : fops F) (bl : blas F V M G T).

(** ** mLanczos *)
Definition ml_len (n Mn nv : nat) (s : ml (F := F) (V := V)) : Prop :=
  length (ml_C s) = n /\ length (ml_v0 s) = nv /\ length (ml_v1 s) = nv /\ length (ml_d s) = Mn * nv /\
  length (ml_e s) = Mn * nv /\ length (ml_b s) = nv.

Lemma ml_body_ok n Mn nv k H second s : ml_len n Mn nv s -> k < Mn -> (second = false -> k < n) ->
  exists s' v2, ml_body fo bl H second Mn nv k s = Ok (s', v2) /\ ml_len n Mn nv s' /\ length v2 = nv.
Proof.
  intros (L1 & L2 & L3 & L4 & L5 & L6) Hk Hc. unfold ml_body.
  assert (HC : exists C, (if second then Ok (ml_C s)
    else for_ nv 0 (fun i C => let! x := rd (ml_v1 s) i in wr C k x) (ml_C s)) = Ok C /\ length C = n).
  { destruct second; [eauto|]. destruct (for_inv (fun _ C => length C = n) (fun i C => let! x := rd (ml_v1 s) i in wr C k x) nv 0 (ml_C s)) as (C & HC & LC); [exact L1| |exists C; split; auto].
    intros i C Hi LC. destruct (rd_in (ml_v1 s) i) as (x & ->); [lia|]. cbn [bind].
    rewrite wr_ok by (rewrite LC; auto). eexists. split; eauto. now rewrite upd_length. }
  destruct HC as (C & -> & LC). cbn [bind]. cbv zeta.
  match goal with |- context [for_ nv 0 (fun i d => let! a := rd ?al i in _) _] => set (alpha := al) end.
  assert (La : length alpha = nv). { unfold alpha. lens. }
  destruct (for_inv (fun _ d => length d = Mn * nv) (fun i d => let! a := rd alpha i in wr d (k + Mn * i) (b_re bl (b_tneg bl a))) nv 0 (ml_d s)) as (d & -> & Ld); auto.
  { intros i d Hi Ld. destruct (rd_in alpha i) as (x & ->); [lia|]. cbn [bind]. rewrite wr_ok by (rewrite Ld; nia).
    eexists. split; eauto. now rewrite upd_length. }
  cbn [bind]. do 2 eexists. split; [reflexivity|]. unfold ml_len. cbn [ml_C ml_v0 ml_v1 ml_d ml_e ml_b].
  rewrite map_length. assert (X : forall (c : bool) (a b : list V), length a = nv -> length b = nv -> length (if c then a else b) = nv) by (now intros []).
  assert (Y : forall a b : list V, length a = nv -> length b = nv -> length (if k =? 0 then a else b) = nv) by (destruct (k =? 0); auto).
  rewrite Y; [repeat split; auto| |]; lens.
Qed.

Lemma ml_next_ok n Mn nv k s v2 : ml_len n Mn nv s -> length v2 = nv -> k < Mn ->
  exists s', ml_next fo bl Mn nv k s v2 = Ok s' /\ ml_len n Mn nv s'.
Proof.
  intros (L1 & L2 & L3 & L4 & L5 & L6) Lv Hk. unfold ml_next. cbv zeta.
  destruct (for_inv (fun _ d => length d = Mn * nv) (fun i e => let! b := rd (ml_b s) i in wr e (k + Mn * i) b) nv 0 (ml_e s)) as (d & -> & Ld); auto.
  { intros i d Hi Ld. destruct (rd_in (ml_b s) i) as (x & ->); [lia|]. cbn [bind]. rewrite wr_ok by (rewrite Ld; nia).
    eexists. split; eauto. now rewrite upd_length. }
  cbn [bind]. eexists. split; eauto. unfold ml_len. cbn. repeat split; auto; lens.
Qed.

Lemma ml_loop_ok n Mn nv H second : forall todo k s, ml_len n Mn nv s -> k + todo <= Mn -> (second = false -> k + todo <= n) ->
  exists s', ml_loop fo bl todo k H second Mn nv s = Ok s' /\ ml_len n Mn nv s'.
Proof.
  induction todo; intros k s Hs Hk Hn; cbn [ml_loop]; [eauto|].
  destruct (ml_body_ok n Mn nv k H second s) as (s1 & v2 & -> & L1 & Lv); auto; [lia|intros E; specialize (Hn E); lia|]. cbn [bind].
  destruct todo; [eauto|]. destruct (ml_next_ok n Mn nv k s1 v2) as (s2 & -> & L2); auto; [lia|]. cbn [bind].
  apply IHtodo; auto; [lia|intros E; specialize (Hn E); lia].
Qed.

Definition nv_of (nv : option nat) : nat := match nv with None => 1 | Some n => n end.

Lemma mlanczos_ok H Mn nv C : nv_of nv <= length C -> (nv <> None -> Mn <= length C) ->
  exists d e b C', mlanczos fo bl H Mn nv C = Ok (d, e, b, C') /\ length d = Mn * nv_of nv /\ length e = Mn * nv_of nv /\
    length b = nv_of nv /\ length C' = length C.
Proof.
  intros Hv Hm. unfold mlanczos.
  assert (E : (match nv with None => (true, 1) | Some n => (false, n) end) = (match nv with None => true | _ => false end, nv_of nv)) by now destruct nv.
  rewrite E. cbv zeta. acc.
  match goal with |- context [ml_loop fo bl Mn 0 H ?sc Mn ?n ?s0] =>
    destruct (ml_loop_ok (length C) Mn n H sc Mn 0 s0) as (s & -> & L1 & L2 & L3 & L4 & L5 & L6) end.
  { unfold ml_len. cbn [ml_C ml_v0 ml_v1 ml_d ml_e ml_b]. repeat split; lens. }
  { lia. } { intros Hs. apply Hm. destruct nv; [congruence|discriminate]. }
  cbn [bind]. destruct nv; cbn [nv_of] in *.
  - acc. do 4 eexists. split; [reflexivity|]. repeat split; auto; lia.
  - cbn [bind]. do 4 eexists. split; [reflexivity|]. repeat split; auto; lia.
Qed.

Lemma mlanczos_len H Mn nv C d e b C' : mlanczos fo bl H Mn nv C = Ok (d, e, b, C') -> length C' = length C.
Proof.
  unfold mlanczos. destruct (match nv with None => _ | _ => _ end) as [second numvec]. intros X.
  apply bind_ok in X as (st & _ & X). cbv zeta in X. apply bind_ok in X as (s & Hs & X). apply bind_ok in X as (C1 & H1 & X).
  injection X as _ _ _ <-.
  assert (Y : forall todo k s s', ml_loop fo bl todo k H second Mn numvec s = Ok s' -> length (ml_C s') = length (ml_C s)).
  { induction todo; intros k q q' Hq; cbn [ml_loop] in Hq; [now injection Hq as <-|].
    apply bind_ok in Hq as ([s1 v2] & Hb & Hq).
    assert (length (ml_C s1) = length (ml_C q)).
    { unfold ml_body in Hb. apply bind_ok in Hb as (C2 & Hc & Hb). cbv zeta in Hb. apply bind_ok in Hb as (dd & _ & Hb).
      injection Hb as <- _. cbn [ml_C]. destruct second; [now injection Hc as <-|].
      apply (for_inv_ok (fun _ C => length C = length (ml_C q))) in Hc; auto.
      intros i x y _ Hx Hy. apply bind_ok in Hy as (z & _ & Hy). apply wr_inv in Hy as [_ ->]. now rewrite upd_length. }
    destruct todo; [now injection Hq as <-|]. apply bind_ok in Hq as (s2 & Hn & Hq). apply IHtodo in Hq. rewrite Hq.
    unfold ml_next in Hn. cbv zeta in Hn. apply bind_ok in Hn as (ee & _ & Hn). injection Hn as <-. exact H0. }
  apply Y in Hs. cbn [ml_C] in Hs. destruct second; [injection H1 as <-; auto|]. apply put_range_length in H1. congruence.
Qed.

(** ** Seq and Mpi *)
Section ColSafe.
Context (mpi : bool) (n w : nat) (Hw : n <= w).
Definition clen (s : cst (V := V) (M := M)) : Prop :=
  length (cs_C s) = n /\ length (cs_B s) = n /\ length (cs_C2 s) = w /\ length (cs_B2 s) = w.
Local Notation K := (colD fo bl mpi n).
Ltac done_ := cbn [bind]; eexists; split; [reflexivity | unfold clen; cbn; repeat split; lens].
Ltac start s := let L1 := fresh "LC" in let L2 := fresh "LB" in let L3 := fresh "LC2" in let L4 := fresh "LB2" in
  intros (L1 & L2 & L3 & L4); destruct s as [H C B C2 B2 nx]; cbn [cs_C cs_B cs_C2 cs_B2 cs_H cs_bAc] in *.

Lemma c_initrnd_ok s : clen s -> exists s', c_initrnd bl n s = Ok s' /\ clen s'.
Proof. start s. unfold c_initrnd. cbn. acc. done_. Qed.
Lemma c_init_ok s : clen s -> exists s', c_init n s = Ok s' /\ clen s'.
Proof. start s. unfold c_init. cbn. acc. acc. done_. Qed.
Lemma c_apply_ok al be off blk locked s : clen s -> locked + off + blk <= n -> exists s', c_apply bl al be off blk locked s = Ok s' /\ clen s'.
Proof. start s. intros Hr. unfold c_apply. cbn. acc. acc. destruct nx; acc; done_. Qed.
Lemma c_gather_ok locked blk s : clen s -> locked + blk <= n -> exists s', c_gather bl locked blk s = Ok s' /\ clen s'.
Proof. start s. intros Hr. unfold c_gather. cbn. acc. acc. acc. acc. done_. Qed.
Lemma c_rr_ok blk locked s : clen s -> locked + blk = n -> exists v s', c_rr bl mpi n blk locked s = Ok (v, s') /\ length v = blk /\ clen s'.
Proof.
  intros Hs Hr. unfold c_rr. rewrite Hr, Nat.eqb_refl, andb_false_r. destruct (c_gather_ok locked blk s Hs ltac:(lia)) as (s1 & -> & H1). cbn [bind]. revert H1. start s1.
  acc. acc. cbv zeta. acc. acc. acc. do 2 eexists. split; [reflexivity|]. split; [lens|]. unfold clen; cbn; repeat split; lens.
Qed.
Lemma c_resd_ok v locked unc s : clen s -> locked + unc <= n -> unc <= length v ->
  exists r s', c_resd fo bl v locked unc s = Ok (r, s') /\ length r = unc /\ clen s'.
Proof.
  intros Hs Hr Hv. unfold c_resd. destruct (c_gather_ok locked unc s Hs Hr) as (s1 & -> & H1). cbn [bind]. revert H1. start s1.
  acc. acc. acc. cbv zeta. acc. do 2 eexists. split; [reflexivity|]. split; [lens|]. unfold clen; cbn; repeat split; lens.
Qed.
Lemma set_C_ok f s : clen s -> exists s', set_C n s f = Ok s' /\ clen s'.
Proof. start s. unfold set_C. cbn. acc. acc. done_. Qed.
Lemma c_hhqr_ok l s : clen s -> exists s', c_hhqr bl mpi n l s = Ok s' /\ clen s'.
Proof. intros Hs. unfold c_hhqr. destruct (set_C_ok (b_hh bl) s Hs) as (s1 & -> & H1). cbn [bind]. eexists. split; [reflexivity|exact H1]. Qed.
Lemma c_factor_ok b s : clen s -> exists i R, c_factor bl n b s = Ok (i, R).
Proof. start s. unfold c_factor. cbn. acc. cbv zeta. destruct (b_potrf _ _) as [i R]. eauto. Qed.
Lemma c_chol1_ok l s : clen s -> exists i s', c_chol1 bl n l s = Ok (i, s') /\ clen s'.
Proof.
  intros Hs. unfold c_chol1. destruct (c_factor_ok false s Hs) as (i & R & ->). cbn [bind]. destruct (negb _); eauto.
  destruct (set_C_ok (b_trsm bl R) s Hs) as (s1 & -> & H1). cbn [bind]. eauto.
Qed.
Lemma c_chol2_ok l s : clen s -> exists i s', c_chol2 bl n l s = Ok (i, s') /\ clen s'.
Proof.
  intros Hs. unfold c_chol2. destruct (c_factor_ok false s Hs) as (i & R & ->). cbn [bind]. destruct (negb _); eauto.
  destruct (set_C_ok (b_trsm bl R) s Hs) as (s1 & -> & H1). cbn [bind].
  destruct (c_factor_ok false s1 H1) as (i2 & R2 & ->). cbn [bind].
  destruct (set_C_ok (b_trsm bl R2) s1 H1) as (s2 & -> & H2). cbn [bind]. eauto.
Qed.
Lemma c_schol2_ok l s : clen s -> exists i s', c_schol2 bl mpi n l s = Ok (i, s') /\ clen s'.
Proof.
  intros Hs. unfold c_schol2. destruct (c_factor_ok true s Hs) as (i & R & ->). cbn [bind]. destruct (negb _); eauto.
  destruct (set_C_ok (b_trsm bl R) s Hs) as (s1 & -> & H1). cbn [bind].
  destruct (c_factor_ok false s1 H1) as (i2 & R2 & ->). cbn [bind]. destruct (_ && _); eauto.
  destruct (set_C_ok (b_trsm bl R2) s1 H1) as (s2 & -> & H2). cbn [bind].
  destruct (c_factor_ok false s2 H2) as (i3 & R3 & ->). cbn [bind].
  destruct (set_C_ok (b_trsm bl R3) s2 H2) as (s3 & -> & H3). cbn [bind]. eauto.
Qed.
Lemma c_lockcopy_ok l b s : clen s -> l <= n -> exists s', c_lockcopy n l b s = Ok s' /\ clen s'.
Proof. start s. intros Hl. unfold c_lockcopy. cbn. acc. acc. acc. acc. done_. Qed.
Lemma c_swap_ok i j s : clen s -> i < n -> j < n -> exists s', c_swap mpi i j s = Ok s' /\ clen s'.
Proof. start s. intros Hi Hj. unfold c_swap. cbn. acc. destruct mpi; acc; done_. Qed.
Lemma c_dos_ok idx m rv s : clen s -> idx <= m -> m <= n -> idx * m <= length rv -> exists s', c_dos bl idx m rv s = Ok s' /\ clen s'.
Proof. start s. intros Hi Hj Hr. unfold c_dos. cbn. acc. acc. acc. acc. acc. done_. Qed.
Lemma c_mlanczos_ok Mn nv s : clen s -> nv_of nv <= n -> Mn <= n ->
  exists d e b s', c_mlanczos fo bl Mn nv s = Ok (d, e, b, s') /\ length d = Mn * nv_of nv /\ length e = Mn * nv_of nv /\ length b = nv_of nv /\ clen s'.
Proof.
  start s. intros Hv Hm. unfold c_mlanczos. cbn.
  destruct (mlanczos_ok H Mn nv C) as (d & e & b & C' & -> & L1 & L2 & L3 & L4); [lia|lia|]. cbn [bind].
  do 4 eexists. split; [reflexivity|]. unfold clen; cbn; repeat split; lens.
Qed.
End ColSafe.
End Safe.

(** ** ChaseMpi over a backend whose calls succeed in range *)
Record dla_safe {F D} (L : dla F D) (n : nat) (I : D -> Prop) : Prop := {
  ds_sym : forall d, I d -> exists b d', d_sym L d = Ok (b, d') /\ I d';
  ds_start : forall d, I d -> exists d', d_start L d = Ok d' /\ I d';
  ds_end : forall d, I d -> exists d', d_end L d = Ok d' /\ I d';
  ds_initrnd : forall d, I d -> exists d', d_initrnd L d = Ok d' /\ I d';
  ds_init : forall d, I d -> exists d', d_init L d = Ok d' /\ I d';
  ds_shift : forall c u d, I d -> exists d', d_shift L c u d = Ok d' /\ I d';
  ds_apply : forall a b off blk l d, I d -> l + off + blk <= n -> exists d', d_apply L a b off blk l d = Ok d' /\ I d';
  ds_hhqr : forall l d, I d -> l <= n -> exists d', d_hhqr L l d = Ok d' /\ I d';
  ds_chol1 : forall l d, I d -> l <= n -> exists i d', d_chol1 L l d = Ok (i, d') /\ I d';
  ds_chol2 : forall l d, I d -> l <= n -> exists i d', d_chol2 L l d = Ok (i, d') /\ I d';
  ds_schol2 : forall l d, I d -> l <= n -> exists i d', d_schol2 L l d = Ok (i, d') /\ I d';
  ds_lockcopy : forall l b d, I d -> l <= n -> exists d', d_lockcopy L l b d = Ok d' /\ I d';
  ds_rr : forall blk l d, I d -> l + blk = n -> exists v d', d_rr L blk l d = Ok (v, d') /\ length v = blk /\ I d';
  ds_resd : forall v l u d, I d -> l + u <= n -> u <= length v -> exists r d', d_resd L v l u d = Ok (r, d') /\ length r = u /\ I d';
  ds_swap : forall i j d, I d -> i < n -> j < n -> exists d', d_swap L i j d = Ok d' /\ I d';
  ds_mlanczos : forall M nv d, I d -> 1 <= nv_of nv <= n -> 1 <= M <= n -> exists x y z d', d_mlanczos L M nv d = Ok (x, y, z, d') /\
     length x = M * nv_of nv /\ length y = M * nv_of nv /\ length z = nv_of nv /\ I d';
  ds_dos : forall idx m rv d, I d -> idx <= m -> m <= n -> idx * m <= length rv -> exists d', d_dos L idx m rv d = Ok d' /\ I d'
}.

Lemma rd_fold {A B} (f : A -> B) (l : list A) (g : nat -> nat) : forall ks, (forall k, In k ks -> g k < length l) ->
  exists x, fold_right (fun k acc => let! q := acc in let! y := rd l (g k) in Ok (f y :: q)) (Ok []) ks = Ok x /\ length x = length ks.
Proof.
  induction ks as [|k ks IH]; intros Hk; cbn [fold_right]; [eauto|]. destruct IH as (x & -> & Lx); [intros; apply Hk; simpl; auto|].
  cbn [bind]. destruct (rd_in l (g k)) as (y & ->); [apply Hk; simpl; auto|]. cbn [bind]. eexists. split; eauto. simpl. auto.
Qed.

Section CM.
Context {F D : Type} (fo : fops F) (qe : qr_env F) (td : tridiag F) (L : dla F D) (nev nex : nat) (I : D -> Prop).
Context (DS : dla_safe L (nev + nex) I).
Let n := nev + nex.
Definition cmI (l : nat) (s : cm) : Prop := cm_locked s = l /\ l <= n /\ I (cm_dla s).

Lemma cm_qr_ok l f c s : cmI l s -> exists s', cm_qr fo qe L f c s = Ok s' /\ cmI l s'.
Proof.
  intros (E & Hl & Hs). unfold cm_qr. cbv zeta. rewrite E.
  assert (X : exists hh d, (if (match q_disable qe with Some z => z | None => if q_chol qe then 0%Z else 1%Z end =? 1)%Z
      then let! d := d_hhqr L l (cm_dla s) in Ok (true, d)
      else let! (info, d) := (if f_lt fo (q_upper qe) c then d_schol2 L l (cm_dla s)
          else if f_lt fo c (match q_thld qe with Some t => t | None => q_lower qe end) then d_chol1 L l (cm_dla s)
          else d_chol2 L l (cm_dla s)) in
        if (info =? 0)%Z then Ok (false, d) else let! d' := d_hhqr L l d in Ok (true, d')) = Ok (hh, d) /\ I d).
  { destruct (_ =? 1)%Z.
    - destruct (ds_hhqr _ _ _ DS l (cm_dla s)) as (d & -> & Hd); auto. cbn [bind]. eauto.
    - assert (Y : exists i d, (if f_lt fo (q_upper qe) c then d_schol2 L l (cm_dla s)
          else if f_lt fo c (match q_thld qe with Some t => t | None => q_lower qe end) then d_chol1 L l (cm_dla s)
          else d_chol2 L l (cm_dla s)) = Ok (i, d) /\ I d).
      { destruct (f_lt fo (q_upper qe) c); [apply (ds_schol2 _ _ _ DS); auto|].
        destruct (f_lt fo c _); [apply (ds_chol1 _ _ _ DS); auto|apply (ds_chol2 _ _ _ DS); auto]. }
      destruct Y as (i & d & -> & Hd). cbn [bind]. destruct (i =? 0)%Z; [eauto|].
      destruct (ds_hhqr _ _ _ DS l d) as (d' & -> & Hd'); auto. cbn [bind]. eauto. }
  destruct X as (hh & d & -> & Hd). cbn [bind].
  destruct (ds_lockcopy _ _ _ DS l hh d) as (d' & H' & Hd'); auto. unfold lift. rewrite H'. cbn [bind].
  eexists. split; eauto. unfold cmI. cbn. auto.
Qed.

Lemma cm_lanczos1_ok m s : cmI 0 s -> 0 < m <= n -> exists u s', cm_lanczos1 fo td L m s = Ok (u, s') /\ cmI 0 s'.
Proof.
  intros (E & Hl & Hs) Hm. unfold cm_lanczos1.
  destruct (ds_mlanczos _ _ _ DS m None (cm_dla s)) as (x & y & z & d & -> & L1 & L2 & L3 & Hd); auto; [cbn; fold n; lia|].
  cbn [bind]. cbv zeta. cbn [nv_of] in *.
  destruct (rd_in (map (td_val td x y) (seq 0 m)) 0) as (a & ->); [lens|]. cbn [bind].
  destruct (rd_in (map (td_val td x y) (seq 0 m)) (m - 1)) as (b & ->); [lens|]. cbn [bind].
  destruct (rd_in z 0) as (c & ->); [lens|]. cbn [bind]. do 2 eexists. split; eauto. unfold cmI. cbn. auto.
Qed.

Lemma cm_lanczos2_ok m nv s : cmI 0 s -> 0 < m <= n -> 0 < nv <= n -> exists u th ta rv s',
  cm_lanczos2 fo td L m nv s = Ok (u, th, ta, rv, s') /\ length th = nv * m /\ length ta = nv * m /\ length rv = m * m /\ cmI 0 s'.
Proof.
  intros (E & Hl & Hs) Hm Hv. unfold cm_lanczos2.
  destruct (ds_mlanczos _ _ _ DS m (Some nv) (cm_dla s)) as (x & y & z & d & -> & L1 & L2 & L3 & Hd); auto.
  cbn [bind nv_of] in *.
  match goal with |- context [for_ nv 0 ?bd ?s0] =>
    destruct (for_inv (fun i acc => let '(th, ta, rv) := acc in length th = i * m /\ length ta = i * m /\ length rv = m * m) bd nv 0 s0)
      as ([[th ta] rv] & -> & T1 & T2 & T3) end.
  { cbn. now rewrite repeat_length. }
  { intros i [[th ta] rv] Hi (A1 & A2 & A3). cbn beta iota.
    destruct (get_ok x (i * m) m) as (di & -> & Ldi); [nia|]. cbn [bind].
    destruct (get_ok y (i * m) m) as (ei & -> & Lei); [nia|]. cbn [bind]. cbv zeta.
    destruct (rd_fold (fun y => f_mul fo (f_abs fo y) (f_abs fo y)) (map (td_vec td di ei) (seq 0 (m * m))) (fun k => k * m) (seq 0 m)) as (ti & -> & Lti).
    { intros k Hk. apply in_seq in Hk. rewrite map_length, seq_length. nia. }
    cbn [bind]. eexists. split; [reflexivity|]. cbn beta iota. rewrite seq_length in Lti.
    rewrite !app_length, !map_length, !seq_length. nia. }
  cbn [bind]. cbn [Nat.add] in *.
  assert (1 * m <= nv * m) by nia.
  destruct (rd_in th 0) as (a & ->); [nia|]. cbn [bind].
  destruct (rd_in th (m - 1)) as (b & ->); [nia|]. cbn [bind].
  destruct (rd_in z 0) as (c & ->); [nia|]. cbn [bind].
  match goal with |- context [for_ (nv - 1) 1 ?bd ?s0] => destruct (for_inv (fun _ _ => True) bd (nv - 1) 1 s0) as (u & -> & _) end; auto.
  { intros i u Hi _. cbn beta.
    assert ((i + 1) * m <= nv * m) by nia.
    destruct (rd_in th (i * m)) as (a' & ->); [nia|]. cbn [bind].
    destruct (rd_in th ((i + 1) * m - 1)) as (b' & ->); [nia|]. cbn [bind].
    destruct (rd_in z i) as (c' & ->); [nia|]. cbn [bind]. eauto. }
  cbn [bind]. do 5 eexists. split; eauto. repeat split; auto.
Qed.

Lemma cm_safe : kernel_safe (cmK fo qe td L nev nex) n (fun s => I (cm_dla s)) cmI.
Proof.
  assert (LT : forall l s (x : res D), cm_locked s = l -> l <= n -> (exists d, x = Ok d /\ I d) -> exists s', lift s x = Ok s' /\ cmI l s').
  { intros l s x E Hl (d & -> & Hd). unfold lift. cbn [bind]. eexists. split; eauto. unfold cmI. cbn. auto. }
  split; cbn [cmK k_sym k_start k_end k_init k_shift k_hemm k_qr k_rr k_resd k_swap k_lock k_lanczos1 k_lanczos2 k_dos].
  - intros s Hs. destruct (ds_sym _ _ _ DS _ Hs) as (b & d & E & Hd). unfold lift_v. rewrite E. cbn. eauto.
  - intros s Hs. destruct (ds_start _ _ _ DS _ Hs) as (d & -> & Hd). cbn. eexists. split; eauto. unfold cmI. cbn. lia || (repeat split; auto; lia).
  - intros r s (E & Hl & Hs). unfold cm_init. apply LT; auto. destruct r; [destruct (ds_initrnd _ _ _ DS _ Hs) as (d & -> & Hd)|]; cbn [bind]; apply (ds_init _ _ _ DS); auto.
  - intros l c u s (E & Hl & Hs). apply LT; auto. now apply (ds_shift _ _ _ DS).
  - intros l k a b off s (E & Hl & Hs) Hr. apply LT; auto. rewrite E. apply (ds_apply _ _ _ DS); auto.
  - intros l c s Hs. now apply cm_qr_ok.
  - intros l s (E & Hl & Hs) Hle. rewrite E. destruct (ds_rr _ _ _ DS (n - l) l _ Hs) as (v & d & Ev & Lv & Hd); [fold n; lia|].
    unfold lift_v. rewrite Ev. cbn [bind]. do 2 eexists. split; eauto. split; auto. unfold cmI. cbn. auto.
  - intros l v s (E & Hl & Hs) Hle Hv. rewrite E. destruct (ds_resd _ _ _ DS v l (n - l) _ Hs) as (r & d & Ev & Lv & Hd); [fold n; lia|auto|].
    unfold lift_v. unfold n in Ev. rewrite Ev. cbn [bind]. do 2 eexists. split; eauto. split; auto. unfold cmI. cbn. auto.
  - intros l i j s (E & Hl & Hs) Hi Hj. apply LT; auto. now apply (ds_swap _ _ _ DS).
  - intros l k s (E & Hl & Hs) Hk. eexists. split; eauto. unfold cmI. cbn. auto.
  - intros. now apply cm_lanczos1_ok.
  - intros. now apply cm_lanczos2_ok.
  - intros idx m rv s (E & Hl & Hs) H1 H2 H3 H4. apply LT; auto. apply (ds_dos _ _ _ DS); auto; nia.
  - intros l s (E & Hl & Hs). apply LT; auto. now apply (ds_end _ _ _ DS).
Qed.
End CM.

Lemma col_dla_safe {F V M G T} (fo : fops F) (bl : blas F V M G T) mpi n w : n <= w -> dla_safe (colD fo bl mpi n) n (clen n w).
Proof.
  intros Hw. split; cbn [colD d_sym d_start d_end d_initrnd d_init d_shift d_apply d_hhqr d_chol1 d_chol2 d_schol2 d_lockcopy d_rr d_resd d_swap d_mlanczos d_dos];
    intros; eauto.
  - unfold c_sym. eauto.
  - now apply c_initrnd_ok.
  - now apply c_init_ok.
  - unfold c_shift. eexists. split; eauto.
  - now apply c_apply_ok.
  - now apply c_hhqr_ok.
  - now apply c_chol1_ok.
  - now apply c_chol2_ok.
  - now apply c_schol2_ok.
  - now apply c_lockcopy_ok.
  - now apply c_rr_ok.
  - now apply c_resd_ok.
  - now apply c_swap_ok.
  - apply c_mlanczos_ok; auto; lia.
  - now apply c_dos_ok.
Qed.
