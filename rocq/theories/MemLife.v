(** A solver's life: no undefined use of memory, and exactly what is left behind. *)
From Coq Require Import List Arith Bool Lia Permutation.
Require Import Verif.Base Verif.MemModel Verif.MemSpec Verif.MemProofs Verif.MemProofs2.
Import ListNotations.

Section Life.
Context (k : backend) (g : dims) (h0 : heap) (pH pV pR : nat).
Local Notation n0 := (length (hp_blk h0)).
Local Notation inv := (inv h0).
Hypotheses (VH : valid h0 pH) (VV : valid h0 pV) (VR : valid h0 pR).

Lemma valid_lt p : valid h0 p -> p < n0.
Proof. intros (x & H & _). now apply nth_lt in H. Qed.
Lemma seq_specs mode : Forall (spec_ok h0) (matrices_seq g mode pH pV pR).
Proof. unfold matrices_seq. repeat constructor; cbn; auto using valid_lt. Qed.
Lemma mpi_specs mode : Forall (spec_ok h0) (matrices_mpi g mode pH pV pR).
Proof. unfold matrices_mpi. repeat constructor; cbn; auto using valid_lt. Qed.
Lemma buf_specs : Forall (spec_ok h0) (redist_buf k g).
Proof. unfold redist_buf. destruct (g_same g); repeat constructor. Qed.
Lemma inv_start : inv h0 [] [].
Proof.
  split.
  - apply firstn_all.
  - apply firstn_all.
  - intros c [].
  - intros c x H1 H2. apply nth_lt in H2. lia.
  - intros c c' x x' H1 _ H2. apply nth_lt in H2. lia.
  - constructor.
  - intros k' b [].
  - intros b x H1 H2. apply nth_lt in H2. lia.
Qed.

(** the handles and raw buffers the destructor gives back *)
Definition mine (o : obj) : list nat := (match o_V o with Some v => handles v | None => [] end) ++ flat_map handles (o_mats o).
Definition rmine (o : obj) : list (mkind * nat) := o_raw o ++ match o_vc o with Some b => [(Dev, b)] | None => [] end.
(** [L] elements can no longer be reached by the destructor *)
Definition good (o : obj) (h : heap) (L : nat) : Prop := exists lk lr,
  inv h (mine o ++ map fst lk) (rmine o ++ map fst lr) /\ NoDup (map fst lk) /\ owned h lk /\ rowned h lr /\ list_sum (map snd lk) + list_sum (map snd lr) = L.

Ltac step P := match type of P with let (_, _) := ?x in _ => let E := fresh "E" in destruct x eqn:E end.

Lemma construct_good : exists o h, construct k g pH pV pR h0 = Ok (o, h) /\ good o h (leak0 k g) /\ o_vc o = None /\ ext h0 h.
Proof.
  unfold construct. destruct k as [| | | |caw] eqn:Ek.
  - pose proof (mats_make_inv _ _ _ _ _ (seq_specs 0) inv_start) as P. destruct (mats_make (matrices_seq g 0 pH pV pR) h0) as [ms h1].
    destruct P as (I1 & X1 & _). 
    pose proof (mats_make_inv h0 [New 0 (g_N g * (g_nev g + g_nev g)); New 0 (g_N g * (g_nev g + g_nev g))] h1 _ _ ltac:(repeat constructor) I1) as P.
    destruct (mats_make _ h1) as [xs h2]. destruct P as (I2 & X2 & _).
    destruct (mats_read_inv h0 ms h2 _ _ I2) as (h3 & E3 & I3 & X3); [rewrite app_nil_r; apply incl_appr, incl_refl|]. rewrite E3. cbn [bind].
    do 2 eexists. split; [reflexivity|]. split; [|split; [reflexivity|eauto using ext_trans]]. exists [], []. unfold mine, rmine. cbn.
    rewrite flat_map_app, <- ?app_assoc. split; auto. split; [constructor|]. split; [constructor|]. split; [constructor|auto].
  - pose proof (mats_make_inv _ _ _ _ _ (seq_specs 0) inv_start) as P. destruct (mats_make (matrices_seq g 0 pH pV pR) h0) as [ms h1].
    destruct P as (I1 & X1 & _). 
    destruct (mats_read_inv h0 ms h1 _ _ I1) as (h3 & E3 & I3 & X3); [apply incl_appl, incl_refl|]. rewrite E3. cbn [bind].
    do 2 eexists. split; [reflexivity|]. split; [|split; [reflexivity|eauto using ext_trans]]. exists [], []. unfold mine, rmine. cbn.
    split; auto. split; [constructor|]. split; [constructor|]. split; [constructor|auto].
  - pose proof (mats_make_inv _ _ _ _ _ (seq_specs 1) inv_start) as P. destruct (mats_make (matrices_seq g 1 pH pV pR) h0) as [ms h1].
    destruct P as (I1 & X1 & _). 
    destruct (mats_read_inv h0 ms h1 _ _ I1) as (h3 & E3 & I3 & X3); [apply incl_appl, incl_refl|]. rewrite E3. cbn [bind].
    match goal with |- context [raws ?l h3] => pose proof (raws_inv h0 l _ _ _ I3) as P; destruct (raws l h3) as [rs h4] end. destruct P as (I4 & X4).
    do 2 eexists. split; [reflexivity|]. split; [|split; [reflexivity|eauto using ext_trans]]. exists [], []. unfold mine, rmine. cbn. 
    split; [rewrite !app_nil_r in *; exact I4|]. split; [constructor|]. split; [constructor|]. split; [constructor|auto].
  - pose proof (mats_make_inv _ _ _ _ _ (mpi_specs 0) inv_start) as P. destruct (mats_make (matrices_mpi g 0 pH pV pR) h0) as [ms h1].
    destruct P as (I1 & X1 & _). 
    destruct (mats_read_inv h0 ms h1 _ _ I1) as (h3 & E3 & I3 & X3); [apply incl_appl, incl_refl|]. rewrite E3. cbn [bind].
    pose proof buf_specs as B. rewrite Ek in B. pose proof (mats_make_inv _ _ _ _ _ B I3) as P. destruct (mats_make (redist_buf KMpi g) h3) as [bs h4].
    destruct P as (I4 & X4 & _).
    do 2 eexists. split; [reflexivity|]. split; [|split; [reflexivity|eauto using ext_trans]]. exists [], []. unfold mine, rmine. cbn.
    rewrite flat_map_app, <- ?app_assoc. split; auto. split; [constructor|]. split; [constructor|]. split; [constructor|auto].
  - pose proof (mats_make_inv _ _ _ _ _ (mpi_specs (if caw then 2 else 1)) inv_start) as P. 
    destruct (mats_make (matrices_mpi g (if caw then 2 else 1) pH pV pR) h0) as [ms h1].
    destruct P as (I1 & X1 & _). 
    destruct (mats_copy_inv h0 ms h1 _ _ I1) as (h3 & E3 & I3 & X3); [apply incl_appl, incl_refl|]. rewrite E3. cbn [bind].
    match goal with |- context [raws ?l h3] => pose proof (raws_inv h0 l _ _ _ I3) as P; destruct (raws l h3) as [r1 h4] end. destruct P as (I4 & X4).
    pose proof (alloc_inv _ _ _ _ Dev (g_m g) I4) as P. destruct (hp_alloc Dev (g_m g) h4) as [b1 h5]. destruct P as (I5 & X5 & L5 & _).
    pose proof (alloc_inv _ _ _ _ Dev (g_n g) I5) as P. destruct (hp_alloc Dev (g_n g) h5) as [b2 h6]. destruct P as (I6 & X6 & L6 & _).
    match goal with |- context [raws ?l h6] => pose proof (raws_inv h0 l _ _ _ I6) as P; destruct (raws l h6) as [r2 h7] end. destruct P as (I7 & X7).
    pose proof buf_specs as B. rewrite Ek in B. pose proof (mats_make_inv _ _ _ _ _ B I7) as P. destruct (mats_make (redist_buf (KMgpu caw) g) h7) as [bs h8].
    destruct P as (I8 & X8 & _).
    do 2 eexists. split; [reflexivity|]. split; [|split; [reflexivity|]].
    2:{ eapply ext_trans; [exact X1|]. eapply ext_trans; [exact X3|]. eapply ext_trans; [exact X4|]. eapply ext_trans; [exact X5|]. eapply ext_trans; [exact X6|].
        eapply ext_trans; [exact X7|exact X8]. }
    exists [], [((Dev, b2), g_n g); ((Dev, b1), g_m g)]. unfold mine, rmine. cbn [o_V o_mats o_raw o_vc map app fst].
    split.
    { eapply inv_perm; [| |exact I8].
      - rewrite !flat_map_app, !app_nil_r, <- ?app_assoc. apply Permutation_refl.
      - rewrite !app_nil_r, <- app_assoc. change (r2 ++ (Dev, b2) :: (Dev, b1) :: r1) with (r2 ++ [(Dev, b2); (Dev, b1)] ++ r1).
        etransitivity; [rewrite app_assoc; apply Permutation_app_comm|]. apply Permutation_refl. }
    split; [constructor|]. split; [constructor|]. split; [|cbn; lia].
    eapply rowned_ext; [eapply ext_trans; [exact X7|exact X8]|]. constructor; [|constructor; [|constructor]]; cbn.
    + eexists. split; [exact L6|reflexivity].
    + destruct (proj1 X6 _ _ L5) as (v & Hv). eexists. split; [exact Hv|reflexivity].
Qed.

(** lengths of d_ritzVc_ *)
Definition vc_len (o : obj) (h : heap) (first : option nat) : Prop :=
  match o_vc o, first with
  | None, None => True
  | Some b, Some l => exists x, nth_error (hp_blk h) b = Some x /\ bk_len x = l
  | _, _ => False
  end.
Lemma vc_ext o h h' f : ext h h' -> vc_len o h f -> vc_len o h' f.
Proof.
  intros [E _]. unfold vc_len. destruct (o_vc o), f; auto. intros (x & H & L). destruct (E _ _ H) as (v & Hv). eexists. split; [exact Hv|exact L].
Qed.
Definition first_dos (f : option nat) (c : mcall) : option nat := match k, c, f with KMgpu true, MDos i m, None => Some (m * i) | _, _, _ => f end.
Definition dos_one (f : option nat) (c : mcall) : Prop :=
  match k, c, f with KMgpu true, MDos i m, Some l => m * i <= l | _, _, _ => True end.

Lemma lanczos_new nv : Forall is_new (lanczos_mats k g nv) /\ Forall (spec_ok h0) (lanczos_mats k g nv) /\
  forall M, list_sum (map msize (lanczos_mats k g nv)) = leak k g (MLanczos nv M).
Proof. unfold lanczos_mats, leak. destruct k; split; [|split| |split| |split| |split| |split]; try (repeat constructor); intros; unfold list_sum; cbn; lia. Qed.

Lemma rotate_perm l : Permutation l (rotate l).
Proof. destruct l as [|a [|b [|c l]]]; cbn; auto. change (a :: b :: c :: l) with ([a] ++ [b; c] ++ l). change (b :: c :: a :: l) with ([b; c] ++ [a] ++ l).
  rewrite !app_assoc. apply Permutation_app_tail, Permutation_app_comm. Qed.
Lemma iter_perm i : forall l, Permutation l (iter rotate i l).
Proof. induction i as [|i IH]; intros l; cbn; auto. etransitivity; [apply rotate_perm|apply IH]. Qed.
Lemma incl_iter i vs : incl (flat_map handles (iter rotate i vs)) (flat_map handles vs).
Proof. intros c Hc. apply in_flat_map in Hc as (x & Hx & Hc). apply in_flat_map. exists x. split; auto. eapply Permutation_in; [symmetry; apply iter_perm|eauto]. Qed.

Lemma good_alloc o h L kd l : good o h L -> let (b, h') := hp_alloc kd l h in good o h' (L + l) /\ ext h h' /\ nth_error (hp_blk h') b = Some (mk_blk kd l true) /\
  exists lk lr, inv h' (mine o ++ map fst lk) (rmine o ++ (kd, b) :: map fst lr) /\ NoDup (map fst lk) /\ owned h' lk /\ rowned h' lr /\ list_sum (map snd lk) + list_sum (map snd lr) = L.
Proof.
  intros (lk & lr & I & N & O & R & S). pose proof (alloc_inv _ _ _ _ kd l I) as P. destruct (hp_alloc kd l h) as [b h1]. destruct P as (I1 & X1 & L1 & _).
  assert (J : inv h1 (mine o ++ map fst lk) (rmine o ++ (kd, b) :: map fst lr)).
  { eapply inv_perm; [apply Permutation_refl| |exact I1]. apply Permutation_middle. }
  split; [|split; [auto|split; [auto|]]].
  - exists lk, (((kd, b), l) :: lr). cbn. split; auto. split; auto. split; [eapply owned_ext; eauto|]. split; [|unfold list_sum in *; cbn; lia].
    constructor; [|eapply rowned_ext; eauto]. cbn. eexists. split; [exact L1|reflexivity].
  - exists lk, lr. split; auto. split; auto. split; [eapply owned_ext; eauto|]. split; [eapply rowned_ext; eauto|auto].
Qed.
(** a temporary *)
Lemma good_tmp o h L kd b lk lr : inv h (mine o ++ map fst lk) (rmine o ++ (kd, b) :: map fst lr) -> NoDup (map fst lk) -> owned h lk -> rowned h lr ->
  list_sum (map snd lk) + list_sum (map snd lr) = L -> exists h', hp_free kd b h = Ok h' /\ good o h' L /\ ext h h'.
Proof.
  intros I N O R S. destruct (free_inv h0 h (mine o ++ map fst lk) (rmine o ++ map fst lr) kd b) as (h1 & E1 & I1 & X1).
  { eapply inv_perm; [apply Permutation_refl| |exact I]. symmetry. apply Permutation_middle. }
  exists h1. split; auto. split; auto. exists lk, lr. split; auto. split; auto. split; [eapply owned_ext; eauto|]. split; [eapply rowned_ext; eauto|auto].
Qed.

Lemma call_good c o h L f : good o h L -> vc_len o h f -> dos_one f c -> exists o' h', mcall_run k g c o h = Ok (o', h') /\
  good o' h' (L + leak k g c) /\ vc_len o' h' (first_dos f c) /\ ext h h'.
Proof.
  intros G V D. destruct c as [nv M| |idx M| |]; cbn [mcall_run].
  - destruct G as (lk & lr & I & N & O & R & S). destruct (lanczos_new nv) as (F1 & F2 & F3).
    pose proof (mats_make_inv _ _ _ _ _ F2 I) as P. destruct (mats_make (lanczos_mats k g nv) h) as [vs h1].
    destruct P as (I1 & X1 & N1 & D1 & K1). destruct (K1 F1) as (lk1 & A1 & B1 & C1).
    rewrite (mats_use_inv h0 vs h1 _ _ I1) by apply incl_appl, incl_refl. cbn [bind].
    rewrite (mats_use_inv h0 _ h1 _ _ I1) by (eapply incl_tran; [apply incl_iter|apply incl_appl, incl_refl]). cbn [bind].
    do 2 eexists. split; [reflexivity|]. split; [|split; [|exact X1]].
    + exists (lk1 ++ lk), lr. unfold mine, rmine in *. cbn [o_V o_mats o_raw o_vc]. rewrite !map_app, A1, list_sum_app, C1, (F3 M). split.
      { eapply inv_perm; [|apply Permutation_refl|exact I1]. rewrite (app_assoc (flat_map handles vs)). 
        etransitivity; [apply Permutation_app_tail, Permutation_app_comm|]. now rewrite <- !app_assoc. }
      split. { apply NoDup_app; auto. intros x Hx K. apply (D1 x Hx). apply in_or_app. auto. }
      split; [apply Forall_app; split; [exact B1|eapply owned_ext; eauto]|]. split; [eapply rowned_ext; eauto|lia].
    + unfold first_dos. eapply vc_ext with (o := o) in V; [|exact X1]. unfold vc_len in *. cbn. destruct k as [| | | |[]]; exact V.
  - assert (Ff : first_dos f MSwap = f) by (unfold first_dos; now destruct k as [| | | |[]]). rewrite Ff.
    destruct k as [| | | |caw]; cbn [leak]; try (rewrite Nat.add_0_r; exists o, h; split; [reflexivity|split; [auto|split; [auto|apply ext_refl]]]).
    + pose proof (good_alloc o h L Host (g_N g) G) as P. destruct (hp_alloc Host (g_N g) h) as [b h1]. destruct P as (_ & X1 & _ & lk & lr & I & N & O & R & S).
      destruct (good_tmp o h1 L Host b lk lr I N O R S) as (h2 & E2 & G2 & X2). rewrite E2. cbn [bind]. rewrite Nat.add_0_r. exists o, h2.
      split; auto. split; auto. assert (X : ext h h2) by (eapply ext_trans; eauto). split; [eapply vc_ext; eauto|auto].
    + pose proof (good_alloc o h L Host (g_N g) G) as P. destruct (hp_alloc Host (g_N g) h) as [b h1]. destruct P as (G1 & X1 & _). exists o, h1.
      split; auto. split; auto. split; [eapply vc_ext; eauto|auto].
  - unfold leak, first_dos, dos_one in *. destruct k as [| | | |[]]; try (rewrite Nat.add_0_r; exists o, h; split; [reflexivity|split; [auto|split; [auto|apply ext_refl]]]).
    unfold vc_len in V. destruct (o_vc o) as [b|] eqn:Eo.
    + destruct f as [l|]; [|contradiction]. destruct V as (x & Hx & Lx).
      assert (Hlive : bk_live x = true).
      { destruct G as (lk & lr & I & _). assert (K : In (Dev, b) (rmine o ++ map fst lr)) by (apply in_or_app; left; unfold rmine; rewrite Eo; apply in_or_app; right; now left).
        destruct (i_raw _ _ _ _ I _ _ K) as (_ & (l' & Hl) & _). rewrite Hx in Hl. injection Hl as ->. auto. }
      rewrite (proj2 (rd_ok _ _ _) Hx). cbn [bind]. rewrite Hlive, Lx. replace (M * idx <=? l) with true by (symmetry; apply Nat.leb_le; lia). cbn [andb].
      do 2 eexists. split; [reflexivity|]. rewrite Nat.add_0_r. split; [|split; [|apply ext_refl]].
      * destruct G as (lk & lr & I & Q). exists lk, lr. unfold mine, rmine in *. cbn [o_V o_mats o_raw o_vc]. rewrite Eo in I. auto.
      * unfold vc_len. cbn. eauto.
    + destruct f as [l|]; [contradiction|].
      pose proof (good_alloc o h L Dev (M * idx) G) as P. destruct (hp_alloc Dev (M * idx) h) as [b h1]. destruct P as (_ & X1 & L1 & lk & lr & I & N & O & R & S).
      rewrite (proj2 (rd_ok _ _ _) L1). cbn [bind bk_live bk_len andb]. rewrite Nat.leb_refl. do 2 eexists. split; [reflexivity|]. rewrite Nat.add_0_r.
      split; [|split; [|exact X1]].
      * exists lk, lr. split; auto. unfold mine, rmine in *. cbn [o_V o_mats o_raw o_vc]. rewrite Eo, app_nil_r in I. rewrite <- (app_assoc (o_raw o)). exact I.
      * unfold vc_len. cbn. eauto.
  - assert (Ff : first_dos f MDiagSum = f) by (unfold first_dos; now destruct k as [| | | |[]]). rewrite Ff.
    destruct k as [| | | |caw]; cbn [leak]; try (rewrite Nat.add_0_r; exists o, h; split; [reflexivity|split; [auto|split; [auto|apply ext_refl]]]).
    pose proof (good_alloc o h L Dev 1 G) as P. destruct (hp_alloc Dev 1 h) as [b h1]. destruct P as (G1 & X1 & _). exists o, h1.
    split; auto. split; auto. split; [eapply vc_ext; eauto|auto].
  - assert (Ff : first_dos f MHhqr = f) by (unfold first_dos; now destruct k as [| | | |[]]). rewrite Ff.
    replace (leak k g MHhqr) with 0 by (now destruct k). rewrite Nat.add_0_r.
    assert (C : exists o' h', (let (t, h) := hp_alloc Host (g_nev g + g_nex g) h in
          let! (o, h) := (if is_mpi k && negb (g_scal g) then
              match o_V o with
              | Some v => let! h := mat_use v h in Ok (o, h)
              | None => let (v, h) := mat_make (New 0 (g_N g * (g_nev g + g_nex g))) h in Ok (mk_obj (o_mats o) (o_raw o) (o_lz o) (o_vc o) (Some v), h)
              end else Ok (o, h)) in
          let! h := hp_free Host t h in Ok (o, h)) = Ok (o', h') /\ good o' h' L /\ vc_len o' h' f /\ ext h h').
    { pose proof (good_alloc o h L Host (g_nev g + g_nex g) G) as P. destruct (hp_alloc Host _ h) as [b h1]. destruct P as (_ & X1 & L1 & lk & lr & I & N & O & R & S).
      destruct (is_mpi k && negb (g_scal g)); [destruct (o_V o) as [v|] eqn:EV|].
      - rewrite (mat_use_inv h0 v h1 _ _ I). 2:{ unfold mine. rewrite EV. apply incl_appl, incl_appl, incl_refl. } cbn [bind].
        destruct (good_tmp o h1 L Host b lk lr I N O R S) as (h2 & E2 & G2 & X2). rewrite E2. cbn [bind]. exists o, h2.
        split; auto. split; auto. assert (X : ext h h2) by (eapply ext_trans; eauto). split; [eapply vc_ext; eauto|auto].
      - pose proof (mat_make_inv h0 (New 0 (g_N g * (g_nev g + g_nex g))) h1 _ _ Logic.I I) as P. destruct (mat_make _ h1) as [v h2]. destruct P as (I2 & X2 & _).
        cbn [bind]. set (o' := mk_obj (o_mats o) (o_raw o) (o_lz o) (o_vc o) (Some v)).
        destruct (good_tmp o' h2 L Host b lk lr) as (h3 & E3 & G3 & X3).
        { unfold mine, rmine in *. subst o'. cbn [o_V o_mats o_raw o_vc]. rewrite EV in I2. cbn [app] in I2. now rewrite <- (app_assoc (handles v)). }
        { exact N. } { eapply owned_ext; eauto. } { eapply rowned_ext; eauto. } { exact S. }
        rewrite E3. cbn [bind]. exists o', h3. split; auto. split; auto.
        assert (X : ext h h3) by (eapply ext_trans; [|eapply ext_trans]; eauto). split; [|auto]. eapply vc_ext with (o := o) in V; [|exact X]. exact V.
      - cbn [bind]. destruct (good_tmp o h1 L Host b lk lr I N O R S) as (h2 & E2 & G2 & X2). rewrite E2. cbn [bind]. exists o, h2.
        split; auto. split; auto. assert (X : ext h h2) by (eapply ext_trans; eauto). split; [eapply vc_ext; eauto|auto]. }
    destruct k as [| | | |caw]; auto. exists o, h. split; [reflexivity|split; [auto|split; [auto|apply ext_refl]]].
Qed.

(** a call for which d_ritzVc_ is too small *)
Lemma call_bad c o h f : vc_len o h f -> ~ dos_one f c -> mcall_run k g c o h = UB.
Proof.
  unfold dos_one, vc_len. intros V D. destruct k as [| | | |[]]; destruct c; try (exfalso; apply D; exact Logic.I). destruct f as [l|]; [|exfalso; apply D; exact Logic.I].
  cbn [mcall_run]. destruct (o_vc o) as [b|]; [|contradiction]. destruct V as (x & Hx & Lx). rewrite (proj2 (rd_ok _ _ _) Hx). cbn [bind]. rewrite Lx.
  replace (steps * idx <=? l) with false by (symmetry; apply Nat.leb_gt; lia). now rewrite andb_false_r.
Qed.

Fixpoint fits (f : option nat) (l : list mcall) : Prop := match l with [] => True | c :: l => dos_one f c /\ fits (first_dos f c) l end.
Lemma calls_good l : forall o h L f, good o h L -> vc_len o h f -> fits f l -> exists o' h', mcalls_run k g l o h = Ok (o', h') /\
  good o' h' (L + list_sum (map (leak k g) l)) /\ ext h h'.
Proof.
  induction l as [|c l IH]; intros o h L f G V F; cbn [mcalls_run fits map] in *.
  - exists o, h. split; auto. split; [now replace (L + list_sum []) with L by (cbn; lia)|apply ext_refl].
  - destruct F as [F1 F2]. destruct (call_good c o h L f G V F1) as (o1 & h1 & E1 & G1 & V1 & X1). rewrite E1. cbn [bind].
    destruct (IH o1 h1 _ _ G1 V1 F2) as (o2 & h2 & E2 & G2 & X2). exists o2, h2. split; auto. split; [|eapply ext_trans; eauto].
    replace (L + list_sum (leak k g c :: map (leak k g) l)) with (L + leak k g c + list_sum (map (leak k g) l)) by (unfold list_sum; cbn; lia). auto.
Qed.
Lemma dos_dec f c : dos_one f c \/ ~ dos_one f c.
Proof. unfold dos_one. destruct k as [| | | |[]], c, f; auto. destruct (le_dec (steps * idx) n); auto. Qed.
Lemma calls_bad l : forall o h L f, good o h L -> vc_len o h f -> ~ fits f l -> mcalls_run k g l o h = UB.
Proof.
  induction l as [|c l IH]; intros o h L f G V F; cbn [mcalls_run fits] in *; [tauto|].
  destruct (dos_dec f c) as [D|D].
  - destruct (call_good c o h L f G V D) as (o1 & h1 & E1 & G1 & V1 & X1). rewrite E1. cbn [bind]. eapply IH; eauto.
  - now rewrite (call_bad c o h f V D).
Qed.

Lemma destroy_good o h L : good o h L -> exists h', destroy o h = Ok h' /\ left_over n0 h' = L /\ firstn n0 (hp_blk h') = hp_blk h0 /\ ext h h' /\ n0 <= length (hp_blk h').
Proof.
  intros (lk & lr & I & N & O & R & S). unfold destroy. unfold mine, rmine in I.
  destruct (mats_drop_inv h0 (match o_V o with Some v => [v] | None => [] end) h (flat_map handles (o_mats o) ++ map fst lk) ((o_raw o ++ match o_vc o with Some b => [(Dev, b)] | None => [] end) ++ map fst lr)) as (h1 & E1 & I1 & X1).
  { eapply inv_perm; [|apply Permutation_refl|exact I]. rewrite <- app_assoc. destruct (o_V o); cbn; rewrite ?app_nil_r; apply Permutation_refl. }
  rewrite E1. cbn [bind]. rewrite <- app_assoc in I1. destruct (frees_inv h0 _ _ _ _ I1) as (h2 & E2 & I2 & X2). rewrite E2. cbn [bind].
  assert (P : exists h3, (match o_vc o with Some b => hp_free Dev b h2 | None => Ok h2 end) = Ok h3 /\ inv h3 (flat_map handles (o_mats o) ++ map fst lk) (map fst lr) /\ ext h2 h3).
  { destruct (o_vc o) as [b|]; [|exists h2; split; auto; split; auto; apply ext_refl]. exact (free_inv _ _ _ _ _ _ I2). }
  destruct P as (h3 & E3 & I3 & X3). rewrite E3. cbn [bind]. destruct (mats_drop_inv h0 _ _ _ _ I3) as (h4 & E4 & I4 & X4). exists h4. split; auto.
  assert (X : ext h h4) by (eapply ext_trans; [exact X1|]; eapply ext_trans; [exact X2|]; eapply ext_trans; [exact X3|exact X4]).
  split; [|split; [exact (i_old _ _ _ _ I4)|split; [auto|apply (old_len _ _ _ _ I4)]]].
  rewrite <- S. apply left_over_inv; auto; [eapply owned_ext; eauto|eapply rowned_ext; eauto].
Qed.

(** [dos_fit] says the same without the bookkeeping *)
Lemma fits_some l m : k = KMgpu true -> (fits (Some m) l <-> forall s, In s (dos_sizes l) -> s <= m).
Proof.
  intros Ek. unfold dos_sizes. revert m. induction l as [|c l IH]; intros m; cbn [fits flat_map]; [split; [intros _ s []|auto]|].
  unfold dos_one, first_dos. rewrite Ek. destruct c; cbn [app]; rewrite IH; try tauto.
  split; [intros [A B] s [<-|Hs]; auto|]. intros A. split; [apply A; now left|]. intros s Hs. apply A. now right.
Qed.
Lemma fits_none l : fits None l <-> dos_fit k l.
Proof.
  unfold dos_fit. destruct k as [| | | |[]] eqn:Ek.
  1-4: split; auto; intros _; generalize (@None nat); induction l as [|c l IH]; intros f; cbn; auto; unfold dos_one, first_dos; rewrite Ek; auto.
  2: split; auto; intros _; generalize (@None nat); induction l as [|c l IH]; intros f; cbn; auto; unfold dos_one, first_dos; rewrite Ek; auto.
  unfold dos_sizes. induction l as [|c l IH]; cbn [fits flat_map]; [split; [intros _ s []|auto]|].
  unfold dos_one, first_dos. rewrite Ek. destruct c; cbn [app]; try (rewrite <- IH; tauto).
  cbn [hd]. rewrite (fits_some l _ Ek). unfold dos_sizes. split; [intros [_ A] s [<-|Hs]; auto|]. intros A. split; auto. intros s Hs. apply A. now right.
Qed.

(** the life of a solver *)
Lemma skipn_upd {A} n : forall (l : list A) i v, i < n -> skipn n (upd l i v) = skipn n l.
Proof. induction n as [|n IH]; intros l i v Hi; [lia|]. destruct l as [|a l], i as [|i]; cbn; auto. apply IH. lia. Qed.
Lemma firstn_upd_lt {A} n : forall (l : list A) i v, i < n -> firstn n (upd l i v) = upd (firstn n l) i v.
Proof. induction n as [|n IH]; intros l i v Hi; [lia|]. destruct l as [|a l], i as [|i]; cbn; auto. f_equal. apply IH. lia. Qed.

Lemma life_good pP l : (is_mpi k = true -> exists len, nth_error (hp_blk h0) pP = Some (mk_blk Host len true)) -> dos_fit k l ->
  exists h, life k g pP pH pV pR l h0 = Ok h /\ left_over n0 h = leak0 k g + list_sum (map (leak k g) l) /\
    firstn n0 (hp_blk h) = if is_mpi k then freed pP (hp_blk h0) else hp_blk h0.
Proof.
  intros HP F. unfold life. destruct construct_good as (o & h & E & G & V & _). rewrite E. cbn [bind].
  destruct (calls_good l o h _ None G) as (o1 & h1 & E1 & G1 & _); [unfold vc_len; now rewrite V|now apply fits_none|]. rewrite E1. cbn [bind].
  destruct (destroy_good o1 h1 _ G1) as (h2 & E2 & L2 & O2 & _ & N2). rewrite E2. cbn [bind].
  destruct (is_mpi k).
  - destruct (HP eq_refl) as (len & Hp). pose proof (nth_lt _ _ _ Hp) as Lp.
    assert (Hp2 : nth_error (hp_blk h2) pP = Some (mk_blk Host len true)).
    { rewrite <- (firstn_skipn n0 (hp_blk h2)). rewrite nth_error_app1; rewrite O2; auto. }
    unfold hp_free. rewrite (proj2 (rd_ok _ _ _) Hp2). cbn [bind bk_live bk_kind bk_len mkind_eqb andb]. rewrite wr_ok by lia. cbn [bind].
    eexists. split; [reflexivity|]. cbn [hp_blk]. split.
    + unfold left_over in *. cbn [hp_blk]. now rewrite skipn_upd.
    + rewrite firstn_upd_lt by auto. rewrite O2. unfold freed. now rewrite Hp.
  - exists h2. auto.
Qed.
Lemma life_bad pP l : ~ dos_fit k l -> life k g pP pH pV pR l h0 = UB.
Proof.
  intros F. unfold life. destruct construct_good as (o & h & E & G & V & _). rewrite E. cbn [bind].
  rewrite (calls_bad l o h _ None G); [auto|unfold vc_len; now rewrite V|]. intros K. apply F. now apply fits_none.
Qed.
(** the properties object is gone *)
Lemma life_reuse pP l : is_mpi k = true -> (exists x, nth_error (hp_blk h0) pP = Some x /\ bk_live x = false) -> life k g pP pH pV pR l h0 = UB.
Proof.
  intros M (x & Hx & Hl). unfold life. destruct construct_good as (o & h & E & G & V & _). rewrite E. cbn [bind].
  assert (D : fits None l \/ ~ fits None l).
  { generalize (@None nat). clear. induction l as [|c l IH]; intros f; cbn; auto. destruct (dos_dec f c); [|tauto]. destruct (IH (first_dos f c)); tauto. }
  destruct D as [D|D].
  - destruct (calls_good l o h _ None G) as (o1 & h1 & E1 & G1 & _); [unfold vc_len; now rewrite V|auto|]. rewrite E1. cbn [bind].
    destruct (destroy_good o1 h1 _ G1) as (h2 & E2 & L2 & O2 & _ & N2). rewrite E2. cbn [bind]. rewrite M.
    assert (Hp2 : nth_error (hp_blk h2) pP = Some x).
    { pose proof (nth_lt _ _ _ Hx). rewrite <- (firstn_skipn n0 (hp_blk h2)). rewrite nth_error_app1; rewrite O2; auto. }
    unfold hp_free. rewrite (proj2 (rd_ok _ _ _) Hp2). cbn [bind]. now rewrite Hl.
  - rewrite (calls_bad l o h _ None G); [auto|unfold vc_len; now rewrite V|auto].
Qed.
End Life.
