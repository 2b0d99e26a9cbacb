(** Proofs about the work areas of the GPU backends. *)
From Coq Require Import List Arith ZArith Bool Lia Permutation.
Require Import Verif.Base Verif.AlgModel Verif.AlgSpec Verif.AlgTrace Verif.AlgWit Verif.AlgEx Verif.DwModel Verif.DwSpec.
Import ListNotations.
Local Open Scope bool_scope.

Section Dw.
Context (L : dlib) (gk : gpus) (rows nev nex : nat).
Let M := nev + nex.
Let lw := match gk with GOne => lwork_one L rows M | GMany => lwork_many L M end.
Hypothesis HM : 1 <= M.
Hypothesis HR : gk = GOne -> M <= rows.

(** the object keeps its arrays *)
Definition same (o : dobj) : Prop :=
  w_rows o = rows /\ w_max o = M /\ w_lwork o = lw /\ w_lV o = rows * M /\ w_lA o = M * M /\ w_lritz o = M /\
  w_ltau o = match gk with GOne => M | GMany => 0 end /\ w_lbuf o = lw.

Lemma same_new : same (construct L gk rows nev nex).
Proof. repeat split. Qed.

Lemma lw_asked : asked L gk rows M lw.
Proof.
  clear HM HR. unfold asked, lw. destruct gk; cbn [app]; unfold lwork_one, lwork_many;
    repeat match goal with |- context [(?a >? ?b)%Z] =>
      lazymatch b with context [if _ then _ else _] => fail | _ => destruct (Z.gtb_spec a b) end end;
    (split; [cbn; tauto|repeat apply Forall_cons; try apply Forall_nil; lia]).
Qed.
Lemma lw_ge z : In z (match gk with GOne => [dl_need L (Dgeqrf rows M rows); dl_need L (Dgqr rows M M rows)] | GMany => [0%Z] end ++
        [dl_need L (Dheevd M M); dl_need L (Dpotrf M M)]) -> (z <= lw)%Z.
Proof. intros H. destruct lw_asked as [_ A]. rewrite Forall_forall in A. auto. Qed.

Lemma span_le m n ld k : n <= k -> m <= ld -> span m n ld <= k * ld.
Proof. destruct n as [|n]; cbn [span]; [lia|]. intros. nia. Qed.

Lemma exec_ok c o : same o -> fits L c o = true -> exists o', dexec L c o = Ok o' /\ same o' /\ w_info o' <> None.
Proof. intros S F. unfold dexec. rewrite F. eexists. split; [reflexivity|]. split; [exact S|discriminate]. Qed.

Lemma fits_heevd b o : same o -> b <= M -> fits L (Dheevd b (w_max o)) o = (dl_need L (Dheevd b M) <=? lw)%Z.
Proof.
  intros (E1 & E2 & E3 & E4 & E5 & E6 & E7 & E8) Hb. unfold fits. rewrite E2, E3, E5, E6, E8, Z.leb_refl.
  pose proof (span_le b b M M Hb Hb).
  rewrite (proj2 (Nat.leb_le b M)), (proj2 (Nat.leb_le 1 M)), (proj2 (Nat.leb_le _ (M * M))) by (assumption || lia).
  now rewrite !andb_true_r.
Qed.
Lemma fits_potrf o : same o -> fits L (Dpotrf (w_max o) (w_max o)) o = true.
Proof.
  intros (E1 & E2 & E3 & E4 & E5 & E6 & E7 & E8). unfold fits. rewrite E2, E3, E5, E8, Z.leb_refl.
  pose proof (span_le M M M M (le_n _) (le_n _)).
  assert (X : (dl_need L (Dpotrf M M) <= lw)%Z) by (apply lw_ge; apply in_or_app; right; cbn; auto).
  rewrite (proj2 (Z.leb_le _ _) X), (proj2 (Nat.leb_le M M)), (proj2 (Nat.leb_le 1 M)), (proj2 (Nat.leb_le _ (M * M))) by (assumption || lia).
  reflexivity.
Qed.
Lemma fits_geqrf o : gk = GOne -> same o -> fits L (Dgeqrf (w_rows o) (w_max o) (w_rows o)) o = true.
Proof.
  intros G (E1 & E2 & E3 & E4 & E5 & E6 & E7 & E8). pose proof (HR G). unfold fits. rewrite E1, E2, E3, E4, E7, E8, G, Z.leb_refl.
  pose proof (span_le rows M rows M (le_n _) (le_n _)).
  assert (X : (dl_need L (Dgeqrf rows M rows) <= lw)%Z) by (apply lw_ge; rewrite G; cbn; auto).
  rewrite (proj2 (Z.leb_le _ _) X), (proj2 (Nat.leb_le rows rows)), (proj2 (Nat.leb_le 1 rows)), (proj2 (Nat.leb_le (span _ _ _) (rows * M))),
    (proj2 (Nat.leb_le (Nat.min _ _) M)) by lia.
  reflexivity.
Qed.
Lemma fits_gqr o : gk = GOne -> same o -> fits L (Dgqr (w_rows o) (w_max o) (w_max o) (w_rows o)) o = true.
Proof.
  intros G (E1 & E2 & E3 & E4 & E5 & E6 & E7 & E8). pose proof (HR G). unfold fits. rewrite E1, E2, E3, E4, E7, E8, G, Z.leb_refl.
  pose proof (span_le rows M rows M (le_n _) (le_n _)).
  assert (X : (dl_need L (Dgqr rows M M rows) <= lw)%Z) by (apply lw_ge; rewrite G; cbn; auto).
  rewrite (proj2 (Z.leb_le _ _) X), (proj2 (Nat.leb_le M M)), (proj2 (Nat.leb_le M rows)), (proj2 (Nat.leb_le rows rows)), (proj2 (Nat.leb_le 1 rows)),
    (proj2 (Nat.leb_le (span _ _ _) (rows * M))) by lia.
  reflexivity.
Qed.

Lemma hhqr_ok o : same o -> exists o', d_hhqr L gk o = Ok o' /\ same o'.
Proof.
  intros S. unfold d_hhqr. case_eq gk; intros G; [|eauto].
  destruct (exec_ok _ o S (fits_geqrf o G S)) as (o1 & E & S1 & _). rewrite E. cbn [bind].
  destruct (exec_ok _ o1 S1 (fits_gqr o1 G S1)) as (o2 & E2 & S2 & _).
  eauto.
Qed.
Lemma potrf_ok o : same o -> exists i o', d_potrf L o = Ok (i, o') /\ same o'.
Proof.
  intros S. unfold d_potrf. destruct (exec_ok _ o S (fits_potrf o S)) as (o1 & E & S1 & I). rewrite E. cbn [bind].
  unfold read_info. destruct (w_info o1) as [i|]; [|congruence]. cbn [bind]. eauto.
Qed.
Lemma potrf__ok o : same o -> exists o', d_potrf_ L o = Ok o' /\ same o'.
Proof. intros S. destruct (exec_ok _ o S (fits_potrf o S)) as (o1 & E & S1 & I). unfold d_potrf_. eauto. Qed.

Lemma qr_ok m o : same o -> exists o', d_qr L gk m o = Ok o' /\ same o'.
Proof.
  intros S. unfold d_qr. match goal with |- context [mk_dobj (w_rows o) _ _ _ _ _ _ _ _ _ (Datatypes.S ?q)] => set (o0 := mk_dobj _ _ _ _ _ _ _ _ _ _ (Datatypes.S q)) end.
  assert (S0 : same o0) by exact S. clearbody o0. clear S o.
  assert (T : m = QHouse \/ exists i o', match m with QShift => d_schol2 L o0 | QOne => d_chol1 L o0 | _ => d_chol2 L gk o0 end = Ok (i, o') /\ same o').
  { destruct m; auto; right.
    - unfold d_schol2. destruct (potrf_ok o0 S0) as (i & o1 & E & S1). rewrite E. cbn [bind]. destruct (i =? 0)%Z; cbn [negb]; [|eauto].
      destruct (potrf_ok o1 S1) as (i2 & o2 & E2 & S2). rewrite E2. cbn [bind]. destruct (i2 =? 0)%Z; cbn [negb]; [|eauto].
      destruct (potrf__ok o2 S2) as (o3 & E3 & S3). rewrite E3. cbn [bind]. eauto.
    - exact (potrf_ok o0 S0).
    - unfold d_chol2. destruct (potrf_ok o0 S0) as (i & o1 & E & S1). rewrite E. cbn [bind]. destruct (i =? 0)%Z; [|eauto].
      destruct (potrf__ok o1 S1) as (o3 & E3 & S3). rewrite E3. cbn [bind]. eauto. }
  destruct T as [->|(i & o1 & E & S1)]; [now apply hhqr_ok|].
  destruct m; [now apply hhqr_ok| | |]; rewrite E; cbn [bind]; (destruct (i =? 0)%Z; cbn [negb]; [eauto|now apply hhqr_ok]).
Qed.
Lemma rr_spec b o : same o -> b <= M ->
  ((dl_need L (Dheevd b M) <= lw)%Z -> exists o', d_rr L gk b o = Ok o' /\ same o') /\ (~ (dl_need L (Dheevd b M) <= lw)%Z -> d_rr L gk b o = UB).
Proof.
  intros S Hb. assert (D : d_rr L gk b o = dexec L (Dheevd b (w_max o)) o).
  { unfold d_rr. case gk; auto. destruct S as (_ & -> & _). now rewrite (proj2 (Nat.leb_le b M) Hb). }
  rewrite D. pose proof (fits_heevd b o S Hb) as F. split; intros H.
  - rewrite (proj2 (Z.leb_le _ _) H) in F. destruct (exec_ok _ o S F) as (o' & E & S' & _). eauto.
  - unfold dexec. rewrite F. destruct (Z.leb_spec (dl_need L (Dheevd b M)) lw); [contradiction|reflexivity].
Qed.

Lemma calls_iff {F} qm (l : list (call F)) o : same o -> (forall b, In b (rr_blocks l) -> b <= M) ->
  ((exists o', d_calls L gk qm l o = Ok o') <-> forall b, In b (rr_blocks l) -> (dl_need L (Dheevd b M) <= lw)%Z) /\
  ((d_calls L gk qm l o = UB) <-> ~ forall b, In b (rr_blocks l) -> (dl_need L (Dheevd b M) <= lw)%Z).
Proof.
  revert o. induction l as [|c l IH]; intros o S Hb.
  - cbn. split; split; intros H; eauto; try contradiction; try discriminate. exfalso. apply H. contradiction.
  - assert (D : (exists b, c = CRr b) \/ (rr_blocks (c :: l) = rr_blocks l /\ exists o', d_call L gk qm c o = Ok o' /\ same o')).
    { destruct c; eauto; right; (split; [reflexivity|]); cbn; eauto. now apply qr_ok. }
    destruct D as [[b ->]|(R & o1 & E & S1)].
    + change (rr_blocks (CRr b :: l)) with (b :: rr_blocks l) in *. cbn [d_calls d_call].
      destruct (rr_spec b o S (Hb b (or_introl eq_refl))) as [P Q].
      destruct (Z_le_dec (dl_need L (Dheevd b M)) lw) as [X|X].
      * destruct (P X) as (o1 & E & S1). rewrite E. cbn [bind]. destruct (IH o1 S1 (fun x h => Hb x (or_intror h))) as [I1 I2].
        split; [rewrite I1|rewrite I2]; split; intros H.
        -- intros x [<-|Hx]; auto.
        -- intros x Hx. apply H. now right.
        -- intros A. apply H. intros x Hx. apply A. now right.
        -- intros A. apply H. intros x [<-|Hx]; auto.
      * rewrite (Q X). cbn [bind]. split; split; intros H; auto.
        -- destruct H as [? ?]. discriminate.
        -- exfalso. apply X, H. now left.
        -- intros A. apply X, A. now left.
    + rewrite R in *. cbn [d_calls]. rewrite E. cbn [bind]. now apply IH.
Qed.
End Dw.

(** the eigenproblems of a solve *)
Lemma rr_app {F} (a b : list (call F)) : rr_blocks (a ++ b) = rr_blocks a ++ rr_blocks b.
Proof. apply flat_map_app. Qed.
Lemma rr_swaps {F} off sw : rr_blocks (@swap_calls F off sw) = [].
Proof. induction sw as [|p sw IH]; auto. Qed.
Lemma rr_filter {F} (fo : fops F) d ds a b c : rr_blocks (filter_calls fo d ds a b c) = [].
Proof.
  unfold filter_calls. cbv zeta. match goal with |- rr_blocks (?x :: ?y ++ ?z) = _ => change (rr_blocks (y ++ z) = []) end. rewrite rr_app.
  match goal with |- rr_blocks (map _ ?x) ++ _ = _ => induction x as [|i s IH]; auto end.
Qed.
Lemma rr_iter {F} (fo : fops F) ub r : rr_blocks (iter_calls fo ub r) = [it_unconv r].
Proof. unfold iter_calls. now rewrite !rr_app, !rr_swaps, rr_filter. Qed.
Lemma rr_start {F} (fo : fops F) cf sw idx : rr_blocks (start_calls fo cf sw idx) = [].
Proof.
  unfold start_calls. cbv zeta. destruct (c_approx cf); auto. rewrite !rr_app, rr_swaps. now destruct (0 <? idx).
Qed.
Lemma iters_blocks {F} (fo : fops F) ub nev nex l rs l' : iters nev nex l rs l' ->
  forall b, In b (rr_blocks (flat_map (iter_calls fo ub) rs)) -> nex < b <= nev + nex.
Proof.
  induction 1 as [|l rs l' r H IH E O]; intros b; [contradiction|].
  rewrite flat_map_app, rr_app. cbn [flat_map]. rewrite app_nil_r, rr_iter. intros Hb. apply in_app_or in Hb as [Hb|[<-|[]]]; auto.
  destruct O as (O1 & O2 & _). lia.
Qed.
Lemma solve_blocks {F St} (fo : fops F) (K : kernel F St) sort_idx : (forall keys, Permutation (sort_idx keys) (seq 0 (length keys))) ->
  forall fsort cf t ritzv resid o s, conf_ok cf ->
  solve fo (logK K) fsort sort_idx cf ([], t) ritzv resid = Ok o -> o_exit o = Some s ->
  forall b, In b (rr_blocks (fst (o_k o))) -> c_nex cf < b <= c_nev cf + c_nex cf.
Proof.
  intros Hp fsort cf t ritzv resid o s HC H Ho b Hb.
  destruct (solve_protocol fo K sort_idx Hp fsort cf ([], t) ritzv resid o s HC H Ho) as (ub & rs & sw & idx & sw' & I & _ & _ & _ & E).
  rewrite E in Hb. cbn [fst app] in Hb. rewrite !rr_app, rr_start, rr_swaps in Hb.
  replace (rr_blocks (if c_symcheck cf then [CSym] else [])) with (@nil nat) in Hb by (now destruct (c_symcheck cf)).
  cbn [app] in Hb. rewrite app_nil_r in Hb. exact (iters_blocks fo ub _ _ _ _ _ I b Hb).
Qed.

(** ** statements *)
Lemma lwork_is_asked L gk rows nev nex : asked L gk rows (nev + nex) (w_lwork (construct L gk rows nev nex)).
Proof. exact (lw_asked L gk rows nev nex). Qed.

Lemma calls_exact {F} L gk rows nev nex qm (l : list (call F)) : 1 <= nev + nex -> (gk = GOne -> nev + nex <= rows) ->
  (forall b, In b (rr_blocks l) -> b <= nev + nex) ->
  ((exists o, d_calls L gk qm l (construct L gk rows nev nex) = Ok o) <->
     forall b, In b (rr_blocks l) -> (dl_need L (Dheevd b (nev + nex)) <= w_lwork (construct L gk rows nev nex))%Z) /\
  (d_calls L gk qm l (construct L gk rows nev nex) = UB <->
     ~ forall b, In b (rr_blocks l) -> (dl_need L (Dheevd b (nev + nex)) <= w_lwork (construct L gk rows nev nex))%Z).
Proof. intros HM HR Hb. exact (calls_iff L gk rows nev nex HM HR qm l _ (same_new L gk rows nev nex) Hb). Qed.

Lemma solves_suffice {F St} (fo : fops F) (K : kernel F St) sort_idx : (forall keys, Permutation (sort_idx keys) (seq 0 (length keys))) ->
  forall L gk rows nev nex qm, 1 <= nev -> (gk = GOne -> nev + nex <= rows) -> heevd_grows L (nev + nex) ->
  forall logs, (forall log, In log logs -> exists fsort cf t ritzv resid o s, conf_ok cf /\ c_nev cf = nev /\ c_nex cf = nex /\
      solve fo (logK K) fsort sort_idx cf ([], t) ritzv resid = Ok o /\ o_exit o = Some s /\ log = fst (o_k o)) ->
  exists o, d_calls L gk qm (concat logs) (construct L gk rows nev nex) = Ok o.
Proof.
  intros Hp L gk rows nev nex qm H1 HR G logs HL.
  assert (B : forall b, In b (rr_blocks (concat logs)) -> b <= nev + nex).
  { clear G. induction logs as [|l logs IH]; [contradiction|]. intros b. cbn [concat]. rewrite rr_app. intros Hb. apply in_app_or in Hb as [Hb|Hb].
    - destruct (HL l (or_introl eq_refl)) as (fsort & cf & t & ritzv & resid & o & s & HC & <- & <- & H & Ho & ->).
      exact (proj2 (solve_blocks fo K sort_idx Hp fsort cf t ritzv resid o s HC H Ho b Hb)).
    - apply IH; auto. intros x Hx. apply HL. now right. }
  destruct (calls_exact L gk rows nev nex qm (concat logs)) as [[_ I] _]; auto; [lia|]. apply I. intros b Hb.
  etransitivity; [exact (G b (B b Hb))|]. apply (lw_ge L gk rows nev nex). apply in_or_app. right. cbn. auto.
Qed.

(** a library whose answer for a smaller eigenproblem is larger: after the first pairs are locked the work area is too small *)
Definition odd_lib : dlib := mk_dlib (fun c => match c with Dheevd 2 _ => 100 | _ => 10 end)%Z (fun _ => 0%Z).
Definition ex_lib : dlib := mk_dlib (fun c => match c with Dgeqrf m n _ => Z.of_nat (m * n) | Dgqr m n k _ => Z.of_nat (m * k + n)
                                     | Dheevd n _ => Z.of_nat (n * n + 5) | Dpotrf n _ => Z.of_nat n end) (fun i => if i =? 2 then 3%Z else 0%Z).
Lemma ex_grows M : heevd_grows ex_lib M.
Proof. intros b Hb. cbn. nia. Qed.

Require Import Verif.MemEx.
Definition dw_state : list (call oz) * script :=
  ([], mk_script [10; 11; 12] 7 true (Some 1000%Z) ([], []) [map (@Some Z) [1; 2; 500]%Z; map (@Some Z) [1; 2; 500]%Z] [map (@Some Z) [100000; 16; 10]%Z; map (@Some Z) [50000; 8; 10]%Z]).
Lemma dw_run : exists o s, solve zf (logK sk) fsort_ex sort_ex mem_conf dw_state (map (@Some Z) [0; 0; 500]%Z) (map (@Some Z) [0; 0; 0]%Z) = Ok o /\
  o_exit o = Some s /\ rr_blocks (fst (o_k o)) = [3; 3; 2] /\
  (forall gk, d_calls odd_lib gk (fun _ => QTwo) (fst (o_k o)) (construct odd_lib gk 100 2 1) = UB) /\
  (exists o', d_calls ex_lib GOne (fun i => if i =? 0 then QOne else QTwo) (fst (o_k o)) (construct ex_lib GOne 100 2 1) = Ok o' /\ w_calls o' = 9).
Proof.
  eexists _, _. split; [vm_compute; reflexivity|]. split; [reflexivity|]. split; [vm_compute; reflexivity|].
  split; [intros []; vm_compute; reflexivity|]. eexists. split; vm_compute; reflexivity.
Qed.
Lemma any_library_bad : ~ (forall L gk rows nev nex qm fsort cf t ritzv resid o s, 1 <= nev -> nev + nex <= rows -> conf_ok cf -> c_nev cf = nev -> c_nex cf = nex ->
  solve zf (logK sk) fsort sort_ex cf ([], t) ritzv resid = Ok o -> o_exit o = Some s ->
  exists o', d_calls L gk qm (fst (o_k o)) (construct L gk rows nev nex) = Ok o').
Proof.
  intros H. destruct dw_run as (o & s & E & X & _ & U & _).
  destruct (fun a b c => H odd_lib GOne 100 2 1 (fun _ => QTwo) fsort_ex mem_conf _ _ _ o s a b c eq_refl eq_refl E X) as (o' & D); try lia.
  - vm_compute. repeat split; lia.
  - rewrite U in D. discriminate.
Qed.
