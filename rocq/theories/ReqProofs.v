(** Proofs about parameters a solve cannot do without. *)
From Coq Require Import List Arith ZArith Bool Lia Permutation.
Require Import Verif.Base Verif.AlgModel Verif.AlgSpec Verif.ConfigModel Verif.ConfigSpec Verif.AlgSim Verif.DlaModel Verif.DlaSim Verif.ColModel Verif.ColProofs1 Verif.ColSpec Verif.GpuModel Verif.GpuSpec Verif.GpuProofs1 Verif.InplProofs
  Verif.SfModel Verif.SfSpec Verif.SiModel Verif.SiSpec Verif.SgModel Verif.SgSpec Verif.SuSpec Verif.SuProofs1 Verif.SuProofs2 Verif.SfProofs1 Verif.SgProofs3 Verif.MgpuModel Verif.MgpuSpec Verif.MgpuProofs2 Verif.ReqSpec.
Import ListNotations.
Local Open Scope nat_scope.

Record room {F D} (L : dla F D) (n : nat) (I : D -> Prop) : Prop := {
  rm_over : forall M nv d, I d -> n < nv -> d_mlanczos L M (Some nv) d = UB;
  rm_zero : forall M d, I d -> M <= n -> exists r, d_mlanczos L M (Some 0) d = Ok r }.

Section Gen.
Context {F D : Type} (fo : fops F) (qe : qr_env F) (td : tridiag F) (L : dla F D) (cf : conf F) (I : D -> Prop).
Local Notation n := (c_nev cf + c_nex cf).
Context (DS : dla_safe L n I) (RM : room L n I).
Local Notation K := (cmK fo qe td L (c_nev cf) (c_nex cf)).

Lemma put_range_cases {A} (l : list A) off xs : put_range l off xs = UB \/ exists l', put_range l off xs = Ok l'.
Proof. unfold put_range. destruct (_ <=? _); eauto. Qed.

Lemma lanczos_fails fsort rv s : unusable cf -> I (cm_dla s) ->
  lanczos fo K fsort (c_N cf) (c_numlanczos cf) (Nat.min n (Nat.min (c_N cf / 2) (c_lanczositer cf))) n (negb (c_approx cf)) rv s = UB.
Proof.
  intros U Hs. unfold lanczos. set (m := Nat.min n (Nat.min (c_N cf / 2) (c_lanczositer cf))).
  destruct (m =? 0) eqn:Em; [reflexivity|]. apply Nat.eqb_neq in Em.
  assert (Hm : m <= n) by (unfold m; lia).
  destruct U as [U|[U|[U|[U [V|V]]]]].
  - exfalso. apply Em. unfold m. rewrite (Nat.div_small _ _ U). lia.
  - exfalso. apply Em. unfold m. lia.
  - exfalso. apply Em. unfold m. lia.
  - rewrite U, V. cbn [negb cmK k_lanczos2]. unfold cm_lanczos2.
    destruct (rm_zero _ _ _ RM m _ Hs Hm) as ([[[d e] b] x] & ->). cbn [bind for_]. reflexivity.
  - rewrite U. cbn [negb cmK k_lanczos2]. unfold cm_lanczos2. rewrite (rm_over _ _ _ RM _ _ _ Hs V). reflexivity.
Qed.

Lemma init_fails fsort rv rs s : unusable cf -> I (cm_dla s) -> solve_init fo K fsort cf s rv rs = UB.
Proof.
  intros U Hs. unfold solve_init. cbn [cmK k_start k_init k_qr].
  destruct (ds_start _ _ _ DS _ Hs) as (d & -> & Hd). cbn [bind]. cbv zeta.
  destruct (put_range_cases rs 0 (repeat (f_max fo) n)) as [->|(r1 & ->)]; [reflexivity|]. cbn [bind].
  assert (X : exists s2, cm_init L (negb (c_approx cf)) (mk_cm 0 d) = Ok s2 /\ cmI (c_nev cf) (c_nex cf) I 0 s2).
  { unfold cm_init, lift. cbn [cm_dla cm_locked].
    destruct (c_approx cf); cbn [negb bind].
    - destruct (ds_init _ _ _ DS _ Hd) as (d2 & -> & H2). cbn [bind]. eexists. split; [reflexivity|]. repeat split; cbn; auto; lia.
    - destruct (ds_initrnd _ _ _ DS _ Hd) as (d1 & -> & H1). cbn [bind].
      destruct (ds_init _ _ _ DS _ H1) as (d2 & -> & H2). cbn [bind]. eexists. split; [reflexivity|]. repeat split; cbn; auto; lia. }
  destruct X as (s2 & -> & H2). cbn [bind].
  assert (Y : exists s3, (if negb (c_approx cf) then cm_qr fo qe L 0 (f_one fo) s2 else Ok s2) = Ok s3 /\ cmI (c_nev cf) (c_nex cf) I 0 s3).
  { destruct (negb _); [|eauto]. apply (cm_qr_ok fo qe L (c_nev cf) (c_nex cf) I DS). exact H2. }
  destruct Y as (s3 & -> & (_ & _ & H3)). cbn [bind].
  rewrite (lanczos_fails fsort rv s3 U H3). reflexivity.
Qed.

Lemma solve_fails fsort si rv rs s : unusable cf -> I (cm_dla s) -> no_answer_ub K cf s (solve fo K fsort si cf s rv rs).
Proof.
  intros U Hs. unfold solve. destruct (c_symcheck cf) eqn:Ec.
  - destruct (ds_sym _ _ _ DS _ Hs) as (b & d & E & Hd). assert (E' : k_sym K s = Ok (b, mk_cm (cm_locked s) d)) by (cbn [cmK k_sym]; unfold lift_v; rewrite E; reflexivity).
    rewrite E'. cbn [bind]. destruct b; cbn [negb].
    + rewrite init_fails; auto. exact Logic.I.
    + cbn. auto.
  - cbn [bind negb]. rewrite init_fails; auto. exact Logic.I.
Qed.
End Gen.

Section Col.
Context {F V M G T : Type} (fo : fops F) (bl : blas F V M G T).

Lemma get_range_over {A} (l : list A) m : length l < m -> get_range l 0 m = UB.
Proof. intros H. unfold get_range. destruct (_ <=? _) eqn:E; auto. apply Nat.leb_le in E. lia. Qed.
Lemma mlanczos_over H Mn nv C : length C < nv -> mlanczos fo bl H Mn (Some nv) C = UB.
Proof. intros X. unfold mlanczos. rewrite (get_range_over C nv X). reflexivity. Qed.
Lemma col_room mpi n w : n <= w -> room (colD fo bl mpi n) n (clen n w).
Proof.
  intros Hw. split; cbn [colD d_mlanczos].
  - intros Mn nv d (L1 & _) X. unfold c_mlanczos. rewrite mlanczos_over; [reflexivity|lia].
  - intros Mn d HL X. destruct (c_mlanczos_ok fo bl n w Hw Mn (Some 0) d HL ltac:(cbn; lia) X) as (a & b & c & s & -> & _). eauto.
Qed.
Lemma inpl_room n : room (inplD fo bl n) n (ilen n).
Proof.
  split; cbn [inplD d_mlanczos].
  - intros Mn nv d (L1 & _) X. unfold i_mlanczos. rewrite mlanczos_over; [reflexivity|lia].
  - intros Mn d HL X. destruct (i_mlanczos_ok fo bl n Mn (Some 0) d HL ltac:(cbn; lia) X) as (a & b & c & s & -> & _). eauto.
Qed.
Lemma g_loop0 H Mn : forall todo k s, ml_v0 s = [] -> ml_v1 s = [] -> exists s', g_loop fo bl todo k H false Mn 0 s = Ok s' /\ ml_v1 s' = [].
Proof.
  induction todo; intros k s H0 Hv; cbn [g_loop]; [eauto|]. unfold g_body. cbn [for_ bind]. cbv zeta. rewrite H0, Hv. cbn [map].
  destruct todo; [eexists; split; reflexivity|]. unfold ml_next. cbn [for_ bind]. cbv zeta. apply IHtodo; [reflexivity|].
  cbn [ml_v1]. destruct (k =? 0); cbn; [reflexivity|]. destruct (ml_b s); reflexivity.
Qed.
Lemma gpu_room n : room (gpuD fo bl n) n (glen n).
Proof.
  split; cbn [gpuD d_mlanczos].
  - intros Mn nv d ((L1 & _) & _) X. unfold GpuModel.g_mlanczos, dv_mlanczos, g_lanczos. rewrite get_range_over; [reflexivity|lia].
  - intros Mn d _ _. unfold GpuModel.g_mlanczos, dv_mlanczos, g_lanczos.
    replace (get_range (is_V1 (g_dev d)) 0 0) with (Ok (@nil V)) by reflexivity. cbn [bind map]. cbv zeta.
    match goal with |- context [g_loop fo bl Mn 0 ?H false Mn 0 ?s0] => destruct (g_loop0 H Mn Mn 0 s0 eq_refl eq_refl) as (s' & -> & E) end.
    cbn [bind]. rewrite E. unfold put_range. cbn [Nat.add length Nat.leb bind]. eauto.
Qed.
End Col.

(** ** backends *)
Local Notation run fo qe td cf D fsort si rv rs s := (solve fo (cmK fo qe td D (c_nev cf) (c_nex cf)) fsort si cf s rv rs).
Lemma na_weak {F St} (K : kernel F St) cf k r : no_answer_ub K cf k r -> no_answer r.
Proof. destruct r; cbn; tauto. Qed.
Section Backends.
Context {F V M G T : Type} (fo : fops F) (bl : blas F V M G T) (qe : qr_env F) (td : tridiag F) (cf : conf F) (U : unusable cf).
Local Notation n := (c_nev cf + c_nex cf).
Context (fsort : list F -> list F) (si : list F -> list nat) (rv rs : list F).
Lemma col_fails mpi w s : n <= w -> clen n w (cm_dla s) -> no_answer_ub (cmK fo qe td (colD fo bl mpi n) (c_nev cf) (c_nex cf)) cf s (run fo qe td cf (colD fo bl mpi n) fsort si rv rs s).
Proof. intros Hw HL. exact (solve_fails fo qe td _ cf _ (col_dla_safe fo bl mpi n w Hw) (col_room fo bl mpi n w Hw) fsort si rv rs s U HL). Qed.
Lemma inpl_fails s : ilen n (cm_dla s) -> no_answer_ub (cmK fo qe td (inplD fo bl n) (c_nev cf) (c_nex cf)) cf s (run fo qe td cf (inplD fo bl n) fsort si rv rs s).
Proof. intros HL. exact (solve_fails fo qe td _ cf _ (inpl_dla_safe fo bl n) (inpl_room fo bl n) fsort si rv rs s U HL). Qed.
Lemma gpu_fails s : glen n (cm_dla s) -> no_answer_ub (cmK fo qe td (gpuD fo bl n) (c_nev cf) (c_nex cf)) cf s (run fo qe td cf (gpuD fo bl n) fsort si rv rs s).
Proof. intros HL. exact (solve_fails fo qe td _ cf _ (gpu_dla_safe fo bl n) (gpu_room fo bl n) fsort si rv rs s U HL). Qed.
Lemma mgpu_fails loc g : (forall keys, Permutation (si keys) (seq 0 (length keys))) -> beta_zero fo bl -> no_late_failure bl n -> mgpu_sizes n (cm_dla g) ->
  no_answer (run fo qe td cf (mgpuD fo bl loc false n) fsort si rv rs g).
Proof.
  intros Hp BZ NLF HG. pose proof (mgpu_same fo bl loc qe td cf si Hp fsort BZ NLF g rv rs HG) as X. destruct HG as (A1 & A2 & A3 & A4 & _).
  pose proof (col_fails true n (mk_cm (cm_locked g) (host (cm_dla g))) (le_n n) ltac:(unfold clen; cbn; auto)) as C. apply na_weak in C.
  destruct (run fo qe td cf (mgpuD fo bl loc false n) fsort si rv rs g) as [a| |];
    destruct (solve fo (cmK fo qe td (colD _ _ _ _) _ _) _ _ _ _ _ _) as [b| |]; cbn in C |- *; try easy. now apply X.
Qed.
End Backends.

Section Arrays.
Context {F T : Type} (fo : fops F) (lib : flib F T) (qe : qr_env F) (td : tridiag F) (cf : conf F) (U : unusable cf) (N ldh : nat) (N1 : 1 <= N) (NL : N <= ldh).
Local Notation n := (c_nev cf + c_nex cf).
Context (fsort : list F -> list F) (si : list F -> list nat) (rv rs : list F).
Lemma seq_arrays_fail w l0 f : n <= w -> flat_sizes N ldh n w f -> no_answer (run fo qe td cf (flatD fo lib N ldh n) fsort si rv rs (mk_cm l0 f)).
Proof.
  intros Hw HS. pose proof (u_solve fo lib qe td cf N ldh w N1 NL f HS l0 fsort si rv rs) as X.
  assert (C : no_answer (solve fo (cmK fo qe td (colD fo (col_blas fo lib N) false n) (c_nev cf) (c_nex cf)) fsort si cf (mk_cm l0 (flat_columns lib N ldh n w f)) rv rs)).
  { eapply na_weak, (col_fails fo (col_blas fo lib N) qe td cf U fsort si rv rs false w); auto. cbn [cm_dla]. unfold clen, flat_columns, columns. cbn. rewrite !tab_length. auto. }
  unfold SfSpec.same_run in X. destruct (run fo qe td cf (flatD fo lib N ldh n) fsort si rv rs (mk_cm l0 f)) as [a| |];
    destruct (solve fo (cmK fo qe td (colD _ _ _ _) _ _) _ _ _ _ _ _) as [b| |]; cbn in C |- *; try easy.
  destruct X as (_ & _ & _ & _ & _ & _ & _ & _ & X). rewrite C in X. destruct (o_exit a); easy.
Qed.
Lemma inpl_arrays_fail l0 f : iflat_sizes N ldh n f -> no_answer (run fo qe td cf (iflatD fo lib N ldh n) fsort si rv rs (mk_cm l0 f)).
Proof.
  intros HS. pose proof (ui_solve fo lib qe td cf N ldh N1 NL f HS l0 fsort si rv rs) as X.
  assert (C : no_answer (solve fo (cmK fo qe td (inplD fo (col_blas fo lib N) n) (c_nev cf) (c_nex cf)) fsort si cf (mk_cm l0 (iflat_columns lib N ldh n f)) rv rs)).
  { eapply na_weak, (inpl_fails fo (col_blas fo lib N) qe td cf U fsort si rv rs); auto. cbn [cm_dla]. unfold ilen, iflat_columns, columns. cbn. rewrite !tab_length. auto. }
  unfold same_run_i in X. destruct (run fo qe td cf (iflatD fo lib N ldh n) fsort si rv rs (mk_cm l0 f)) as [a| |];
    destruct (solve fo (cmK fo qe td (inplD _ _ _) _ _) _ _ _ _ _ _) as [b| |]; cbn in C |- *; try easy.
  destruct X as (_ & _ & _ & _ & _ & _ & _ & _ & _ & _ & X). rewrite C in X. destruct (o_exit a); easy.
Qed.
Lemma gpu_arrays_fail l0 f : gflat_sizes N ldh n f -> no_answer (run fo qe td cf (gflatD fo lib N ldh n) fsort si rv rs (mk_cm l0 f)).
Proof.
  intros HS. pose proof (gflat_solve fo lib qe td cf N ldh N1 NL f HS l0 fsort si rv rs) as X.
  assert (C : no_answer (solve fo (cmK fo qe td (gpuD fo (col_blas fo lib N) n) (c_nev cf) (c_nex cf)) fsort si cf (mk_cm l0 (gpu_columns lib N ldh n f)) rv rs)).
  { eapply na_weak, (gpu_fails fo (col_blas fo lib N) qe td cf U fsort si rv rs); auto. cbn [cm_dla]. destruct HS as (_ & _ & _ & _ & _ & _ & S7 & _).
    unfold glen, ilen, gpu_columns, columns. cbn. rewrite !tab_length. auto. }
  unfold same_run_g in X. destruct (run fo qe td cf (gflatD fo lib N ldh n) fsort si rv rs (mk_cm l0 f)) as [a| |];
    destruct (solve fo (cmK fo qe td (gpuD _ _ _) _ _) _ _ _ _ _ _) as [b| |]; cbn in C |- *; try easy.
  destruct X as (_ & _ & _ & _ & _ & _ & X). rewrite C in X. destruct (o_exit a); easy.
Qed.
End Arrays.

(** ** defaults *)
Lemma defaults_unusable {T} (tol5 tol10 : T) t n nev nex : (nev + nex < 4)%N -> unusable (to_conf (new_config tol5 tol10 t n nev nex)).
Proof. intros H. right. right. right. cbn. split; [destruct t; reflexivity|]. right. destruct t; cbn; lia. Qed.
Lemma defaults_usable {T} (tol5 tol10 : T) t n nev nex : (4 <= nev + nex)%N -> (2 <= n)%N -> ~ unusable (to_conf (new_config tol5 tol10 t n nev nex)).
Proof. intros H Hn U. destruct U as [U|[U|[U|[_ [U|U]]]]]; destruct t; cbn in U; lia. Qed.
