(** The asynchronous multi-GPU backend against the CPU backend, and a concrete run. *)
From Coq Require Import List Arith ZArith QArith Bool Permutation.
Require Import Verif.Base Verif.AlgModel Verif.AlgSpec Verif.AlgProofs1 Verif.AlgProofs3 Verif.DlaModel Verif.ColModel Verif.ColSpec Verif.ColProofs1 Verif.ColEx
  Verif.GpuEx Verif.MgpuModel Verif.MgpuSpec Verif.MgpuProofs2 Verif.MgpuProofs3 Verif.MgpuEx Verif.AsyncModel Verif.AsyncSpec Verif.AsyncProofs
  Verif.AmgModel Verif.AmgSpec Verif.AmgProofs.
Import ListNotations.
Local Open Scope nat_scope.

Section P.
Context {F V M G T : Type} (fo : fops F) (bl : blas F V M G T).
Context (loc : bool -> M -> F -> F -> V -> V -> V) (locv : M -> V -> V) (locS : list V -> G) (locR : list V -> list V -> G) (red : V -> V) (redG : G -> G).
Context (HS : sums fo bl loc locv locS locR red redG) (qe : qr_env F) (td : tridiag F) (cf : conf F).
Context (sort_idx : list F -> list nat) (Hperm : forall keys, Permutation (sort_idx keys) (seq 0 (length keys))) (fsort : list F -> list F).
Context (BZ : beta_zero fo bl) (NL : no_late_failure bl (c_nev cf + c_nex cf)).
Local Notation n := (c_nev cf + c_nex cf).
Local Notation K1 sch := (cmK fo qe td (amgD fo bl loc locv locS locR red redG false n sch) (c_nev cf) (c_nex cf)).
Local Notation K3 := (cmK fo qe td (colD fo bl true n) (c_nev cf) (c_nex cf)).

Lemma amg_cpu sch s g ritzv resid o : cm_locked s = cm_locked g -> mstands n (cm_dla s) (cm_dla g) -> mgpu_sizes n (cm_dla g) ->
  solve fo K3 fsort sort_idx cf (mk_cm (cm_locked g) (MgpuSpec.host (cm_dla g))) ritzv resid = Ok o ->
  exists o', solve fo (K1 sch) fsort sort_idx cf s ritzv resid = Ok o' /\ o_ritz o' = o_ritz o /\ o_res o' = o_res o /\
    (o_exit o' = None <-> o_exit o = None) /\ y_C (mt_obj (cm_dla (o_k o'))) = cs_C (cm_dla (o_k o)) /\
    y_H (mt_obj (cm_dla (o_k o'))) = y_H (mt_obj (cm_dla s)).
Proof.
  intros EL Hs HG H. pose proof (mgpu_same fo bl loc qe td cf sort_idx Hperm fsort BZ NL g ritzv resid HG) as X. rewrite H in X.
  destruct (solve fo _ fsort sort_idx cf g ritzv resid) as [o2| |] eqn:E; cbn in X; try contradiction. destruct X as (X1 & X2 & X3 & X4 & X5 & _).
  destruct (amg_solve fo bl loc locv locS locR red redG HS false n sch qe td cf fsort sort_idx s g ritzv resid o2 EL Hs E) as (o' & E' & A1 & A2 & A3 & A4 & A5 & _).
  exists o'. split; [exact E'|]. split; [congruence|]. split; [congruence|]. split; [rewrite A3; exact X4|]. split; [congruence|].
  rewrite A5, X5. destruct Hs as (d & _ & _ & MU & _). rewrite MU. reflexivity.
Qed.
Lemma amg_agree s g ritzv resid : cm_locked s = cm_locked g -> mstands n (cm_dla s) (cm_dla g) -> mgpu_sizes n (cm_dla g) ->
  conf_ok cf -> (forall l, length (fsort l) = length l) ->
  n <= length ritzv -> n <= length resid -> 2 <= c_N cf -> 1 <= c_lanczositer cf -> c_approx cf = true ->
  degree_overflow fo K3 sort_idx fsort cf (mk_cm (cm_locked g) (MgpuSpec.host (cm_dla g))) ritzv resid \/
  exists values residuals vectors, forall sch, exists o, solve fo (K1 sch) fsort sort_idx cf s ritzv resid = Ok o /\
    o_ritz o = values /\ o_res o = residuals /\ y_C (mt_obj (cm_dla (o_k o))) = vectors.
Proof.
  intros EL Hs HG HC Hf L1 L2 HN HL HA.
  destruct (mgpu_safe fo bl loc qe td cf sort_idx Hperm fsort BZ NL g ritzv resid HG HC Hf L1 L2 HN HL HA) as [(o & E)|(_ & D)]; [right|left; exact D].
  exists (o_ritz o), (o_res o), (m_C (cm_dla (o_k o))). intros sch.
  destruct (amg_solve fo bl loc locv locS locR red redG HS false n sch qe td cf fsort sort_idx s g ritzv resid o EL Hs E) as (o' & E' & A1 & A2 & _ & A4 & _).
  exists o'. auto.
Qed.
End P.

(** local results that are not the sums: the sum over the processes changes the sign back *)
Definition nloc (_ : bool) (h : qv) (a b : Q) (x y : qv) : qv := map Qopp (zgemm h a b x y).
Definition nlocv (h x : qv) : qv := map Qopp (b_mulH mB h x).
Definition swp (g : list qv * list qv) := (snd g, fst g).
Definition nlocS (c : list qv) := swp (b_syherk mB c).
Definition nlocR (x y : list qv) := swp (b_gram mB x y).
Lemma oppopp (x : qv) : map Qopp (map Qopp x) = x.
Proof. rewrite map_map. rewrite <- (map_id x) at 2. apply map_ext. intros [a b]. unfold Qopp. cbn. now rewrite Z.opp_involutive. Qed.
Lemma swpswp g : swp (swp g) = g.
Proof. destruct g. reflexivity. Qed.
Lemma q_sums : sums qf mB nloc nlocv nlocS nlocR (map Qopp) swp.
Proof.
  split; intros; try apply oppopp; try apply swpswp. change (zgemm h 1 0 x y = vmap2 Qmult h x). unfold zgemm, vscal, vmap2. cbn [Qeq_bool Qnum Qden Z.mul Zeq_bool Z.compare].
  change (map (fun t => Qred (1 * t)) (map (fun p => Qred (fst p * snd p)) (combine h x)) = map (fun p => Qred (fst p * snd p)) (combine h x)).
  rewrite map_map. apply map_ext. intros p. apply Qred_complete. rewrite Qmult_1_l. apply Qred_correct.
Qed.
Definition amgQ sch := cmK qf qcholon qtd (amgD qf mB nloc nlocv nlocS nlocR (map Qopp) swp false 2 sch) 2 0.
(** an object with three operations waiting; when they have run it is [mgpu_used] *)
Definition mdev_used : mdev (F := Q) (V := qv) (M := qv) (G := list qv * list qv) :=
  mk_mdev [7; 7; 7]%Q [[0; 0; 0]; [0; 0; 0]]%Q [] junk junk ([], []) [5; 5]%Q 3 [] [].
Definition amg_used := mk_cm 0 (mk_amst (mk_mhost H3 W3 junk junk junk true (Some false)) 4
  (mk_cfg mdev_used [(Legacy, fun d => Ok (sx_C d junk)); (Legacy, fun d => Ok (sx_B d (x_C d))); (Legacy, fun d => Ok (sx_H d [9; 9; 9]%Q))])).
Lemma amg_used_stands : mstands 2 (cm_dla amg_used) (cm_dla mgpu_used).
Proof. eexists. split; [reflexivity|]. split; [repeat constructor|]. split; [reflexivity|]. cbn. repeat split; auto. Qed.
Definition cpuM := cmK qf qcholon qtd (colD qf mB true 2) 2 0.
Lemma amg_run sch : exists o o', solve qf cpuM qfs qsort (qconf 2 0) (mk_cm 0 (MgpuSpec.host (cm_dla mgpu_used))) rv0 rs0 = Ok o /\
  o_exit o <> None /\ nth_error (o_ritz o) 1 = Some 2%Q /\ cs_C (cm_dla (o_k o)) <> W3 /\
  solve qf (amgQ sch) qfs qsort (qconf 2 0) amg_used rv0 rs0 = Ok o' /\
  o_exit o' <> None /\ o_ritz o' = o_ritz o /\ y_C (mt_obj (cm_dla (o_k o'))) = cs_C (cm_dla (o_k o)).
Proof.
  assert (X : exists o, solve qf cpuM qfs qsort (qconf 2 0) (mk_cm 0 (MgpuSpec.host (cm_dla mgpu_used))) rv0 rs0 = Ok o /\
    o_exit o <> None /\ nth_error (o_ritz o) 1 = Some 2%Q /\ cs_C (cm_dla (o_k o)) <> W3).
  { eexists. split; [vm_compute; reflexivity|]. split; [vm_compute; discriminate|]. split; [vm_compute; reflexivity|vm_compute; discriminate]. }
  destruct X as (o & E & X1 & X2 & X3). exists o.
  destruct (amg_cpu qf mB nloc nlocv nlocS nlocR (map Qopp) swp q_sums qcholon qtd (qconf 2 0) qsort qsort_perm qfs mB_beta (mB_no_late 2) sch amg_used mgpu_used rv0 rs0 o
    eq_refl amg_used_stands) as (o' & E' & A1 & _ & A3 & A4 & _); [repeat split|exact E|].
  exists o'. repeat (split; [assumption|]). split; [|split; assumption]. rewrite A3. exact X1.
Qed.
