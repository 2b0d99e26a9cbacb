(** Whole runs and sessions of the backends. *)
From Coq Require Import List Arith ZArith Bool Lia Permutation.
Require Import Verif.Base Verif.AlgModel Verif.AlgSpec Verif.AlgProofs1 Verif.AlgProofs2 Verif.AlgSim Verif.AlgSim2 Verif.AlgSim4 Verif.DlaSim Verif.DlaModel Verif.ColModel Verif.ColSpec
  Verif.ColProofs1 Verif.InplProofs Verif.GpuModel Verif.GpuSpec Verif.GpuProofs1 Verif.GpuProofs2 Verif.MgpuModel Verif.MgpuSpec Verif.MgpuProofs2 Verif.ReuseBase Verif.ReuseSpec Verif.ReuseSeq Verif.ReuseInpl Verif.ReuseEq Verif.ReuseKeep.
Import ListNotations.

(** ** sessions *)
Section Session.
Context {F V M D : Type} (vecs : D -> list V) (run : job (F := F) (V := V) (M := M) -> cm (D := D) -> res (outcome (F := F) (St := cm (D := D))))
  (fresh : job (F := F) (V := V) (M := M) -> res (outcome (F := F) (St := cm (D := D)))) (good : D -> Prop) (okj : job (F := F) (V := V) (M := M) -> Prop).
Context (Hkeep : forall j s o, okj j -> good (cm_dla s) -> run j s = Ok o -> good (cm_dla (o_k o))).
Context (Hsame : forall j s, okj j -> good (cm_dla s) -> same_results vecs vecs (run j s) (fresh j)).
Lemma same_answer (x y : res (outcome (F := F) (St := cm (D := D)))) : same_results vecs vecs x y ->
  match x, y with Ok a, Ok b => answer vecs a = answer vecs b | UB, UB => True | Fuel, Fuel => True | _, _ => False end.
Proof.
  unfold same_results. destruct x as [a| |], y as [b| |]; auto. intros (E1 & E2 & E3 & E4). unfold answer. rewrite E1, E2. f_equal.
  destruct (o_exit a) eqn:Ea, (o_exit b) eqn:Eb; auto.
  - f_equal. apply E4. discriminate.
  - destruct E3 as [_ E3]. specialize (E3 eq_refl). discriminate.
  - destruct E3 as [E3 _]. specialize (E3 eq_refl). discriminate.
Qed.
Lemma session_apart : forall jobs s, Forall okj jobs -> good (cm_dla s) -> session vecs run jobs s = apart vecs fresh jobs.
Proof.
  induction jobs as [|j r IH]; intros s HJ HG; [reflexivity|]. inversion HJ; subst. cbn [session apart].
  pose proof (same_answer _ _ (Hsame j s H1 HG)) as X. pose proof (Hkeep j s) as Y. destruct (run j s) as [a| |]; destruct (fresh j) as [b| |]; try easy.
  rewrite X. f_equal. apply IH; auto.
Qed.
End Session.

Lemma same_run_results {F V M D1 D2} (H1 : D1 -> M) (c1 : D1 -> list V) (H2 : D2 -> M) (c2 : D2 -> list V) (x : res (outcome (F := F) (St := cm (D := D1)))) y :
  same_run H1 c1 H2 c2 x y -> same_results c1 c2 x y.
Proof. unfold same_run, same_results. destruct x, y; auto. intros (A & B & C & _ & E). auto. Qed.

Section Solve.
Context {F V M G T : Type} (fo : fops F) (bl : blas F V M G T) (qe : qr_env F) (td : tridiag F) (nev nex : nat).
Context (sort_idx : list F -> list nat) (Hperm : forall keys, Permutation (sort_idx keys) (seq 0 (length keys))) (fsort : list F -> list F) (BZ : beta_zero fo bl).
Local Notation n := (nev + nex).
Local Notation jobT := (job (F := F) (V := V) (M := M)).

(** Seq and Mpi *)
Lemma col_session mpi c2 b2 jobs (s : cm (D := cst (V := V) (M := M))) (fr : jobT -> cst (V := V) (M := M)) :
  let K := cmK fo qe td (colD fo bl mpi n) nev nex in
  let run := fun j k => solve fo K fsort sort_idx (j_conf j) k (j_ritz j) (j_resid j) in
  col_sizes n n c2 b2 (cm_dla s) -> Forall (job_ok true nev nex) jobs ->
  (forall j, job_ok true nev nex j -> cs_H (fr j) = j_H j /\ (c_approx (j_conf j) = true -> cs_C (fr j) = j_V j) /\ col_sizes n n c2 b2 (fr j)) ->
  session cs_C (fun j k => run j (load_cst j k)) jobs s = apart cs_C (fun j => run j (mk_cm 0 (fr j))) jobs.
Proof.
  intros K run HS HJ HF. apply (session_apart cs_C _ _ (col_sizes n n c2 b2) (job_ok true nev nex)); auto; clear s HS jobs HJ.
  - intros j s o (CF & E1 & E2 & LV & _) HG H. eapply col_keep_solve; [|exact H]. destruct HG as (A1 & A2 & A3 & A4). unfold col_sizes, load_cst. cbn.
    destruct (c_approx (j_conf j)); auto.
  - intros j s HJ HG. pose proof (HF j HJ) as (F1 & F2 & F3 & F4 & F5 & F6). pose proof HJ as (CF & E1 & E2 & LV & _). destruct HG as (A1 & A2 & A3 & A4).
    pose proof (seq_same_run fo bl qe td mpi (j_conf j) sort_idx fsort (j_ritz j) (j_resid j) Hperm CF BZ) as X. cbv zeta in X. rewrite E1, E2 in X.
    apply (same_run_results cs_H cs_C cs_H cs_C), X. unfold same_problem, load_cst. cbn. rewrite F1, F4, F5, F6. repeat split; auto; try lia.
    + destruct (c_approx (j_conf j)); auto.
    + intros EA. rewrite EA, F2; auto.
Qed.

(** in place, random start *)
Lemma ist_session dev jobs (s : cm (D := ist (V := V) (M := M))) (fr : jobT -> ist (V := V) (M := M)) :
  let K := cmK fo qe td (istD fo bl dev n) nev nex in
  let run := fun j k => solve fo K fsort sort_idx (j_conf j) k (j_ritz j) (j_resid j) in
  ist_sizes n (cm_dla s) -> Forall (job_ok false nev nex) jobs ->
  (forall j, job_ok false nev nex j -> is_H (fr j) = j_H j /\ ist_sizes n (fr j)) ->
  session is_V1 (fun j k => run j (load_ist j k)) jobs s = apart is_V1 (fun j => run j (mk_cm 0 (fr j))) jobs.
Proof.
  intros K run HS HJ HF. apply (session_apart is_V1 _ _ (ist_sizes n) (job_ok false nev nex)); auto; clear s HS jobs HJ.
  - intros j s o (CF & E1 & E2 & LV & EA) HG H. eapply ist_keep_solve; [|exact H]. unfold load_ist. rewrite EA by auto. exact HG.
  - intros j s HJ HG. pose proof (HF j HJ) as (F1 & F2 & F3). pose proof HJ as (CF & E1 & E2 & LV & EA). specialize (EA eq_refl). destruct HG as (A1 & A2).
    pose proof (ist_same_run fo bl qe td dev (j_conf j) sort_idx fsort (j_ritz j) (j_resid j) Hperm CF BZ) as X. cbv zeta in X. rewrite E1, E2 in X.
    apply (same_run_results is_H is_V1 is_H is_V1), X. unfold same_problem2, load_ist. rewrite EA. cbn. repeat split; auto; congruence.
Qed.
End Solve.

Section One.
Context {F V M G T : Type} (fo : fops F) (bl : blas F V M G T) (qe : qr_env F) (td : tridiag F) (cf : conf F).
Context (sort_idx : list F -> list nat) (Hperm : forall keys, Permutation (sort_idx keys) (seq 0 (length keys))) (CF : conf_ok cf) (BZ : beta_zero fo bl) (fsort : list F -> list F) (ritzv resid : list F).
Local Notation n := (c_nev cf + c_nex cf).
Local Notation sol L := (solve fo (cmK fo qe td L (c_nev cf) (c_nex cf)) fsort sort_idx cf).

(** two blocks and Seq *)
Lemma ist_as_seq (dev : bool) (Hm : M -> Prop) : self_adjoint bl Hm -> no_late_failure bl n -> c_approx cf = true ->
  forall s t, same_start n s t -> Hm (cs_H (cm_dla t)) ->
  same_run is_H is_V1 cs_H cs_C (sol (istD fo bl dev n) s ritzv resid) (sol (colD fo bl false n) t ritzv resid).
Proof.
  intros SA NL EA s t H HM. assert (N1 : 1 <= n) by (destruct CF as (X & _); lia).
  pose proof (eq_paced fo bl qe td dev (c_nev cf) (c_nex cf) BZ Hm SA NL N1) as P. replace false with (negb (c_approx cf)) in P at 2 by (rewrite EA; reflexivity).
  pose proof (solve_paced fo _ _ cf _ _ _ _ _ _ _ _ sort_idx Hperm CF P fsort s t ritzv resid (conj H HM)) as X.
  unfold same_run. destruct (sol (istD fo bl dev n) s ritzv resid) as [a| |]; destruct (sol (colD fo bl false n) t ritzv resid) as [b| |]; try exact X.
  destruct X as (E1 & E2 & E3). split; [exact E1|]. split; [exact E2|].
  destruct (o_exit a), (o_exit b); try easy; (split; [split; easy|]).
  - destruct E3 as [_ ((EH & _) & EC & _)]. auto.
  - split; [apply E3|]. easy.
Qed.

(** the object of the bare device computation *)
Definition bare_of (g : cm (D := gst (F := F) (V := V) (M := M))) : cm (D := ist (V := V) (M := M)) :=
  mk_cm (cm_locked g) (mk_ist (g_H (cm_dla g)) (is_V1 (g_dev (cm_dla g))) (is_V2 (g_dev (cm_dla g))) (is_sw (g_dev (cm_dla g)))).
Lemma gpu_sizes_glen (g : gst (F := F) (V := V) (M := M)) : gpu_sizes n g <-> glen n g.
Proof. unfold gpu_sizes, glen, ilen. tauto. Qed.
Lemma gpu_bare_run g : gpu_sizes n (cm_dla g) ->
  same_results g_V1 is_V1 (sol (gpuD fo bl n) g ritzv resid) (sol (istD fo bl true n) (bare_of g) ritzv resid) /\
  (forall o, sol (gpuD fo bl n) g ritzv resid = Ok o -> gpu_sizes n (cm_dla (o_k o)) /\ g_H (cm_dla (o_k o)) = g_H (cm_dla g)).
Proof.
  intros HG. apply gpu_sizes_glen in HG.
  pose proof (solve_run fo _ _ cf _ _ _ sort_idx Hperm (gpu_run_rel fo bl qe td (c_nev cf) (c_nex cf) (g_H (cm_dla g))) fsort g (bare_of g) ritzv resid (bare_rel cf g HG)) as X.
  cbn [istD]. unfold same_results. destruct (sol (gpuD fo bl n) g ritzv resid) as [a| |]; destruct (sol (devD fo bl n) (bare_of g) ritzv resid) as [b| |]; try (now destruct X); try (split; [exact X|discriminate]).
  destruct X as (E1 & E2 & E3). split.
  - split; [exact E1|]. split; [exact E2|]. destruct (o_exit a), (o_exit b); try easy; (split; [split; easy|]). destruct E3 as (_ & _ & _ & EV). auto.
  - intros o Eo. assert (Eo' : a = o) by congruence. subst a. destruct (o_exit o), (o_exit b); try easy.
    + destruct E3 as (_ & _ & (X & Y & _) & _). split; [now apply gpu_sizes_glen|exact Y].
    + destruct E3 as (_ & (X & Y & _)). split; [now apply gpu_sizes_glen|exact Y].
Qed.

Lemma same_results_sym {D1 D2} (c1 : D1 -> list V) (c2 : D2 -> list V) (x : res (outcome (F := F) (St := cm (D := D1)))) y : same_results c1 c2 x y -> same_results c2 c1 y x.
Proof. unfold same_results. destruct x, y; auto. intros (A & B & C & E). repeat split; auto; try apply C. intros X. symmetry. apply E. tauto. Qed.
Lemma same_results_trans {D1 D2 D3} (c1 : D1 -> list V) (c2 : D2 -> list V) (c3 : D3 -> list V) (x : res (outcome (F := F) (St := cm (D := D1)))) y z :
  same_results c1 c2 x y -> same_results c2 c3 y z -> same_results c1 c3 x z.
Proof.
  unfold same_results. destruct x, y; try easy; destruct z; try easy. intros (A & B & C & E) (A' & B' & C' & E').
  repeat split; try congruence; try tauto. intros X. rewrite E by auto. apply E'. tauto.
Qed.

(** GPU: any two objects *)
Lemma gpu_same_run g g' : gpu_sizes n (cm_dla g) -> gpu_sizes n (cm_dla g') -> g_H (cm_dla g) = g_H (cm_dla g') ->
  (c_approx cf = true -> is_V1 (g_dev (cm_dla g)) = is_V1 (g_dev (cm_dla g'))) ->
  same_results g_V1 g_V1 (sol (gpuD fo bl n) g ritzv resid) (sol (gpuD fo bl n) g' ritzv resid).
Proof.
  intros HG HG' EH EV. destruct (gpu_bare_run g HG) as [A _]. destruct (gpu_bare_run g' HG') as [B _].
  eapply same_results_trans; [exact A|]. eapply same_results_trans; [|apply same_results_sym; exact B].
  apply (same_run_results is_H is_V1 is_H is_V1), (ist_same_run fo bl qe td true cf sort_idx fsort ritzv resid Hperm CF BZ). unfold same_problem2, bare_of. cbn.
  destruct HG as (A1 & A2 & A3 & A4). destruct HG' as (B1 & B2 & B3 & B4). repeat (split; auto).
Qed.
Lemma gpu_as_seq (Hm : M -> Prop) : self_adjoint bl Hm -> no_late_failure bl n -> c_approx cf = true ->
  forall g t, gpu_sizes n (cm_dla g) -> same_start n (bare_of g) t -> Hm (g_H (cm_dla g)) ->
  same_results g_V1 cs_C (sol (gpuD fo bl n) g ritzv resid) (sol (colD fo bl false n) t ritzv resid).
Proof.
  intros SA NL EA g t HG HS HM. destruct (gpu_bare_run g HG) as [A _]. eapply same_results_trans; [exact A|].
  apply (same_run_results is_H is_V1 cs_H cs_C), (ist_as_seq true Hm); auto. destruct HS as (E & _). cbn in E. congruence.
Qed.

(** multi-GPU *)
Lemma mgpu_same_run loc g g' : no_late_failure bl n -> mgpu_sizes n (cm_dla g) -> mgpu_sizes n (cm_dla g') -> m_H (cm_dla g) = m_H (cm_dla g') ->
  (c_approx cf = true -> m_C (cm_dla g) = m_C (cm_dla g')) ->
  same_results m_C m_C (sol (mgpuD fo bl loc false n) g ritzv resid) (sol (mgpuD fo bl loc false n) g' ritzv resid).
Proof.
  intros NL HG HG' EH EV.
  assert (Y : forall x, mgpu_sizes n (cm_dla x) -> same_results m_C cs_C (sol (mgpuD fo bl loc false n) x ritzv resid) (sol (colD fo bl true n) (mk_cm (cm_locked x) (host (cm_dla x))) ritzv resid)).
  { intros x Hx. pose proof (mgpu_same fo bl loc qe td cf sort_idx Hperm fsort BZ NL x ritzv resid Hx) as Z. unfold same_results.
    destruct (sol (mgpuD fo bl loc false n) x ritzv resid) as [a| |]; destruct (sol (colD fo bl true n) _ ritzv resid) as [b| |]; try exact Z.
    destruct Z as (Z1 & Z2 & Z3 & Z4 & _). auto. }
  eapply same_results_trans; [apply Y, HG|]. eapply same_results_trans; [|apply same_results_sym, Y, HG'].
  apply (same_run_results cs_H cs_C cs_H cs_C), (seq_same_run fo bl qe td true cf sort_idx fsort ritzv resid Hperm CF BZ). unfold same_problem, host. cbn.
  destruct HG as (A1 & A2 & A3 & A4 & _). destruct HG' as (B1 & B2 & B3 & B4 & _). repeat split; auto; congruence.
Qed.
End One.
