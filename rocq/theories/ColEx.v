(** A small exact instance of the column backends: rational arithmetic, diagonal 3x3 matrix, columns kept orthogonal by
    construction.  Used for examples and counterexamples only. *)
From Coq Require Import List Arith ZArith QArith Qround Bool Permutation Lia.
Require Import Verif.Base Verif.AlgModel Verif.AlgSpec Verif.AlgEx Verif.DlaModel Verif.ColModel Verif.ColSpec.
Import ListNotations.
Local Open Scope nat_scope.

Definition qlt (a b : Q) : bool := match Qcompare a b with Lt => true | _ => false end.
Definition qf : fops Q := {|
  f_add := fun a b => Qred (a + b); f_sub := fun a b => Qred (a - b); f_mul := fun a b => Qred (a * b); f_div := fun a b => Qred (a / b);
  f_neg := Qopp; f_abs := fun a => if qlt a 0 then Qopp a else a; f_sqrt := fun a => a; f_log := fun a => a;
  f_ceil := fun a => inject_Z (Qceiling a); f_pow := fun a n => Qred (Qpower a (Z.of_nat n)); f_lt := qlt;
  f_zero := 0%Q; f_one := 1%Q; f_two := 2%Q; f_half := (1#2)%Q; f_max := 1000000%Q; f_of_nat := fun n => inject_Z (Z.of_nat n);
  f_threshold := 0%Q; f_G := fun _ => 1%Q;
  f_to_size := fun a => if qlt a 0 then None else Some (Z.to_nat (Qfloor a)) |}.

Definition qv := list Q.
Definition vmap2 (f : Q -> Q -> Q) (x y : qv) : qv := map (fun p => Qred (f (fst p) (snd p))) (combine x y).
Definition vscal (a : Q) (x : qv) : qv := map (fun t => Qred (a * t)) x.
Definition vdot (x y : qv) : Q := fold_right (fun p a => Qred (fst p * snd p + a)) 0%Q (combine x y).
Definition vnrm (x : qv) : Q := fold_right (fun a s => Qred (f_abs qf a + s)) 0%Q x.

(** one Rayleigh quotient per column; [inpl] tells which argument of the Gram matrix holds the columns *)
Definition quots (inpl : bool) (g : list qv * list qv) : list Q :=
  map (fun p => let '(a, b) := p in Qred (vdot a b / (if inpl then vdot b b else vdot a a))) (combine (fst g) (snd g)).
Definition order (keys : list Q) : list nat :=
  map snd (isort (fun a b => negb (qlt (fst b) (fst a))) (combine keys (seq 0 (length keys)))).
Definition coln (cs : list qv) (j : nat) : qv := nth j cs [].

Definition toy (inpl : bool) (potrf : list qv * list qv -> Z * (list qv * list qv)) : blas Q qv qv (list qv * list qv) Q := {|
  b_gemmN := fun h a b x y => vmap2 Qplus (vscal a (vmap2 Qmult h x)) (vscal b y);
  b_gemmH := fun h a b x y => vmap2 Qplus (vscal a (vmap2 Qmult h x)) (vscal b y);
  b_mulN := vmap2 Qmult; b_mulH := vmap2 Qmult;
  b_shift := fun h c => map (fun t => Qred (t + c)) h;
  b_rnd := fun j => [inject_Z (Z.of_nat j); 1%Q; 0%Q]; b_test := [1; 1; 1]%Q;
  b_veq := fun x y => forallb (fun p => Qeq_bool (fst p) (snd p)) (combine x y);
  b_zero := [0; 0; 0]%Q;
  b_hh := fun cs j => vscal (/ vnrm (coln cs j)) (coln cs j);
  b_syherk := fun cs => (cs, cs); b_dshift := fun g => g; b_potrf := potrf;
  b_trsm := fun _ cs j => vscal 2 (coln cs j);
  b_gram := fun a b => (a, b);
  b_eval := fun g i => nth (nth i (order (quots inpl g)) 0) (quots inpl g) 0%Q;
  b_comb := fun cs g j => coln cs (nth j (order (quots inpl g)) 0);
  b_combl := fun cs _ j => coln cs j;
  b_inj := fun x => x; b_re := fun x => x; b_tneg := Qopp;
  b_dot := vdot; b_axpy := fun a x y => vmap2 Qplus (vscal a x) y; b_scal := vscal; b_nrm2 := vnrm |}.
Definition pos (g : list qv * list qv) : Z * (list qv * list qv) := (0%Z, g).
Definition seqB := toy false pos.
Definition inpB := toy true pos.
Definition qhh : qr_env Q := mk_qe _ false None None 100%Q 10%Q.
Definition qtd : tridiag Q := mk_td _ (fun _ _ _ => 3%Q) (fun _ _ _ => 0%Q).
Definition qsort (keys : list Q) : list nat := order keys.
Definition qfs (l : list Q) : list Q := l.

Definition qconf (nev nex : nat) : conf Q :=
  {| c_N := 6; c_nev := nev; c_nex := nex; c_tol := (1#100)%Q; c_deg := 4; c_maxdeg := 4; c_degextra := 2; c_maxiter := 5;
     c_lanczositer := 2; c_numlanczos := 1; c_opt := false; c_approx := true; c_symcheck := true |}.
Definition seqQ nev nex := cmK qf qhh qtd (colD qf seqB false (nev + nex)) nev nex.
Definition mpiQ nev nex := cmK qf qhh qtd (colD qf seqB true (nev + nex)) nev nex.
Definition inpQ nev nex := cmK qf qhh qtd (inplD qf inpB (nev + nex)) nev nex.
Definition H3 : qv := [1; 2; 3]%Q.
Definition W3 : list qv := [[0; 1; 0]; [1; 0; 3000000]]%Q.
Definition seq0 := mk_cm 0 (seq_state seqB 2 0 H3 W3).
Definition mpi0 := mk_cm 0 (mpi_state seqB 2 0 H3 W3).
Definition inp0 := mk_cm 0 (inpl_state inpB 2 0 H3 W3).
Definition rv0 : list Q := [1; 5 # 2]%Q.
Definition rs0 : list Q := [0; 0]%Q.

(** || H x - v x || *)
Definition defect (v : Q) (x : qv) : Q := vnrm (vmap2 Qplus (vmap2 Qmult H3 x) (vscal (- v) x)).

Lemma qsort_perm keys : Permutation (qsort keys) (seq 0 (length keys)).
Proof.
  unfold qsort, order. eapply perm_trans; [apply Permutation_map; symmetry; apply isort_perm|].
  assert (E : forall (A B : Type) (a : list A) (b : list B), length a = length b -> map snd (combine a b) = b).
  { intros A B. induction a as [|x a IH]; intros [|y b] H; cbn in *; try discriminate; auto. f_equal. apply IH. congruence. }
  rewrite E; [apply Permutation_refl|now rewrite seq_length].
Qed.
Lemma qlt_spec a b : qlt a b = true <-> (a < b)%Q.
Proof. unfold qlt. rewrite Qlt_alt. destruct (Qcompare a b); split; intros; try discriminate; auto. Qed.
Lemma qlt_false a b : qlt a b = false <-> (b <= a)%Q.
Proof.
  rewrite <- Bool.not_true_iff_false, qlt_spec. split; [apply Qnot_lt_le|apply Qle_not_lt].
Qed.
Lemma q_order : order_on qf (fun _ => True).
Proof.
  split; cbn [qf f_lt].
  - intros a _. apply qlt_false, Qle_refl.
  - intros a b c _ _ _ A B. apply qlt_false in A, B. apply qlt_false. eapply Qle_trans; eauto.
  - intros a b _ _ A. apply qlt_spec in A. apply qlt_false. now apply Qlt_le_weak.
Qed.
Lemma q_conf_ok nev nex : 1 <= nev -> conf_ok (qconf nev nex).
Proof. intros H. repeat split; cbn; auto; lia. Qed.
Lemma inpB_no_late n : no_late_failure inpB n.
Proof. intros cs sh R _ _. reflexivity. Qed.

(** the first pair locked has value 2, the second (nearly) 1; both are reported converged to 1/100 *)
Lemma seq_run : exists k0 ub s0 s1 s2 o,
  k_sym (seqQ 2 0) seq0 = Ok (true, k0) /\ solve_init qf (seqQ 2 0) qfs (qconf 2 0) k0 rv0 rs0 = Ok (ub, s0) /\
  iterate qf (seqQ 2 0) qsort (qconf 2 0) ub s0 = Ok s1 /\ iterate qf (seqQ 2 0) qsort (qconf 2 0) ub s1 = Ok s2 /\
  ss_locked s1 = 1 /\ ss_locked s2 = 2 /\
  solve qf (seqQ 2 0) qfs qsort (qconf 2 0) seq0 rv0 rs0 = Ok o /\ o_exit o = Some s2.
Proof. do 6 eexists. repeat (split; [vm_compute; reflexivity|]). vm_compute. reflexivity. Qed.

Definition get {A} (d : A) (r : res A) : A := match r with Ok x => x | _ => d end.
Definition pair_of {D} (f : D -> list qv) (o : outcome (F := Q) (St := cm (D := D))) (i : nat) : Q * qv :=
  (nth i (o_ritz o) 0%Q, nth i (f (cm_dla (o_k o))) []).

Lemma res_unpaired : exists o s v x r,
  solve qf (seqQ 2 0) qfs qsort (qconf 2 0) seq0 rv0 rs0 = Ok o /\ o_exit o = Some s /\ ss_locked s = 2 /\
  nth_error (o_ritz o) 0 = Some v /\ nth_error (cs_C (cm_dla (o_k o))) 0 = Some x /\ nth_error (o_res o) 0 = Some r /\
  r = 0%Q /\ qlt 0 (defect v x) = true.
Proof. do 5 eexists. repeat (split; [vm_compute; reflexivity|]). vm_compute. reflexivity. Qed.

Lemma mpi_unpaired : exists o s v x r,
  solve qf (mpiQ 2 0) qfs qsort (qconf 2 0) mpi0 rv0 rs0 = Ok o /\ o_exit o = Some s /\ ss_locked s = 2 /\
  nth_error (o_ritz o) 0 = Some v /\ nth_error (cs_C (cm_dla (o_k o))) 0 = Some x /\ nth_error (o_res o) 0 = Some r /\
  qlt r (1 # 100) = true /\ qlt (9 # 10) (defect v x) = true.
Proof. do 5 eexists. repeat (split; [vm_compute; reflexivity|]). vm_compute. reflexivity. Qed.

Lemma seq_run_paired : exists o s v x,
  solve qf (seqQ 2 0) qfs qsort (qconf 2 0) seq0 rv0 rs0 = Ok o /\ o_exit o = Some s /\ ss_locked s = 2 /\
  nth_error (o_ritz o) 0 = Some v /\ nth_error (cs_C (cm_dla (o_k o))) 0 = Some x /\ qlt (defect v x) (1 # 100) = true.
Proof. do 4 eexists. repeat (split; [vm_compute; reflexivity|]). vm_compute. reflexivity. Qed.

(** in-place: one iteration suffices for exact start vectors, and the caller's buffer then holds zero columns *)
Definition inp1 := mk_cm 0 (inpl_state inpB 2 0 H3 [[0; 1; 0]; [1; 0; 0]]%Q).
Lemma inpl_odd : exists o s,
  solve qf (inpQ 2 0) qfs qsort (qconf 2 0) inp1 rv0 rs0 = Ok o /\ o_exit o = Some s /\ ss_iter s = 1 /\ ss_locked s = 2 /\
  o_ritz o = [1; 2]%Q /\ is_V1 (cm_dla (o_k o)) = [[1; 0; 0]; [0; 1; 0]]%Q /\ user_V1 (cm_dla (o_k o)) = [[0; 0; 0]; [0; 0; 0]]%Q.
Proof. do 2 eexists. repeat (split; [vm_compute; reflexivity|]). vm_compute. reflexivity. Qed.
Lemma inpl_even : exists o s,
  solve qf (inpQ 2 0) qfs qsort (qconf 2 0) inp0 rv0 rs0 = Ok o /\ o_exit o = Some s /\ ss_iter s = 2 /\ ss_locked s = 2.
Proof. do 2 eexists. repeat (split; [vm_compute; reflexivity|]). vm_compute. reflexivity. Qed.

(** factorisation that succeeds on normalised columns only: succeeds first, fails late *)
Definition lateP (g : list qv * list qv) : Z * (list qv * list qv) :=
  ((if qlt (3 # 2) (vnrm (nth 0 (fst g) [])) then 2 else 0)%Z, g).
Definition lateB := toy true lateP.
Definition qchol : qr_env Q := mk_qe _ true None None 100%Q 10%Q.
Definition late0 := mk_cm 1 (mk_ist H3 [[1; 0; 0]; [0; 1; 0]]%Q [[0; 0; 0]; [0; 0; 0]]%Q false).
Lemma late_witness : exists s', cm_qr qf qchol (inplD qf lateB 2) 1 20%Q late0 = Ok s' /\
  firstn 1 (is_V1 (cm_dla late0)) = [[1; 0; 0]]%Q /\ firstn 1 (is_V1 (cm_dla s')) = [[4; 0; 0]]%Q.
Proof. eexists. repeat (split; [vm_compute; reflexivity|]). vm_compute. reflexivity. Qed.

(** exact eigenvectors of the two larger eigenvalues as start vectors: accepted after one iteration *)
Definition lconf : conf Q :=
  {| c_N := 3; c_nev := 1; c_nex := 1; c_tol := (1#100)%Q; c_deg := 4; c_maxdeg := 4; c_degextra := 2; c_maxiter := 5;
     c_lanczositer := 2; c_numlanczos := 1; c_opt := false; c_approx := true; c_symcheck := true |}.
Lemma not_lowest : exists o s, conf_ok lconf /\
  solve qf (seqQ 1 1) qfs qsort lconf (mk_cm 0 (seq_state seqB 1 1 H3 [[0; 1; 0]; [0; 0; 1]]%Q)) [2; 5 # 2]%Q [0; 0]%Q = Ok o /\ o_exit o = Some s /\
  ss_iter s = 1 /\ ss_locked s = 1 /\ nth_error (o_ritz o) 0 = Some 2%Q /\ nth_error (o_res o) 0 = Some 0%Q /\
  nth_error (cs_C (cm_dla (o_k o))) 0 = Some [0; 1; 0]%Q /\ vmap2 Qmult H3 [0; 1; 0]%Q = vscal 2 [0; 1; 0]%Q /\
  vmap2 Qmult H3 [1; 0; 0]%Q = vscal 1 [1; 0; 0]%Q /\ qlt 1 2 = true.
Proof. do 2 eexists. split; [repeat split; cbn; auto; lia|]. repeat (split; [vm_compute; reflexivity|]). vm_compute. reflexivity. Qed.
