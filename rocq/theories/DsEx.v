(** A complete distributed solve on 2 x 1 processes, in exact rational arithmetic. *)
From Coq Require Import List Arith ZArith QArith Qcanon Qround Bool Lia.
Require Import Verif.Base Verif.AlgModel Verif.DlaModel Verif.ColModel Verif.ColEx Verif.DistSpec Verif.FlatSpec Verif.RedistSpec.
Require Import Verif.SpmdModel Verif.SpmdSpec Verif.KerModel Verif.KerSpec Verif.KerInst Verif.KerInst2 Verif.KerEx.
Require Import Verif.ClientModel Verif.DsModel Verif.DsSpec Verif.SolveClient.
Import ListNotations.
Local Open Scope nat_scope.

(** the arithmetic of [qf] on reduced fractions *)
Definition qcf : fops Qc :=
  let u f := fun a : Qc => Q2Qc (f (this a)) in let b f := fun a c : Qc => Q2Qc (f (this a) (this c)) in {|
  f_add := b (f_add qf); f_sub := b (f_sub qf); f_mul := b (f_mul qf); f_div := b (f_div qf);
  f_neg := Qcopp; f_abs := u (f_abs qf); f_sqrt := u (f_sqrt qf); f_log := u (f_log qf); f_ceil := u (f_ceil qf);
  f_pow := fun a n => Q2Qc (f_pow qf (this a) n); f_lt := fun a c => f_lt qf (this a) (this c);
  f_zero := q_ 0 1; f_one := q_ 1 1; f_two := q_ 2 1; f_half := q_ 1 2; f_max := q_ 1000000 1; f_of_nat := fun n => Q2Qc (f_of_nat qf n);
  f_threshold := q_ 0 1; f_G := fun _ => q_ 1 1; f_to_size := fun a => f_to_size qf (this a) |}.
(** orthonormalisation returns the unit vectors, the small eigenproblem is that of [ex_R] *)
Definition ds_oc : oracles Qc := mk_or _ (fun i k => q_ (Z.of_nat (i + k)) 1) (fun i k => q_ (Z.of_nat (i + 2 * k + 1)) 1)
  (fun a c => negb (Qeq_bool (this a) (this c))) (fun N n l g c => if g =? c then q_ 1 1 else q_ 0 1)
  (fun n l => (0%Z, fun r c => q_ 0 1)) (fun n l xs c => nth c xs (q_ 0 1)) (fun _ => q_ 0 1) ex_ev.
Definition ds_conf : conf Qc :=
  {| c_N := 2; c_nev := 1; c_nex := 1; c_tol := q_ 1 100; c_deg := 2; c_maxdeg := 4; c_degextra := 2; c_maxiter := 3;
     c_lanczositer := 2; c_numlanczos := 1; c_opt := false; c_approx := true; c_symcheck := true |}.
Definition ds_qe : qr_env Qc := mk_qe _ false None None (q_ 100 1) (q_ 10 1).
Definition ds_td : tridiag Qc := mk_td _ (fun d e k => q_ 20 1) (fun _ _ _ => q_ 0 1).
Definition ds_sort (l : list Qc) : list nat := seq 0 (length l).
Definition ds_ritz : list Qc := [q_ 1 1; q_ 10 1].
Definition ds_cols : list (nat -> Qc) := map (fun c g => ex_C g c) (seq 0 2).
Definition ds_global : cst (V := nat -> Qc) (M := nat -> nat -> Qc) := mk_cst ex_R ds_cols ds_cols ds_cols ds_cols true.
Definition ds_blas := gblas rat qcf (fun x => x) (fun x => x) ds_oc 2 1 2 0.
Definition ds_solve := solve qcf (cmK qcf ds_qe ds_td (colD qcf ds_blas true 2) 1 1) (fun l => l) ds_sort ds_conf (mk_cm 0 ds_global) ds_ritz ds_ritz.
Definition show {St} (x : res (@outcome Qc St)) := match x with Ok o => Some (view (o_ritz o), view (o_res o)) | _ => None end.
(** the program of calls that is the solver, run by process (i, 0) *)
Definition ds_prog := solver_program qcf ds_qe ds_td 1 1 (fun l => l) ds_sort ds_conf 0 ds_ritz ds_ritz.
Definition ds_proc (i j : nat) : prog Qc (list Qc * list Qc * nat * loc) :=
  match grid_tab 2 2 1 1 1 0 0 i j with
  | Ok t => run_proc (ker rat qcf (fun x => x) (fun x => x) ds_oc (ex_env i j) t) ds_prog (ex_grid ex_C i j)
  | _ => Bad
  end.
Lemma ds_embeds : embeds rat qcf (fun x => x) (fun x => x).
Proof. split; reflexivity. Qed.
Lemma ds_fit : counts_fit 2 2 1 1 1 0 0 2.
Proof. repeat split; intros k Hk; (destruct k as [|[|k]]; [reflexivity|try reflexivity; lia|lia]). Qed.
Lemma ds_on_grid : on_grid rat 2 2 1 1 1 0 0 2 (fun i _ => length (owned 2 1 2 0 i)) ds_global (ex_grid ex_C).
Proof.
  intros i j Hi Hj. destruct j as [|j]; [|lia].
  assert (HH : stores (owned 2 1 2 0 i) (owned 2 1 1 0 0) (length (owned 2 1 2 0 i)) ex_R (l_H (ex_grid ex_C i 0))) by (apply block_stores).
  destruct i as [|[|i]]; [| |lia]; (split; [exact HH| | | | |apply le_n|split; reflexivity]); (split; [reflexivity|]); exists []; reflexivity.
Qed.
