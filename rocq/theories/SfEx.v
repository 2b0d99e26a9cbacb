(** A small exact instance of the library calls of SfModel.v (rational arithmetic); examples only. *)
From Coq Require Import List Arith ZArith QArith Bool Lia Permutation.
Require Import Verif.Base Verif.AlgModel Verif.AlgSpec Verif.DlaModel Verif.ColModel Verif.ColEx Verif.SfModel Verif.SfSpec.
Import ListNotations.
Local Open Scope nat_scope.

Definition at_ (A : list (list Q)) (r c : nat) : Q := nth r (nth c A []) 0%Q.
Definition row (A : list (list Q)) (r : nat) : list Q := map (fun c => nth r c 0%Q) A.
Definition mul_ (tr : bool) (A : list (list Q)) (x : list Q) (i : nat) : Q := vdot (if tr then nth i A [] else row A i) x.
(** eigenvalues of a diagonal matrix, ascending; the vectors permute the coordinates *)
Definition diag_ (A : list (list Q)) : list Q := map (fun c => nth 0 c 0%Q) A.
Definition qlib (info : Z) : flib Q Q := {|
  l_gemm := fun tr a b A x y i => Qred (a * mul_ tr A x i + b * nth i y 0%Q);
  l_mul := fun tr A x i => Qred (mul_ tr A x i);
  l_add := fun a b => Qred (a + b); l_rnd := fun k => inject_Z (Z.of_nat (S k)); l_eq := Qeq_bool; l_zero := 0%Q;
  l_geqrf := fun A => (at_ A, map (fun _ => 1%Q) A);
  l_gqr := fun A _ r c => Qred (at_ A r c / vnrm (nth c A []));
  l_syherk := fun A i j => Qred (vdot (nth i A []) (nth j A []));
  l_abs := f_abs qf; l_qshift := fun _ _ => 0%Q; l_potrf := fun A => (info, at_ A);
  l_trsm := fun _ X r c => Qred (at_ X r c / vnrm (nth c X []));
  l_heevd := fun A => (fun i => nth (nth i (order (diag_ A)) 0) (diag_ A) 0%Q, fun r c => if r =? nth c (order (diag_ A)) 0 then 1%Q else 0%Q);
  l_inj := fun x => x; l_re := fun x => x; l_neg := Qopp; l_dot := vdot; l_axpy := fun a x y => Qred (a * x + y); l_scal := fun a x => Qred (a * x);
  l_nrm2 := vnrm |}.

(** diag(1, 2, 3), leading dimension 5, sevens outside the matrix *)
Definition H5 : list Q := [1; 0; 0; 7; 7;  0; 2; 0; 7; 7;  0; 0; 3; 7; 7]%Q.
(** the same, leading dimension 4, eights outside and no element after the last column *)
Definition H4 : list Q := [1; 0; 0; 8;  0; 2; 0; 8;  0; 0; 3]%Q.
Definition V21 : list Q := [0; 1; 0;  1; 0; 0]%Q.
Definition fconf (nev nex : nat) (opt : bool) : conf Q :=
  {| c_N := 3; c_nev := nev; c_nex := nex; c_tol := (1#100)%Q; c_deg := 4; c_maxdeg := 4; c_degextra := 2; c_maxiter := 5;
     c_lanczositer := 2; c_numlanczos := 1; c_opt := false; c_approx := true; c_symcheck := opt |}.
Definition flatQ qe ldh nev nex := cmK qf qe qtd (flatD qf (qlib 0) 3 ldh (nev + nex)) nev nex.
Definition flat0 nev nex H V := mk_cm 0 (flat_state (qlib 0) 3 nev nex H V).

Lemma flat_run : exists o s, solve qf (flatQ qhh 5 2 0) qfs qsort (fconf 2 0 true) (flat0 2 0 H5 V21) rv0 rs0 = Ok o /\ o_exit o = Some s /\
  ss_locked s = 2 /\ o_ritz o = [1; 2]%Q /\ f_C (cm_dla (o_k o)) = [1; 0; 0;  0; 1; 0]%Q /\ f_H (cm_dla (o_k o)) = H5.
Proof. do 2 eexists. repeat (split; [vm_compute; reflexivity|]). vm_compute. reflexivity. Qed.
Lemma flat_run4 : exists o s, solve qf (flatQ qchol 4 1 1) qfs qsort (fconf 1 1 true) (flat0 1 1 H4 V21) rv0 rs0 = Ok o /\ o_exit o = Some s /\
  ss_locked s = 1 /\ o_ritz o = [1; 2]%Q /\ f_C (cm_dla (o_k o)) = [1; 0; 0;  0; 1; 0]%Q /\ f_H (cm_dla (o_k o)) = H4.
Proof. do 2 eexists. repeat (split; [vm_compute; reflexivity|]). vm_compute. reflexivity. Qed.
