(** What the memory-level backend is compared with: matrices instead of arrays. *)
From Coq Require Import List Arith ZArith Bool.
Require Import Verif.Base Verif.AlgModel Verif.DlaModel Verif.DlaSim Verif.ColModel Verif.SfModel.
Import ListNotations.

Section Spec.
Context {F T : Type} (fo : fops F) (lib : flib F T) (N : nat).
Local Notation z := (l_zero lib).

(** entry (i, j) of a list of columns *)
Definition ent (A : list (list T)) (i j : nat) : T := nth i (nth j A []) z.
Definition lower (A : list (list T)) : list (list T) := tab (length A) (fun j => tab (length A - j) (fun i => ent A (j + i) j)).
Definition upper (m : nat) (f : nat -> nat -> T) : list (list T) := tab m (fun j => tab (S j) (fun i => f i j)).

(** the same numerics acting on whole columns: no pointers, sizes or leading dimensions *)
Definition col_blas : blas F (list T) (list (list T)) (list (list T)) T := {|
  b_gemmN := fun H a b x y => tab N (l_gemm lib false a b H x y);
  b_gemmH := fun H a b x y => tab N (l_gemm lib true a b H x y);
  b_mulN := fun H x => tab N (l_mul lib false H x);
  b_mulH := fun H x => tab N (l_mul lib true H x);
  b_shift := fun H c => tab2 N N (fun i j => if i =? j then l_add lib (ent H i j) (l_inj lib c) else ent H i j);
  b_rnd := fun j => tab N (fun i => l_rnd lib (j * N + i));
  b_test := tab N (l_rnd lib);
  b_veq := fun u w => forallb (fun p => l_eq lib (fst p) (snd p)) (combine u w);
  b_zero := repeat z N;
  b_hh := fun c j => tab N (fun i => l_gqr lib (tab2 N (length c) (fst (l_geqrf lib c))) (snd (l_geqrf lib c)) i j);
  b_syherk := fun c => upper (length c) (l_syherk lib c);
  b_dshift := fun G =>
    let nrmf := fold_left (fun x i => f_add fo x (l_abs lib (ent G i i))) (seq 0 (length G)) (f_zero fo) in
    upper (length G) (fun i j => if i =? j then l_add lib (ent G i j) (l_qshift lib N nrmf) else ent G i j);
  b_potrf := fun G => (fst (l_potrf lib G), upper (length G) (snd (l_potrf lib G)));
  b_trsm := fun R c j => tab N (fun i => l_trsm lib R c i j);
  b_gram := fun w v => map (fun x => tab (length w) (l_mul lib true w x)) v;
  b_eval := fun A => fst (l_heevd lib (lower A));
  b_comb := fun c A j => tab N (l_mul lib false c (tab (length A) (fun i => snd (l_heevd lib (lower A)) i j)));
  b_combl := fun c rv j => tab N (l_mul lib false c (map (l_inj lib) (firstn (length c) (skipn (j * length c) rv))));
  b_inj := l_inj lib; b_re := l_re lib; b_tneg := l_neg lib;
  b_dot := l_dot lib; b_axpy := fun a => zip (l_axpy lib a); b_scal := fun a => map (l_scal lib a); b_nrm2 := l_nrm2 lib |}.

(** an array holding exactly the given columns, one after the other *)
Definition packs (buf : list T) (cols : list (list T)) : Prop := buf = concat cols /\ Forall (fun c => length c = N) cols.

(** the N x N matrix in an array with leading dimension ldh *)
Definition window (ldh : nat) (H : list T) : list (list T) := tab2 N N (fun i j => nth (i + j * ldh) H z).
(** elements of the array that do not belong to that matrix *)
Definition padding (ldh p : nat) : Prop := forall i j, i < N -> j < N -> p <> i + j * ldh.

(** the two objects hold the same matrices; [H0] is the array the caller passed *)
Definition flat_rel (ldh n : nat) (H0 : list T) (f : fst_ (T := T)) (s : cst (V := list T) (M := list (list T))) : Prop :=
  length (f_H f) = length H0 /\ (forall p, padding ldh p -> nth p (f_H f) z = nth p H0 z) /\ cs_H s = window ldh (f_H f) /\
  packs (f_C f) (cs_C s) /\ length (cs_C s) = n /\ packs (f_B f) (cs_B s) /\ packs (f_C2 f) (cs_C2 s) /\ packs (f_B2 f) (cs_B2 s) /\
  length (f_A f) = n * n /\ f_bAc f = cs_bAc s.
End Spec.

(** the columns of an array with leading dimension N *)
Definition columns {T} (N k : nat) (V : list T) : list (list T) := tab k (fun j => firstn N (skipn (j * N) V)).

(** two runs: the first on arrays, the second on columns; [H] is the caller's matrix array *)
Definition same_run {F T} (lib : flib F T) (N ldh : nat) (H : list T) (x : res (outcome (F := F) (St := cm (D := fst_ (T := T)))))
  (y : res (outcome (F := F) (St := cm (D := cst (V := list T) (M := list (list T)))))) : Prop :=
  match x, y with
  | Ok a, Ok b =>
      o_ritz a = o_ritz b /\ o_res a = o_res b /\ cm_locked (o_k a) = cm_locked (o_k b) /\
      f_C (cm_dla (o_k a)) = concat (cs_C (cm_dla (o_k b))) /\ Forall (fun c => length c = N) (cs_C (cm_dla (o_k b))) /\
      window lib N ldh (f_H (cm_dla (o_k a))) = cs_H (cm_dla (o_k b)) /\
      length (f_H (cm_dla (o_k a))) = length H /\ (forall p, padding N ldh p -> nth_error (f_H (cm_dla (o_k a))) p = nth_error H p) /\
      match o_exit a, o_exit b with
      | Some s, Some t => ss_iter s = ss_iter t /\ ss_locked s = ss_locked t
      | None, None => True | _, _ => False end
  | UB, UB => True | Fuel, Fuel => True | _, _ => False end.
