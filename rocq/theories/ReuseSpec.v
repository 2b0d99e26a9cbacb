(** Using one solver object for several problems: what a run may depend on. *)
From Coq Require Import List Arith Bool.
Require Import Verif.Base Verif.AlgModel Verif.AlgSpec Verif.DlaModel Verif.ColModel.
Import ListNotations.

Section Spec.
Context {F V M G T : Type}.

(** Two objects of the same size that hold the same matrix and, if the caller supplies approximate vectors, the same
    vectors.  Everything else may differ: the second block and the workspaces, the direction of the next product and the
    number of locked columns left over from earlier runs. *)
Definition same_problem (n : nat) (approx : bool) (s t : cm (D := cst (V := V) (M := M))) : Prop :=
  let a := cm_dla s in let b := cm_dla t in
  cs_H a = cs_H b /\ length (cs_C a) = n /\ length (cs_C b) = n /\ (approx = true -> cs_C a = cs_C b) /\
  length (cs_B a) = length (cs_B b) /\ length (cs_C2 a) = length (cs_C2 b) /\ length (cs_B2 a) = length (cs_B2 b).

(** the same for the backends with two exchangeable blocks; which block is the caller's may differ too *)
Definition same_problem2 (n : nat) (approx : bool) (s t : cm (D := ist (V := V) (M := M))) : Prop :=
  let a := cm_dla s in let b := cm_dla t in
  is_H a = is_H b /\ length (is_V1 a) = n /\ length (is_V1 b) = n /\ (approx = true -> is_V1 a = is_V1 b) /\
  length (is_V2 a) = n /\ length (is_V2 b) = n.

(** a two-block object and a Seq object set up for the same problem with the same approximate vectors *)
Definition same_start (n : nat) (s : cm (D := ist (V := V) (M := M))) (t : cm (D := cst (V := V) (M := M))) : Prop :=
  let a := cm_dla s in let b := cm_dla t in
  is_H a = cs_H b /\ is_V1 a = cs_C b /\ length (is_V1 a) = n /\ length (is_V2 a) = n /\
  length (cs_B b) = n /\ n <= length (cs_C2 b) /\ n <= length (cs_B2 b).

(** same outcome: undefined behaviour in both, or the same values, residuals and vectors, and the same matrix left *)
Definition same_run {D1 D2 : Type} (H1 : D1 -> M) (c1 : D1 -> list V) (H2 : D2 -> M) (c2 : D2 -> list V)
    (x : res (outcome (F := F) (St := cm (D := D1)))) (y : res (outcome (F := F) (St := cm (D := D2)))) : Prop :=
  match x, y with
  | Ok a, Ok b => o_ritz a = o_ritz b /\ o_res a = o_res b /\ (o_exit a = None <-> o_exit b = None) /\
      H1 (cm_dla (o_k a)) = H2 (cm_dla (o_k b)) /\ (o_exit a <> None -> c1 (cm_dla (o_k a)) = c2 (cm_dla (o_k b)))
  | UB, UB => True
  | Fuel, Fuel => True
  | _, _ => False
  end.

(** the same without the matrix *)
Definition same_results {D1 D2 : Type} (c1 : D1 -> list V) (c2 : D2 -> list V)
    (x : res (outcome (F := F) (St := cm (D := D1)))) (y : res (outcome (F := F) (St := cm (D := D2)))) : Prop :=
  match x, y with
  | Ok a, Ok b => o_ritz a = o_ritz b /\ o_res a = o_res b /\ (o_exit a = None <-> o_exit b = None) /\
      (o_exit a <> None -> c1 (cm_dla (o_k a)) = c2 (cm_dla (o_k b)))
  | UB, UB => True
  | Fuel, Fuel => True
  | _, _ => False
  end.

(** ** a session: one object, many problems *)
Record job := mk_job { j_conf : conf F; j_H : M; j_V : list V; j_ritz : list F; j_resid : list F }.
(** what the caller gets: values, residuals and, unless the solver returned early, the vectors *)
Definition answer {D : Type} (vecs : D -> list V) (o : outcome (F := F) (St := cm (D := D))) : list F * list F * option (list V) :=
  (o_ritz o, o_res o, match o_exit o with None => None | Some _ => Some (vecs (cm_dla (o_k o))) end).
(** Each problem is put into the object that the one before left; the session ends with the first undefined run. *)
Fixpoint session {D : Type} (vecs : D -> list V) (run : job -> cm (D := D) -> res (outcome (F := F) (St := cm (D := D)))) (jobs : list job)
    (s : cm (D := D)) : list (res (list F * list F * option (list V))) :=
  match jobs with
  | [] => []
  | j :: r => match run j s with Ok o => Ok (answer vecs o) :: session vecs run r (o_k o) | UB => [UB] | Fuel => [Fuel] end
  end.
(** each problem with its own new object *)
Fixpoint apart {D : Type} (vecs : D -> list V) (run : job -> res (outcome (F := F) (St := cm (D := D)))) (jobs : list job) :
    list (res (list F * list F * option (list V))) :=
  match jobs with
  | [] => []
  | j :: r => match run j with Ok o => Ok (answer vecs o) :: apart vecs run r | UB => [UB] | Fuel => [Fuel] end
  end.
(** the caller writes the matrix and, if the solver is to use them, the vectors *)
Definition load_cst (j : job) (s : cm (D := cst (V := V) (M := M))) : cm (D := cst (V := V) (M := M)) :=
  let d := cm_dla s in mk_cm (cm_locked s) (mk_cst (j_H j) (if c_approx (j_conf j) then j_V j else cs_C d) (cs_B d) (cs_C2 d) (cs_B2 d) (cs_bAc d)).
(** in place: the vectors go to the caller's buffer, which may have become the second block (pointers exchanged in
    every product and in Rayleigh-Ritz, chase_mpidla_blaslapack_seq_inplace.hpp:85, 230) *)
Definition load_ist (j : job) (s : cm (D := ist (V := V) (M := M))) : cm (D := ist (V := V) (M := M)) :=
  let d := cm_dla s in
  mk_cm (cm_locked s) (if c_approx (j_conf j) then (if is_sw d then mk_ist (j_H j) (is_V1 d) (j_V j) true else mk_ist (j_H j) (j_V j) (is_V2 d) false)
                       else mk_ist (j_H j) (is_V1 d) (is_V2 d) (is_sw d)).
(** jobs of one size; [any] tells whether they may supply vectors *)
Definition job_ok (any : bool) (nev nex : nat) (j : job) : Prop :=
  conf_ok (j_conf j) /\ c_nev (j_conf j) = nev /\ c_nex (j_conf j) = nex /\ length (j_V j) = nev + nex /\ (any = false -> c_approx (j_conf j) = false).

(** a product with the matrices in [Hm], and everything the solver does with them, does not distinguish H from H^H *)
Record self_adjoint (bl : blas F V M G T) (Hm : M -> Prop) : Prop := {
  sa_shift : forall h c, Hm h -> Hm (b_shift bl h c);
  sa_gemm : forall h a b x y, Hm h -> b_gemmN bl h a b x y = b_gemmH bl h a b x y;
  sa_mul : forall h x, Hm h -> b_mulN bl h x = b_mulH bl h x;
  sa_gram : forall h cs, Hm h -> b_gram bl (map (b_mulH bl h) cs) cs = b_gram bl cs (map (b_mulH bl h) cs)
}.
End Spec.
