(** Concrete cases for the statements about degrees in exact real arithmetic. *)
From Coq Require Import List Reals ZArith Bool Lia Lra.
Require Import Verif.Base Verif.AlgModel Verif.AlgSpec Verif.DegSpec Verif.DegProofs.
Import ListNotations.
Local Open Scope R_scope.

Definition ops := rops 0 (fun x => x).

Lemma rate_ex : rate 0 2 (-1 / 4) = 2.
Proof.
  unfold rate. replace (position 0 2 (-1 / 4)) with (- (5 / 4)) by (unfold position; field). rewrite Rabs_Ropp, Rabs_right by lra.
  replace (5 / 4 * (5 / 4) - 1) with (3 / 4 * (3 / 4)) by field. rewrite sqrt_square by lra. field.
Qed.
Lemma need_up m : need 2 (2 ^ m) = m.
Proof.
  assert (P : 0 < 2 ^ m) by (apply pow_lt; lra). apply Nat.le_antisymm.
  - apply need_least; try lra. apply pow_R1_Rle. lra.
  - pose proof (need_reaches 2 (2 ^ m) ltac:(lra) P) as H. destruct (Nat.le_gt_cases m (need 2 (2 ^ m))) as [|L]; auto.
    apply (Rlt_pow 2) in L; lra.
Qed.
Lemma need_down k : need 2 (/ 2 ^ k) = k.
Proof.
  assert (P : 0 < 2 ^ k) by (apply pow_lt; lra). pose proof (need_up k) as U. unfold need in *. rewrite ln_Rinv by auto.
  replace (- ln (2 ^ k) / ln 2) with (- (ln (2 ^ k) / ln 2)) by (field; pose proof (ln_gt0 2); lra). rewrite Rabs_Ropp. exact U.
Qed.
Lemma two_64 n : (n <= 64)%nat -> rltb (INR n) (2 ^ 64) = true.
Proof. intros H. apply rltb_t. apply le_INR in H. cbn [INR] in H. cbn [pow]. lra. Qed.

Lemma deg_16 : degree_formula ops (Some 2) (Some 0) (Some 1) (Some (-1 / 4)) (Some 16) = Some 4%nat.
Proof.
  unfold ops. rewrite formula_eq by lra. rewrite rate_ex. rewrite <- need_INR. replace (16 / 1) with (2 ^ 4) by (cbn [pow]; lra).
  rewrite need_up. rewrite two_64 by lia. reflexivity.
Qed.
Lemma deg_small : degree_formula ops (Some 2) (Some 0) (Some 1) (Some (-1 / 4)) (Some (1 / 1024)) = Some 10%nat.
Proof.
  unfold ops. rewrite formula_eq by lra. rewrite rate_ex. rewrite <- need_INR. replace (1 / 1024 / 1) with (/ 2 ^ 10) by (cbn [pow]; lra).
  rewrite need_down. rewrite two_64 by lia. reflexivity.
Qed.

Definition ecf : conf xr := mk_conf _ 10 2 1 (Some 1) 20 20 2 25 25 4 true false true.
Definition ein : cd_arrays (F := xr) (St := unit) :=
  mk_cd [20; 20; 20]%nat [Some (-1 / 4); Some (-1 / 4); Some 0] [Some 16; Some (1 / 1024); Some 1] [Some 20; Some 1; Some 2] tt.
Lemma calc_ex : calc_degrees ops idle ecf 3 1 (Some 2) (Some 0) 0 ein =
  Ok (12%nat, mk_cd [6; 12; 12]%nat [Some (-1 / 4); Some (-1 / 4); Some 0] [Some 16; Some (1 / 1024); Some 1] [Some 20; Some 1; Some 2] tt).
Proof.
  unfold calc_degrees, cd_loop1. change (raw_degree ops) with (degree_formula ops).
  cbn [Nat.sub for_ ein cd_ritz cd_res cd_deg rd nth_error bind c_tol ecf]. rewrite deg_16. cbn [bind].
  match goal with |- context [wr ?a ?b ?c] => let v := eval vm_compute in (wr a b c) in change (wr a b c) with v end. cbn [bind].
  rewrite deg_small. cbn [bind]. match goal with |- context [wr ?a ?b ?c] => let v := eval vm_compute in (wr a b c) in change (wr a b c) with v end. cbn [bind].
  cbv -[IZR Rdiv Ropp]. reflexivity.
Qed.

(** a run without extra vectors: Lanczos reports the bound 3, the Rayleigh-Ritz step 0 and 1, the residuals are 0 and 1/4 *)
Definition scripted : kernel xr unit := {|
  k_sym := fun s => Ok (true, s); k_start := fun s => Ok s; k_end := fun s => Ok s; k_init := fun _ s => Ok s;
  k_shift := fun _ _ s => Ok s; k_hemm := fun _ _ _ _ s => Ok s; k_qr := fun _ _ s => Ok s;
  k_rr := fun _ s => Ok ([Some 0; Some 1], s); k_resd := fun _ _ s => Ok ([Some 0; Some (1 / 4)], s);
  k_swap := fun _ _ s => Ok s; k_lock := fun _ s => Ok s;
  k_lanczos1 := fun _ s => Ok (Some 3, s); k_lanczos2 := fun _ _ s => Ok (Some 3, [], [], [], s); k_dos := fun _ _ _ s => Ok s |}.
Definition scf : conf xr := mk_conf _ 10 2 0 (Some (1 / 8)) 2 4 2 25 25 4 true true false.
Definition slast : sstate (F := xr) (St := unit) :=
  mk_ss tt ([Some 0], [Some 1]) ([Some 0], [Some (1 / 4)]) ([Some 9], [Some 9]) ([2%nat], [2%nat]) 1 1 1 (Some 2) (Some 1) 2.
Lemma comes_ex : comes_to 9 (fun x => x) scripted (fun l => l) (fun l => seq 0 (length l)) scf tt [Some 1; Some 2] [Some 0; Some 0] (Some 3) slast.
Proof.
  unfold comes_to. exists tt. eexists. split; [reflexivity|].
  split. { lazy -[rltb reqb Rplus Rminus Rmult Rdiv Rabs sqrt ln rceil pow IZR INR Ropp Int_part]. 
    rewrite (rltb_t 1 2) by lra. rewrite (rltb_f 2 1) by lra. reflexivity. }
  split; [|split; [cbn; lia|cbn; lia]]. eapply reach_step; [apply reach_refl|cbn; lia|cbn; lia|].
  lazy -[rltb reqb Rplus Rminus Rmult Rdiv Rabs sqrt ln rceil pow IZR INR Ropp Int_part].
  repeat match goal with
    | |- context [rltb ?a ?b] => first [rewrite (rltb_t a b) by lra | rewrite (rltb_f a b) by lra]
    end.
  reflexivity.
Qed.
Lemma later_ex : later_state scf slast 1.
Proof.
  unfold later_state. split; [cbn; lia|]. split; [cbn; lia|]. split; [cbn; lia|]. split; [reflexivity|].
  intros [|i] r Hi E; [|cbn in Hi; lia]. injection E as <-. eexists. split; [reflexivity|lra].
Qed.

(** an upper bound 1 that the last Ritz value has reached, with one extra vector *)
Definition tcf : conf xr := mk_conf _ 10 2 1 (Some (1 / 8)) 2 4 2 25 25 4 true true false.
Definition tlast : sstate (F := xr) (St := unit) :=
  mk_ss tt ([Some 0], [Some (1 / 2); Some 1]) ([Some 0], [Some (1 / 4); Some (1 / 3)]) ([Some 9], [Some 9; Some 9]) ([2%nat], [2%nat; 2%nat]) 1 2 1 (Some 2) (Some 1) 2.
Lemma later_ex2 : later_state tcf tlast 1.
Proof.
  unfold later_state. split; [cbn; lia|]. split; [cbn; lia|]. split; [cbn; lia|]. split; [reflexivity|].
  intros [|[|i]] r Hi E; [| |cbn in Hi; lia]; injection E as <-; eexists; (split; [reflexivity|lra]).
Qed.

(** a pair behind an unconverged one has residual 0 *)
Definition zlast : sstate (F := xr) (St := unit) :=
  mk_ss tt ([], [Some 0; Some (1 / 2); Some 1]) ([], [Some (1 / 4); Some 0; Some (1 / 3)]) ([], [Some 9; Some 9; Some 9]) ([], [2; 2; 2]%nat) 0 3 1 (Some 2) (Some 0) 2.
Lemma zero_ex : iterate (rops 0 (fun x => x)) idle (fun l => seq 0 (length l)) tcf (Some 3) zlast = UB.
Proof. apply (zero_ub _ _ _ _ _ _ _ _ 1 (Some (1 / 2))); try reflexivity; cbn; lia. Qed.
Lemma bound_ex : Rabs (ln (16 / 1)) <= (2 ^ 64 - 1) * ln (rate 0 2 (-1 / 4)) /\ Rabs (ln (1 / 1024 / 1)) <= (2 ^ 64 - 1) * ln (rate 0 2 (-1 / 4)).
Proof.
  rewrite rate_ex. pose proof (ln_gt0 2 ltac:(lra)) as L. split.
  - replace (16 / 1) with (2 ^ 4) by (cbn [pow]; lra). rewrite ln_pow_ by lra. rewrite Rabs_right; [|cbn [INR]; nra].
    apply Rmult_le_compat_r; [lra|]. cbn [INR pow]. lra.
  - replace (1 / 1024 / 1) with (/ 2 ^ 10) by (cbn [pow]; lra). rewrite ln_Rinv by (apply pow_lt; lra). rewrite ln_pow_ by lra. rewrite Rabs_Ropp, Rabs_right; [|cbn [INR]; nra].
    apply Rmult_le_compat_r; [lra|]. cbn [INR pow]. lra.
Qed.
