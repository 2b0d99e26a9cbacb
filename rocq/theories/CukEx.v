(** Concrete memories that meet the hypotheses about the kernels. *)
From Coq Require Import List Arith ZArith Bool Lia Permutation.
Require Import Verif.Base Verif.DistModel Verif.DistSpec Verif.FlatSpec Verif.CukModel Verif.CukSpec Verif.CukTabs Verif.CukMain Verif.CukProofs3 Verif.CukProofs5.
Import ListNotations.
Local Open Scope Z_scope.

(** arrays [l] in global memory; the shared arrays are allocated *)
Definition device (l : list (list Z)) : mem Z := fun x => match x with
  | Glob a i => if (i <? 0) then None else match nth_error l a with Some b => nth_error b (Z.to_nat i) | None => None end
  | Shm _ _ => Some (-99) end.
Lemma device_holds l a b : nth_error l a = Some b -> holds a b (device l).
Proof.
  intros E k. unfold device, Zn. rewrite (proj2 (Z.ltb_ge _ _)) by lia. rewrite E, Nat2Z.id. reflexivity.
Qed.

(** a 2 x 2 matrix shifted by 10 *)
Lemma shift_ex : exists m', yields Z.add (shift_kernel 0 (Z.add 10) 2) (device [[1; 2; 3; 4]]) m' /\
  m' (Glob 0 0) = Some 11 /\ m' (Glob 0 1) = Some 2 /\ m' (Glob 0 2) = Some 3 /\ m' (Glob 0 3) = Some 14.
Proof.
  destruct (shift_main Z 0 Z.add (Z.add 10) 2 (device [[1; 2; 3; 4]])) as (m' & Y & A & F).
  - vm_compute. discriminate.
  - intros [|[|i]] Hi; [vm_compute; discriminate|vm_compute; discriminate|lia].
  - exists m'. split; auto. split; [exact (A 0%nat ltac:(lia))|]. split; [|split; [|exact (A 1%nat ltac:(lia))]];
      (rewrite F; [reflexivity|]); intros [|[|i]] Hi; vm_compute; try discriminate; lia.
Qed.
(** residuals of two columns of length 3 with stride 4: |A - r B|^2 summed over the rows *)
Lemma resid_ex : exists m', yields Z.add (resid_kernel 0 Z.add (fun r a b => (a - r * b) * (a - r * b)) (fun x => x) 3 2 4)
    (device [[1; 2; 3; 0; 4; 5; 6; 0]; [1; 1; 1; 0; 2; 2; 2; 0]; [2; 3]; [0; 0]]) m' /\ m' (Glob 3 0) = Some 2 /\ m' (Glob 3 1) = Some 5.
Proof.
  set (a := fun i j => nth (j * 4 + i) [1; 2; 3; 0; 4; 5; 6; 0] 0). set (b := fun i j => nth (j * 4 + i) [1; 1; 1; 0; 2; 2; 2; 0] 0).
  destruct (resid_sum Z 0 Z.add (fun r a b => (a - r * b) * (a - r * b)) (fun x => x) 3 2 4
    (device [[1; 2; 3; 0; 4; 5; 6; 0]; [1; 1; 1; 0; 2; 2; 2; 0]; [2; 3]; [0; 0]]) a b (fun j => nth j [2; 3] 0)) as (m' & Y & Q).
  1-3: intros; lia.
  - vm_compute. discriminate.
  - intros i j Hi Hj. destruct i as [|[|[|i]]], j as [|[|j]]; try lia; split; reflexivity.
  - intros j Hj. destruct j as [|[|j]]; try lia; (split; [reflexivity|discriminate]).
  - intros. discriminate.
  - exists m'. split; auto. split; [exact (Q 0%nat ltac:(lia))|exact (Q 1%nat ltac:(lia))].
Qed.
(** diagonal 1, -4 of a 2 x 2 matrix, result cell containing 7 *)
Lemma trace_ex : exists m', yields Z.add (trace_kernel 0 Z.add Z.abs 2 2) (device [[1; 2; 3; -4]; [7]]) m' /\ m' (Glob 1 0) = Some 12.
Proof.
  destruct (trace_main Z 0 Z.add Z.abs 2 2 (device [[1; 2; 3; -4]; [7]]) (fun i => nth i [1; -4] 0) 7) as (m' & Y & Q & _).
  1-3: intros; lia.
  - vm_compute. discriminate.
  - intros [|[|i]] Hi; [reflexivity|reflexivity|lia].
  - reflexivity.
  - intros. discriminate.
  - exists m'. split; auto.
Qed.
(** the same matrix twice, result cell cleared only before the first call *)
Lemma trace_twice_ex : exists m1 m2, ran Z.add (trace_kernel 0 Z.add Z.abs 2 2) (device [[1; 2; 3; -4]; [0]]) m1 /\ m1 (Glob 1 0) = Some 5 /\
  ran Z.add (trace_kernel 0 Z.add Z.abs 2 2) (fun x => match x with Glob _ _ => m1 x | _ => Some 0 end) m2 /\ m2 (Glob 1 0) = Some 10.
Proof.
  destruct (trace_main Z 0 Z.add Z.abs 2 2 (device [[1; 2; 3; -4]; [0]]) (fun i => nth i [1; -4] 0) 0) as (m1 & Y & Q & K).
  1-3: intros; lia.
  - vm_compute. discriminate.
  - intros [|[|i]] Hi; [reflexivity|reflexivity|lia].
  - reflexivity.
  - intros. discriminate.
  - destruct (trace_main Z 0 Z.add Z.abs 2 2 (fun x => match x with Glob _ _ => m1 x | _ => Some 0 end) (fun i => nth i [1; -4] 0) 5) as (m2 & Y2 & Q2 & _).
    1-3: intros; lia.
    + vm_compute. discriminate.
    + intros i Hi. unfold entry. rewrite K by discriminate. destruct i as [|[|i]]; [reflexivity|reflexivity|lia].
    + exact Q.
    + intros. discriminate.
    + exists m1, m2. split; [exact (yields_ends _ _ _ _ _ Y)|]. split; [exact Q|]. split; [exact (yields_ends _ _ _ _ _ Y2)|exact Q2].
Qed.
(** N = 3, row blocks of 1 on two process rows, row source 1: process row 1 holds rows 0 and 2 *)
Lemma mgpu_ex : exists o m', diag_tables (mk_dim 2 2 [0; 2] [1; 1] [0; 1])%nat (mk_dim 3 2 [0; 2] [2; 1] [0; 2])%nat = Ok o /\ o = ([0; 1], [0; 2])%nat /\
  yields Z.add (shift_mgpu_kernel 0 (Z.add 100) (fst o) (snd o) 2) (device [[0; 20; 1; 21; 2; 22]]) m' /\
  m' (Glob 0 0) = Some 100 /\ m' (Glob 0 1) = Some 20 /\ m' (Glob 0 5) = Some 122.
Proof.
  set (G := fun g h : nat => Z.of_nat (g * 10 + h)).
  assert (S : stores [0; 2]%nat [0; 1; 2]%nat 2 G [0; 20; 1; 21; 2; 22]).
  { intros a b g h Ea Eb. destruct a as [|[|a]]; [| |destruct a; discriminate]; (destruct b as [|[|[|b]]]; [| | |destruct b; discriminate]);
      cbn in Ea, Eb; injection Ea as <-; injection Eb as <-; reflexivity. }
  destruct (mgpu_main Z 0 Z.add (Z.add 100) (mk_dim 2 2 [0; 2] [1; 1] [0; 1])%nat (mk_dim 3 2 [0; 2] [2; 1] [0; 2])%nat [0; 2]%nat [0; 1; 2]%nat 2 G [0; 20; 1; 21; 2; 22] (device [[0; 20; 1; 21; 2; 22]])) as (o & m' & E & Y & A & _); auto.
  - repeat split. intros [|[|b]] ol Hb; cbn in Hb; try (destruct b; discriminate); injection Hb as <-; reflexivity.
  - repeat split. intros [|[|b]] ol Hb; cbn in Hb; try (destruct b; discriminate); injection Hb as <-; reflexivity.
  - apply device_holds. reflexivity.
  - exists o, m'. split; auto. split; [vm_compute in E; injection E as <-; reflexivity|]. split; auto.
    split; [exact (A 0%nat 0%nat 0%nat 0%nat eq_refl eq_refl)|]. split; [exact (A 1%nat 0%nat 2%nat 0%nat eq_refl eq_refl)|exact (A 1%nat 2%nat 2%nat 2%nat eq_refl eq_refl)].
Qed.
(** a 2 x 2 matrix copied between leading dimensions 3 and 2 *)
Lemma lacpy_ex : exists m', yields_all Z.add (lacpy_launches 0 All 2 2 3 2) (device [[1; 2; 9; 3; 4; 9]; [0; 0; 0; 0]]) m' /\
  m' (Glob 1 0) = Some 1 /\ m' (Glob 1 1) = Some 2 /\ m' (Glob 1 2) = Some 3 /\ m' (Glob 1 3) = Some 4.
Proof.
  assert (HM : forall i j, (i < 2)%nat -> (j < 2)%nat -> device [[1; 2; 9; 3; 4; 9]; [0; 0; 0; 0]] (aat 3 i j) <> None /\ device [[1; 2; 9; 3; 4; 9]; [0; 0; 0; 0]] (bat 2 i j) <> None).
  { intros [|[|i]] [|[|j]] Hi Hj; try lia; split; discriminate. }
  destruct (Verif.CukProofs5.lacpy_all_ok 0 Z.add 2 2 3 2 (device [[1; 2; 9; 3; 4; 9]; [0; 0; 0; 0]]) ltac:(lia) ltac:(lia) ltac:(reflexivity) ltac:(reflexivity) HM ltac:(discriminate) ltac:(discriminate)) as (m' & Y & A & _).
  - exists m'. split; [exact Y|]. split; [exact (A 0%nat 0%nat ltac:(lia) ltac:(lia))|]. split; [exact (A 1%nat 0%nat ltac:(lia) ltac:(lia))|].
    split; [exact (A 0%nat 1%nat ltac:(lia) ltac:(lia))|exact (A 1%nat 1%nat ltac:(lia) ltac:(lia))].
Qed.
(** 4194240 rows, one column: the source is 1 everywhere, the target 0, and the target's last entry stays 0 *)
Lemma lacpy_lost_ex : let m := Z.to_nat 4194240 in
  exists m', yields_all Z.add (lacpy_launches 0 All m 1 m m) (fun x => match x with Glob 0 _ => Some 1 | _ => Some 0 end) m' /\
  m' (entry 1 m (m - 1) 0) <> Some 1.
Proof.
  intros m. assert (E : Zn m = 4194240) by (unfold Zn, m; rewrite Z2Nat.id; lia).
  assert (HM : forall i j, (i < m)%nat -> (j < 1)%nat -> (fun x => match x with Glob 0 _ => Some 1 | _ => Some 0 end) (entry 0 m i j) <> None /\
    (fun x => match x with Glob 0 _ => Some 1 | _ => Some 0 end) (entry 1 m i j) <> None) by (intros; split; discriminate).
  assert (L : (0 < m)%nat) by (unfold Zn in E; lia).
  assert (X : Zn m mod 4194240 = 0) by (rewrite E; reflexivity).
  assert (B : Zn 1 * Zn m < 2147483648) by (rewrite E; reflexivity).
  clearbody m. destruct (lacpy_lost Z 0 Z.add m 1 m m (fun x => match x with Glob 0 _ => Some 1 | _ => Some 0 end) 0 (le_n _) (le_n _) B B HM L X ltac:(lia) ltac:(discriminate)) as (m' & Y & Q).
  exists m'. split; [exact Y|exact Q].
Qed.
(** the n x n matrices with n = 46341 that overflow do fit on a device: 4-byte elements take 8.6 GB *)
Lemma shift_bad_ex : may_fault Z.add (shift_kernel 0 (Z.add 10) (Z.to_nat 46341)) (fun _ => Some 0).
Proof. apply Verif.CukProofs3.shift_kernel_bad. unfold Zn. rewrite Z2Nat.id; lia. Qed.
Lemma normal_ex : exists m', yields Z.add (normal_kernel (fun s k => Z.of_nat (100 * s + k)) 3) (device [[0; 0; 0; 5]]) m' /\
  m' (Glob 0 0) = Some 0 /\ m' (Glob 0 2) = Some 200 /\ m' (Glob 0 3) = Some 5.
Proof.
  destruct (Verif.CukProofs3.normal_kernel_ok Z.add (fun s k => Z.of_nat (100 * s + k)) 3 (device [[0; 0; 0; 5]])) as (m' & Y & A & F).
  - vm_compute. discriminate.
  - intros i Hi. assert (C : i = 0 \/ i = 1 \/ i = 2) by (unfold Zn in Hi; lia). destruct C as [->|[->| ->]]; vm_compute; discriminate.
  - exists m'. split; [exact Y|]. split; [exact (A 0 ltac:(vm_compute; intuition discriminate))|]. split; [exact (A 2 ltac:(vm_compute; intuition discriminate))|].
    rewrite F; [reflexivity|]. intros i Hi E. injection E as <-. unfold Zn in Hi. lia.
Qed.
