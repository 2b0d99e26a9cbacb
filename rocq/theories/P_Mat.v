(** Host and device copies of the matrices. *)
From Coq Require Import List Arith ZArith Lia.
Require Import Verif.Base Verif.MatModel Verif.MatSpec Verif.MatProofs.
Import ListNotations.

Theorem C78_upload : forall A (x : matrix A) h d nrows ncols off, well_formed x h d -> inside x nrows ncols off ->
  exists d', h2d_part nrows ncols off x = Ok (with_dev x d') /\ tile_copied nrows ncols off h (mld x) d (mm x) d'.
Proof. exact @upload_part. Qed.
Print Assumptions C78_upload.

Theorem C78_upload_whole : forall A (x : matrix A) h d, well_formed x h d ->
  exists d', h2d_all x = Ok (with_dev x d') /\ tile_copied (mm x) (mn x) 0 h (mld x) d (mm x) d'.
Proof. exact @upload_all. Qed.
Print Assumptions C78_upload_whole.

Theorem C78_download : forall A (x : matrix A) h d nrows ncols off, well_formed x h d -> inside x nrows ncols off ->
  exists h', d2h_part nrows ncols off x = Ok (with_host x h') /\ tile_copied nrows ncols off d (mm x) h (mld x) h'.
Proof. exact @download_part. Qed.
Print Assumptions C78_download.

Theorem C78_download_whole : forall A (x : matrix A) h d, well_formed x h d ->
  exists h', d2h_all x = Ok (with_host x h') /\ tile_copied (mm x) (mn x) 0 d (mm x) h (mld x) h'.
Proof. exact @download_all. Qed.
Print Assumptions C78_download_whole.

(** a 2 x 2 matrix in a host buffer of leading dimension 3 *)
Example C78_example :
  let h := [1; 2; 0; 3; 4; 0] in let x := Matrix 2 2 3 (Some h) (Some [7; 7; 7; 7]) in
  well_formed x h [7; 7; 7; 7] /\ h2d_all x = Ok (with_dev x [1; 2; 3; 4]) /\
  h2d_part 2 1 1 x = Ok (with_dev x [7; 7; 3; 4]) /\ d2h_part 1 2 0 x = Ok (with_host x [7; 2; 0; 7; 4; 0]).
Proof.
  split; [unfold well_formed; cbn; repeat split; lia|]. split; [vm_compute; reflexivity|]. split; vm_compute; reflexivity.
Qed.

Theorem C78_up_then_down : forall A (x : matrix A) h d nrows ncols off, well_formed x h d -> inside x nrows ncols off ->
  exists x1 x2, h2d_part nrows ncols off x = Ok x1 /\ d2h_part nrows ncols off x1 = Ok x2 /\ mhost x2 = Some h /\ mdev x2 = mdev x1.
Proof. exact @up_down. Qed.
Print Assumptions C78_up_then_down.

Theorem C78_down_then_up : forall A (x : matrix A) h d nrows ncols off, well_formed x h d -> inside x nrows ncols off ->
  exists x1 x2, d2h_part nrows ncols off x = Ok x1 /\ h2d_part nrows ncols off x1 = Ok x2 /\ mdev x2 = Some d /\ mhost x2 = mhost x1.
Proof. exact @down_up. Qed.
Print Assumptions C78_down_then_up.

Theorem C78_padding_never_touched : forall A (l : list (step A)) (x : matrix A) h d, well_formed x h d -> Forall (in_session x) l ->
  exists x' h' d', run_steps l x = Ok x' /\ well_formed x' h' d' /\ same_shape x x' /\ length h' = length h /\
    (forall i j, mm x <= i < mld x -> j < mn x -> entry h' (mld x) i j = entry h (mld x) i j) /\
    (forall k, mld x * mn x <= k -> nth_error h' k = nth_error h k).
Proof. exact @padding_safe. Qed.
Print Assumptions C78_padding_never_touched.

Example C78_example_session :
  let x := Matrix 2 2 3 (Some [1; 2; 9; 3; 4; 9; 8]) (Some [0; 0; 0; 0]) in
  Forall (in_session x) [UpAll; DevStore 3 5; Down 1 1 1; DownAll] /\
  run_steps [UpAll; DevStore 3 5; Down 1 1 1; DownAll] x = Ok (Matrix 2 2 3 (Some [1; 2; 9; 3; 5; 9; 8]) (Some [1; 2; 3; 5])).
Proof. split; [repeat constructor; unfold inside; cbn; lia|vm_compute; reflexivity]. Qed.

Theorem C78_modes_served : forall A R (zA : A) (zR : R) cuda mode m n mb H ldh V1 rv,
  mode = 0 \/ (cuda = true /\ mode <= 2) ->
  let X := make_matrices cuda zA zR mode m n mb H ldh V1 rv in
  let there := if mode =? 2 then OnDevice else OnHost in
  Forall (fun x => comm_ptr cuda mode x = Ok there) [xC X; xC2 X; xB X; xB2 X; xA X; xvv X] /\
  comm_ptr cuda mode (xResid X) = Ok there /\
  mhost (xH X) = Some H /\ mhost (xC X) = Some V1 /\ mhost (xRitzv X) = Some rv /\
  Forall (fun x => exists p, ptr x = Ok p) [xH X; xC X; xC2 X; xB X; xB2 X; xA X; xvv X] /\
  ptr (xC X) = Ok OnHost /\ ptr (xResid X) = Ok OnHost.
Proof. exact @modes_served. Qed.
Print Assumptions C78_modes_served.

(** where memory is allocated (elements): the blocks exist on the host only in mode 0, twice in mode 1, on the device only in mode 2 *)
Theorem C78_memory_of_the_modes : forall A R (zA : A) (zR : R) mode m n mb H ldh V1 rv, mode <= 2 ->
  let X := make_matrices true zA zR mode m n mb H ldh V1 rv in let vs := [xC X; xC2 X; xB X; xB2 X; xA X] in
  map (fun x => copy_size (mdev x)) (xH X :: xvv X :: vs) = (if mode =? 0 then [0; 0; 0; 0; 0; 0; 0] else [m * n; m; m * mb; m * mb; n * mb; n * mb; mb * mb]) /\
  map (fun x => copy_size (mdev x)) [xRitzv X; xResid X] = (if mode =? 0 then [0; 0] else [mb; mb]) /\
  map (fun x => copy_size (mhost x)) [xC2 X; xB X; xB2 X; xA X] = (if mode =? 2 then [0; 0; 0; 0] else [m * mb; n * mb; n * mb; mb * mb]) /\
  copy_size (mhost (xvv X)) = m /\ copy_size (mhost (xResid X)) = mb.
Proof. exact modes_memory. Qed.
Print Assumptions C78_memory_of_the_modes.

Theorem C78_gpu_modes_without_cuda_refuted : forall A R (zA : A) (zR : R) mode m n mb H ldh V1 rv, 1 <= mode ->
  let X := make_matrices false zA zR mode m n mb H ldh V1 rv in
  Forall (fun x => comm_ptr false mode x = UB) [xC X; xC2 X; xB X; xB2 X; xA X; xvv X].
Proof. exact @modes_unserved. Qed.
Print Assumptions C78_gpu_modes_without_cuda_refuted.

Theorem C78_guarded_synchronisation : forall A R (zA : A) (zR : R) cuda mode m n mb H ldh V1 rv dC,
  mode = 0 \/ (cuda = true /\ mode <= 2) ->
  0 < m -> (Z.of_nat m < 2 ^ 31)%Z -> (Z.of_nat mb < 2 ^ 31)%Z -> m * mb <= length V1 -> length dC = m * mb ->
  let C := xC (make_matrices cuda zA zR mode m n mb H ldh V1 rv) in
  let C' := match mdev C with Some _ => with_dev C dC | None => C end in
  exists C2 h, guarded_sync cuda mode C' = Ok C2 /\ mhost C2 = Some h /\ mdev C2 = mdev C' /\
    (mode <> 2 -> h = V1) /\ (mode = 2 -> tile_copied m mb 0 dC m V1 m h).
Proof. exact @guarded_sync_ok. Qed.
Print Assumptions C78_guarded_synchronisation.

Example C78_example_modes :
  let C := xC (make_matrices true 0 0 2 2 1 2 [5; 6] 2 [1; 2; 3; 4] [0; 0]) in
  comm_ptr true 2 C = Ok OnDevice /\ ptr C = Ok OnHost /\
  guarded_sync true 2 (with_dev C [9; 8; 7; 6]) = Ok (Matrix 2 2 2 (Some [9; 8; 7; 6]) (Some [9; 8; 7; 6])).
Proof. split; [vm_compute; reflexivity|]. split; vm_compute; reflexivity. Qed.

Theorem C78_ritz_value_buffer_refuted : forall R (zR : R) mb (rv : list R), 2 <= mb -> (Z.of_nat mb < 2 ^ 31)%Z -> length rv = mb ->
  h2d_all (mat_user true zR 1 1 mb rv mb) = UB /\ forall d, d2h_all (with_dev (mat_user true zR 1 1 mb rv mb) d) = UB.
Proof. exact @ritz_upload_ub. Qed.
Print Assumptions C78_ritz_value_buffer_refuted.

Theorem C78_large_sizes_refuted : forall A (x : matrix A) h d, mhost x = Some h -> mdev x = Some d ->
  (2 ^ 31 <= Z.of_nat (mm x) < 2 ^ 32)%Z -> h2d_all x = Ok (with_dev x d).
Proof. exact @upload_huge_noop. Qed.
Print Assumptions C78_large_sizes_refuted.
