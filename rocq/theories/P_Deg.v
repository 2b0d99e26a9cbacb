(** C86: what the filter degrees achieve, in exact real arithmetic. *)
From Coq Require Import List Reals ZArith Bool Lia Lra.
Require Import Verif.Base Verif.AlgModel Verif.AlgSpec Verif.DegSpec Verif.DegProofs Verif.DegEx.
Import ListNotations.
Local Open Scope R_scope.

(** inside the filtered interval nothing grows; below it a component grows by about half the rate to the degree *)
Theorem C86_amplification : forall lb ub x n, lb < ub ->
  (lb <= x <= ub -> amplification lb ub x n <= 1) /\
  (x < lb -> 1 < rate lb ub x /\ amplification lb ub x n = (rate lb ub x ^ n + (/ rate lb ub x) ^ n) / 2).
Proof. exact (fun lb ub x n H => conj (amplification_inside lb ub x n H) (fun G => conj (rate_gt1 lb ub x H G) (amplification_closed lb ub x H G n))). Qed.
Print Assumptions C86_amplification.

(** the degree of a wanted pair left of the interval reduces its residual to the tolerance unless MaxDeg cuts it off, and it is at most
    DegExtra + 1 above any degree that does *)
Theorem C86_degree_reaches_tolerance : forall huge gauss St (K : kernel xr St) cf unc nex ub lb locked a r a' tol,
  (nex < unc)%nat -> (unc <= length (cd_deg a))%nat -> lb < ub -> 0 < tol -> c_tol cf = Some tol ->
  calc_degrees (rops huge gauss) K cf unc nex (Some ub) (Some lb) locked a = Ok (r, a') ->
  exists wanted, joint_degrees K unc locked wanted a a' /\
    forall i x s, (i < unc - nex)%nat -> nth_error (cd_ritz a) i = Some (Some x) -> nth_error (cd_res a) i = Some (Some s) ->
      x < lb -> 0 < s -> exists d, nth_error wanted i = Some d /\
      (cut_off cf d \/ s * rate lb ub x ^ c_degextra cf <= 2 * tol * amplification lb ub x d) /\
      (2 <= rate lb ub x ^ c_degextra cf -> cut_off cf d \/ s <= tol * amplification lb ub x d) /\
      (forall m, tol <= s -> s <= tol * amplification lb ub x m -> (d <= m + c_degextra cf + 1)%nat).
Proof. exact reaches. Qed.
Print Assumptions C86_degree_reaches_tolerance.

(** A pair already within the tolerance does not get a small degree: the further its residual is below the tolerance, the larger the degree. *)
Theorem C86_converged_pairs_refuted : forall huge gauss St (K : kernel xr St) cf unc nex ub lb locked a r a' tol,
  (nex < unc)%nat -> (unc <= length (cd_deg a))%nat -> lb < ub -> 0 < tol -> c_tol cf = Some tol ->
  calc_degrees (rops huge gauss) K cf unc nex (Some ub) (Some lb) locked a = Ok (r, a') ->
  exists wanted, joint_degrees K unc locked wanted a a' /\
    forall i x s, (i < unc - nex)%nat -> nth_error (cd_ritz a) i = Some (Some x) -> nth_error (cd_res a) i = Some (Some s) ->
      x < lb -> 0 < s -> exists d, nth_error wanted i = Some d /\
      (forall k, s * rate lb ub x ^ k <= tol -> (Nat.min (k + c_degextra cf) (c_maxdeg cf) <= d)%nat).
Proof. exact below_tolerance. Qed.
Print Assumptions C86_converged_pairs_refuted.

(** interval [0, 2], two pairs at -1/4 (rate 2), tolerance 1, DegExtra 2: residual 16 gets degree 4 + 2, residual 1/1024 gets 10 + 2 *)
Example C86_example :
  rate 0 2 (-1 / 4) = 2 /\
  calc_degrees (rops 0 (fun x => x)) idle ecf 3 1 (Some 2) (Some 0) 0 ein =
  Ok (12%nat, mk_cd [6; 12; 12]%nat [Some (-1 / 4); Some (-1 / 4); Some 0] [Some 16; Some (1 / 1024); Some 1] [Some 20; Some 1; Some 2] tt).
Proof. split; [exact rate_ex|exact calc_ex]. Qed.

(** The computation succeeds when every wanted Ritz value is below the interval and every residual positive and not astronomically far from
    the tolerance. *)
Theorem C86_degrees_defined : forall huge gauss St (K : kernel xr St) nevex I0 I, kernel_safe K nevex I0 I -> forall cf unc nex ub lb l a tol,
  (nex < unc)%nat -> (l + unc <= nevex)%nat ->
  (unc <= length (cd_deg a) /\ unc <= length (cd_ritz a) /\ unc <= length (cd_res a) /\ unc <= length (cd_last a))%nat -> I l (cd_k a) ->
  lb < ub -> 0 < tol -> c_tol cf = Some tol ->
  (forall i r s, (i < unc - nex)%nat -> nth_error (cd_ritz a) i = Some r -> nth_error (cd_res a) i = Some s ->
     exists x y, r = Some x /\ s = Some y /\ x < lb /\ 0 < y /\ Rabs (ln (y / tol)) <= (2 ^ 64 - 1) * ln (rate lb ub x)) ->
  exists r a', calc_degrees (rops huge gauss) K cf unc nex (Some ub) (Some lb) l a = Ok (r, a') /\ I l (cd_k a').
Proof. exact degrees_defined. Qed.
Print Assumptions C86_degrees_defined.

Example C86_example_defined : Rabs (ln (16 / 1)) <= (2 ^ 64 - 1) * ln (rate 0 2 (-1 / 4)) /\ Rabs (ln (1 / 1024 / 1)) <= (2 ^ 64 - 1) * ln (rate 0 2 (-1 / 4)).
Proof. exact bound_ex. Qed.

(** A wanted pair whose residual is exactly 0 but which is not locked yet makes the next degree computation undefined: log 0. *)
Theorem C86_zero_residual_refuted : forall huge gauss St (K : kernel xr St) sort_idx cf ub (s : sstate (F := xr) (St := St)) i r,
  c_opt cf = true -> (1 <= ss_iter s)%nat -> (c_nev cf + c_nex cf <= length (whole (ss_ritz s)))%nat ->
  (ss_unconv s <= length (snd (ss_res s)))%nat -> (ss_unconv s <= length (snd (ss_ritz s)))%nat ->
  (i < ss_unconv s - c_nex cf)%nat -> (ss_unconv s <= c_nev cf + c_nex cf)%nat ->
  nth_error (snd (ss_ritz s)) i = Some r -> nth_error (snd (ss_res s)) i = Some (Some 0) ->
  iterate (rops huge gauss) K sort_idx cf ub s = UB.
Proof. exact zero_ub. Qed.
Print Assumptions C86_zero_residual_refuted.

(** the first pair has residual 1/4, the second 0 *)
Example C86_example_zero : iterate (rops 0 (fun x => x)) idle (fun l => seq 0 (length l)) tcf (Some 3) zlast = UB.
Proof. exact zero_ex. Qed.

(** Without extra vectors the last wanted Ritz value is also the new lower end of the interval, and its degree is |log(..)| / log 1: once a
    pair is locked and the other residuals are at most 1/2, the next degree computation is undefined. *)
Theorem C86_no_extra_vectors_refuted : forall huge gauss St (K : kernel xr St) fsort sort_idx cf k ritzv resid ub t x,
  c_opt cf = true -> c_nex cf = O -> comes_to huge gauss K fsort sort_idx cf k ritzv resid (Some ub) t -> later_state cf t x ->
  solve (rops huge gauss) K fsort sort_idx cf k ritzv resid = UB.
Proof. exact (fun h g St K fs si cf k rv rs ub t x Ho Hn HC HL => solve_ub h g K si fs cf k rv rs ub t x Ho HC HL (or_introl Hn)). Qed.
Print Assumptions C86_no_extra_vectors_refuted.

Example C86_example_no_extra :
  comes_to 9 (fun x => x) scripted (fun l => l) (fun l => seq 0 (length l)) scf tt [Some 1; Some 2] [Some 0; Some 0] (Some 3) slast /\ later_state scf slast 1.
Proof. split; [exact comes_ex|exact later_ex]. Qed.

(** The recovery from a lower end above the upper bound (setting it to the upper bound) leaves an interval of width 0, and the next degree
    computation divides by it. *)
Theorem C86_empty_interval_refuted : forall huge gauss St (K : kernel xr St) sort_idx cf ub s x,
  c_opt cf = true -> later_state cf s x -> ub <= x -> iterate (rops huge gauss) K sort_idx cf (Some ub) s = UB.
Proof. exact (fun h g St K => empty_ub h g K). Qed.
Print Assumptions C86_empty_interval_refuted.

Example C86_example_empty : later_state tcf tlast 1 /\ c_opt tcf = true.
Proof. split; [exact later_ex2|reflexivity]. Qed.
