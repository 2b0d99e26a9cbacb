(** The values returned by the Mpi backend in exact arithmetic: Rayleigh quotients of the returned orthonormal columns, up to a
    common permutation of columns and residuals. *)
From Coq Require Import Permutation.
From mathcomp Require Import all_ssreflect all_algebra all_real_closed.
Require Import Verif.Base Verif.AlgModel Verif.AlgSpec Verif.AlgProofs1 Verif.AlgProofs4 Verif.AlgStill Verif.DlaModel Verif.ColModel Verif.ColSpec Verif.ColProofs1 Verif.ColProofs2 Verif.ColProofs3
  Verif.ColOrth Verif.ColStill Verif.ExactSpec Verif.OrthSpec Verif.OrthProofs Verif.Spectral Verif.OrthSolve Verif.KyFan.
Set Implicit Arguments. Unset Strict Implicit. Unset Printing Implicit Defensive.
Import Order.TTheory GRing.Theory Num.Theory.
Local Open Scope ring_scope.
Local Open Scope complex_scope.

Lemma listseqE s n : List.seq s n = iota s n.
Proof. by elim: n s => //= n IH s; rewrite IH. Qed.
Lemma listmapE A B (f : A -> B) l : List.map f l = map f l.
Proof. by []. Qed.

(** the reindexing of a sequence of exchanges is injective *)
Lemma swps_inj n sw f : in_range n sw -> (forall A (l : list A), le n (length l) -> forall i, List.nth_error (swps sw l) i = List.nth_error l (f i)) ->
  (forall i, lt i n -> lt (f i) n) -> forall i j, (i < n)%N -> (j < n)%N -> f i = f j -> i = j.
Proof.
move=> Hr Hf Hb i j hi hj E.
have P : Permutation (iota 0 n) (swps sw (iota 0 n)) by apply/swps_perm.
have L : length (iota 0 n) = n by change (size (iota 0 n) = n); rewrite size_iota.
have ND : List.NoDup (swps sw (iota 0 n)).
  apply: (Permutation_NoDup P); rewrite -listseqE; exact: List.seq_NoDup.
have Ls : length (swps sw (iota 0 n)) = n by rewrite -(Permutation_length P).
apply: (proj1 (List.NoDup_nth_error _) ND); first by rewrite Ls; exact: ssrnat.ltP.
by rewrite !Hf ?L ?E.
Qed.

Section Solve.
Variables (R : rcfType) (C : fieldType) (inj : {rmorphism R -> C}) (cj : {rmorphism C -> C}) (N : nat) (G : Type).
Variables (fo : fops R) (bl : blas R 'cV[C]_N 'M[C]_N G C) (qe : qr_env R) (td : tridiag R) (cf : conf R) (sort_idx : list R -> list nat).
Variables (H : 'M[C]_N) (fsort : list R -> list R) (S0 : cm (D := cst (V := 'cV[C]_N) (M := 'M[C]_N))) (ritzv resid : list R).
Local Notation n := (Nat.add (c_nev cf) (c_nex cf)).
Local Notation mpiK := (cmK fo qe td (colD fo bl true n) (c_nev cf) (c_nex cf)).
Hypothesis Hperm : forall keys, Permutation (sort_idx keys) (List.seq 0 (length keys)).
Hypotheses (EF : exact_fops fo) (EM : exact_mv inj cj bl) (EQ : exact_qr cj bl n) (ER : exact_rr inj cj bl H n) (HH : hermitian cj H).
Hypotheses (HJ : sJ0 fo bl (c_nev cf) (c_nex cf) H n S0) (HC : conf_ok cf) (HM : le 1 (c_maxiter cf)).
Hypotheses (HA : keeps_ascending sort_idx) (OR : ordered_rr cj bl H n).
Variable e : {rmorphism C -> R[i]}.
Hypotheses (IC : in_complex inj cj e) (EV : exact_vec inj cj bl).

Lemma sorted_vals h cs l m : drift fo bl H h -> length cs = n -> le l n -> orthonormal cj cs -> le m (Nat.sub n l) ->
  sort_idx (List.firstn m (List.map (b_eval bl (b_gram bl (List.skipn l cs) (List.map (b_mulH bl h) (List.skipn l cs)))) (List.seq 0 (Nat.sub n l)))) = List.seq 0 m.
Proof.
move=> /(drift_here EF EM) -> sz /ssrnat.leP hl on /ssrnat.leP hm.
rewrite listseqE firstnE skipnE listmapE -map_take take_iota; move: hm; rewrite -[Nat.sub _ _]/(n - l)%N => hm; rewrite (minn_idPl hm).
rewrite (HA (keys := _)) ?size_map ?size_iota ?listseqE //.
have sd : size (drop l cs) = (n - l)%N by rewrite size_drop -[size cs]/(length cs) sz.
have od : orthonormal cj (drop l cs).
  move=> i j; rewrite sd => hi hj; rewrite !nth_drop on ?eqn_add2l //; by rewrite -[size cs]/(length cs) sz -ltn_subRL.
apply: (path_sorted (x := b_eval bl (b_gram bl (drop l cs) (List.map (b_mulH bl H) (drop l cs))) 0)).
case: m hm => [//|m] hm; rewrite /= lexx /=.
apply/(pathP 0) => i; rewrite size_map size_iota => hi.
have E k : (k <= m)%N -> nth 0 (b_eval bl (b_gram bl (drop l cs) (List.map (b_mulH bl H) (drop l cs))) 0 :: [seq b_eval bl (b_gram bl (drop l cs) (List.map (b_mulH bl H) (drop l cs))) j | j <- iota 1 m]) k
    = b_eval bl (b_gram bl (drop l cs) (List.map (b_mulH bl H) (drop l cs))) k.
  by case: k => [//|k] hk /=; rewrite (nth_map 0%N) ?size_iota // nth_iota.
rewrite E ?(ltnW hi) // (nth_map 0%N) ?size_iota // nth_iota // add1n.
by apply: OR => //; [rewrite sd leq_subr|rewrite leqnSn sd (leq_ltn_trans hi hm)].
Qed.

(** runs from any state of the right sizes *)
Lemma mpi_orthonormal_from o s : solve fo mpiK fsort sort_idx cf S0 ritzv resid = Ok o -> o_exit o = Some s ->
  size (cs_C (cm_dla (o_k o))) = n /\ orthonormal cj (cs_C (cm_dla (o_k o))).
Proof.
move=> E Hx; apply: and_comm.
by apply: (mpi_end_on fo bl qe td (c_nev cf) (c_nex cf) H n (le_n n) _ _ _ (exact_rules EF EM EQ ER HH) sort_idx Hperm fsort cf _ ritzv resid o s _ _ _ _ _ E Hx).
Qed.

(** the pairing permutation *)
Lemma mpi_values_from o s : solve fo mpiK fsort sort_idx cf S0 ritzv resid = Ok o -> o_exit o = Some s ->
  exists p, (forall i, (i < c_nev cf)%N -> (p i < c_nev cf)%N) /\ (forall i j, (i < c_nev cf)%N -> (j < c_nev cf)%N -> p i = p j -> i = j) /\
  forall i, (i < c_nev cf)%N -> exists v x r, List.nth_error (o_ritz o) i = Some v /\ List.nth_error (cs_C (cm_dla (o_k o))) (p i) = Some x /\
    List.nth_error (o_res o) (p i) = Some r /\ dot cj x x = 1 /\ inj v = dot cj x (H *m x) /\
    0 <= r /\ inj r ^+ 2 = dot cj (H *m x - inj v *: x) (H *m x - inj v *: x) /\
    exists l, eigenvalue H (inj l) /\ `|l - v| <= r.
Proof.
move=> E Hx; have [sz on] := mpi_orthonormal_from E Hx.
have KT := mpi_still fo bl qe td (c_nev cf) (c_nex cf) H n (le_n n) _ _ _ (exact_rules EF EM EQ ER HH) sort_idx sorted_vals.
have [sw [Hr [_ [_ [_ [Lc [_ [L1 [L2 X]]]]]]]]] := still_pairs fo _ sort_idx Hperm _ _ _ _ _ _ _ _ KT fsort cf _ ritzv resid o s erefl HC HJ HM E Hx.
have [f [Hb Hf]] := swps_reindex _ _ Hr; exists f.
split; first by move=> i /ssrnat.ltP /Hb /ssrnat.ltP.
split; first exact: (swps_inj Hr Hf Hb).
move: L1 L2 X => /= L1 L2 X i /ssrnat.ltP hi.
have lc : length (List.firstn (c_nev cf) (cs_C (cm_dla (o_k o)))) = c_nev cf.
  by rewrite List.firstn_length_le // Lc; apply: PeanoNat.Nat.le_add_r.
have ls : length (swps sw (List.firstn (c_nev cf) (cs_C (cm_dla (o_k o))))) = c_nev cf by rewrite swps_length.
have lr : length (List.firstn (c_nev cf) (o_res o)) = c_nev cf by rewrite -[RHS]ls L2 swps_length.
have get A (l : list A) k : lt k (c_nev cf) -> length l = c_nev cf -> exists a, List.nth_error l k = Some a.
  by move=> hk hl; case Ea : (List.nth_error l k) => [a|]; [exists a|move/List.nth_error_None: Ea; rewrite hl => /PeanoNat.Nat.le_ngt; case].
have [v hv] := get _ _ _ hi (etrans L1 ls). have [x hx] := get _ _ _ (Hb i hi) lc. have [r hr] := get _ _ _ (Hb i hi) lr.
have [hray [h [/(drift_here EF EM) -> rE]]] : OrthProofs.rayleigh inj cj H v x /\ ritz_resid fo bl H v x r by apply: (X i) => //; rewrite Hf ?lc ?lr.
have hx' : List.nth_error (cs_C (cm_dla (o_k o))) (f i) = Some x by rewrite -hx AlgProofs1.nth_firstn //; exact: Hb.
have hr' : List.nth_error (o_res o) (f i) = Some r by rewrite -hr AlgProofs1.nth_firstn //; exact: Hb.
have hv' : List.nth_error (o_ritz o) i = Some v by rewrite -hv AlgProofs1.nth_firstn.
have xx : dot cj x x = 1.
  have hs : (f i < size (cs_C (cm_dla (o_k o))))%N by apply/ssrnat.ltP; apply/List.nth_error_Some; rewrite hx'.
  have -> : x = (cs_C (cm_dla (o_k o)))`_(f i) by rewrite nthE hx'.
  by rewrite on // eqxx.
have rE' : r = b_nrm2 bl (H *m x - inj v *: x).
  by rewrite rE (ev_inj EV) (ev_axpy EV) (em_mulH EM) (ef_neg EF) rmorphN scaleNr addrC (HH : adj cj H = H).
have [r0 r2] := ev_nrm2 EV (H *m x - inj v *: x); rewrite -rE' in r0 r2.
exists v, x, r; do ! split=> //; exact: (near IC HH xx r0 r2).
Qed.

(** the columns in the order of the values *)
Lemma mpi_family_from o s : solve fo mpiK fsort sort_idx cf S0 ritzv resid = Ok o -> o_exit o = Some s ->
  exists p, perm_eq [seq p i | i <- iota 0 (c_nev cf)] (iota 0 (c_nev cf)) /\
  let xs := [seq (cs_C (cm_dla (o_k o)))`_(p i) | i <- iota 0 (c_nev cf)] in
  orthonormal cj xs /\ (c_nev cf <= size (o_ritz o))%N /\ (c_nev cf <= size (o_res o))%N /\
  forall i, (i < c_nev cf)%N -> inj (o_ritz o)`_i = dot cj xs`_i (H *m xs`_i) /\
    inj (o_res o)`_(p i) ^+ 2 = dot cj (H *m xs`_i - inj (o_ritz o)`_i *: xs`_i) (H *m xs`_i - inj (o_ritz o)`_i *: xs`_i).
Proof.
move=> E Hx; have [sz on] := mpi_orthonormal_from E Hx.
have [p [Hb [Hi X]]] := mpi_values_from E Hx; exists p.
have U : uniq [seq p i | i <- iota 0 (c_nev cf)].
  by rewrite map_inj_in_uniq ?iota_uniq // => i j; rewrite !mem_iota => hi hj; apply: Hi.
have S : {subset [seq p i | i <- iota 0 (c_nev cf)] <= iota 0 (c_nev cf)}.
  by move=> k /mapP [j]; rewrite !mem_iota => hj ->; exact: Hb.
have P : perm_eq [seq p i | i <- iota 0 (c_nev cf)] (iota 0 (c_nev cf)).
  apply: uniq_perm => //; first exact: iota_uniq.
  by have [] := uniq_min_size U S (eq_leq (esym (size_map _ _))).
split=> // xs; have xsE : xs = [seq (cs_C (cm_dla (o_k o)))`_k | k <- [seq p i | i <- iota 0 (c_nev cf)]] by rewrite -map_comp.
split.
  rewrite xsE; apply: orth_sub => //; apply/allP => k /S; rewrite mem_iota => hk; by rewrite sz (leq_trans hk) // leq_addr.
split; first by apply: size_some => i /ssrnat.ltP /X [v [x [r [hv _]]]]; exists v.
split.
  rewrite leqNgt; apply/negP => hs; have : (size (o_res o)) \in iota 0 (c_nev cf) by rewrite mem_iota.
  rewrite -(perm_mem P) => /mapP [j]; rewrite mem_iota => hj Ej; have [v [x [r [_ [_ [hr _]]]]]] := X _ hj.
  by have := proj1 (List.nth_error_Some (o_res o) (p j)); rewrite hr -Ej => /(_ ltac:(discriminate)) /PeanoNat.Nat.lt_irrefl.
move=> i hi; have [v [x [r [hv [hx [hr [_ [h1 [_ [h2 _]]]]]]]]]] := X _ hi.
have -> : xs`_i = x by rewrite (nth_map 0%N) ?size_iota // nth_iota // nthE hx.
by rewrite !nthE hv hr.
Qed.

Lemma mpi_count_from o s : solve fo mpiK fsort sort_idx cf S0 ritzv resid = Ok o -> o_exit o = Some s ->
  exists d : 'I_N -> R, char_poly H = \prod_j ('X - (inj (d j))%:P) /\
  forall a b dl, 0 <= dl -> \sum_(r <- List.firstn (c_nev cf) (o_res o)) r ^+ 2 <= dl ^+ 2 ->
    (seq.count (fun v => a <= v <= b)%R (List.firstn (c_nev cf) (o_ritz o)) <= #|[set j : 'I_N | (a - dl <= d j <= b + dl)%R]|)%N.
Proof.
move=> E Hx; have [p [P [ox [sv [sr X]]]]] := mpi_family_from E Hx.
have [d [dE hd]] := near_list IC HH; exists d; split=> // a b dl dl0 hs.
have szx : size [seq (cs_C (cm_dla (o_k o)))`_(p i) | i <- iota 0 (c_nev cf)] = c_nev cf by rewrite size_map size_iota.
rewrite firstnE count_card size_takel //.
have -> : [set i : 'I_(c_nev cf) | (a <= (take (c_nev cf) (o_ritz o))`_i <= b)%R] = [set i : 'I_(c_nev cf) | (a <= (o_ritz o)`_i <= b)%R].
  by apply/setP => i; rewrite !inE nth_take.
apply: (hd _ _ (fun i => (o_ritz o)`_i) (fun i => (o_res o)`_(p i)) a b dl ox) => //.
- by rewrite szx.
- by move=> i /X [].
rewrite (_ : \sum_(i < c_nev cf) _ = \sum_(r <- List.firstn (c_nev cf) (o_res o)) r ^+ 2) //.
rewrite firstnE (big_nth 0) size_takel // -(big_mkord xpredT (fun i => (o_res o)`_(p i) ^+ 2)).
rewrite [RHS]big_nat [RHS](eq_bigr (fun i => (o_res o)`_i ^+ 2)) => [|i hi]; last by rewrite nth_take.
by rewrite -big_nat /index_iota subn0 -[RHS](perm_big _ P) [RHS]big_map.
Qed.

Lemma mpi_kyfan_from o s : solve fo mpiK fsort sort_idx cf S0 ritzv resid = Ok o -> o_exit o = Some s ->
  exists ls : seq R, sorted <=%R ls /\ char_poly H = \prod_(l <- ls) ('X - (inj l)%:P) /\
  forall I : seq nat, uniq I -> all (fun i => i < c_nev cf)%N I ->
    \sum_(i < size I) ls`_i <= \sum_(i <- I) (o_ritz o)`_i <= \sum_(i < size I) ls`_(N - i.+1).
Proof.
move=> E Hx; have [p [P [ox [sv [sr X]]]]] := mpi_family_from E Hx.
have [ls [sl cp K]] := kyfan_list IC HH; exists ls; split=> //; split=> // I uI aI.
apply: (K _ (fun i => (o_ritz o)`_i) I ox uI); first by rewrite size_map size_iota.
by move=> i /(allP aI) /X [].
Qed.
End Solve.

(** runs from a new object *)
Section Plain.
Variables (R : rcfType) (C : fieldType) (inj : {rmorphism R -> C}) (cj : {rmorphism C -> C}) (N : nat) (G : Type).
Variables (fo : fops R) (bl : blas R 'cV[C]_N 'M[C]_N G C) (qe : qr_env R) (td : tridiag R) (cf : conf R) (sort_idx : list R -> list nat).
Variables (H : 'M[C]_N) (fsort : list R -> list R) (l0 : nat) (V1 : list 'cV[C]_N) (ritzv resid : list R).
Local Notation n := (Nat.add (c_nev cf) (c_nex cf)).
Local Notation mpiK := (cmK fo qe td (colD fo bl true n) (c_nev cf) (c_nex cf)).
Local Notation mpiS := (mk_cm l0 (mpi_state bl (c_nev cf) (c_nex cf) H V1)).
Hypothesis Hperm : forall keys, Permutation (sort_idx keys) (List.seq 0 (length keys)).
Hypotheses (EF : exact_fops fo) (EM : exact_mv inj cj bl) (EQ : exact_qr cj bl n) (ER : exact_rr inj cj bl H n) (HH : hermitian cj H).
Hypotheses (HV : length V1 = n) (HC : conf_ok cf) (HM : le 1 (c_maxiter cf)).
Hypotheses (HA : keeps_ascending sort_idx) (OR : ordered_rr cj bl H n).
Variable e : {rmorphism C -> R[i]}.
Hypotheses (IC : in_complex inj cj e) (EV : exact_vec inj cj bl).

Lemma mpi_values o s : solve fo mpiK fsort sort_idx cf mpiS ritzv resid = Ok o -> o_exit o = Some s ->
  exists p, (forall i, (i < c_nev cf)%N -> (p i < c_nev cf)%N) /\ (forall i j, (i < c_nev cf)%N -> (j < c_nev cf)%N -> p i = p j -> i = j) /\
  forall i, (i < c_nev cf)%N -> exists v x r, List.nth_error (o_ritz o) i = Some v /\ List.nth_error (cs_C (cm_dla (o_k o))) (p i) = Some x /\
    List.nth_error (o_res o) (p i) = Some r /\ dot cj x x = 1 /\ inj v = dot cj x (H *m x) /\
    0 <= r /\ inj r ^+ 2 = dot cj (H *m x - inj v *: x) (H *m x - inj v *: x) /\
    exists l, eigenvalue H (inj l) /\ `|l - v| <= r.
Proof. exact: (mpi_values_from Hperm EF EM EQ ER HH (mpi_J0 fo bl cf l0 H V1 HV) HC HM HA OR IC EV). Qed.

Lemma mpi_count o s : solve fo mpiK fsort sort_idx cf mpiS ritzv resid = Ok o -> o_exit o = Some s ->
  exists d : 'I_N -> R, char_poly H = \prod_j ('X - (inj (d j))%:P) /\
  forall a b dl, 0 <= dl -> \sum_(r <- List.firstn (c_nev cf) (o_res o)) r ^+ 2 <= dl ^+ 2 ->
    (seq.count (fun v => a <= v <= b)%R (List.firstn (c_nev cf) (o_ritz o)) <= #|[set j : 'I_N | (a - dl <= d j <= b + dl)%R]|)%N.
Proof. exact: (mpi_count_from Hperm EF EM EQ ER HH (mpi_J0 fo bl cf l0 H V1 HV) HC HM HA OR IC EV). Qed.

Lemma mpi_kyfan o s : solve fo mpiK fsort sort_idx cf mpiS ritzv resid = Ok o -> o_exit o = Some s ->
  exists ls : seq R, sorted <=%R ls /\ char_poly H = \prod_(l <- ls) ('X - (inj l)%:P) /\
  forall I : seq nat, uniq I -> all (fun i => i < c_nev cf)%N I ->
    \sum_(i < size I) ls`_i <= \sum_(i <- I) (o_ritz o)`_i <= \sum_(i < size I) ls`_(N - i.+1).
Proof. exact: (mpi_kyfan_from Hperm EF EM EQ ER HH (mpi_J0 fo bl cf l0 H V1 HV) HC HM HA OR IC EV). Qed.
End Plain.
