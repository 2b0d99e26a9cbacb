(** The specialisations that do not do what the rest of the table does, and the lengths of workspaces in single precision. *)
From Coq Require Import List ZArith String Ascii Bool Lia.
Require Import Verif.Base Verif.ConfigModel Verif.BlasDoc Verif.WrapModel Verif.WrapTable Verif.WrapSpec Verif.WrapProofs Verif.WrapPerf.
Import ListNotations.
Local Open Scope string_scope.
Local Open Scope Z_scope.

Lemma performs_all cf lb w a :
  In w wrappers -> args_ok w a -> reports_enough lb (routine_for (w_name w) (w_type w)) (w_type w) -> ~ exception cf w a ->
  performs cf lb w a.
Proof. intros. now apply done_wrappers. Qed.
Lemma tidy_all cf lb w a :
  In w wrappers -> args_ok w a -> reports_enough lb (routine_for (w_name w) (w_type w)) (w_type w) -> ~ exception cf w a ->
  tidy w a (run cf lb w a).
Proof. intros. now apply done_wrappers. Qed.

(** runs that end in undefined behaviour *)
Definition undef (o : outcome) : Prop := o = Undef.
Lemma exec_undef cf lb rt a c r s : exec cf lb rt a c s = Undef -> undef (exec_all cf lb rt a (c :: r) s).
Proof. intros E. unfold undef. cbn [exec_all]. now rewrite E. Qed.
Lemma call_room_undef lb r l s d b i ls :
  doc_of r = Some d -> bind_formals (d_sig d) l = Some b -> inputs s b = Some i -> lengths s 1 b = Some ls -> ls = [] ->
  room_all s i ls b = false -> call lb r l s = None.
Proof. intros E1 E2 E3 E4 -> E6. unfold call. rewrite E1, E2, E3, E4. cbn. now rewrite E6. Qed.

(** real xGESVD: the status goes into the first entry of rwork *)
Lemma svd_len1 a (m n : string) :
  1 <= num a m < 2 ^ 31 -> 1 <= num a n < 2 ^ 31 -> (1 <=? (5 * Z.min (num a m) (num a n)) mod 2 ^ 64) = true.
Proof. intros. rewrite svd_len by lia. apply Z.leb_le. lia. Qed.
Lemma svd_len0 a (m n : string) :
  num a m = 0 \/ num a n = 0 -> 0 <= num a m -> 0 <= num a n -> (1 <=? (5 * Z.min (num a m) (num a n)) mod 2 ^ 64) = false.
Proof. intros K ? ?. replace (Z.min _ _) with 0 by lia. reflexivity. Qed.
Lemma exec_assert_nd cf lb rt a x r s (P : outcome -> Prop) :
  ndebug cf = true -> P (exec_all cf lb rt a r s) -> P (exec_all cf lb rt a (AssertZ x :: r) s).
Proof. intros E. cbn [exec_all exec]. now rewrite E. Qed.
Lemma exec_assert_vu cf lb rt a x r s t :
  ndebug cf = false -> lookup s x = Some (t, VU) -> undef (exec_all cf lb rt a (AssertZ x :: r) s).
Proof. intros E1 E2. unfold undef. cbn [exec_all exec]. now rewrite E1, E2. Qed.
Lemma exec_call_undef cf lb rt a lo up l r s bs :
  routine cf lo up = lo -> mapo (actual s) l = Some bs -> call lb lo bs s = None -> undef (exec_all cf lb rt a (Call lo up l :: r) s).
Proof. intros E1 E2 E3. apply exec_undef. cbn [exec]. now rewrite E2, E1, E3. Qed.

Ltac by_svd E := ev; rewrite ?E; reflexivity.
Ltac step_svd H RE E :=
  lazymatch goal with
  | |- _ (exec_all _ _ _ _ (Call _ _ _ :: _) _) =>
      eapply exec_call; [by_routine|by_ev|
        first [ eapply call_query; [vm_compute; reflexivity|by_ev|by_ev|by_ev|reflexivity|by_ev|by_svd E]
              | eapply call_compute; [vm_compute; reflexivity|by_ev|by_ev|by_ev
                 |repeat (apply Forall_cons; [cbn [fst snd]; by_rep RE|]); apply Forall_nil|by_room H|by_svd E] ]|]
  | |- _ (exec_all _ _ _ _ (AssertZ _ :: _) _) => apply exec_assert_nd; [assumption|]
  | _ => step1 H RE
  end.
Ltac svd_ndebug H RE E :=
  eapply done_all_intro; [vm_compute; reflexivity|reflexivity| |];
  [ eapply both_eq; [vm_compute; reflexivity|]; start; repeat step_svd H RE E;
    cbn [exec_all]; split; [cbn [outcome_ok done]; repeat split; auto|by_tidy H]
  | let f := fresh "f" in let K := fresh "K" in
    intros f K; cbn in K;
    repeat match type of K with _ \/ _ => destruct K as [K|K] end;
    lazymatch type of K with
    | False => destruct K
    | A _ = A _ => injection K as <-; eexists; apply and_swap; [reflexivity|by_expected H]
    | _ => discriminate K
    end ].

(** without assertions and for at least one row and column, the real specialisations do compute, and leave rwork behind *)
Lemma gesvd_real_ndebug cf lb w a :
  w = t_gesvd_s \/ w = t_gesvd_d -> ndebug cf = true -> args_ok w a -> 1 <= num a "m" -> 1 <= num a "n" ->
  reports_enough lb (routine_for (w_name w) (w_type w)) (w_type w) -> done_all cf lb w a.
Proof.
  intros W ND H M N RE.
  assert (E : (1 <=? (5 * Z.min (num a "m") (num a "n")) mod 2 ^ 64) = true).
  { apply svd_len1.
    - destruct W as [-> | ->]; pose proof (H "m" KSize ltac:(cbn; tauto)) as K; cbv beta iota in K; lia.
    - destruct W as [-> | ->]; pose proof (H "n" KSize ltac:(cbn; tauto)) as K; cbv beta iota in K; lia. }
  destruct W as [-> | ->].
  - change (reports_enough lb "sgesvd" SFloat) in RE. svd_ndebug H RE E.
  - change (reports_enough lb "dgesvd" SDouble) in RE. svd_ndebug H RE E.
Qed.

(** with assertions, an indeterminate variable is read on every call; without rows or columns, the status overwrites nothing that is
    there *)
Lemma call_query_undef lb r l s d b i ls s1 :
  doc_of r = Some d -> bind_formals (d_sig d) l = Some b -> inputs s b = Some i -> lengths s 1 b = Some ls ->
  existsb (fun e => snd (fst e) =? -1) ls = true ->
  answer_query lb r (d_type d) i b s = Some s1 -> set_info 0 b s1 = None ->
  call lb r l s = None.
Proof. intros E1 E2 E3 E4 E5 E6 E7. unfold call. now rewrite E1, E2, E3, E4, E5, E6, E7. Qed.
Lemma gesvd_real_undef cf lb w a :
  w = t_gesvd_s \/ w = t_gesvd_d -> args_ok w a -> ndebug cf = false \/ num a "m" = 0 \/ num a "n" = 0 ->
  undef (run cf lb w a).
Proof.
  intros W H C.
  assert (M : 0 <= num a "m" < 2 ^ 31) by (destruct W as [-> | ->]; exact (H "m" KSize ltac:(cbn; tauto))).
  assert (N : 0 <= num a "n" < 2 ^ 31) by (destruct W as [-> | ->]; exact (H "n" KSize ltac:(cbn; tauto))).
  destruct (1 <=? (5 * Z.min (num a "m") (num a "n")) mod 2 ^ 64) eqn:E.
  - assert (ND : ndebug cf = false).
    { destruct C as [?|C]; auto. rewrite svd_len0 in E by lia. discriminate. }
    destruct W as [-> | ->]; start; do 11 step1 H H.
    + eapply exec_call; [by_routine|by_ev|eapply call_query; [vm_compute; reflexivity|by_ev|by_ev|by_ev|reflexivity|by_ev|by_svd E]|].
      eapply exec_assert_vu; [assumption|by_ev].
    + eapply exec_call; [by_routine|by_ev|eapply call_query; [vm_compute; reflexivity|by_ev|by_ev|by_ev|reflexivity|by_ev|by_svd E]|].
      eapply exec_assert_vu; [assumption|by_ev].
  - destruct W as [-> | ->]; start; do 11 step1 H H.
    + eapply exec_call_undef; [by_routine|by_ev|
        eapply call_query_undef; [vm_compute; reflexivity|by_ev|by_ev|by_ev|reflexivity|by_ev|by_svd E]].
    + eapply exec_call_undef; [by_routine|by_ev|
        eapply call_query_undef; [vm_compute; reflexivity|by_ev|by_ev|by_ev|reflexivity|by_ev|by_svd E]].
Qed.

(** double xLANGE returns the bits of a double read as a float *)
Definition garbage (o : outcome) : Prop := match o with Stop v _ => v = RGarbage | _ => False end.
Lemma exec_retcall_garbage cf lb rt a lo up l r s bs s' i d (P : outcome -> Prop) :
  routine cf lo up = lo -> mapo (actual s) l = Some bs -> call lb lo bs s = Some (s', i) -> doc_of lo = Some d ->
  fret_eqb (proto_ret lo) (d_ret d) = false ->
  P (Stop RGarbage s') -> P (exec_all cf lb rt a (RetCall lo up l :: r) s).
Proof.
  intros E1 E2 E3 E4 E5 K. apply (exec_stop cf lb rt a _ r s RGarbage s'); auto. cbn [exec].
  now rewrite E2, E1, E3, E4, E5.
Qed.
Lemma lange_double cf lb a :
  args_ok t_lange_d a -> num a "norm" <> 73 -> num a "norm" <> 105 -> garbage (run cf lb t_lange_d a).
Proof.
  intros H ? ?. start. do 3 step1 H H.
  eapply exec_retcall_garbage; [by_routine|by_ev|
    eapply call_compute; [vm_compute; reflexivity|by_ev|by_ev|by_ev|apply Forall_nil|by_room H|by_ev]
    |vm_compute; reflexivity|reflexivity|].
  reflexivity.
Qed.
Lemma exec_retcall_undef cf lb rt a lo up l r s bs :
  routine cf lo up = lo -> mapo (actual s) l = Some bs -> call lb lo bs s = None ->
  undef (exec_all cf lb rt a (RetCall lo up l :: r) s).
Proof. intros E1 E2 E3. apply exec_undef. cbn [exec]. now rewrite E2, E1, E3. Qed.
Lemma lange_inf cf lb w a :
  In w [t_lange_s; t_lange_d; t_lange_c; t_lange_z] -> args_ok w a -> num a "norm" = 73 \/ num a "norm" = 105 ->
  undef (run cf lb w a).
Proof.
  intros W H C.
  assert (K : ((num a "norm" =? 73) || (num a "norm" =? 105))%bool = true) by (destruct C as [-> | ->]; reflexivity).
  repeat (destruct W as [<-|W];
    [start; do 3 step1 H H;
     eapply exec_retcall_undef; [by_routine|by_ev|
       eapply call_room_undef; [vm_compute; reflexivity|by_ev|by_ev|by_ev|reflexivity|
         cbn -[Z.eqb]; change (int_of _ "norm") with (num a "norm"); rewrite K; reflexivity]]|]).
  destruct W.
Qed.

(** double xSTEMR where Fortran names are in upper case: the query goes to the single precision routine *)
Lemma exec_call_as cf lb rt a lo up l r s bs s' i ro (P : outcome -> Prop) :
  routine cf lo up = ro -> mapo (actual s) l = Some bs -> call lb ro bs s = Some (s', i) ->
  P (exec_all cf lb rt a r s') -> P (exec_all cf lb rt a (Call lo up l :: r) s).
Proof. intros <- E2 E3 H. apply (exec_next cf lb rt a _ r s s'); auto. cbn [exec]. now rewrite E2, E3. Qed.
Lemma stemr_double_upper cf lb a : upper cf = true -> args_ok t_stemr_d a -> undef (run cf lb t_stemr_d a).
Proof.
  intros U H. start. do 14 step1 H H.
  eapply (exec_call_as _ _ _ _ _ _ _ _ _ _ _ _ "sstemr"); [unfold routine; rewrite U; vm_compute; reflexivity|by_ev|
    eapply call_query; [vm_compute; reflexivity|by_ev|by_ev|by_ev|reflexivity|by_ev|by_ev]|].
  apply exec_undef. by_ev.
Qed.

(** single precision xORGQR: the number of reflectors used is n *)
Definition saw (r f : string) (z : Z) (o : outcome) : Prop :=
  match o with
  | Stop _ s | Abort s => exists i, done s = [(r, i)] /\ assoc f i = Some (OInt z)
  | _ => False
  end.
Lemma pgqr_single cf lb a :
  args_ok t_pgqr_s a -> reports_enough lb "psorgqr" SFloat -> saw "psorgqr" "k" (num a "n") (run cf lb t_pgqr_s a).
Proof.
  intros H RE. start. repeat step1 H RE.
  all: cbn [exec_all]; cbn [saw done]; eexists; split; reflexivity.
Qed.

(** sizes of 2^32 and more *)
Lemma scal_large cf lb a :
  0 <= num a "n" < 2 ^ 64 -> 0 <= num a "incx" < 2 ^ 31 -> saw "dscal" "n" (narrow (num a "n")) (run cf lb t_scal_d a).
Proof.
  intros N I. start.
  eapply exec_next; [reflexivity|].
  eapply exec_next; [reflexivity|].
  eapply exec_call; [by_routine|by_ev|eapply call_compute; [vm_compute; reflexivity|by_ev|by_ev|by_ev|apply Forall_nil|by_ev|by_ev]|].
  cbn [exec_all saw done]. eexists; split; reflexivity.
Qed.
