(** An observation of the backend state that every call updates by a fixed rule can be computed from the call log. *)
From Coq Require Import List Arith ZArith Bool Lia Permutation.
Require Import Verif.Base Verif.AlgModel Verif.AlgSpec Verif.AlgProofs2 Verif.AlgSim Verif.AlgTrace Verif.AlgTraceProofs.
Import ListNotations.

(** [step] describes what each call does to the observation [obs] *)
Record kernel_obs {F St X} (K : kernel F St) (obs : St -> X) (step : X -> call F -> X) : Prop := {
  ko_sym : forall s b s', k_sym K s = Ok (b, s') -> obs s' = step (obs s) CSym;
  ko_start : forall s s', k_start K s = Ok s' -> obs s' = step (obs s) CStart;
  ko_end : forall s s', k_end K s = Ok s' -> obs s' = step (obs s) CEnd;
  ko_init : forall r s s', k_init K r s = Ok s' -> obs s' = step (obs s) (CInit r);
  ko_shift : forall c u s s', k_shift K c u s = Ok s' -> obs s' = step (obs s) (CShift c u);
  ko_hemm : forall n a b o s s', k_hemm K n a b o s = Ok s' -> obs s' = step (obs s) (CHemm n a b o);
  ko_qr : forall l c s s', k_qr K l c s = Ok s' -> obs s' = step (obs s) (CQr l c);
  ko_rr : forall n s v s', k_rr K n s = Ok (v, s') -> obs s' = step (obs s) (CRr n);
  ko_resd : forall v l s r s', k_resd K v l s = Ok (r, s') -> obs s' = step (obs s) (CResd l);
  ko_swap : forall i j s s', k_swap K i j s = Ok s' -> obs s' = step (obs s) (CSwap i j);
  ko_lock : forall n s s', k_lock K n s = Ok s' -> obs s' = step (obs s) (CLock n);
  ko_lanczos1 : forall m s x s', k_lanczos1 K m s = Ok (x, s') -> obs s' = step (obs s) (CLanczos1 m);
  ko_lanczos2 : forall m nv s x s', k_lanczos2 K m nv s = Ok (x, s') -> obs s' = step (obs s) (CLanczos2 m nv);
  ko_dos : forall i m rv s s', k_dos K i m rv s = Ok s' -> obs s' = step (obs s) (CDos i m)
}.

Section Obs.
Context {F St X : Type} (fo : fops F) (K : kernel F St) (obs : St -> X) (step : X -> call F -> X) (x0 : X).
Context (KO : kernel_obs K obs step).
Definition obsR (s t : list (call F) * St) : Prop := s = t /\ obs (snd s) = fold_left step (fst s) x0.

Lemma obs_rel : kernel_rel (logK K) (logK K) obsR.
Proof.
  assert (A : forall c s t (x : res St), obsR s t -> (forall y, x = Ok y -> obs y = step (obs (snd s)) c) ->
     rel_res obsR (logged c (fst s) x) (logged c (fst t) x)).
  { intros c s t [y| |] (-> & E) Hx; cbn; auto. split; auto. cbn. rewrite fold_left_app. cbn. rewrite <- E. auto. }
  assert (B : forall Y c s t (x : res (Y * St)), obsR s t -> (forall v y, x = Ok (v, y) -> obs y = step (obs (snd s)) c) ->
     rel_res (vrel obsR) (logged_v c (fst s) x) (logged_v c (fst t) x)).
  { intros Y c s t [[v y]| |] (-> & E) Hx; cbn; auto. split; auto. split; auto. cbn. rewrite fold_left_app. cbn. rewrite <- E. eauto. }
  split; intros; match goal with H : obsR _ _ |- _ => pose proof H as [-> _] end;
    (apply A || apply B); auto; intros; destruct KO; eauto.
Qed.

Lemma solve_obs fsort sort_idx cf k ritzv resid o :
  obs k = x0 -> solve fo (logK K) fsort sort_idx cf ([], k) ritzv resid = Ok o -> obs (snd (o_k o)) = fold_left step (fst (o_k o)) x0.
Proof.
  intros Hx H. pose proof (solve_rel fo (logK K) (logK K) obsR obs_rel fsort sort_idx cf ([], k) ([], k) ritzv resid) as HR.
  destruct (rel_ok_r _ _ _ _ (HR (conj eq_refl Hx)) H) as (o' & Ho & E & _). apply E.
Qed.
End Obs.

(** the same for a run of the unlogged kernel, with the call grammar of the solver *)
Lemma solve_trace {F St} (fo : fops F) (K : kernel F St) sort_idx
  (Hperm : forall keys, Permutation (sort_idx keys) (seq 0 (length keys))) fsort cf k ritzv resid o s :
  conf_ok cf -> solve fo K fsort sort_idx cf k ritzv resid = Ok o -> o_exit o = Some s ->
  exists o' ub rs sw idx sw', solve fo (logK K) fsort sort_idx cf ([], k) ritzv resid = Ok o' /\ snd (o_k o') = o_k o /\
    iters (c_nev cf) (c_nex cf) 0 rs (ss_locked s) /\ length rs = ss_iter s /\ in_range (c_nev cf) sw' /\
    fst (o_k o') = (if c_symcheck cf then [CSym] else []) ++ start_calls fo cf sw idx ++
                   flat_map (iter_calls fo ub) rs ++ swap_calls 0 sw' ++ [CEnd].
Proof.
  intros HC H Ho. pose proof (solve_rel fo (logK K) K _ (log_rel K) fsort sort_idx cf ([], k) k ritzv resid eq_refl) as HR.
  destruct (rel_ok_l _ _ _ _ HR H) as (o' & Ho' & E1 & E2 & E3 & E4). rewrite Ho in E4.
  destruct (o_exit o') as [s'|] eqn:Hs'; [|easy]. destruct E4 as (_ & _ & _ & _ & _ & L1 & L2 & L3 & _).
  destruct (solve_log fo K sort_idx Hperm fsort cf ([], k) ritzv resid o' s' HC Ho' Hs') as (ub & rs & sw & idx & sw' & A & B & C & D).
  rewrite L1 in A. rewrite L3 in B. exists o', ub, rs, sw, idx, sw'. cbn [fst app] in D. repeat split; auto.
Qed.

Lemma solve_obs_trace {F St X} (fo : fops F) (K : kernel F St) (obs : St -> X) (step : X -> call F -> X) sort_idx
  (Hperm : forall keys, Permutation (sort_idx keys) (seq 0 (length keys))) fsort cf k ritzv resid o s :
  kernel_obs K obs step -> conf_ok cf -> solve fo K fsort sort_idx cf k ritzv resid = Ok o -> o_exit o = Some s ->
  exists ub rs sw idx sw', iters (c_nev cf) (c_nex cf) 0 rs (ss_locked s) /\ length rs = ss_iter s /\ in_range (c_nev cf) sw' /\
    obs (o_k o) = fold_left step ((if c_symcheck cf then [CSym] else []) ++ start_calls fo cf sw idx ++
                   flat_map (iter_calls fo ub) rs ++ swap_calls 0 sw' ++ [CEnd]) (obs k).
Proof.
  intros KO HC H Ho. destruct (solve_trace fo K sort_idx Hperm fsort cf k ritzv resid o s HC H Ho) as (o' & ub & rs & sw & idx & sw' & A & B & C & D & E & G).
  exists ub, rs, sw, idx, sw'. split; auto. split; auto. split; auto. rewrite <- B, <- G.
  eapply (solve_obs fo K obs step); eauto.
Qed.
