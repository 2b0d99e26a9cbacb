(** What a solver does to the memory of its caller, and what it leaves behind. *)
From Coq Require Import List Arith Bool.
Require Import Verif.Base Verif.MemModel Verif.AlgTrace.
Import ListNotations.

(** elements in buffers that exist now and did not before ([n0] buffers existed) *)
Definition left_over (n0 : nat) (h : heap) : nat := list_sum (map bk_len (filter bk_live (skipn n0 (hp_blk h)))).

(** buffer [p] exists *)
Definition valid (h : heap) (p : nat) : Prop := exists x, nth_error (hp_blk h) p = Some x /\ bk_live x = true.

(** elements that stay behind for every call *)
Definition leak (k : backend) (g : dims) (c : mcall) : nat :=
  match c, k with
  | MLanczos nv _, (KSeq | KInpl | KCuda) => 3 * (g_N g * nv)
  | MLanczos nv _, KMpi => 3 * (g_m g * nv) + g_n g * nv
  | MLanczos nv _, KMgpu _ => 2 * (3 * (g_m g * nv) + g_n g * nv)
  | MSwap, KInpl => g_N g
  | MDiagSum, KCuda => 1
  | _, _ => 0
  end.
(** and for the object itself *)
Definition leak0 (k : backend) (g : dims) : nat := match k with KMgpu _ => g_m g + g_n g | _ => 0 end.

(** sizes of the coefficient matrices handed to LanczosDos, in order *)
Definition dos_sizes (l : list mcall) : list nat := flat_map (fun c => match c with MDos i m => [m * i] | _ => [] end) l.
(** none is larger than the first *)
Definition dos_fit (k : backend) (l : list mcall) : Prop :=
  match k with KMgpu true => forall s, In s (dos_sizes l) -> s <= hd 0 (dos_sizes l) | _ => True end.

(** what a call of the solver's interface can amount to: QR may or may not compute the diagonal sum (shifted CholeskyQR2) and
    may or may not end in hhQR, whatever the factorisations return *)
Definition mem_calls {F} (c : call F) (l : list mcall) : Prop :=
  match c with
  | CLanczos1 m => l = [MLanczos 1 m]
  | CLanczos2 m nv => l = [MLanczos nv m]
  | CDos i m => l = [MDos i m]
  | CSwap _ _ => l = [MSwap]
  | CQr _ _ => In l [[]; [MHhqr]; [MDiagSum]; [MDiagSum; MHhqr]]
  | _ => l = []
  end.
Inductive expands {F} : list (call F) -> list mcall -> Prop :=
| ex_nil : expands [] []
| ex_cons c l log ms : mem_calls c l -> expands log ms -> expands (c :: log) (l ++ ms).

(** block list with block [p] given back *)
Definition freed (p : nat) (l : list block) : list block :=
  match nth_error l p with Some x => upd l p (mk_blk (bk_kind x) (bk_len x) false) | None => l end.
Definition swaps {F} (log : list (call F)) : nat := length (filter (fun c => match c with CSwap _ _ => true | _ => false end) log).
Definition diag_sums (ms : list mcall) : nat := length (filter (fun c => match c with MDiagSum => true | _ => false end) ms).
