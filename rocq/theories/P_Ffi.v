(** Properties C71-C73: calls from Fortran and C, characters passed as strings, length of the array of values. *)
From Coq Require Import List ZArith NArith QArith Bool String.
Require Import Verif.Base Verif.AlgModel Verif.AlgEx Verif.AlgWit Verif.ConfigModel Verif.GridModel Verif.FfiModel Verif.FfiSpec Verif.FfiProofs Verif.FfiRoom.
Import ListNotations.
Local Open Scope string_scope.
Local Open Scope list_scope.
Local Open Scope Z_scope.

(** C71: what a Fortran caller names n, nev, ... is what the solver is built with; the flag is set, nothing else is touched. *)
Theorem C71_serial_arguments_arrive : forall fuel t adr m n nev nex ldh,
  size_at m (adr "n") n -> size_at m (adr "nev") nev -> size_at m (adr "nex") nex -> size_at m (adr "ldh") ldh -> room 4 m (adr "init") ->
  exists m', flagged 1 (adr "init") m m' /\
  f_call fuel t RInit adr m = Ok (New_seq (Z.to_N n) (Z.to_N nev) (Z.to_N nex) (adr "h") (Z.to_N ldh) (adr "v") (adr "ritzv"), m').
Proof. exact seq_init. Qed.
Print Assumptions C71_serial_arguments_arrive.

Theorem C71_block_arguments_arrive : forall fuel t adr m n nev nex ml nl ldh d0 d1 comm cm,
  size_at m (adr "nn") n -> size_at m (adr "nev") nev -> size_at m (adr "nex") nex ->
  size_at m (adr "m") ml -> size_at m (adr "n") nl -> size_at m (adr "ldh") ldh ->
  int_at m (adr "dim0") d0 -> int_at m (adr "dim1") d1 -> int_at m (adr "fcomm") comm ->
  is_col_major m (adr "grid_major") = Ok cm -> room 4 m (adr "init") ->
  exists m', flagged 1 (adr "init") m m' /\
  f_call fuel t PInit adr m = Ok (New_block (Z.to_N n) (Z.to_N nev) (Z.to_N nex) (Z.to_N ml) (Z.to_N nl) d0 d1 cm comm (adr "h") (Z.to_N ldh) (adr "v") (adr "ritzv"), m').
Proof. exact block_init. Qed.
Print Assumptions C71_block_arguments_arrive.

Theorem C71_block_cyclic_arguments_arrive : forall fuel t adr m n nev nex mb nb ldh d0 d1 rs cs comm cm,
  size_at m (adr "nn") n -> size_at m (adr "nev") nev -> size_at m (adr "nex") nex ->
  size_at m (adr "mbsize") mb -> size_at m (adr "nbsize") nb -> size_at m (adr "ldh") ldh ->
  int_at m (adr "dim0") d0 -> int_at m (adr "dim1") d1 -> int_at m (adr "irsrc") rs -> int_at m (adr "icsrc") cs -> int_at m (adr "fcomm") comm ->
  is_col_major m (adr "grid_major") = Ok cm -> room 4 m (adr "init") ->
  exists m', flagged 1 (adr "init") m m' /\
  f_call fuel t PInitBC adr m = Ok (New_cyclic (Z.to_N n) (Z.to_N mb) (Z.to_N nb) (Z.to_N nev) (Z.to_N nex) d0 d1 cm rs cs comm (adr "h") (Z.to_N ldh) (adr "v") (adr "ritzv"), m').
Proof. exact cyclic_init. Qed.
Print Assumptions C71_block_cyclic_arguments_arrive.

Theorem C71_solve_arguments_arrive : forall fuel t r adr m deg tol mode opt qr, r = RSolve \/ r = PSolve ->
  int_at m (adr "deg") deg -> word_at (esize (base_of t)) m (adr "tol") tol -> char_at m (adr "mode") mode -> char_at m (adr "opt") opt -> char_at m (adr "qr") qr ->
  exists o a c, f_call fuel t r adr m = Ok (Do_solve deg tol o a c, m) /\ (o = true <-> opt = byte_S) /\ (a = true <-> mode = byte_A) /\ (c = true <-> qr = byte_C).
Proof. exact solve_args. Qed.
Print Assumptions C71_solve_arguments_arrive.

Theorem C71_finalize : forall fuel t r adr m, r = RFinal \/ r = PFinal -> room 4 m (adr "flag") ->
  exists m', flagged 0 (adr "flag") m m' /\ f_call fuel t r adr m = Ok (Do_delete, m').
Proof. exact final_args. Qed.
Print Assumptions C71_finalize.

(** The declared types are the types the library uses, except in six interfaces. *)
Theorem C71_declarations_agree_iff : forall t r, map snd (f_decl t r) = c_proto t r <->
  ~ (t = SCFloat /\ (r = PInit \/ r = PInitBC)) /\ ~ ((t = SCFloat \/ t = SCDouble) /\ (r = PWrite \/ r = PRead)).
Proof. exact decls_iff. Qed.
Print Assumptions C71_declarations_agree_iff.

(** The eigenvalues read through the declared array are those the library stored, except with the distributed single
    complex solver. *)
Theorem C71_eigenvalues_read_back_iff : forall t r e, r = RInit \/ r = PInit \/ r = PInitBC -> declared t r "ritzv" = Some e ->
  ((forall m a ws m', (forall w, In w ws -> 0 <= w < 256 ^ Z.of_nat (esize (base_of t))) -> lib_stores t m a ws = Ok m' ->
     forall i w, nth_error ws i = Some w -> f_reads e m' a i = Ok w) <-> ~ (t = SCFloat /\ r <> RInit)).
Proof. exact read_back_iff. Qed.
Print Assumptions C71_eigenvalues_read_back_iff.

(** There two consecutive eigenvalues are read as one number. *)
Theorem C71_single_complex_eigenvalues_refuted : forall m a ws m', lib_stores SCFloat m a ws = Ok m' -> (forall w, In w ws -> 0 <= w < 2 ^ 32) ->
  forall i w1 w2, nth_error ws (2 * i) = Some w1 -> nth_error ws (2 * i + 1) = Some w2 -> f_reads R8 m' a i = Ok (w1 + 2 ^ 32 * w2).
Proof. exact reads_pairs. Qed.
Print Assumptions C71_single_complex_eigenvalues_refuted.

(** eigenvalues 1 and 2 are stored, the first one read is a little more than 2 *)
Example C71_example_eigenvalues : declared SCFloat PInit "ritzv" = Some R8 /\
  (float_of bits_1f == 1)%Q /\ (float_of bits_2f == 2)%Q /\
  exists m' w, lib_stores SCFloat tmem 0 [bits_1f; bits_2f] = Ok m' /\ f_reads R8 m' 0 0 = Ok w /\ (2 < double_of w)%Q.
Proof.
  split; [reflexivity|]. split; [reflexivity|]. split; [reflexivity|]. eexists _, _. split; [reflexivity|]. split; [vm_compute; reflexivity|]. vm_compute. reflexivity.
Qed.
(** variables n = 1000, nev = 100, nex = 40, ldh = 1000, init, one after the other *)
Definition ex_adr (s : string) : Z := if (s =? "n")%string then 0 else if (s =? "nev")%string then 4 else if (s =? "nex")%string then 8 else if (s =? "ldh")%string then 12
  else if (s =? "init")%string then 16 else if (s =? "h")%string then 1000 else if (s =? "v")%string then 2000 else 3000.
Definition ex_mem : mem := fun x => nth_error [232; 3; 0; 0; 100; 0; 0; 0; 40; 0; 0; 0; 232; 3; 0; 0; 7; 7; 7; 7] (Z.to_nat x).
Example C71_example : size_at ex_mem (ex_adr "n") 1000 /\ size_at ex_mem (ex_adr "nev") 100 /\ room 4 ex_mem (ex_adr "init") /\
  match f_call 0 SDouble RInit ex_adr ex_mem with Ok (e, m') => e = New_seq 1000 100 40 1000 1000 2000 3000 /\ map m' [15; 16; 17; 18; 19] = [Some 0; Some 1; Some 0; Some 0; Some 0] | _ => False end.
Proof.
  assert (B : forall k, 0 <= k < 4 -> k = 0 \/ k = 1 \/ k = 2 \/ k = 3) by (intros; Lia.lia).
  split; [|split; [|split]].
  - split; [Lia.lia|]. split; [Lia.lia|]. intros k Hk. destruct (B k Hk) as [-> | [-> | [-> | ->]]]; vm_compute; reflexivity.
  - split; [Lia.lia|]. split; [Lia.lia|]. intros k Hk. destruct (B k Hk) as [-> | [-> | [-> | ->]]]; vm_compute; reflexivity.
  - intros k Hk. destruct (B k Hk) as [-> | [-> | [-> | ->]]]; vm_compute; discriminate.
  - vm_compute. split; reflexivity.
Qed.

(** C72: a CHARACTER argument is one byte; the library compares it as a C string, so the byte after it decides. *)
Theorem C72_grid_major_iff : forall m p c, m p = Some c ->
  (is_col_major m p = Ok true <-> c = byte_C /\ m (p + 1) = Some 0) /\
  (is_col_major m p = UB <-> c = byte_C /\ m (p + 1) = None) /\
  (is_col_major m p = Ok false <-> c <> byte_C \/ exists b, m (p + 1) = Some b /\ b <> 0).
Proof. exact col_major_cases. Qed.
Print Assumptions C72_grid_major_iff.

(** R always works; C works when a 0 follows. *)
Theorem C72_grid_as_requested : forall m p c row_dim col_dim r, m p = Some c -> (c = byte_C -> m (p + 1) = Some 0) ->
  coords_from m p row_dim col_dim r = Ok (grid_coord (c =? byte_C) row_dim col_dim r).
Proof. exact coords_ok. Qed.
Print Assumptions C72_grid_as_requested.

(** Otherwise the processes are numbered row by row although C was asked for, *)
Theorem C72_column_major_refuted : ~ (forall m p q r c, m p = Some byte_C -> m (p + 1) <> None -> coords_from m p q q r = Ok c -> c = grid_coord true q q r).
Proof. exact one_C_not_enough. Qed.
Print Assumptions C72_column_major_refuted.

(** or, when the byte differs between processes, two processes take the same place in the grid. *)
Theorem C72_places_distinct_refuted : ~ (forall (mems : nat -> mem) p, (forall r, (r < 4)%nat -> mems r p = Some byte_C /\ mems r (p + 1) <> None) ->
  forall r s c, (r < 4)%nat -> (s < 4)%nat -> coords_from (mems r) p 2 2 r = Ok c -> coords_from (mems s) p 2 2 s = Ok c -> r = s).
Proof. exact ranks_collide. Qed.
Print Assumptions C72_places_distinct_refuted.

(** The matrix file has the name given iff a 0 follows it in memory. *)
Theorem C72_file_name_iff : forall t adr m s, text_at m (adr "filename") s ->
  ((exists fuel, f_call fuel t PWrite adr m = Ok (Do_write s (adr "h"), m)) <-> m (adr "filename" + Z.of_nat (List.length s)) = Some 0) /\
  ((exists fuel, f_call fuel t PRead adr m = Ok (Do_read s (adr "h"), m)) <-> m (adr "filename" + Z.of_nat (List.length s)) = Some 0).
Proof. exact file_name. Qed.
Print Assumptions C72_file_name_iff.

(** "ab" followed by 'C' and 0 *)
Example C72_example : let m := fun x => nth_error [97; 98; 67; 0] (Z.to_nat x) in
  text_at m 0 [97; 98] /\ cstring 9 m 0 = Ok [97; 98; 67] /\ is_col_major m 2 = Ok true /\ coords_from m 2 2 3 1 = Ok (1, 0)%nat /\ coords_from (cmem byte_S) 0 2 3 1 = Ok (0, 1)%nat.
Proof.
  cbv zeta. split; [|repeat split].
  intros [|[|i]] c H; cbn in H; [injection H as <-; split; [discriminate|reflexivity]..|destruct i; discriminate].
Qed.

Local Open Scope nat_scope.
(** C73: the array of Ritz values must have room for nev + nex values. *)
Theorem C73_arrays_hold_extra_values : forall (F St : Type) (fo : fops F) (K : kernel F St) fsort si cf k ritzv resid out st,
  solve fo K fsort si cf k ritzv resid = Ok out -> o_exit out = Some st -> c_nev cf + c_nex cf <= List.length ritzv /\ c_nev cf + c_nex cf <= List.length resid.
Proof. exact (@solve_room). Qed.
Print Assumptions C73_arrays_hold_extra_values.

(** An array of nev values, as the interfaces document, is overrun by every solve that is not rejected by the symmetry test. *)
Theorem C73_documented_length_refuted : forall (F St : Type) (fo : fops F) (K : kernel F St) fsort si cf k ritzv resid,
  List.length ritzv = c_nev cf -> 1 <= c_nex cf -> ~ exists out st, solve fo K fsort si cf k ritzv resid = Ok out /\ o_exit out = Some st.
Proof. exact (@short_values). Qed.
Print Assumptions C73_documented_length_refuted.

Definition ex_conf : conf oz :=
  {| c_N := 100; c_nev := 2; c_nex := 1; c_tol := Some 1%Z; c_deg := 4; c_maxdeg := 8; c_degextra := 2; c_maxiter := 5;
     c_lanczositer := 10; c_numlanczos := 2; c_opt := true; c_approx := true; c_symcheck := true |}.
Definition ex_script : script := mk_script [10; 11; 12] 7 true (Some 1000%Z) ([], []) [zs [1; 2; 500]%Z; zs [1; 2; 500]%Z] [zs [100000; 16; 10]%Z; zs [50000; 8; 10]%Z].
(** two wanted values and one extra: three entries are enough, two are not *)
Example C73_example :
  (exists out st, solve zf sk fsort_ex sort_ex ex_conf ex_script (zs [0; 0; 500]%Z) (zs [0; 0; 0]%Z) = Ok out /\ o_exit out = Some st) /\
  solve zf sk fsort_ex sort_ex ex_conf ex_script (zs [0; 0]%Z) (zs [0; 0; 0]%Z) = UB.
Proof. split; [vm_compute; eexists _, _; split; reflexivity|vm_compute; reflexivity]. Qed.
