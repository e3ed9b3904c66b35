(** * ShareSpec: what a run may report while others change the files *)
From Coq Require Import Ascii String List NArith Arith Bool.
From Verif Require Import Base Spec LayoutSpec MessageSpec WasmModel WasmSpec ApiModel DfaModel ValidateModel TableSpec TableModel Messages CliModel
  FileModel ShareModel CliSpec FileSpec.
Import ListNotations.
Close Scope string_scope.
Open Scope list_scope.

(** The machine as the read with number [k] finds it *)
Definition sight (env : cli_env) (seen : sights) (k : nat) : cli_env :=
  mk_cli_env (seen k) (ce_nom_display env) (ce_nom_debug env) (ce_seg env) (ce_dbg env) (ce_log env) (ce_millis env).

(** The paths a command may read, in this order; the last reads do not take place if the run fails before *)
Definition to_read (op : operation) : list str := inputs op ++ others op.

(** What every read finds is what is in [files]. *)
Definition snapshot (seen : sights) (op : operation) (files : str -> result str str) : Prop :=
  forall k p, nth_error (to_read op) k = Some p -> seen k p = files p.
(** The machine with these files *)
Definition holding (env : cli_env) (files : str -> result str str) : cli_env :=
  mk_cli_env files (ce_nom_display env) (ce_nom_debug env) (ce_seg env) (ce_dbg env) (ce_log env) (ce_millis env).

(** ** Every run *)

(** Every file is judged as it is when it is read: the first as read number [k] finds it, the next as read number [k + 1], ... *)
Inductive verdicts (env : cli_env) (seen : sights) (args : equivalence_args) (a0 : automata)
  : nat -> list str -> list equivalence_result -> Prop :=
| vs_end k : verdicts env seen args a0 k [] []
| vs_file k f fs v vs : verdict (sight env seen k) args a0 f v -> verdicts env seen args a0 (S k) fs vs ->
    verdicts env seen args a0 k (f :: fs) (v :: vs).

Inductive reports (env : cli_env) (seen : sights) (a : automata) (t : test_type) : nat -> list str -> list str -> result unit str -> Prop :=
| rs_end k : reports env seen a t k [] [] (Ok tt)
| rs_unreadable k f fs e : seen k f = Err e -> reports env seen a t k (f :: fs) [] (Err e)
| rs_file k f fs u lines out1 out2 r :
    seen k f = Ok u -> text_lines u lines -> file_report (ce_seg env) a t f lines out1 ->
    reports env seen a t (S k) fs out2 r -> reports env seen a t k (f :: fs) (out1 ++ out2) r.

(** As [op_outcome], with a machine for every read *)
Definition shared_outcome (env : cli_env) (seen : sights) (op : operation) (out lg : list str) (r : result unit str) : Prop :=
  match op with
  | OpEquivalence args =>
      let ty := match ea_in_type args with Some t => t | None => ea_type args end in
      (exists e, seen 0 (ea_automata args) = Err e /\ out = [] /\ r = Err (of_string "Error reading input file: " ++ e)) \/
      (exists u m, seen 0 (ea_automata args) = Ok u /\ input_error env ty u m /\ out = [] /\ r = Err m) \/
      (exists a0, loads (sight env seen 0) (ea_automata args) ty a0 /\ ea_minimized args = true /\ ea_type args <> TDfa /\
         out = [] /\ r = Err (of_string "--minimized option can only be used when testing DFAs")) \/
      (exists a0 vs k, loads (sight env seen 0) (ea_automata args) ty a0 /\ (ea_minimized args = true -> ea_type args = TDfa) /\
         verdicts env seen args a0 1 (ea_files args) vs /\ passes vs k /\
         out = map (fun '(f, v) => verdict_line args f v) (combine (ea_files args) vs) /\ r = Ok tt /\
         (ce_log env = true ->
            exists l, lg = l ++ [decimal k ++ of_string "/" ++ decimal (length (ea_files args)) ++ of_string " files passed"]))
  | OpBinary o args =>
      let ty2 := match ba_second_type args with Some t => t | None => ba_type args end in
      (exists m, load_error (sight env seen 0) (ba_first args) (ba_type args) m /\ out = [] /\ r = Err (of_string "Error reading 1: " ++ m)) \/
      (exists a1 m, loads (sight env seen 0) (ba_first args) (ba_type args) a1 /\ load_error (sight env seen 1) (ba_second args) ty2 m /\
         out = [] /\ r = Err (of_string "Error reading 2: " ++ m)) \/
      (exists a1 a2, loads (sight env seen 0) (ba_first args) (ba_type args) a1 /\ loads (sight env seen 1) (ba_second args) ty2 a2 /\
         ~ same_set (a_alphabet a1) (a_alphabet a2) /\
         out = [] /\ r = Err (of_string "Different alphabets in input DFAs, can't do product construction")) \/
      (exists a1 a2 d table ls1 ls2,
         loads (sight env seen 0) (ba_first args) (ba_type args) a1 /\ loads (sight env seen 1) (ba_second args) ty2 a2 /\
         same_set (a_alphabet a1) (a_alphabet a2) /\
         dfa_valid d /\ dfa_alphabet d = a_alphabet a1 /\
         (forall w, dfa_lang d w <-> set_op_spec o (a_lang a1 w) (a_lang a2 w)) /\
         (ba_minimized args = true -> minimal d) /\
         dfa_to_table d = Ret table /\ (a_alphabet a1 <> [] -> Forall legal_token (a_alphabet a1) -> loads_dfa table d) /\
         out = [table] ++ ls1 ++ ls2 /\ enumeration o d (ba_enumerate args) ls1 /\ comparison (sight env seen 2) args o d ls2 r)
  | OpTestFile ty t automata files =>
      (exists e, load_error (sight env seen 0) automata ty e /\ out = [] /\ r = Err e) \/
      (exists a, loads (sight env seen 0) automata ty a /\ reports env seen a t 1 files out r)
  | _ => op_outcome (sight env seen 0) op out lg r
  end.
