(** * CliReproSpec: two runs of dandy-cli with the same arguments and files *)
From Coq Require Import Ascii String List NArith Arith Bool.
From Verif Require Import Base Spec DfaModel TableModel Messages CliModel CliSpec FileModel ArgsModel.
Import ListNotations.
Close Scope string_scope.
Open Scope list_scope.

(** The same surroundings in another run: a build with or without debug assertions, and another time taken (in milliseconds) *)
Definition rebuilt (env : cli_env) (b : bool) (t : nat) : cli_env :=
  mk_cli_env (ce_read env) (ce_nom_display env) (ce_nom_debug env) (ce_seg env) b (ce_log env) t.

(** Runs that print neither the time taken nor the table of an automaton that was minimized or made by a product *)
Definition without_tables_and_times (a : dandy_args) : Prop :=
  match da_command a with
  | OpEquivalence _ => da_no_log a = true
  | OpBinary _ _ => False
  | OpEnumerateRegex _ _ | OpEnumerateFile _ _ _ | OpTestFile _ _ _ _ => True
  end.

(** Tables of two DFAs with the same elements in the same order and the same words that differ only in the names and the order of states *)
Definition tables_of_equals (table table' : str) : Prop :=
  exists d d', dfa_valid d /\ dfa_valid d' /\ dfa_to_table d = Ret table /\ dfa_to_table d' = Ret table' /\
    dfa_alphabet d = dfa_alphabet d' /\ (forall w, dfa_lang d w <-> dfa_lang d' w) /\
    length (dfa_states d) = length (dfa_states d') /\ exists f, dfa_iso d d' f.

(** The same error messages; output and file differ only in one such table, on a line of its own in the output. *)
Definition differ_in_table (res res' : main_result) : Prop :=
  mr_stderr res = mr_stderr res' /\
  exists table table' before after, tables_of_equals table table' /\
    mr_stdout res = before ++ table ++ [10%N] ++ after /\ mr_stdout res' = before ++ table' ++ [10%N] ++ after /\
    ((mr_file res = None /\ mr_file res' = None) \/
     exists f_before f_after, mr_file res = Some (f_before ++ table ++ f_after) /\ mr_file res' = Some (f_before ++ table' ++ f_after)).
