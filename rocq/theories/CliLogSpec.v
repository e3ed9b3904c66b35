(** What the command line tool logs: specification, without proofs. *)
From Coq Require Import Ascii String List NArith Arith Bool.
From Verif Require Import Base Spec TableSpec DfaModel NfaModel TableModel ApiModel Messages MessageSpec WasmModel WasmSpec CliModel CliSpec.
Import ListNotations.
Close Scope string_scope.
Open Scope list_scope.

(** The table shown after "Input loaded:": the reference, converted to the type of the tested files (expressions are compared
    as NFAs), minimized with --minimized *)
Definition reference_table (args : equivalence_args) (a : automata) (table : str) : Prop :=
  match ea_type args with
  | TDfa => exists d, dfa_to_table d = Ret table /\ dfa_valid d /\ dfa_alphabet d = a_alphabet a /\ (forall w, dfa_lang d w <-> a_lang a w) /\
      (ea_minimized args = true -> minimal d) /\ (ea_minimized args = false -> forall d', a = ADfa d' -> d = d')
  | _ => exists n, nfa_to_table n = Ret table /\ nfa_valid n /\ nfa_alphabet n = a_alphabet a /\ (forall w, nfa_lang n w <-> a_lang a w) /\
      (forall n', a = ANfa n' -> n = n') /\ (forall d, a = ADfa d -> n = dfa_to_nfa d)
  end.

(** What is logged about an input of a set operation *)
Definition input_notes (args : binary_op_args) (number : str) (a : automata) : list str :=
  match a with
  | ADfa _ => if ba_minimized args then [of_string "Minimized DFA " ++ number ++ of_string " before doing product construction"] else []
  | _ => [of_string "Input file " ++ number ++
          of_string " was converted to a minimized DFA to proceed, since it wasn't a DFA to start with"]
  end.
(** and above the resulting table *)
Definition result_title (args : binary_op_args) (o : set_op) : str :=
  if ba_minimized args
  then of_string "Minimized DFA (" ++ op_name o ++ of_string " of the two provided " ++ type_names (ba_type args) ++ of_string "):"
  else op_name o ++ of_string " of " ++ type_names (ba_type args) ++ of_string " (not minimized, add --minimized to minimize):".

(** What is logged around an enumeration of [n] words that printed the lines [out] *)
Definition enumeration_logs (n : nat) (out before after : list str) : Prop :=
  before = [of_string "First " ++ decimal n ++ of_string " words of the language of the regex:"] /\
  after = if length out =? n then []
          else [of_string "(only " ++ decimal (length out) ++ of_string " words exists in the language of the regex)"].

(** The logs of a command that prints the results [out] and ends with [r]: all logs come before or after all results. *)
Definition op_logs (env : cli_env) (op : operation) (out : list str) (r : result unit str) (before after : list str) : Prop :=
  match op with
  | OpEquivalence args =>
      ((exists m, r = Err m) /\ before = [] /\ after = []) \/
      (r = Ok tt /\ exists a table vs k,
         loads env (ea_automata args) (match ea_in_type args with Some t => t | None => ea_type args end) a /\
         reference_table args a table /\ Forall2 (verdict env args a) (ea_files args) vs /\ passes vs k /\
         before = [of_string "Input loaded:"; table;
                   of_string "Testing of " ++ decimal (length (ea_files args)) ++ of_string " files done in " ++ decimal (ce_millis env) ++
                   of_string "ms. Results:"] /\
         after = [decimal k ++ of_string "/" ++ decimal (length (ea_files args)) ++ of_string " files passed"])
  | OpBinary o args =>
      let ty2 := match ba_second_type args with Some t => t | None => ba_type args end in
      after = [] /\
      (((exists m, load_error env (ba_first args) (ba_type args) m \/ load_error env (ba_second args) ty2 m) /\ before = []) \/
       exists a1 a2, loads env (ba_first args) (ba_type args) a1 /\ loads env (ba_second args) ty2 a2 /\
         let notes := input_notes args (of_string "1") a1 ++ input_notes args (of_string "2") a2 in
         ((~ same_set (a_alphabet a1) (a_alphabet a2) /\ before = notes) \/
          (same_set (a_alphabet a1) (a_alphabet a2) /\ before = notes ++ [result_title args o])))
  | OpEnumerateRegex n _ | OpEnumerateFile _ n _ =>
      ((exists m, r = Err m) /\ before = [] /\ after = []) \/ (r = Ok tt /\ enumeration_logs n out before after)
  | OpTestFile ty t automata files =>
      after = [] /\
      ((exists m, load_error env automata ty m /\ before = []) \/
       exists a n table, loads env automata ty a /\ nfa_to_table n = Ret table /\ nfa_valid n /\ nfa_alphabet n = a_alphabet a /\
         (forall w, nfa_lang n w <-> a_lang a w) /\ (forall n', a = ANfa n' -> n = n') /\ (forall d, a = ADfa d -> n = dfa_to_nfa d) /\
         before = [of_string "Loaded NFA:" ++ [10%N] ++ table])
  end.

(** The same environment with or without --less-logs *)
Definition with_log (env : cli_env) (b : bool) : cli_env :=
  mk_cli_env (ce_read env) (ce_nom_display env) (ce_nom_debug env) (ce_seg env) (ce_dbg env) b (ce_millis env).
