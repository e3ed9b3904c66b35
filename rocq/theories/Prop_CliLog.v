(** * The logs of the command line tool: C76 *)
From Coq Require Import Ascii String List NArith Arith Bool Lia.
From Verif Require Import Base BaseLemmas Spec TableSpec DfaModel NfaModel RegexModel ValidateModel ParserModel TableModel ApiModel Messages MessageSpec WasmModel WasmSpec CliModel
  CliSpec CliLogSpec CliProofs CliLogProofs Examples Prop_Api Prop_Cli.
Import ListNotations.
Close Scope string_scope.
Open Scope list_scope.

(** ** C76: stdout is, line by line, the logs before the results, the results, and the logs after them *)
Theorem C76_main : forall env hs create op,
  exists m before out after r, cli_main env hs create op = Ret m /\
    op_outcome env op out (if ce_log env then before ++ after else []) r /\ op_logs env op out r before after /\
    mr_stdout m = with_lf (if ce_log env then before ++ out ++ after else out).
Proof. exact cli_main_logs. Qed.
Print Assumptions C76_main.

(** --less-logs changes nothing but stdout *)
Theorem C76_only_stdout : forall env b hs create op, exists m m',
  cli_main env hs create op = Ret m /\ cli_main (with_log env b) hs create op = Ret m' /\
  mr_stderr m = mr_stderr m' /\ mr_file m = mr_file m'.
Proof. exact log_flag. Qed.
Print Assumptions C76_only_stdout.

(** How any automaton is shown, expressions too (which no command keeps as a reference): its table, or its printed form *)
Theorem C76_shown : forall a, match a with ADfa d => dfa_valid d | ANfa n => nfa_valid n | ARegex _ => True end -> exists table, automata_table a = Ret table /\
  match a with
  | ADfa d => dfa_to_table d = Ret table
  | ANfa n => nfa_to_table n = Ret table
  | ARegex t => table = regex_to_string t
  end.
Proof. intros a V. destruct (automata_table_total a V) as (table & E). exists table. split; auto. destruct a; cbn in E; congruence. Qed.
Print Assumptions C76_shown.

(** ** Examples *)
Definition lines (l : list string) : str := with_lf (map of_string l).
Example C76_example_enumerate : exists m, cli_main (ex_env ex_files true) ex_orders None (OpEnumerateRegex 5 (of_string "aa|b")) = Ret m /\
  mr_stdout m = lines ["First 5 words of the language of the regex:"; "b"; "aa"; "(only 2 words exists in the language of the regex)"]%string.
Proof. eexists. split; vm_compute; reflexivity. Qed.
Example C76_example_binary : exists m table,
  cli_main (ex_env ex_files true) ex_orders None
    (OpBinary OUnion (mk_binary_op_args TDfa (Some TRegex) TRegex true None (of_string "even") (of_string "ab") None)) = Ret m /\
  mr_stdout m = lines ["Minimized DFA 1 before doing product construction";
                       "Input file 2 was converted to a minimized DFA to proceed, since it wasn't a DFA to start with";
                       "Minimized DFA (Union of the two provided DFAs):"]%string ++ table.
Proof. eexists. eexists. split; [vm_compute; reflexivity|]. vm_compute. reflexivity. Qed.
Example C76_example_equivalence : exists m p d table,
  cli_main (ex_env ex_files true) ex_orders None
    (OpEquivalence (mk_equivalence_args None TDfa false true None (of_string "even") [of_string "even"; of_string "bad"])) = Ret m /\
  parse_dfa ex_text_even = Ret (Some p) /\ dfa_try_from p = Ok d /\ dfa_to_table d = Ret table /\
  mr_stdout m = lines ["Input loaded:"]%string ++ with_lf [table] ++
    lines ["Testing of 2 files done in 5ms. Results:"; "even: true"; "bad: false"; "1/2 files passed"]%string.
Proof. do 4 eexists. repeat (split; [vm_compute; reflexivity|]). vm_compute. reflexivity. Qed.
