(** * ShareModel: runs of dandy-cli while others change the files

    CliModel.v reads every file as it was before the run, FileModel.v lets the run itself write.  Here nothing is assumed about
    what happens to the files between two reads: editors, other runs of the tool and the run itself may change them. *)
From Coq Require Import Ascii String List NArith Arith Bool.
From Verif Require Import Base Spec DfaModel NfaModel ValidateModel TableSpec TableModel ApiModel Messages CliModel FileModel.
Import ListNotations.
Close Scope string_scope.
Open Scope list_scope.

(** What [fs::read_to_string] returns for a path when it is called for the first, second, ... time in the run.
    Simplification: one call returns a text or fails; that the text may be a mixture of what was in the file during the call is covered, since
    nothing is assumed about it. dandy-cli/src/automata.rs:70, dandy-cli/src/equivalence.rs:41 and 154,
    dandy-cli/src/test_files.rs:29 *)
Definition sights : Type := nat -> str -> result str str.

(** the later reads (dandy-cli/src/equivalence.rs:61-65, dandy-cli/src/test_files.rs:28) *)
Definition later (seen : sights) : sights := fun k => seen (S k).

(** dandy-cli/src/equivalence.rs:61-65: every file is read when its turn comes *)
Fixpoint test_all_shared (env : cli_env) (seen : sights) (hs : orders) (t : dandy_tester) (files : list str)
  : R (list event * list (str * equivalence_result)) :=
  match files with
  | [] => Ret ([], [])
  | f :: fs =>
      '(ev, r) <- tester_test (with_read env (seen 0)) (fork hs 0) t f ;;
      '(ev', rs) <- test_all_shared env (later seen) (fork hs 1) t fs ;;
      Ret (ev ++ ev', (f, r) :: rs)
  end.

(** dandy-cli/src/equivalence.rs:36-96 [equivalence] *)
Definition equivalence_shared (env : cli_env) (seen : sights) (hs : orders) (args : equivalence_args) : Cmd unit :=
  file <~ (match seen 0 (ea_automata args) with
           | Err e => cfail (of_string "Error reading input file: " ++ e)
           | Ok f => cret f
           end) ;;
  tester <~ tester_new env (fork hs 0) file args ;;
  table <~ lift (automata_table (dt_input tester)) ;;
  _ <~ tell (logs env (of_string "Input loaded:") ++ logs env table) ;;
  results <~ ('(ev, rs) <- test_all_shared env (later seen) (fork hs 1) tester (ea_files args) ;; Ret (ev, Ok rs)) ;;
  _ <~ tell (logs env (of_string "Testing of " ++ dec (length (ea_files args)) ++ of_string " files done in " ++ dec (ce_millis env) ++
                       of_string "ms. Results:")) ;;
  _ <~ tell (map (fun '(path, r) => Out (equivalence_line args path r)) results) ;;
  let successes := length (filter (fun '(_, r) => is_equivalent r) results) in
  tell (logs env (dec successes ++ of_string "/" ++ dec (length (ea_files args)) ++ of_string " files passed")).

(** dandy-cli/src/binary_op.rs:26-93: the first read is that of the first automaton, the second read that of the second *)
Definition combined_shared (env : cli_env) (seen : sights) (hs : orders) (args : binary_op_args) (op : set_op) : Cmd dfa :=
  a1 <~ lift_result (map_err (fun e => of_string "Error reading 1: " ++ e)
          (load_file (with_read env (seen 0)) (ba_first args) (ba_type args))) ;;
  '(dfa1, converted1) <~ lift (into_minimized_dfa_if_not_dfa env (fork hs 0) a1) ;;
  a2 <~ lift_result (map_err (fun e => of_string "Error reading 2: " ++ e)
          (load_file (with_read env (seen 1)) (ba_second args) (match ba_second_type args with Some t => t | None => ba_type args end))) ;;
  '(dfa2, converted2) <~ lift (into_minimized_dfa_if_not_dfa env (fork hs 1) a2) ;;
  dfa1 <~ prepare_input env (hs [2]) args (of_string "1") dfa1 converted1 ;;
  dfa2 <~ prepare_input env (hs [3]) args (of_string "2") dfa2 converted2 ;;
  combined <~ lift (dfa_set_op op (hs [4]) dfa1 dfa2) ;;
  combined <~ (match combined with
               | None => cfail (of_string "Different alphabets in input DFAs, can't do product construction")
               | Some d => cret d
               end) ;;
  combined <~ print_combined env (hs [5]) args op combined ;;
  _ <~ enumerate_combined args op combined ;;
  cret combined.

(** dandy-cli/src/binary_op.rs:6-113 [binary_op] *)
Definition binary_shared (env : cli_env) (seen : sights) (hs : orders) (args : binary_op_args) (op : set_op) : Cmd unit :=
  combined <~ combined_shared env seen hs args op ;;
  compare_combined (with_read env (seen 2)) (fork hs 6) args op combined.

(** dandy-cli/src/test_files.rs:28-59: every file is read when its turn comes *)
Fixpoint test_each_shared (env : cli_env) (seen : sights) (nf : nfa) (tt_ : test_type) (files : list str) : Cmd unit :=
  match files with
  | [] => cret tt
  | file :: rest =>
      _ <~ test_each (with_read env (seen 0)) nf tt_ [file] ;;
      test_each_shared env (later seen) nf tt_ rest
  end.

(** dandy-cli/src/test_files.rs:5-62 [test_files] *)
Definition test_files_shared (env : cli_env) (seen : sights) (hs : orders) (ty : automata_type) (tt_ : test_type) (automata : str)
           (files : list str) : Cmd unit :=
  nf <~ test_load (with_read env (seen 0)) hs ty automata ;;
  test_each_shared env (later seen) nf tt_ files.

(** dandy-cli/src/main.rs:305-326 *)
Definition shared_operation (env : cli_env) (seen : sights) (hs : orders) (op : operation) : Cmd unit :=
  match op with
  | OpEquivalence args => with_error (of_string "Error in Equivalence: ") (equivalence_shared env seen hs args)
  | OpBinary o args => with_error (of_string "Error in " ++ op_text o ++ of_string ": ") (binary_shared env seen hs args o)
  | OpTestFile ty t a fs => with_error (of_string "Error in testing file: ") (test_files_shared env seen hs ty t a fs)
  | OpEnumerateRegex n r => with_error (of_string "Error in enumerating regex: ") (enumerate_regex env hs r n)
  | OpEnumerateFile ty n f =>
      with_error (of_string "Error in enumerating file: ") (enumerate_file (with_read env (seen 0)) hs ty f n)
  end.

(** dandy-cli/src/main.rs:283-331 [main] *)
Definition shared_main (env : cli_env) (seen : sights) (hs : orders) (create : option (result unit str)) (op : operation) : R main_result :=
  '(ev, r) <- shared_operation env seen hs op ;; Ret (finish create ev r).
