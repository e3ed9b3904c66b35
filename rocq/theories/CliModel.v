(** * CliModel: the commands of dandy-cli

    A command reads files, prints, and ends with [Ok(())] or an error message.  It is modelled as a function that gives the
    list of what was printed (results, logs, warnings, in this order of printing) and the final result.

    Outside of the model (parameters of [cli_env]): the file system (a function, so files do not change while a command
    runs; FileModel.v drops this), the texts of io errors and of nom errors, grapheme segmentation and the clock.
    Commands take the values of their options; for the command line see ArgsModel.v. *)
From Coq Require Import Ascii String List NArith Arith Bool.
From Verif Require Import Base Spec TableSpec LayoutSpec DfaModel NfaModel WordsModel RegexModel ValidateModel ParserModel TableModel
  RegexParserModel ApiModel Messages.
Import ListNotations.
Close Scope string_scope.
Open Scope list_scope.

(** dandy-cli/src/automata.rs:29-35 [enum AutomataType] *)
Inductive automata_type : Type := TDfa | TNfa | TRegex.

(** dandy-cli/src/automata.rs:29: the derived [PartialEq], used at dandy-cli/src/automata.rs:208 and
    dandy-cli/src/equivalence.rs:134 *)
Definition type_eqb (a b : automata_type) : bool :=
  match a, b with TDfa, TDfa | TNfa, TNfa | TRegex, TRegex => true | _, _ => false end.

(** dandy-cli/src/automata.rs:37-48 [AutomataType::to_string] *)
Definition type_text (t : automata_type) (multiple : bool) : str :=
  match t, multiple with
  | TDfa, true => of_string "DFAs"
  | TDfa, false => of_string "DFA"
  | TNfa, true => of_string "NFAs"
  | TNfa, false => of_string "NFA"
  | TRegex, true => of_string "Regexes"
  | TRegex, false => of_string "Regex"
  end.

(** dandy-cli/src/automata.rs:50-55 [enum Automata] *)
Inductive automata : Type := ADfa (d : dfa) | ANfa (n : nfa) | ARegex (t : regex_tree).

(** dandy-cli/src/automata.rs:60-66 [get_type] *)
Definition get_type (a : automata) : automata_type := match a with ADfa _ => TDfa | ANfa _ => TNfa | ARegex _ => TRegex end.
(** dandy-cli/src/automata.rs:144-150 [borrow_dfa], 169-175 [borrow_nfa] *)
Definition borrow_dfa (a : automata) : option dfa := match a with ADfa d => Some d | _ => None end.

(** dandy-cli/src/automata.rs:169-175 [borrow_nfa] *)
Definition borrow_nfa (a : automata) : option nfa := match a with ANfa n => Some n | _ => None end.

(** The surroundings of a command. What dandy-cli/src/*.rs use from outside: dandy-cli/src/automata.rs:70,
    dandy-cli/src/equivalence.rs:41, 66, 154, dandy-cli/src/test_files.rs:29, dandy-cli/src/main.rs:25-38 *)
Record cli_env : Type := mk_cli_env {
  ce_read : str -> result str str;                     (* fs::read_to_string; an error is given by its message *)
  ce_nom_display : automata_type -> str -> str;        (* the text of nom's error for a file that does not parse, {} *)
  ce_nom_debug : automata_type -> str -> str;          (* the same, {:?} *)
  ce_seg : str -> list str;                            (* UnicodeSegmentation::graphemes(true) *)
  ce_dbg : bool;                                       (* debug assertions *)
  ce_log : bool;                                       (* !no_log *)
  ce_millis : nat                                      (* duration.as_millis() *)
}.

(** Hash orders for the calls of a command, indexed by call sites. (Every call of the library in dandy-cli/src/*.rs
    that visits a hash container has its own order.) *)
Definition orders : Type := list nat -> hash_order.

(** the orders of a group of calls of dandy-cli/src/*.rs *)
Definition fork (hs : orders) (k : nat) : orders := fun l => hs (k :: l).

(** What is printed: by the output sink, by log!, by eprintln!. dandy-cli/src/main.rs:298-303,
    dandy-cli/src/equivalence.rs:45-55, dandy-cli/src/automata.rs:205-274 *)
Inductive event : Type := Out (s : str) | Log (s : str) | Warn (s : str).

(** Commands: [?] and [return Err(..)] keep what was printed before. The functions of dandy-cli/src/*.rs that return
    [Result<_, String>] *)
Definition Cmd (A : Type) : Type := R (list event * result A str).

(** [Ok(a)] (e.g. dandy-cli/src/equivalence.rs:95) *)
Definition cret {A} (a : A) : Cmd A := Ret ([], Ok a).

(** [return Err(e)] (e.g. dandy-cli/src/binary_op.rs:56) *)
Definition cfail {A} (e : str) : Cmd A := Ret ([], Err e).

(** [?] and the next statement (e.g. dandy-cli/src/equivalence.rs:41-43) *)
Definition cbind {A B} (m : Cmd A) (f : A -> Cmd B) : Cmd B :=
  '(ev, r) <- m ;;
  match r with
  | Err e => Ret (ev, Err e)
  | Ok a => '(ev', r') <- f a ;; Ret (ev ++ ev', r')
  end.

(** a call of the library that cannot give an error (e.g. dandy-cli/src/enumerate.rs:48) *)
Definition lift {A} (m : R A) : Cmd A := a <- m ;; cret a.

(** a call that prints nothing and may give an error (e.g. dandy-cli/src/binary_op.rs:26) *)
Definition lift_result {A} (m : R (result A str)) : Cmd A := r <- m ;; Ret ([], r).

(** printing (dandy-cli/src/main.rs:298-303 and the macros of dandy-cli/src/equivalence.rs:50-55) *)
Definition tell (ev : list event) : Cmd unit := Ret (ev, Ok tt).
Notation "x <~ m ;; k" := (cbind m (fun x => k)) (at level 61, m at next level, right associativity).
Notation "' p <~ m ;; k" := (cbind m (fun x => match x with p => k end))
  (at level 61, p pattern, m at next level, right associativity).
(** [map_err]. E.g. dandy-cli/src/binary_op.rs:27, 31, 98 *)
Definition map_err {A} (f : str -> str) (m : R (result A str)) : R (result A str) :=
  r <- m ;; Ret (match r with Ok a => Ok a | Err e => Err (f e) end).

Section Commands.
Context (env : cli_env).
Let seg := ce_seg env.
Let dbg := ce_dbg env.
(** [log!]. dandy-cli/src/equivalence.rs:45-52, dandy-cli/src/binary_op.rs:13-20, dandy-cli/src/enumerate.rs:35-42,
    dandy-cli/src/test_files.rs:11-18 *)
Definition logs (s : str) : list event := if ce_log env then [Log s] else [].

(** dandy-cli/src/automata.rs:74-95 [load]; the error is given by its [Display] text (dandy-cli/src/automata.rs:13-27) *)
Definition cli_load (file : str) (ty : automata_type) : R (result automata str) :=
  match ty with
  | TDfa =>
      o <- parse_dfa file ;;
      Ret (match o with
           | None => Err (of_string "Error parsing DFA: " ++ ce_nom_display env TDfa file)
           | Some p => match dfa_try_from p with
                       | Err e => Err (of_string "Error compiling DFA: " ++ error_text e)
                       | Ok d => Ok (ADfa d)
                       end
           end)
  | TNfa =>
      o <- parse_nfa file ;;
      Ret (match o with
           | None => Err (of_string "Error parsing DFA: " ++ ce_nom_display env TNfa file)
           | Some p => match nfa_try_from p with
                       | Err e => Err (of_string "Error compiling DFA: " ++ error_text e)
                       | Ok n => Ok (ANfa n)
                       end
           end)
  | TRegex =>
      o <- parse_regex seg file ;;
      Ret (match o with
           | None => Err (of_string "Error parsing Regex: " ++ ce_nom_display env TRegex file)
           | Some t => Ok (ARegex t)
           end)
  end.

(** dandy-cli/src/automata.rs:68-72 [load_file] *)
Definition load_file (path : str) (ty : automata_type) : R (result automata str) :=
  match ce_read env path with
  | Err e => Ret (Err (of_string "Error loading file " ++ path ++ of_string ": " ++ e))
  | Ok f => cli_load f ty
  end.

(** dandy-cli/src/automata.rs:127-135 [into_dfa] *)
Definition into_dfa (hs : orders) (a : automata) : R (dfa * bool) :=
  match a with
  | ADfa d => Ret (d, false)
  | ANfa n => d <- nfa_to_dfa (hs [0]) n ;; Ret (d, true)
  | ARegex t => d <- nfa_to_dfa (hs [0]) (regex_to_nfa (hs [1]) t) ;; Ret (d, true)
  end.

(** dandy-cli/src/automata.rs:137-142 [into_dfa_automata] *)
Definition into_dfa_automata (hs : orders) (a : automata) : R (automata * bool) :=
  '(d, converted) <- into_dfa hs a ;; Ret (ADfa d, converted).

(** dandy-cli/src/automata.rs:97-107 [into_minimized_dfa_if_not_dfa] *)
Definition into_minimized_dfa_if_not_dfa (hs : orders) (a : automata) : R (dfa * bool) :=
  '(d, converted) <- into_dfa (fork hs 0) a ;;
  if negb converted then Ret (d, false) else d <- dfa_minimize (hs [1]) dbg d ;; Ret (d, true).

(** dandy-cli/src/automata.rs:109-117 [into_minimized_dfa] *)
Definition into_minimized_dfa (hs : orders) (a : automata) : R (dfa * bool) :=
  '(d, converted) <- into_dfa (fork hs 0) a ;;
  let prev_states := length (dfa_states d) in
  d <- dfa_minimize (hs [1]) dbg d ;;
  let new_states := length (dfa_states d) in
  Ret (d, converted || negb (new_states =? prev_states)).

(** dandy-cli/src/automata.rs:119-125 [into_minimized_dfa_automata] *)
Definition into_minimized_dfa_automata (hs : orders) (a : automata) : R (automata * bool) :=
  '(d, converted) <- into_minimized_dfa hs a ;; Ret (ADfa d, converted).

(** dandy-cli/src/automata.rs:152-160 [into_nfa] *)
Definition into_nfa (hs : orders) (a : automata) : nfa * bool :=
  match a with
  | ADfa d => (dfa_to_nfa d, true)
  | ANfa n => (n, false)
  | ARegex t => (regex_to_nfa (hs [0]) t, true)
  end.
(** dandy-cli/src/automata.rs:162-167 [into_to_nfa_automata] *)
Definition into_to_nfa_automata (hs : orders) (a : automata) : automata * bool :=
  let '(n, converted) := into_nfa hs a in (ANfa n, converted).

(** dandy-cli/src/automata.rs:177-193 [convert_to] (no command uses it) *)
Definition convert_to (hs : orders) (a : automata) (ty : automata_type) : R (list event * option (automata * bool)) :=
  match ty with
  | TDfa => r <- into_dfa_automata hs a ;; Ret ([], Some r)
  | TNfa => Ret ([], Some (into_to_nfa_automata hs a))
  | TRegex =>
      match a with
      | ARegex t => Ret ([], Some (ARegex t, false))
      | _ => Ret ([Warn (of_string "Cannot convert DFA/NFA to Regex")], None)
      end
  end.

(** dandy-cli/src/automata.rs:195-203 [prepare_to_compare_with] *)
Definition prepare_to_compare_with (hs : orders) (a : automata) (other : automata_type) : R (automata * bool) :=
  match other with
  | TDfa => into_dfa_automata hs a
  | TNfa | TRegex => Ret (into_to_nfa_automata hs a)
  end.

(** dandy-cli/src/equivalence.rs:12-20 [enum EquivalenceResult] *)
Inductive equivalence_result : Type :=
| FailedToRead (s : str)
| FailedToParse (s : str)
| FailedToValidate (s : str)
| NotEquivalent
| NotMinimized
| Equivalent.

(** dandy-cli/src/equivalence.rs:22-34 [Display for EquivalenceResult] *)
Definition result_text (r : equivalence_result) : str :=
  match r with
  | FailedToRead s => of_string "Failed to read (" ++ s ++ of_string ")"
  | FailedToParse s => of_string "Failed to parse (" ++ s ++ of_string ")"
  | FailedToValidate s => of_string "Failed to validate (" ++ s ++ of_string ")"
  | NotEquivalent => of_string "Not Equivalent"
  | NotMinimized => of_string "Equivalent but not minimized"
  | Equivalent => of_string "Equivalent"
  end.

(** dandy-cli/src/equivalence.rs:76, 86 and dandy-cli/src/binary_op.rs:99-102: [result ==
    EquivalenceResult::Equivalent] *)
Definition is_equivalent (r : equivalence_result) : bool := match r with Equivalent => true | _ => false end.

(** dandy-cli/src/automata.rs:205-274 [test_equivalence]. The macro [warn_minimized] (lines 217-223). *)
Definition warn_minimized (m : bool) : list event :=
  if m then [Warn (of_string "Can only check minimization if the tested type is a DFA")] else [].

(** dandy-cli/src/automata.rs:206-215: the macro [warn_minimized_check_type] *)
Definition warn_minimized_check_type (m : bool) (a : automata) : list event :=
  if type_eqb (get_type a) TDfa && m then
    [Warn (of_string "Minimized option ignored: make sure the base automata is the correct type.");
     Warn (of_string "This is most likely an internal error; please send a bug report")]
  else warn_minimized m.

(** dandy-cli/src/automata.rs:205-274 [test_equivalence]: what is printed and the result *)
Definition test_equivalence (hs : orders) (self other : automata) (minimized : bool) : R (list event * equivalence_result) :=
  match get_type self, get_type other with
  | TDfa, TDfa =>
      dfa1 <- unwrap (borrow_dfa self) ;;
      dfa2 <- unwrap (borrow_dfa other) ;;
      b <- dfa_equivalent_to dfa1 dfa2 ;;
      Ret ([], if b then
                 if minimized && negb (length (dfa_states dfa1) =? length (dfa_states dfa2)) then NotMinimized else Equivalent
               else NotEquivalent)
  | TDfa, _ =>
      dfa1 <- unwrap (borrow_dfa self) ;;
      '(dfa2, _) <- into_dfa (fork hs 0) other ;;
      b <- dfa_equivalent_to dfa1 dfa2 ;;
      Ret (warn_minimized minimized, if b then Equivalent else NotEquivalent)
  | TNfa, _ =>
      nfa1 <- unwrap (borrow_nfa self) ;;
      let '(nfa2, _) := into_nfa (fork hs 0) other in
      b <- nfa_equivalent_to nfa1 nfa2 ;;
      Ret (warn_minimized_check_type minimized other, if b then Equivalent else NotEquivalent)
  | TRegex, _ =>
      '(dfa1, _) <- into_dfa (fork hs 0) self ;;
      '(dfa2, _) <- into_dfa (fork hs 1) other ;;
      b <- dfa_equivalent_to dfa1 dfa2 ;;
      Ret ([Warn (of_string "Testing with Regex as base, this gives poor performance");
            Warn (of_string "This is most likely an internal error; please send a bug report")] ++ warn_minimized minimized,
           if b then Equivalent else NotEquivalent)
  end.

(** dandy-cli/src/automata.rs:279-307 [load_test] *)
Definition load_test (hs : orders) (file : str) (ty : automata_type) : R (result automata equivalence_result) :=
  match ty with
  | TDfa =>
      o <- parse_dfa file ;;
      Ret (match o with
           | None => Err (FailedToParse (ce_nom_display env TDfa file))
           | Some p => match dfa_try_from p with
                       | Err e => Err (FailedToValidate (error_text e))
                       | Ok d => Ok (ADfa d)
                       end
           end)
  | TNfa =>
      o <- parse_nfa file ;;
      Ret (match o with
           | None => Err (FailedToParse (ce_nom_display env TNfa file))
           | Some p => match nfa_try_from p with
                       | Err e => Err (FailedToValidate (error_text e))
                       | Ok n => Ok (ANfa n)
                       end
           end)
  | TRegex =>
      o <- parse_regex seg file ;;
      Ret (match o with
           | None => Err (FailedToParse (ce_nom_display env TRegex file))
           | Some t => Ok (ANfa (regex_to_nfa (hs [0]) t))
           end)
  end.

(** dandy-cli/src/automata.rs:309-315 [table] *)
Definition automata_table (a : automata) : R str :=
  match a with
  | ADfa d => dfa_to_table d
  | ANfa n => nfa_to_table n
  | ARegex t => Ret (regex_to_string t)
  end.

(** ** dandy equivalence *)

(** dandy-cli/src/main.rs:182-231 [struct EquivalenceArgs] *)
Record equivalence_args : Type := mk_equivalence_args {
  ea_in_type : option automata_type;
  ea_type : automata_type;
  ea_minimized : bool;
  ea_bool : bool;
  ea_path_length : option nat;
  ea_automata : str;
  ea_files : list str
}.

(** dandy-cli/src/equivalence.rs:98-102 [struct DandyTester] *)
Record dandy_tester : Type := mk_dandy_tester {
  dt_input : automata;
  dt_minimized : bool;
  dt_test_type : automata_type
}.

(** dandy-cli/src/equivalence.rs:109-151 [DandyTester::new]; errors by their texts (dandy-cli/src/equivalence.rs:164-180) *)
Definition tester_load (hs : orders) (file : str) (ty : automata_type) : R (result automata str) :=
  match ty with
  | TDfa =>
      o <- parse_dfa file ;;
      Ret (match o with
           | None => Err (of_string "Error parsing DFA: " ++ ce_nom_debug env TDfa file)
           | Some p => match dfa_try_from p with
                       | Err e => Err (of_string "Error compiling DFA: " ++ error_text e)
                       | Ok d => Ok (ADfa d)
                       end
           end)
  | TNfa =>
      o <- parse_nfa file ;;
      Ret (match o with
           | None => Err (of_string "Error parsing NFA: " ++ ce_nom_debug env TNfa file)
           | Some p => match nfa_try_from p with
                       | Err e => Err (of_string "Error compiling NFA: " ++ error_text e)
                       | Ok n => Ok (ANfa n)
                       end
           end)
  | TRegex =>
      o <- parse_regex seg file ;;
      match o with
      | None => Ret (Err (of_string "Error parsing regular expression: " ++ ce_nom_debug env TRegex file))
      | Some t => d <- nfa_to_dfa (hs [0]) (regex_to_nfa (hs [1]) t) ;; Ret (Ok (ADfa d))
      end
  end.

(** dandy-cli/src/equivalence.rs:109-151 [DandyTester::new]: the whole function *)
Definition tester_new (hs : orders) (file : str) (args : equivalence_args) : Cmd dandy_tester :=
  let in_type := match ea_in_type args with Some t => t | None => ea_type args end in
  input <~ lift_result (tester_load (fork hs 0) file in_type) ;;
  '(input, minimized) <~
     (if ea_minimized args then
        if type_eqb (ea_type args) TDfa then
          '(input, _) <~ lift (into_minimized_dfa_automata (fork hs 1) input) ;; cret (input, true)
        else cfail (of_string "--minimized option can only be used when testing DFAs")
      else cret (input, false)) ;;
  '(input, _) <~ lift (prepare_to_compare_with (fork hs 2) input (ea_type args)) ;;
  cret (mk_dandy_tester input minimized (ea_type args)).

(** dandy-cli/src/equivalence.rs:153-161 [DandyTester::test_equivalence] *)
Definition tester_test (hs : orders) (t : dandy_tester) (file : str) : R (list event * equivalence_result) :=
  match ce_read env file with
  | Err e => Ret ([], FailedToRead e)
  | Ok f =>
      r <- load_test (fork hs 0) f (dt_test_type t) ;;
      match r with
      | Ok a => test_equivalence (fork hs 1) (dt_input t) a (dt_minimized t)
      | Err res => Ret ([], res)
      end
  end.

(** dandy-cli/src/equivalence.rs:61-65: the files are tested one after the other before anything is printed about them *)
Fixpoint test_all (hs : orders) (t : dandy_tester) (files : list str) : R (list event * list (str * equivalence_result)) :=
  match files with
  | [] => Ret ([], [])
  | f :: fs =>
      '(ev, r) <- tester_test (fork hs 0) t f ;;
      '(ev', rs) <- test_all (fork hs 1) t fs ;;
      Ret (ev ++ ev', (f, r) :: rs)
  end.

(** Paths: dandy-cli/src/main.rs:347-360 [last_n_components], on Unix.  [/] separates components; [Path::components] skips
    empty components and [.] (but keeps a leading [.]), and starts with the root directory for absolute paths.  Collecting
    components into a [PathBuf] pushes one after the other; pushing the root directory replaces what was there. *)
Fixpoint split_slash (cur : str) (p : str) : list str :=
  match p with
  | [] => [cur]
  | c :: r => if (c =? 47)%N then cur :: split_slash [] r else split_slash (cur ++ [c]) r
  end.

(** the text of [Component::RootDir] (dandy-cli/src/main.rs:347-360) *)
Definition root_dir : str := [47%N].

(** the text of [Component::CurDir] (dandy-cli/src/main.rs:347-360) *)
Definition cur_dir : str := [46%N].

(** [Path::components], as used at dandy-cli/src/main.rs:352 and 354 *)
Definition path_components (p : str) : list str :=
  let parts := split_slash [] p in
  let keep := filter (fun s => negb (eqb s []) && negb (eqb s cur_dir)) in
  match p with
  | 47%N :: _ => root_dir :: keep parts
  | _ => match parts with
         | first :: rest => (if eqb first cur_dir then [cur_dir] else []) ++ keep parts
         | [] => []
         end
  end.
(** [PathBuf::push]. dandy-cli/src/main.rs:352 and 356, through [collect] *)
Definition path_push (p : str) (c : str) : str :=
  match c with
  | 47%N :: _ => c
  | _ => if eqb p [] || (last p 0%N =? 47)%N then p ++ c else p ++ [47%N] ++ c
  end.
(** [components.collect::<PathBuf>()]. dandy-cli/src/main.rs:352 and 356 *)
Definition path_collect (cs : list str) : str := fold_left path_push cs [].

(** dandy-cli/src/main.rs:347-360 [last_n_components] *)
Definition last_n_components (path : str) (n : option nat) : option str :=
  match n with
  | None => Some path
  | Some 0 => None
  | Some n =>
      let new_path := path_collect (firstn n (rev (path_components path))) in
      Some (path_collect (rev (path_components new_path)))
  end.

(** dandy-cli/src/equivalence.rs:74-84: what is printed for one file *)
Definition bool_text (b : bool) : str := if b then of_string "true" else of_string "false".

(** dandy-cli/src/equivalence.rs:74-84: the whole line *)
Definition equivalence_line (args : equivalence_args) (path : str) (result : equivalence_result) : str :=
  let res := if ea_bool args then bool_text (is_equivalent result) else result_text result in
  match last_n_components path (ea_path_length args) with
  | Some prefix => prefix ++ of_string ": " ++ res
  | None => res
  end.

(** dandy-cli/src/equivalence.rs:36-96 [equivalence] *)
Definition equivalence (hs : orders) (args : equivalence_args) : Cmd unit :=
  file <~ (match ce_read env (ea_automata args) with
           | Err e => cfail (of_string "Error reading input file: " ++ e)
           | Ok f => cret f
           end) ;;
  tester <~ tester_new (fork hs 0) file args ;;
  table <~ lift (automata_table (dt_input tester)) ;;
  _ <~ tell (logs (of_string "Input loaded:") ++ logs table) ;;
  results <~ ('(ev, rs) <- test_all (fork hs 1) tester (ea_files args) ;; Ret (ev, Ok rs)) ;;
  _ <~ tell (logs (of_string "Testing of " ++ dec (length (ea_files args)) ++ of_string " files done in " ++ dec (ce_millis env) ++
                   of_string "ms. Results:")) ;;
  _ <~ tell (map (fun '(path, r) => Out (equivalence_line args path r)) results) ;;
  let successes := length (filter (fun '(_, r) => is_equivalent r) results) in
  tell (logs (dec successes ++ of_string "/" ++ dec (length (ea_files args)) ++ of_string " files passed")).

(** ** dandy union, intersection, difference, symmetric-difference *)

(** dandy-cli/src/main.rs:156-174 [BinaryOperation::as_str], [as_str_lower] *)
Definition op_text (o : set_op) : str :=
  match o with
  | OUnion => of_string "Union"
  | OIntersection => of_string "Intersection"
  | ODifference => of_string "Difference"
  | OSymmetricDifference => of_string "Symmetric difference"
  end.

(** dandy-cli/src/main.rs:166-173 [as_str_lower] *)
Definition op_text_lower (o : set_op) : str :=
  match o with
  | OUnion => of_string "union"
  | OIntersection => of_string "intersection"
  | ODifference => of_string "difference"
  | OSymmetricDifference => of_string "symmetric difference"
  end.

(** dandy-cli/src/main.rs:233-275 [struct BinaryOpArgs] *)
Record binary_op_args : Type := mk_binary_op_args {
  ba_type : automata_type;
  ba_second_type : option automata_type;
  ba_compared_type : automata_type;
  ba_minimized : bool;
  ba_enumerate : option nat;
  ba_first : str;
  ba_second : str;
  ba_compare_against : option str
}.

(** [words().take(n).collect()]: [next] is called until it gives [None] or [n] words were listed.
    dandy-cli/src/binary_op.rs:82, dandy-cli/src/enumerate.rs:52 *)
Fixpoint take_words (wi : words_iter) (n : nat) : R (list str) :=
  match n with
  | O => Ret []
  | S n' =>
      '(wi, o) <- words_next wi ;;
      match o with
      | None => Ret []
      | Some w => ws <- take_words wi n' ;; Ret (w :: ws)
      end
  end.

(** dandy-cli/src/binary_op.rs:82, dandy-cli/src/enumerate.rs:52, with the construction of the iterator *)
Definition nfa_take_words (n : nfa) (k : nat) : R (list str) := wi <- words_new n ;; take_words wi k.

(** dandy-cli/src/binary_op.rs:83-87, dandy-cli/src/enumerate.rs:53-57 *)
Definition word_line (w : str) : event :=
  Out (match w with [] => of_string "(empty word)" | _ => w end).

(** dandy-cli/src/binary_op.rs:34-46: input [number] after its conversion *)
Definition prepare_input (h : hash_order) (args : binary_op_args) (number : str) (d : dfa) (converted : bool) : Cmd dfa :=
  if converted then
    _ <~ tell (logs (of_string "Input file " ++ number ++
                     of_string " was converted to a minimized DFA to proceed, since it wasn't a DFA to start with")) ;;
    cret d
  else if ba_minimized args then
    d <~ lift (dfa_minimize h dbg d) ;;
    _ <~ tell (logs (of_string "Minimized DFA " ++ number ++ of_string " before doing product construction")) ;;
    cret d
  else cret d.

(** dandy-cli/src/binary_op.rs:59-74: minimizing and printing the result *)
Definition print_combined (h : hash_order) (args : binary_op_args) (op : set_op) (combined : dfa) : Cmd dfa :=
  if ba_minimized args then
    combined <~ lift (dfa_minimize h dbg combined) ;;
    _ <~ tell (logs (of_string "Minimized DFA (" ++ op_text op ++ of_string " of the two provided " ++
                     type_text (ba_type args) true ++ of_string "):")) ;;
    table <~ lift (dfa_to_table combined) ;;
    _ <~ tell [Out table] ;;
    cret combined
  else
    _ <~ tell (logs (op_text op ++ of_string " of " ++ type_text (ba_type args) true ++
                     of_string " (not minimized, add --minimized to minimize):")) ;;
    table <~ lift (dfa_to_table combined) ;;
    _ <~ tell [Out table] ;;
    cret combined.

(** dandy-cli/src/binary_op.rs:76-93: --enumerate *)
Definition enumerate_combined (args : binary_op_args) (op : set_op) (combined : dfa) : Cmd unit :=
  match ba_enumerate args with
  | None => cret tt
  | Some n =>
      _ <~ tell [Out (of_string "First " ++ dec n ++ of_string " words in the language of the " ++ op_text_lower op ++
                      of_string ":")] ;;
      ws <~ lift (nfa_take_words (dfa_to_nfa combined) n) ;;
      _ <~ tell (map word_line ws) ;;
      if length ws =? n then cret tt
      else tell [Out (of_string "(only " ++ dec (length ws) ++ of_string " words exists in the " ++ op_text_lower op ++
                      of_string ")")]
  end.

(** dandy-cli/src/binary_op.rs:95-110: comparing with a third automaton *)
Definition compare_combined (hs : orders) (args : binary_op_args) (op : set_op) (combined : dfa) : Cmd unit :=
  match ba_compare_against args with
  | None => cret tt
  | Some path =>
      compare_to <~ lift_result (map_err (fun e => of_string "Error comparing with automata: " ++ e)
                                         (load_file path (ba_compared_type args))) ;;
      result <~ ('(ev, r) <- test_equivalence hs (ADfa combined) compare_to false ;; Ret (ev, Ok r)) ;;
      tell [Out (op_text op ++ of_string " of the two provided " ++ type_text (ba_type args) true ++ of_string " is " ++
                 (if is_equivalent result then of_string "EQUIVALENT" else of_string "NOT EQUIVALENT") ++
                 of_string " to the third " ++ type_text (ba_compared_type args) false)]
  end.

(** dandy-cli/src/binary_op.rs:26-93: everything before the comparison *)
Definition binary_combined (hs : orders) (args : binary_op_args) (op : set_op) : Cmd dfa :=
  a1 <~ lift_result (map_err (fun e => of_string "Error reading 1: " ++ e) (load_file (ba_first args) (ba_type args))) ;;
  '(dfa1, converted1) <~ lift (into_minimized_dfa_if_not_dfa (fork hs 0) a1) ;;
  a2 <~ lift_result (map_err (fun e => of_string "Error reading 2: " ++ e)
          (load_file (ba_second args) (match ba_second_type args with Some t => t | None => ba_type args end))) ;;
  '(dfa2, converted2) <~ lift (into_minimized_dfa_if_not_dfa (fork hs 1) a2) ;;
  dfa1 <~ prepare_input (hs [2]) args (of_string "1") dfa1 converted1 ;;
  dfa2 <~ prepare_input (hs [3]) args (of_string "2") dfa2 converted2 ;;
  combined <~ lift (dfa_set_op op (hs [4]) dfa1 dfa2) ;;
  combined <~ (match combined with
               | None => cfail (of_string "Different alphabets in input DFAs, can't do product construction")
               | Some d => cret d
               end) ;;
  combined <~ print_combined (hs [5]) args op combined ;;
  _ <~ enumerate_combined args op combined ;;
  cret combined.

(** dandy-cli/src/binary_op.rs:6-113 [binary_op] *)
Definition binary_op (hs : orders) (args : binary_op_args) (op : set_op) : Cmd unit :=
  combined <~ binary_combined hs args op ;;
  compare_combined (fork hs 6) args op combined.

(** ** dandy enumerate-regex, dandy enumerate *)

(** dandy-cli/src/enumerate.rs:28-63 [enumerate_nfa] *)
Definition enumerate_nfa (hs : orders) (n : nfa) (k : nat) : Cmd unit :=
  n <~ lift (nfa_remove_epsilon_moves (hs [0]) dbg n) ;;
  _ <~ tell (logs (of_string "First " ++ dec k ++ of_string " words of the language of the regex:")) ;;
  ws <~ lift (nfa_take_words n k) ;;
  _ <~ tell (map word_line ws) ;;
  if length ws =? k then cret tt
  else tell (logs (of_string "(only " ++ dec (length ws) ++ of_string " words exists in the language of the regex)")).

(** dandy-cli/src/enumerate.rs:6-15 [enumerate_regex] *)
Definition enumerate_regex (hs : orders) (regex : str) (amount : nat) : Cmd unit :=
  o <~ lift (parse_regex seg regex) ;;
  match o with
  | None => cfail (ce_nom_display env TRegex regex)
  | Some t => enumerate_nfa (fork hs 0) (regex_to_nfa (hs [1]) t) amount
  end.

(** dandy-cli/src/enumerate.rs:17-26 [enumerate_file] *)
Definition enumerate_file (hs : orders) (ty : automata_type) (file : str) (amount : nat) : Cmd unit :=
  a <~ lift_result (load_file file ty) ;;
  enumerate_nfa (fork hs 0) (fst (into_nfa (fork hs 1) a)) amount.

(** ** dandy test-file *)

(** [str::lines]: split after every line feed; a line ends before its line feed, or before a carriage return
    directly before the line feed. (Since Rust 1.70 a carriage return at the end of the text is kept.). Used at
    dandy-cli/src/test_files.rs:34, 48; [cur] is the beginning of the current line *)
Fixpoint lines_from (cur : str) (u : str) : list str :=
  match u with
  | [] => match cur with [] => [] | _ => [cur] end
  | c :: r =>
      if (c =? 10)%N then
        (match rev cur with 13%N :: l => rev l | _ => cur end) :: lines_from [] r
      else lines_from (cur ++ [c]) r
  end.

(** [str::lines], dandy-cli/src/test_files.rs:34, 48 *)
Definition str_lines (u : str) : list str := lines_from [] u.

(** dandy-cli/src/main.rs:128-133 [enum TestType] *)
Inductive test_type : Type := TLines | TFiles.

(** dandy-cli/src/test_files.rs:32-44: the loop over the lines; [n] lines and [a] accepted ones so far *)
Fixpoint test_lines (nf : nfa) (n a : nat) (lines : list str) : R (list event * (nat * nat)) :=
  match lines with
  | [] => Ret ([], (n, a))
  | line :: rest =>
      accepted <- nfa_accepts_graphemes seg nf line ;;
      '(ev, r) <- test_lines nf (S n) (if accepted : bool then S a else a) rest ;;
      Ret (Out ((if accepted then of_string "[ OK ]" else of_string "[FAIL]") ++ of_string " " ++ line) :: ev, r)
  end.
(** dandy-cli/src/test_files.rs:47-49: [find] *)
Fixpoint find_rejected (nf : nfa) (lines : list str) : R (option str) :=
  match lines with
  | [] => Ret None
  | line :: rest => accepted <- nfa_accepts_graphemes seg nf line ;; if accepted : bool then find_rejected nf rest else Ret (Some line)
  end.
(** dandy-cli/src/test_files.rs:28-59: the loop over the files *)
Fixpoint test_each (nf : nfa) (tt_ : test_type) (files : list str) : Cmd unit :=
  match files with
  | [] => cret tt
  | file :: rest =>
      loaded <~ (match ce_read env file with Err e => cfail e | Ok f => cret f end) ;;
      _ <~ (match tt_ with
            | TLines =>
                _ <~ tell [Out (of_string "Testing file " ++ file ++ of_string ":")] ;;
                '(n, a) <~ ('(ev, r) <- test_lines nf 0 0 (str_lines loaded) ;; Ret (ev, Ok r)) ;;
                tell [Out (dec a ++ of_string "/" ++ dec n ++ of_string " lines passed in file " ++ file ++ of_string ":")]
            | TFiles =>
                c <~ lift (find_rejected nf (str_lines loaded)) ;;
                tell [Out (match c with
                           | None => of_string "[ OK ] " ++ file
                           | Some c => of_string "[FAIL] " ++ file ++ of_string " failed on " ++ c
                           end)]
            end) ;;
      test_each nf tt_ rest
  end.
(** dandy-cli/src/test_files.rs:24-26: everything before the loop *)
Definition test_load (hs : orders) (ty : automata_type) (automata : str) : Cmd nfa :=
  a <~ lift_result (load_file automata ty) ;;
  let nf := fst (into_nfa (fork hs 0) a) in
  table <~ lift (nfa_to_table nf) ;;
  _ <~ tell (logs (of_string "Loaded NFA:" ++ [10%N] ++ table)) ;;
  cret nf.
(** dandy-cli/src/test_files.rs:5-62 [test_files] *)
Definition test_files (hs : orders) (ty : automata_type) (tt_ : test_type) (automata : str) (files : list str) : Cmd unit :=
  nf <~ test_load hs ty automata ;;
  test_each nf tt_ files.

(** ** main *)

(** dandy-cli/src/main.rs:40-126 [enum Operation] with its arguments *)
Inductive operation : Type :=
| OpEquivalence (args : equivalence_args)
| OpBinary (o : set_op) (args : binary_op_args)
| OpEnumerateRegex (amount : nat) (regex : str)
| OpEnumerateFile (ty : automata_type) (amount : nat) (file : str)
| OpTestFile (ty : automata_type) (tt_ : test_type) (automata : str) (files : list str).

(** dandy-cli/src/main.rs:305-326, with the texts of the errors (dandy-cli/src/main.rs:333-345) *)
Definition with_error {A} (prefix : str) (m : Cmd A) : Cmd A :=
  '(ev, r) <- m ;; Ret (ev, match r with Ok a => Ok a | Err e => Err (prefix ++ e) end).

(** dandy-cli/src/main.rs:305-326 *)
Definition run_operation (hs : orders) (op : operation) : Cmd unit :=
  match op with
  | OpEquivalence args => with_error (of_string "Error in Equivalence: ") (equivalence hs args)
  | OpBinary o args => with_error (of_string "Error in " ++ op_text o ++ of_string ": ") (binary_op hs args o)
  | OpTestFile ty t a fs => with_error (of_string "Error in testing file: ") (test_files hs ty t a fs)
  | OpEnumerateRegex n r => with_error (of_string "Error in enumerating regex: ") (enumerate_regex hs r n)
  | OpEnumerateFile ty n f => with_error (of_string "Error in enumerating file: ") (enumerate_file hs ty f n)
  end.

(** dandy-cli/src/main.rs:283-331 [main]: what reaches stdout, stderr and the file of --out ([println!] and [eprintln!] add a line feed; the
    sink writes into the file without one).  [create]: the result of [File::create] if --out is given, an error by its message.
    Writing to the file is assumed to succeed ([unwrap] on dandy-cli/src/main.rs:301).  What is read is as before the run: for runs that read
    the file of --out see FileModel.v. *)
Record main_result : Type := mk_main_result { mr_stdout : str; mr_stderr : str; mr_file : option str }.

(** [println!("{s}")], dandy-cli/src/main.rs:299 *)
Definition println (s : str) : str := s ++ [10%N].

(** dandy-cli/src/main.rs:299 and the [log] closures (dandy-cli/src/equivalence.rs:45-49 etc.): what reaches stdout *)
Definition stdout_of (ev : list event) : str :=
  flat_map (fun e => match e with Out s | Log s => println s | Warn _ => [] end) ev.

(** dandy-cli/src/automata.rs:205-274: what [eprintln!] prints *)
Definition stderr_of (ev : list event) : str := flat_map (fun e => match e with Warn s => println s | _ => [] end) ev.

(** dandy-cli/src/main.rs:300-302: what is written into the file of --out *)
Definition sink_of (ev : list event) : str := flat_map (fun e => match e with Out s => s | _ => [] end) ev.

(** dandy-cli/src/main.rs:286-303, 328-330: the outputs of a run, given what was printed and the result *)
Definition finish (create : option (result unit str)) (ev : list event) (r : result unit str) : main_result :=
  mk_main_result
    (stdout_of ev)
    ((match create with
      | Some (Err e) => println (of_string "Error creating output file " ++ e) ++
                        println (of_string "Execution will continue but no data will be written to file")
      | _ => []
      end) ++ stderr_of ev ++ (match r with Err e => println e | Ok _ => [] end))
    (match create with Some (Ok _) => Some (sink_of ev) | _ => None end).

(** dandy-cli/src/main.rs:283-331 [main] after the arguments were read *)
Definition cli_main (hs : orders) (create : option (result unit str)) (op : operation) : R main_result :=
  '(ev, r) <- run_operation hs op ;;
  Ret (finish create ev r).
End Commands.
