(** * CliSpec: what the commands of dandy-cli should report

    Stated about the contents of files: which automaton or expression a text denotes, which words it has, and which lines a
    command has to print.  No conversions, no equivalence checks, no iterators here. *)
From Coq Require Import Ascii String List NArith Arith Bool Sorted.
From Verif Require Import Base Spec TableSpec LayoutSpec DfaModel RegexParserModel TableModel ApiModel Messages MessageSpec WasmModel WasmSpec CliModel.
Import ListNotations.
Close Scope string_scope.
Open Scope list_scope.

(** ** Texts *)

(** The elements of the alphabet, in order, and the words of the language *)
Definition a_alphabet (a : automata) : list str :=
  match a with
  | ADfa d => dfa_alphabet d
  | ANfa n => nfa_alphabet n
  | ARegex t => first_occurrences (regex_graphemes t)
  end.
Definition a_lang (a : automata) (w : word) : Prop :=
  match a with
  | ADfa d => dfa_lang d w
  | ANfa n => nfa_lang n w
  | ARegex t => matches t w
  end.

(** The text, read as a text of the type, denotes the automaton or expression. *)
Definition reads (seg : str -> list str) (ty : automata_type) (u : str) (a : automata) : Prop :=
  match ty, a with
  | TDfa, ADfa d => loads_dfa u d
  | TNfa, ANfa n => loads_nfa u n
  | TRegex, ARegex t => parse_regex seg u = Ret (Some t)
  | _, _ => False
  end.

(** The text has the right syntax *)
Definition text_parses (seg : str -> list str) (ty : automata_type) (u : str) : Prop :=
  match ty with
  | TDfa => exists t, dfa_text t u
  | TNfa => exists t, nfa_text t u
  | TRegex => exists t, parse_regex seg u = Ret (Some t)
  end.
(** and is a table with a defect *)
Definition text_defect (ty : automata_type) (u : str) (e : parse_error) : Prop :=
  match ty with
  | TDfa => exists t, dfa_text t u /\ dfa_defect t e
  | TNfa => exists t, nfa_text t u /\ nfa_defect t e
  | TRegex => False
  end.

(** The same elements and the same words *)
Definition same_meaning (a b : automata) : Prop :=
  same_set (a_alphabet a) (a_alphabet b) /\ forall w, a_lang a w <-> a_lang b w.

(** No DFA for the same language over the same elements has fewer states. *)
Definition minimal (d : dfa) : Prop :=
  forall d2, dfa_valid d2 -> same_set (dfa_alphabet d2) (dfa_alphabet d) -> (forall w, dfa_lang d2 w <-> dfa_lang d w) ->
             length (dfa_states d) <= length (dfa_states d2).

(** ** What is printed *)
Definition outs (ev : list event) : list str := flat_map (fun e => match e with Out s => [s] | _ => [] end) ev.
Definition warns (ev : list event) : list str := flat_map (fun e => match e with Warn s => [s] | _ => [] end) ev.
Definition log_lines (ev : list event) : list str := flat_map (fun e => match e with Log s => [s] | _ => [] end) ev.

(** The file contains the automaton; loading it fails, with the message. *)
Definition loads (env : cli_env) (path : str) (ty : automata_type) (a : automata) : Prop :=
  exists u, ce_read env path = Ok u /\ reads (ce_seg env) ty u a.
Definition load_error (env : cli_env) (path : str) (ty : automata_type) (msg : str) : Prop :=
  match ce_read env path with
  | Err e => msg = of_string "Error loading file " ++ path ++ of_string ": " ++ e
  | Ok u =>
      (~ text_parses (ce_seg env) ty u /\
       msg = of_string (match ty with TRegex => "Error parsing Regex: " | _ => "Error parsing DFA: " end) ++ ce_nom_display env ty u) \/
      (exists e m, text_defect ty u e /\ describes e m /\ msg = of_string "Error compiling DFA: " ++ m)
  end.

(** ** dandy equivalence *)

(** The verdict about a file, given the reference [a0] *)
Definition verdict (env : cli_env) (args : equivalence_args) (a0 : automata) (file : str) (v : equivalence_result) : Prop :=
  match ce_read env file with
  | Err e => v = FailedToRead e
  | Ok u =>
      match v with
      | FailedToRead _ => False
      | FailedToParse m => ~ text_parses (ce_seg env) (ea_type args) u /\ m = ce_nom_display env (ea_type args) u
      | FailedToValidate m => exists e, text_defect (ea_type args) u e /\ describes e m
      | NotEquivalent => exists a, reads (ce_seg env) (ea_type args) u a /\ ~ same_meaning a0 a
      | NotMinimized =>
          ea_minimized args = true /\
          exists d, reads (ce_seg env) (ea_type args) u (ADfa d) /\ same_meaning a0 (ADfa d) /\ ~ minimal d
      | Equivalent =>
          exists a, reads (ce_seg env) (ea_type args) u a /\ same_meaning a0 a /\
                    (ea_minimized args = true -> exists d, a = ADfa d /\ minimal d)
      end
  end.

(** The line printed about a file: the shown part of the path, if any, and the verdict *)
Definition verdict_line (args : equivalence_args) (file : str) (v : equivalence_result) : str :=
  match last_n_components file (ea_path_length args) with Some p => p ++ of_string ": " | None => [] end ++
  (if ea_bool args then match v with Equivalent => of_string "true" | _ => of_string "false" end
   else match v with
        | FailedToRead m => of_string "Failed to read (" ++ m ++ of_string ")"
        | FailedToParse m => of_string "Failed to parse (" ++ m ++ of_string ")"
        | FailedToValidate m => of_string "Failed to validate (" ++ m ++ of_string ")"
        | NotEquivalent => of_string "Not Equivalent"
        | NotMinimized => of_string "Equivalent but not minimized"
        | Equivalent => of_string "Equivalent"
        end).

(** How many of the verdicts are [Equivalent] *)
Inductive passes : list equivalence_result -> nat -> Prop :=
| passes_nil : passes [] 0
| passes_yes vs k : passes vs k -> passes (Equivalent :: vs) (S k)
| passes_no v vs k : v <> Equivalent -> passes vs k -> passes (v :: vs) k.

(** The message when the reference cannot be used *)
Definition input_error (env : cli_env) (ty : automata_type) (u : str) (msg : str) : Prop :=
  (~ text_parses (ce_seg env) ty u /\
   msg = of_string match ty with
                   | TDfa => "Error parsing DFA: " | TNfa => "Error parsing NFA: " | TRegex => "Error parsing regular expression: "
                   end ++ ce_nom_debug env ty u) \/
  (exists e m, text_defect ty u e /\ describes e m /\
     msg = of_string match ty with TDfa => "Error compiling DFA: " | _ => "Error compiling NFA: " end ++ m).

(** Everything the command may do: [out] are the printed results, [lg] the printed logs *)
Definition equivalence_outcome (env : cli_env) (args : equivalence_args) (out lg : list str) (r : result unit str) : Prop :=
  let ty := match ea_in_type args with Some t => t | None => ea_type args end in
  (exists e, ce_read env (ea_automata args) = Err e /\ out = [] /\ r = Err (of_string "Error reading input file: " ++ e)) \/
  (exists u m, ce_read env (ea_automata args) = Ok u /\ input_error env ty u m /\ out = [] /\ r = Err m) \/
  (exists a0, loads env (ea_automata args) ty a0 /\ ea_minimized args = true /\ ea_type args <> TDfa /\
     out = [] /\ r = Err (of_string "--minimized option can only be used when testing DFAs")) \/
  (exists a0 vs k, loads env (ea_automata args) ty a0 /\ (ea_minimized args = true -> ea_type args = TDfa) /\
     Forall2 (verdict env args a0) (ea_files args) vs /\ passes vs k /\
     out = map (fun '(f, v) => verdict_line args f v) (combine (ea_files args) vs) /\ r = Ok tt /\
     (ce_log env = true ->
        exists l, lg = l ++ [decimal k ++ of_string "/" ++ decimal (length (ea_files args)) ++ of_string " files passed"])).

(** ** Enumerations *)

(** [ws] are the first words of the language, at most [n], in shortlex order *)
Definition first_words (alphabet : list str) (L : word -> Prop) (n : nat) (ws : list word) : Prop :=
  length ws <= n /\ (forall w, In w ws -> L w) /\
  exists l, StronglySorted shortlex_lt l /\ Forall2 (spells alphabet) l ws /\
    (forall idx w, spells alphabet idx w -> L w -> In w ws \/ (length ws = n /\ forall idx', In idx' l -> shortlex_lt idx' idx)).

(** How a word is printed *)
Definition word_text (w : word) : str := match concat w with [] => of_string "(empty word)" | s => s end.

(** ** The set operations *)
Definition op_name (o : set_op) : str :=
  of_string match o with
            | OUnion => "Union" | OIntersection => "Intersection" | ODifference => "Difference"
            | OSymmetricDifference => "Symmetric difference"
            end.
Definition op_name_lower (o : set_op) : str :=
  of_string match o with
            | OUnion => "union" | OIntersection => "intersection" | ODifference => "difference"
            | OSymmetricDifference => "symmetric difference"
            end.
(** What kinds of automata are called, one and several *)
Definition type_name (ty : automata_type) : str := of_string match ty with TDfa => "DFA" | TNfa => "NFA" | TRegex => "Regex" end.
Definition type_names (ty : automata_type) : str := of_string match ty with TDfa => "DFAs" | TNfa => "NFAs" | TRegex => "Regexes" end.

(** The lines of --enumerate *)
Definition enumeration (o : set_op) (d : dfa) (k : option nat) (ls : list str) : Prop :=
  match k with
  | None => ls = []
  | Some n =>
      exists ws, first_words (dfa_alphabet d) (dfa_lang d) n ws /\
        ls = [of_string "First " ++ decimal n ++ of_string " words in the language of the " ++ op_name_lower o ++ of_string ":"] ++
             map word_text ws ++
             (if length ws =? n then []
              else [of_string "(only " ++ decimal (length ws) ++ of_string " words exists in the " ++ op_name_lower o ++ of_string ")"])
  end.

(** The last line, which compares the result with a third automaton, and the final result *)
Definition comparison (env : cli_env) (args : binary_op_args) (o : set_op) (d : dfa) (ls : list str) (r : result unit str) : Prop :=
  match ba_compare_against args with
  | None => ls = [] /\ r = Ok tt
  | Some path =>
      (exists m, load_error env path (ba_compared_type args) m /\ ls = [] /\ r = Err (of_string "Error comparing with automata: " ++ m)) \/
      (exists a (b : bool), loads env path (ba_compared_type args) a /\ (b = true <-> same_meaning (ADfa d) a) /\ r = Ok tt /\
         ls = [op_name o ++ of_string " of the two provided " ++ type_names (ba_type args) ++ of_string " is " ++
               of_string (if b then "EQUIVALENT" else "NOT EQUIVALENT") ++ of_string " to the third " ++
               type_name (ba_compared_type args)])
  end.

(** Everything a set operation may do *)
Definition binary_outcome (env : cli_env) (args : binary_op_args) (o : set_op) (out : list str) (r : result unit str) : Prop :=
  let ty2 := match ba_second_type args with Some t => t | None => ba_type args end in
  (exists m, load_error env (ba_first args) (ba_type args) m /\ out = [] /\ r = Err (of_string "Error reading 1: " ++ m)) \/
  (exists a1 m, loads env (ba_first args) (ba_type args) a1 /\ load_error env (ba_second args) ty2 m /\
     out = [] /\ r = Err (of_string "Error reading 2: " ++ m)) \/
  (exists a1 a2, loads env (ba_first args) (ba_type args) a1 /\ loads env (ba_second args) ty2 a2 /\
     ~ same_set (a_alphabet a1) (a_alphabet a2) /\
     out = [] /\ r = Err (of_string "Different alphabets in input DFAs, can't do product construction")) \/
  (exists a1 a2 d table ls1 ls2, loads env (ba_first args) (ba_type args) a1 /\ loads env (ba_second args) ty2 a2 /\
     same_set (a_alphabet a1) (a_alphabet a2) /\
     dfa_valid d /\ dfa_alphabet d = a_alphabet a1 /\
     (forall w, dfa_lang d w <-> set_op_spec o (a_lang a1 w) (a_lang a2 w)) /\
     (ba_minimized args = true -> minimal d) /\
     dfa_to_table d = Ret table /\ (a_alphabet a1 <> [] -> Forall legal_token (a_alphabet a1) -> loads_dfa table d) /\
     out = [table] ++ ls1 ++ ls2 /\ enumeration o d (ba_enumerate args) ls1 /\ comparison env args o d ls2 r).

(** ** dandy test-file *)

(** The lines of a text: they end at LF or CRLF; the last line may lack its end. *)
Inductive text_lines : str -> list str -> Prop :=
| tl_end : text_lines [] []
| tl_last l : l <> [] -> ~ In 10%N l -> text_lines l [l]
| tl_lf l u ls : ~ In 10%N l -> (forall l', l <> l' ++ [13%N]) -> text_lines u ls -> text_lines (l ++ [10%N] ++ u) (l :: ls)
| tl_crlf l u ls : ~ In 10%N l -> text_lines u ls -> text_lines (l ++ [13; 10]%N ++ u) (l :: ls).

(** What is printed about a file with these lines *)
Definition file_report (seg : str -> list str) (a : automata) (t : test_type) (file : str) (lines out : list str) : Prop :=
  match t with
  | TLines =>
      exists oks, Forall2 (fun line ok => ok = true <-> a_lang a (seg line)) lines oks /\
        out = [of_string "Testing file " ++ file ++ of_string ":"] ++
              map (fun '(line, ok) => of_string (if ok : bool then "[ OK ] " else "[FAIL] ") ++ line) (combine lines oks) ++
              [decimal (count_occ Bool.bool_dec oks true) ++ of_string "/" ++ decimal (length lines) ++ of_string " lines passed in file " ++
               file ++ of_string ":"]
  | TFiles =>
      ((forall line, In line lines -> a_lang a (seg line)) /\ out = [of_string "[ OK ] " ++ file]) \/
      (exists before line after, lines = before ++ line :: after /\ (forall l, In l before -> a_lang a (seg l)) /\
         ~ a_lang a (seg line) /\ out = [of_string "[FAIL] " ++ file ++ of_string " failed on " ++ line])
  end.

(** Files are tested in order; the first one that cannot be read ends the command. *)
Inductive test_report (env : cli_env) (a : automata) (t : test_type) : list str -> list str -> result unit str -> Prop :=
| tr_end : test_report env a t [] [] (Ok tt)
| tr_unreadable f fs e : ce_read env f = Err e -> test_report env a t (f :: fs) [] (Err e)
| tr_file f fs u lines out1 out2 r :
    ce_read env f = Ok u -> text_lines u lines -> file_report (ce_seg env) a t f lines out1 ->
    test_report env a t fs out2 r -> test_report env a t (f :: fs) (out1 ++ out2) r.

(** ** Shown parts of paths *)

(** An ordinary component: not empty, not ".", and without "/" *)
Definition component (c : str) : Prop := c <> [] /\ c <> [46%N] /\ ~ In 47%N c.
Fixpoint slashed (cs : list str) : str :=
  match cs with [] => [] | [c] => c | c :: cs' => c ++ [47%N] ++ slashed cs' end.
(** The last [n] elements (all, if there are fewer) *)
Definition last_n {A} (n : nat) (l : list A) : list A := skipn (length l - n) l.

(** ** Whole runs *)

(** What the commands may report: printed results, printed logs, and success or the error *)
Definition op_outcome (env : cli_env) (op : operation) (out lg : list str) (r : result unit str) : Prop :=
  match op with
  | OpEquivalence args => equivalence_outcome env args out lg r
  | OpBinary o args => binary_outcome env args o out r
  | OpEnumerateRegex n u =>
      (~ text_parses (ce_seg env) TRegex u /\ out = [] /\ r = Err (ce_nom_display env TRegex u)) \/
      (exists a ws, reads (ce_seg env) TRegex u a /\ first_words (a_alphabet a) (a_lang a) n ws /\ out = map word_text ws /\ r = Ok tt)
  | OpEnumerateFile ty n file =>
      (exists m, load_error env file ty m /\ out = [] /\ r = Err m) \/
      (exists a ws, loads env file ty a /\ first_words (a_alphabet a) (a_lang a) n ws /\ out = map word_text ws /\ r = Ok tt)
  | OpTestFile ty t automata files =>
      (exists m, load_error env automata ty m /\ out = [] /\ r = Err m) \/
      (exists a, loads env automata ty a /\ test_report env a t files out r)
  end.
Definition error_prefix (op : operation) : str :=
  match op with
  | OpEquivalence _ => of_string "Error in Equivalence: "
  | OpBinary o _ => of_string "Error in " ++ op_name o ++ of_string ": "
  | OpEnumerateRegex _ _ => of_string "Error in enumerating regex: "
  | OpEnumerateFile _ _ _ => of_string "Error in enumerating file: "
  | OpTestFile _ _ _ _ => of_string "Error in testing file: "
  end.

(** [c] consists of the elements of [a] and of [b], in their orders. *)
Inductive interleaved {A} : list A -> list A -> list A -> Prop :=
| il_nil : interleaved [] [] []
| il_left x a b c : interleaved a b c -> interleaved (x :: a) b (x :: c)
| il_right x a b c : interleaved a b c -> interleaved a (x :: b) (x :: c).

(** Lines of text, each with its line feed *)
Definition with_lf (lines : list str) : str := concat (map (fun l => l ++ [10%N]) lines).
