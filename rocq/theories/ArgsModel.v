(** * ArgsModel: the command line of dandy-cli

    dandy-cli/src/main.rs:21-275 declares the commands and their options by attributes, from which clap 4 (dandy-cli/Cargo.toml:10)
    makes the parser that dandy-cli/src/main.rs:284 calls.  Modelled are the declarations, and of clap's parser (which is no part of /repo)
    what they make use of: long and short options, values attached or in the next argument, clusters of short options, [--],
    positional arguments, subcommands, defaults.

    Simplifications: an argument is a text (arguments that are not UTF-8 are outside); where clap prints a message (help, the
    version, or a complaint) and ends the process, the model gives [None]; the texts of these messages are outside. *)
From Coq Require Import Ascii String List NArith Arith Bool.
From Verif Require Import Base Spec TableSpec DfaModel NfaModel TableModel ApiModel Messages CliModel FileModel.
Import ListNotations.
Close Scope string_scope.
Open Scope list_scope.

(** ** What clap does *)

(** [#[arg(short, long)]]: an option; [ad_takes]: whether a value belongs to it (fields of type [bool] take none).
    E.g. dandy-cli/src/main.rs:24-35. *)
Record arg_decl : Type := mk_arg_decl { ad_long : str; ad_short : option N; ad_takes : bool }.

(** An option that was found, by its long name, with its value. (The matches that clap, called at
    dandy-cli/src/main.rs:284, collects) *)
Definition given : Type := str * option str.

(** clap, called at dandy-cli/src/main.rs:284: the declaration of a long name *)
Definition find_long (ds : list arg_decl) (l : str) : option arg_decl := find (fun d => eqb (ad_long d) l) ds.

(** clap, called at dandy-cli/src/main.rs:284: the declaration of a letter *)
Definition find_short (ds : list arg_decl) (c : N) : option arg_decl :=
  find (fun d => match ad_short d with Some s => N.eqb s c | None => false end) ds.

(** clap_lex: [is_escape], [to_long], [to_short]; a single hyphen is a value. (Used by clap, called at
    dandy-cli/src/main.rs:284) *)
Inductive arg_token : Type := TkEscape | TkLong (s : str) | TkShort (s : str) | TkValue.

(** clap, called at dandy-cli/src/main.rs:284: what an argument looks like *)
Definition token_of (a : str) : arg_token :=
  match a with
  | c :: r =>
      if N.eqb c 45 then
        match r with
        | [] => TkValue
        | c' :: r' => if N.eqb c' 45 then (match r' with [] => TkEscape | _ => TkLong r' end) else TkShort r
        end
      else TkValue
  | [] => TkValue
  end.

(** [--name=value] is split at the first equals sign. (clap, called at dandy-cli/src/main.rs:284) *)
Fixpoint split_equals (s : str) : str * option str :=
  match s with
  | [] => ([], None)
  | c :: r => if N.eqb c 61 then ([], Some r) else let '(n, v) := split_equals r in (c :: n, v)
  end.

(** [parse_long_arg]: the options that are complete, and the one that waits for its value. (clap, called at
    dandy-cli/src/main.rs:284) *)
Definition parse_long_arg (ds : list arg_decl) (s : str) : option (list given * option str) :=
  let '(name, value) := split_equals s in
  match find_long ds name with
  | None => None
  | Some d =>
      match ad_takes d, value with
      | true, Some v => Some ([(ad_long d, Some v)], None)
      | true, None => Some ([], Some (ad_long d))
      | false, Some _ => None
      | false, None => Some ([(ad_long d, None)], None)
      end
  end.

(** [parse_short_arg]. (clap, called at dandy-cli/src/main.rs:284): letters one after the other, until one takes the
    rest as its value. *)
Fixpoint parse_short_arg (ds : list arg_decl) (s : str) : option (list given * option str) :=
  match s with
  | [] => Some ([], None)
  | c :: r =>
      match find_short ds c with
      | None => None
      | Some d =>
          if ad_takes d then
            match r with
            | [] => Some ([], Some (ad_long d))
            | c' :: v => Some ([(ad_long d, Some (if N.eqb c' 61 then v else r))], None)
            end
          else
            match parse_short_arg ds r with
            | None => None
            | Some (gs, p) => Some ((ad_long d, None) :: gs, p)
            end
      end
  end.

(** clap, called at dandy-cli/src/main.rs:284: an argument that looks like an option *)
Definition parse_option (ds : list arg_decl) (t : arg_token) : option (list given * option str) :=
  match t with
  | TkLong s => parse_long_arg ds s
  | TkShort s => parse_short_arg ds s
  | _ => None
  end.

(** clap, called at dandy-cli/src/main.rs:284: options found before the others *)
Definition add_given {A} (gs : list given) (o : option (list given * A)) : option (list given * A) :=
  match o with None => None | Some (gs', a) => Some (gs ++ gs', a) end.

(** clap, called at dandy-cli/src/main.rs:284: a positional argument before the others *)
Definition add_positional (p : str) (o : option (list given * list str)) : option (list given * list str) :=
  match o with None => None | Some (gs, ps) => Some (gs, p :: ps) end.

(** [get_matches_with] of a subcommand: its options and positional arguments. [pending]: the option that waits for
    its value; something that looks like an option is not taken for a value. (clap, called at
    dandy-cli/src/main.rs:284) *)
Fixpoint parse_command_args (ds : list arg_decl) (pending : option str) (argv : list str) : option (list given * list str) :=
  match argv with
  | [] => match pending with None => Some ([], []) | Some _ => None end
  | a :: rest =>
      match token_of a, pending with
      | TkValue, Some id => add_given [(id, Some a)] (parse_command_args ds None rest)
      | TkValue, None => add_positional a (parse_command_args ds None rest)
      | _, Some _ => None
      | TkEscape, None => Some ([], rest)
      | t, None =>
          match parse_option ds t with
          | None => None
          | Some (gs, p) => add_given gs (parse_command_args ds p rest)
          end
      end
  end.

(** [get_matches_with] of the program, which takes no positional arguments: its options, and the rest from the
    subcommand on. (clap, called at dandy-cli/src/main.rs:284; the program is declared at
    dandy-cli/src/main.rs:21-38) *)
Fixpoint parse_program_args (ds : list arg_decl) (pending : option str) (argv : list str) : option (list given * list str) :=
  match argv with
  | [] => None
  | a :: rest =>
      match token_of a, pending with
      | TkValue, Some id => add_given [(id, Some a)] (parse_program_args ds None rest)
      | TkValue, None => Some ([], argv)
      | _, Some _ => None
      | TkEscape, None => None
      | t, None =>
          match parse_option ds t with
          | None => None
          | Some (gs, p) => add_given gs (parse_program_args ds p rest)
          end
      end
  end.

(** An option that is given twice is a mistake, also if it takes no value. (clap, called at
    dandy-cli/src/main.rs:284, for actions other than [Append]) *)
Fixpoint repeated (gs : list given) : bool :=
  match gs with
  | [] => false
  | (l, _) :: r => existsb (fun g => eqb (fst g) l) r || repeated r
  end.

(** clap, called at dandy-cli/src/main.rs:284: the value of an option *)
Definition given_value (gs : list given) (l : str) : option (option str) := option_map snd (find (fun g => eqb (fst g) l) gs).

(** ** Values *)

(** [?] in what clap derives from dandy-cli/src/main.rs:21-275. *)
Definition obind {A B} (o : option A) (f : A -> option B) : option B := match o with None => None | Some a => f a end.
Notation "x <+ e ;; f" := (obind e (fun x => f)) (at level 61, e at next level, right associativity).
Notation "' pat <+ e ;; f" := (obind e (fun x => match x with pat => f end)) (at level 61, pat pattern, e at next level, right associativity).

(** dandy-cli/src/automata.rs:29 [derive(ValueEnum)] *)
Definition parse_type (v : str) : option automata_type :=
  if eqb v (of_string "dfa") then Some TDfa
  else if eqb v (of_string "nfa") then Some TNfa
  else if eqb v (of_string "regex") then Some TRegex
  else None.
(** dandy-cli/src/main.rs:128 [derive(ValueEnum)] *)
Definition parse_test_type (v : str) : option test_type :=
  if eqb v (of_string "lines") then Some TLines
  else if eqb v (of_string "files") then Some TFiles
  else None.
(** [usize::from_str], for 64 bits. (For dandy-cli/src/main.rs:79, 98, 226, 265.) *)
Fixpoint parse_digits (acc : N) (v : str) : option N :=
  match v with
  | [] => Some acc
  | c :: r =>
      if (48 <=? c)%N && (c <=? 57)%N then
        let acc' := (acc * 10 + (c - 48))%N in
        if (acc' <? 2 ^ 64)%N then parse_digits acc' r else None
      else None
  end.

(** [usize::from_str], for dandy-cli/src/main.rs:79, 98, 226, 265 *)
Definition parse_usize (v : str) : option nat :=
  let digits := match v with c :: r => if N.eqb c 43 then r else v | [] => v end in
  match digits with
  | [] => None
  | _ => option_map N.to_nat (parse_digits 0 digits)
  end.
(** [PathBufValueParser]: a path may not be empty. (For dandy-cli/src/main.rs:29, 99, 123, 125, 228, 230, 270-274.) *)
Definition parse_path (v : str) : option str := match v with [] => None | _ => Some v end.

(** dandy-cli/src/main.rs:125, 230 [Vec<PathBuf>] *)
Fixpoint parse_paths (vs : list str) : option (list str) :=
  match vs with
  | [] => Some []
  | v :: r => p <+ parse_path v ;; ps <+ parse_paths r ;; Some (p :: ps)
  end.

(** Fields: of type [bool], with [default_value_t], and of type [Option]. E.g. dandy-cli/src/main.rs:213-219,
    206-212, 226. *)
Definition field_flag (gs : list given) (l : str) : bool := match given_value gs l with Some _ => true | None => false end.

(** Fields of type [Option<_>], e.g. dandy-cli/src/main.rs:183-189, 225-226 *)
Definition field_option {A} (parse : str -> option A) (gs : list given) (l : str) : option (option A) :=
  match given_value gs l with
  | None => Some None
  | Some None => None
  | Some (Some v) => a <+ parse v ;; Some (Some a)
  end.

(** Fields with [default_value_t], e.g. dandy-cli/src/main.rs:190-197, 85-91 *)
Definition field_default {A} (parse : str -> option A) (default : A) (gs : list given) (l : str) : option A :=
  o <+ field_option parse gs l ;; Some (match o with Some a => a | None => default end).

(** ** What main.rs declares *)

(** Long names are the names of the fields in kebab case, unless another name is given; short names are the first
    letters of the fields. (dandy-cli/src/main.rs:21-275) *)
Definition opt (long : string) (short : option ascii) (takes : bool) : arg_decl :=
  mk_arg_decl (of_string long) (option_map N_of_ascii short) takes.

(** dandy-cli/src/main.rs:23-38 [struct DandyArgs] *)
Definition program_decls : list arg_decl :=
  [opt "out" (Some "o"%char) true; opt "less-logs" None false].

(** dandy-cli/src/main.rs:182-231 [struct EquivalenceArgs] *)
Definition equivalence_decls : list arg_decl :=
  [opt "in-type" (Some "i"%char) true; opt "type" (Some "t"%char) true; opt "minimized" (Some "m"%char) false;
   opt "bool" (Some "b"%char) false; opt "path-length" (Some "p"%char) true].

(** dandy-cli/src/main.rs:182-231 [struct EquivalenceArgs]: from what was found to the fields *)
Definition read_equivalence (gs : list given) (ps : list str) : option operation :=
  in_type <+ field_option parse_type gs (of_string "in-type") ;;
  type <+ field_default parse_type TDfa gs (of_string "type") ;;
  path_length <+ field_option parse_usize gs (of_string "path-length") ;;
  ps <+ parse_paths ps ;;
  match ps with
  | automata :: files =>
      Some (OpEquivalence (mk_equivalence_args in_type type (field_flag gs (of_string "minimized"))
        (field_flag gs (of_string "bool")) path_length automata files))
  | [] => None
  end.

(** dandy-cli/src/main.rs:233-275 [struct BinaryOpArgs] *)
Definition binary_op_decls : list arg_decl :=
  [opt "type" (Some "t"%char) true; opt "second-type" (Some "s"%char) true; opt "compared-type" None true;
   opt "minimized" (Some "m"%char) false; opt "enumerate" (Some "e"%char) true].

(** dandy-cli/src/main.rs:233-275 [struct BinaryOpArgs]: from what was found to the fields *)
Definition read_binary_op (o : set_op) (gs : list given) (ps : list str) : option operation :=
  type <+ field_default parse_type TDfa gs (of_string "type") ;;
  second_type <+ field_option parse_type gs (of_string "second-type") ;;
  compared_type <+ field_default parse_type TDfa gs (of_string "compared-type") ;;
  enumerate <+ field_option parse_usize gs (of_string "enumerate") ;;
  ps <+ parse_paths ps ;;
  let args := mk_binary_op_args type second_type compared_type (field_flag gs (of_string "minimized")) enumerate in
  match ps with
  | [first; second] => Some (OpBinary o (args first second None))
  | [first; second; compare_against] => Some (OpBinary o (args first second (Some compare_against)))
  | _ => None
  end.

(** dandy-cli/src/main.rs:71-81 [struct EnumerateRegexArgs] *)
Definition enumerate_regex_decls : list arg_decl := [opt "amount" (Some "n"%char) true].

(** dandy-cli/src/main.rs:71-81 [struct EnumerateRegexArgs]: from what was found to the fields *)
Definition read_enumerate_regex (gs : list given) (ps : list str) : option operation :=
  amount <+ field_default parse_usize 20 gs (of_string "amount") ;;
  match ps with
  | [regex] => Some (OpEnumerateRegex amount regex)
  | _ => None
  end.

(** dandy-cli/src/main.rs:83-100 [struct EnumerateFileArgs] *)
Definition enumerate_file_decls : list arg_decl := [opt "type" None true; opt "amount" (Some "a"%char) true].

(** dandy-cli/src/main.rs:83-100 [struct EnumerateFileArgs]: from what was found to the fields *)
Definition read_enumerate_file (gs : list given) (ps : list str) : option operation :=
  type <+ field_default parse_type TDfa gs (of_string "type") ;;
  amount <+ field_default parse_usize 30 gs (of_string "amount") ;;
  ps <+ parse_paths ps ;;
  match ps with
  | [file] => Some (OpEnumerateFile type amount file)
  | _ => None
  end.

(** dandy-cli/src/main.rs:102-126 [struct TestFileArgs] *)
Definition test_file_decls : list arg_decl := [opt "type" None true; opt "test-type" (Some "t"%char) true].

(** dandy-cli/src/main.rs:102-126 [struct TestFileArgs]: from what was found to the fields *)
Definition read_test_file (gs : list given) (ps : list str) : option operation :=
  type <+ field_default parse_type TDfa gs (of_string "type") ;;
  test_type <+ field_default parse_test_type TLines gs (of_string "test-type") ;;
  ps <+ parse_paths ps ;;
  match ps with
  | automata :: files => Some (OpTestFile type test_type automata files)
  | [] => None
  end.

(** dandy-cli/src/main.rs:40-69 [enum Operation]: names are those of the variants in kebab case, unless another name is given *)
Definition find_command (name : str) : option (list arg_decl * (list given -> list str -> option operation)) :=
  if eqb name (of_string "equivalence") then Some (equivalence_decls, read_equivalence)
  else if eqb name (of_string "union") then Some (binary_op_decls, read_binary_op OUnion)
  else if eqb name (of_string "intersection") then Some (binary_op_decls, read_binary_op OIntersection)
  else if eqb name (of_string "difference") then Some (binary_op_decls, read_binary_op ODifference)
  else if eqb name (of_string "symmetric-difference") then Some (binary_op_decls, read_binary_op OSymmetricDifference)
  else if eqb name (of_string "enumerate-regex") then Some (enumerate_regex_decls, read_enumerate_regex)
  else if eqb name (of_string "enumerate") then Some (enumerate_file_decls, read_enumerate_file)
  else if eqb name (of_string "test-file") then Some (test_file_decls, read_test_file)
  else None.

(** dandy-cli/src/main.rs:23-38 [struct DandyArgs] *)
Record dandy_args : Type := mk_dandy_args { da_out : option str; da_no_log : bool; da_command : operation }.

(** dandy-cli/src/main.rs:284 [DandyArgs::parse()], on the arguments after the name of the program *)
Definition parse_args (argv : list str) : option dandy_args :=
  '(gs, rest) <+ parse_program_args program_decls None argv ;;
  if repeated gs then None else
  out <+ field_option parse_path gs (of_string "out") ;;
  match rest with
  | [] => None
  | name :: rest =>
      '(ds, read) <+ find_command name ;;
      '(cgs, ps) <+ parse_command_args ds None rest ;;
      if repeated cgs then None else
      op <+ read cgs ps ;;
      Some (mk_dandy_args out (field_flag gs (of_string "less-logs")) op)
  end.

(** dandy-cli/src/main.rs:283-331 [main]: what is printed and the files afterwards, or [None] if the process ends in dandy-cli/src/main.rs:284.
    automata.rs, equivalence.rs etc. print a log line only if [!args.no_log]. *)
Definition with_log (env : cli_env) (log : bool) : cli_env :=
  mk_cli_env (ce_read env) (ce_nom_display env) (ce_nom_debug env) (ce_seg env) (ce_dbg env) log (ce_millis env).

(** dandy-cli/src/main.rs:283-331 [main]: the whole program *)
Definition dandy (env : cli_env) (m : machine) (hs : orders) (argv : list str) : option (R (main_result * machine)) :=
  args <+ parse_args argv ;;
  Some (file_main (with_log env (negb (da_no_log args))) m hs (da_out args) (da_command args)).
