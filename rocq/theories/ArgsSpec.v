(** * ArgsSpec: how a run of dandy-cli is written on the command line *)
From Coq Require Import Ascii String List NArith Arith Bool.
From Verif Require Import Base Spec TableSpec TableModel Messages MessageSpec ApiModel CliModel ArgsModel.
Import ListNotations.
Close Scope string_scope.
Open Scope list_scope.

(** ** Arguments *)

Definition hyphen : N := 45.
Definition equals : N := 61.

(** What is not taken for an option: a single hyphen, and whatever does not start with a hyphen *)
Definition plain_argument (a : str) : Prop := a = [hyphen] \/ forall r, a <> hyphen :: r.

(** The options that a command knows: the long name, the letter, whether a value belongs to it *)
Definition options : Type := str -> option N -> bool -> Prop.

(** Options that were given: the long name and the value *)
Definition settings : Type := list (str * option str).

Section Writing.
Context (O : options).

(** A run of letters, of options that take no value *)
Inductive letters : settings -> str -> Prop :=
| letters_none : letters [] []
| letters_more l c gs s : O l (Some c) false -> letters gs s -> letters ((l, None) :: gs) (c :: s).

(** The ways to write options *)
Inductive writes_option : settings -> list str -> Prop :=
| long_flag l c : O l c false -> writes_option [(l, None)] [hyphen :: hyphen :: l]
| long_equals l c v : O l c true -> writes_option [(l, Some v)] [hyphen :: hyphen :: l ++ equals :: v]
| long_next l c v : O l c true -> plain_argument v -> writes_option [(l, Some v)] [hyphen :: hyphen :: l; v]
| short_flags gs s : letters gs s -> s <> [] -> writes_option gs [hyphen :: s]
| short_attached gs s l c v :
    letters gs s -> O l (Some c) true -> v <> [] -> (forall r, v <> equals :: r) ->
    writes_option (gs ++ [(l, Some v)]) [hyphen :: s ++ c :: v]
| short_equals gs s l c v :
    letters gs s -> O l (Some c) true -> writes_option (gs ++ [(l, Some v)]) [hyphen :: s ++ c :: equals :: v]
| short_next gs s l c v :
    letters gs s -> O l (Some c) true -> plain_argument v -> writes_option (gs ++ [(l, Some v)]) [hyphen :: s ++ [c]; v].

(** The arguments of a command: options and positional arguments in any order; after two hyphens everything is positional *)
Inductive writes_command : settings -> list str -> list str -> Prop :=
| command_end : writes_command [] [] []
| command_option gs args gs' ps argv :
    writes_option gs args -> writes_command gs' ps argv -> writes_command (gs ++ gs') ps (args ++ argv)
| command_positional p gs ps argv :
    plain_argument p -> writes_command gs ps argv -> writes_command gs (p :: ps) (p :: argv)
| command_rest ps : writes_command [] ps ([hyphen; hyphen] :: ps).

(** The arguments of the program: its options, the name of the command, and the arguments of the command *)
Inductive writes_program : settings -> str -> list str -> list str -> Prop :=
| program_command name rest : writes_program [] name rest (name :: rest)
| program_option gs args gs' name rest argv :
    writes_option gs args -> writes_program gs' name rest argv -> writes_program (gs ++ gs') name rest (args ++ argv).
End Writing.

(** ** Values *)

Definition reads_type (v : str) (t : automata_type) : Prop :=
  v = match t with TDfa => of_string "dfa" | TNfa => of_string "nfa" | TRegex => of_string "regex" end.
Definition reads_test_type (v : str) (t : test_type) : Prop :=
  v = match t with TLines => of_string "lines" | TFiles => of_string "files" end.
Definition reads_path (v p : str) : Prop := v = p /\ p <> [].

(** Decimal digits, after a plus sign or not, of a number below 2^64 *)
Definition digits_value (ds : str) : N := fold_left (fun n c => n * 10 + (c - 48))%N ds 0%N.
Definition reads_number (v : str) (n : nat) : Prop :=
  exists ds, (v = ds \/ v = 43%N :: ds) /\ ds <> [] /\ Forall (fun c => 48 <= c <= 57)%N ds /\
    digits_value ds = N.of_nat n /\ (N.of_nat n < 2 ^ 64)%N.

Definition flag_is (gs : settings) (l : string) (b : bool) : Prop := b = true <-> In (of_string l, None) gs.
Definition value_is {A} (reads : str -> A -> Prop) (gs : settings) (l : string) (o : option A) : Prop :=
  match o with
  | Some a => exists v, In (of_string l, Some v) gs /\ reads v a
  | None => forall v, ~ In (of_string l, v) gs
  end.
Definition value_or {A} (reads : str -> A -> Prop) (default : A) (gs : settings) (l : string) (a : A) : Prop :=
  value_is reads gs l (Some a) \/ value_is reads gs l None /\ a = default.

(** ** The commands *)

Definition letter (a : ascii) : option N := Some (N_of_ascii a).

Inductive program_options : options :=
| o_out : program_options (of_string "out") (letter "o") true
| o_less_logs : program_options (of_string "less-logs") None false.

Definition command_name (op : operation) : str :=
  match op with
  | OpEquivalence _ => of_string "equivalence"
  | OpBinary OUnion _ => of_string "union"
  | OpBinary OIntersection _ => of_string "intersection"
  | OpBinary ODifference _ => of_string "difference"
  | OpBinary OSymmetricDifference _ => of_string "symmetric-difference"
  | OpEnumerateRegex _ _ => of_string "enumerate-regex"
  | OpEnumerateFile _ _ _ => of_string "enumerate"
  | OpTestFile _ _ _ _ => of_string "test-file"
  end.

Inductive equivalence_options : options :=
| e_in_type : equivalence_options (of_string "in-type") (letter "i") true
| e_type : equivalence_options (of_string "type") (letter "t") true
| e_minimized : equivalence_options (of_string "minimized") (letter "m") false
| e_bool : equivalence_options (of_string "bool") (letter "b") false
| e_path_length : equivalence_options (of_string "path-length") (letter "p") true.

Inductive set_op_options : options :=
| s_type : set_op_options (of_string "type") (letter "t") true
| s_second_type : set_op_options (of_string "second-type") (letter "s") true
| s_compared_type : set_op_options (of_string "compared-type") None true
| s_minimized : set_op_options (of_string "minimized") (letter "m") false
| s_enumerate : set_op_options (of_string "enumerate") (letter "e") true.

Inductive enumerate_regex_options : options :=
| r_amount : enumerate_regex_options (of_string "amount") (letter "n") true.

Inductive enumerate_options : options :=
| n_type : enumerate_options (of_string "type") None true
| n_amount : enumerate_options (of_string "amount") (letter "a") true.

Inductive test_file_options : options :=
| t_type : test_file_options (of_string "type") None true
| t_test_type : test_file_options (of_string "test-type") (letter "t") true.

Definition command_options (op : operation) : options :=
  match op with
  | OpEquivalence _ => equivalence_options
  | OpBinary _ _ => set_op_options
  | OpEnumerateRegex _ _ => enumerate_regex_options
  | OpEnumerateFile _ _ _ => enumerate_options
  | OpTestFile _ _ _ _ => test_file_options
  end.

(** What options and positional arguments mean *)
Definition command_means (op : operation) (gs : settings) (ps : list str) : Prop :=
  match op with
  | OpEquivalence a =>
      value_is reads_type gs "in-type" (ea_in_type a) /\
      value_or reads_type TDfa gs "type" (ea_type a) /\
      flag_is gs "minimized" (ea_minimized a) /\
      flag_is gs "bool" (ea_bool a) /\
      value_is reads_number gs "path-length" (ea_path_length a) /\
      ps = ea_automata a :: ea_files a /\ (forall p, In p ps -> p <> [])
  | OpBinary _ a =>
      value_or reads_type TDfa gs "type" (ba_type a) /\
      value_is reads_type gs "second-type" (ba_second_type a) /\
      value_or reads_type TDfa gs "compared-type" (ba_compared_type a) /\
      flag_is gs "minimized" (ba_minimized a) /\
      value_is reads_number gs "enumerate" (ba_enumerate a) /\
      ps = ba_first a :: ba_second a :: match ba_compare_against a with Some p => [p] | None => [] end /\
      (forall p, In p ps -> p <> [])
  | OpEnumerateRegex n r => value_or reads_number 20 gs "amount" n /\ ps = [r]
  | OpEnumerateFile ty n f =>
      value_or reads_type TDfa gs "type" ty /\ value_or reads_number 30 gs "amount" n /\ ps = [f] /\ f <> []
  | OpTestFile ty tt_ f fs =>
      value_or reads_type TDfa gs "type" ty /\ value_or reads_test_type TLines gs "test-type" tt_ /\
      ps = f :: fs /\ (forall p, In p ps -> p <> [])
  end.

(** The arguments [argv] ask for the run [a]: every option is given at most once. *)
Definition asks_for (argv : list str) (a : dandy_args) : Prop :=
  exists gs cgs ps rest,
    writes_program program_options gs (command_name (da_command a)) rest argv /\
    NoDup (map fst gs) /\
    value_is reads_path gs "out" (da_out a) /\
    flag_is gs "less-logs" (da_no_log a) /\
    writes_command (command_options (da_command a)) cgs ps rest /\
    NoDup (map fst cgs) /\
    command_means (da_command a) cgs ps.

(** ** A way to write every run: options as --name=value, positional arguments after two hyphens *)

Definition assign (l : string) (v : str) : list str := [hyphen :: hyphen :: of_string l ++ equals :: v].
Definition type_word (t : automata_type) : str :=
  match t with TDfa => of_string "dfa" | TNfa => of_string "nfa" | TRegex => of_string "regex" end.
Definition assign_opt {A} (l : string) (text : A -> str) (o : option A) : list str :=
  match o with Some a => assign l (text a) | None => [] end.
Definition set_flag (l : string) (b : bool) : list str := if b then [hyphen :: hyphen :: of_string l] else [].

Definition command_arguments (op : operation) : list str :=
  match op with
  | OpEquivalence a =>
      assign_opt "in-type" type_word (ea_in_type a) ++ assign "type" (type_word (ea_type a)) ++
      set_flag "minimized" (ea_minimized a) ++ set_flag "bool" (ea_bool a) ++
      assign_opt "path-length" decimal (ea_path_length a) ++ [hyphen; hyphen] :: ea_automata a :: ea_files a
  | OpBinary _ a =>
      assign "type" (type_word (ba_type a)) ++ assign_opt "second-type" type_word (ba_second_type a) ++
      assign "compared-type" (type_word (ba_compared_type a)) ++ set_flag "minimized" (ba_minimized a) ++
      assign_opt "enumerate" decimal (ba_enumerate a) ++
      [hyphen; hyphen] :: ba_first a :: ba_second a :: match ba_compare_against a with Some p => [p] | None => [] end
  | OpEnumerateRegex n r => assign "amount" (decimal n) ++ [[hyphen; hyphen]; r]
  | OpEnumerateFile ty n f => assign "type" (type_word ty) ++ assign "amount" (decimal n) ++ [[hyphen; hyphen]; f]
  | OpTestFile ty tt_ f fs =>
      assign "type" (type_word ty) ++
      assign "test-type" (match tt_ with TLines => of_string "lines" | TFiles => of_string "files" end) ++
      [hyphen; hyphen] :: f :: fs
  end.
Definition arguments (a : dandy_args) : list str :=
  assign_opt "out" (fun p => p) (da_out a) ++ set_flag "less-logs" (da_no_log a) ++
  command_name (da_command a) :: command_arguments (da_command a).

(** A run that can be asked for: paths are not empty, numbers are below 2^64 *)
Definition small (n : nat) : Prop := (N.of_nat n < 2 ^ 64)%N.
Definition possible (a : dandy_args) : Prop :=
  da_out a <> Some [] /\
  match da_command a with
  | OpEquivalence e =>
      (forall n, ea_path_length e = Some n -> small n) /\ ea_automata e <> [] /\ (forall p, In p (ea_files e) -> p <> [])
  | OpBinary _ b =>
      (forall n, ba_enumerate b = Some n -> small n) /\ ba_first b <> [] /\ ba_second b <> [] /\ ba_compare_against b <> Some []
  | OpEnumerateRegex n _ => small n
  | OpEnumerateFile _ n f => small n /\ f <> []
  | OpTestFile _ _ f fs => f <> [] /\ (forall p, In p fs -> p <> [])
  end.
