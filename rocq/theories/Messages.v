(** * Messages: texts of error messages *)
From Coq Require Import List NArith Arith Bool Ascii String.
From Verif Require Import Base TableSpec.
Import ListNotations.
Close Scope string_scope.
Open Scope list_scope.

(** ASCII text as a string of code points. The literals of dandy-cli/src/*.rs, dandy/src/dfa/parse.rs:6-22,
    dandy/src/nfa/parse.rs:6-22 and dandy-wasm/src/lib.rs are written this way. *)
Definition of_string (s : string) : str := map N_of_ascii (list_ascii_of_string s).

(** dandy/src/dfa/parse.rs:8-22 and dandy/src/nfa/parse.rs:8-22: the [Display] texts derived by thiserror *)
Definition error_text (e : parse_error) : str :=
  match e with
  | WrongNumberOfTransitions name has expected =>
      of_string "Wrong number of transitions for state '" ++ name ++ of_string "': has " ++ dec has ++
      of_string " expected " ++ dec expected
  | TransitionDoesNotExist name target =>
      of_string "State '" ++ target ++ of_string "' does not exist (in transition from state '" ++ name ++ of_string "')"
  | MissingInitialState => of_string "There is no initial state"
  | MultipleInitialStates => of_string "There are two (or more) initial states"
  | DuplicateAlphabetSymbol a => of_string "'" ++ a ++ of_string "' appears twice in the alphabet"
  | DuplicateStateDefinition name => of_string "State '" ++ name ++ of_string "' defined multiple times"
  end.
