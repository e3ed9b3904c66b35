(** * MessageSpec: what the error messages for tables say, independently of the model *)
From Coq Require Import List NArith Arith Bool Ascii String DecimalString.
From Verif Require Import Base TableSpec Messages.
Import ListNotations.
Close Scope string_scope.
Open Scope list_scope.

(** a number in decimal notation *)
Definition decimal (n : nat) : str := of_string (NilEmpty.string_of_uint (Nat.to_uint n)).

(** The text [m] describes the defect [e] *)
Inductive describes : parse_error -> str -> Prop :=
| says_width name has expected : describes (WrongNumberOfTransitions name has expected)
    (of_string "Wrong number of transitions for state '" ++ name ++ of_string "': has " ++ decimal has ++ of_string " expected " ++ decimal expected)
| says_target name target : describes (TransitionDoesNotExist name target)
    (of_string "State '" ++ target ++ of_string "' does not exist (in transition from state '" ++ name ++ of_string "')")
| says_no_initial : describes MissingInitialState (of_string "There is no initial state")
| says_initials : describes MultipleInitialStates (of_string "There are two (or more) initial states")
| says_symbol a : describes (DuplicateAlphabetSymbol a) (of_string "'" ++ a ++ of_string "' appears twice in the alphabet")
| says_state name : describes (DuplicateStateDefinition name) (of_string "State '" ++ name ++ of_string "' defined multiple times").

Lemma dec_decimal n : dec n = decimal n.
Proof.
  unfold dec, decimal. generalize (Nat.to_uint n). intros u.
  induction u; cbn [uint_str NilEmpty.string_of_uint]; [reflexivity| ..]; rewrite IHu; reflexivity.
Qed.

Lemma error_text_describes e : describes e (error_text e).
Proof. destruct e; cbn [error_text]; rewrite ?dec_decimal; constructor. Qed.
