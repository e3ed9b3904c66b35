(** * ConvSpec: conversions between the kinds of automata in the command line tool *)
From Coq Require Import Ascii String List NArith Arith Bool.
From Verif Require Import Base Spec TableModel Messages CliModel CliSpec.
Import ListNotations.
Close Scope string_scope.
Open Scope list_scope.

(** Automata as they come out of the constructors of the library; every expression is fine *)
Definition sound (a : automata) : Prop :=
  match a with ADfa d => dfa_valid d | ANfa n => nfa_valid n | ARegex _ => True end.
Definition is_dfa (a : automata) : Prop := exists d, a = ADfa d.
Definition is_nfa (a : automata) : Prop := exists n, a = ANfa n.
Definition is_regex (a : automata) : Prop := exists t, a = ARegex t.

(** The same elements in the same order, and the same words *)
Definition keeps (a b : automata) : Prop := a_alphabet b = a_alphabet a /\ forall w, a_lang b w <-> a_lang a w.

(** What a comparison says on the error stream *)
Inductive comparison_says : automata -> automata -> bool -> list str -> Prop :=
| says_dfas : forall d1 d2 m, comparison_says (ADfa d1) (ADfa d2) m []
| says_nothing : forall a b, ~ is_regex a -> comparison_says a b false []
| says_tested : forall a b, ~ is_regex a -> ~ is_dfa b ->
    comparison_says a b true [of_string "Can only check minimization if the tested type is a DFA"]
| says_base : forall n d, comparison_says (ANfa n) (ADfa d) true
    [of_string "Minimized option ignored: make sure the base automata is the correct type.";
     of_string "This is most likely an internal error; please send a bug report"]
| says_regex : forall t b m, comparison_says (ARegex t) b m
    ([of_string "Testing with Regex as base, this gives poor performance";
      of_string "This is most likely an internal error; please send a bug report"] ++
     (if m then [of_string "Can only check minimization if the tested type is a DFA"] else [])).

(** What a comparison answers *)
Inductive comparison_answers : automata -> automata -> bool -> equivalence_result -> Prop :=
| answers_different : forall a b m, ~ same_meaning a b -> comparison_answers a b m NotEquivalent
| answers_large : forall d1 d2, same_meaning (ADfa d1) (ADfa d2) -> length (dfa_states d1) <> length (dfa_states d2) ->
    comparison_answers (ADfa d1) (ADfa d2) true NotMinimized
| answers_same : forall a b m, same_meaning a b ->
    (m = true -> forall d1 d2, a = ADfa d1 -> b = ADfa d2 -> length (dfa_states d1) = length (dfa_states d2)) ->
    comparison_answers a b m Equivalent.
