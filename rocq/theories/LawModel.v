(** * LawModel: what a caller does to compare two typed expressions *)
From Coq Require Import List Bool.
From Verif Require Import Base Spec DfaModel NfaModel RegexModel RegexParserModel.
Import ListNotations.

(** [parser::regex] twice (dandy/src/parser/mod.rs:119-123), [Regex::to_nfa] (dandy/src/regex/mod.rs:104-155) and
    [Nfa::equivalent_to] (dandy/src/nfa/mod.rs:1237-1272); [None] when a text does not parse *)
Definition compare_texts (seg : str -> list str) (h1 h2 : hash_order) (u1 u2 : str) : R (option bool) :=
  o1 <- parse_regex seg u1 ;;
  o2 <- parse_regex seg u2 ;;
  match o1, o2 with
  | Some t1, Some t2 => rmap Some (nfa_equivalent_to (regex_to_nfa h1 t1) (regex_to_nfa h2 t2))
  | _, _ => Ret None
  end.

(** The same with [Nfa::to_dfa] (dandy/src/nfa/mod.rs:1057-1122) and [Dfa::equivalent_to] (dandy/src/dfa/mod.rs:899-931) *)
Definition compare_texts_as_dfas (seg : str -> list str) (h1 h2 h3 h4 : hash_order) (u1 u2 : str) : R (option bool) :=
  o1 <- parse_regex seg u1 ;;
  o2 <- parse_regex seg u2 ;;
  match o1, o2 with
  | Some t1, Some t2 =>
      d1 <- nfa_to_dfa h3 (regex_to_nfa h1 t1) ;;
      d2 <- nfa_to_dfa h4 (regex_to_nfa h2 t2) ;;
      rmap Some (dfa_equivalent_to d1 d2)
  | _, _ => Ret None
  end.
