(** * ArtSpec: texts that can be read off from ASCII art

    Nothing of the code is modelled here. *)
From Coq Require Import List NArith Arith Bool.
From Verif Require Import Base Spec DrawModel DrawSpec.
Import ListNotations.

(** names without spaces and line feeds *)
Definition plain_name (s : str) : Prop := s <> [] /\ ~ In 32%N s /\ ~ In 10%N s.
(** symbols without spaces, line feeds and vertical bars *)
Definition plain_symbol (a : str) : Prop := a <> [] /\ ~ In 32%N a /\ ~ In 10%N a /\ ~ In 124%N a.

(** Automata with such names and symbols, and with labels that fit between their states *)
Record dfa_plain (d : dfa) : Prop := {
  dp_valid : dfa_valid d;
  dp_names : forall s, In s (dfa_states d) -> plain_name (ds_name s);
  dp_symbols : forall a, In a (dfa_alphabet d) -> plain_symbol a;
  dp_fit : exists w, widest (map ds_name (dfa_states d)) w /\ labels_fit w (length (dfa_states d)) (dfa_labels d)
}.
Record nfa_plain (n : nfa) : Prop := {
  np_valid : nfa_valid n;
  np_names : forall s, In s (nfa_states n) -> plain_name (ns_name s);
  np_symbols : forall a, In a (nfa_alphabet n) -> plain_symbol a /\ a <> [949%N];
  np_fit : exists w, widest (map ns_name (nfa_states n)) w /\ labels_fit w (length (nfa_states n)) (nfa_labels n)
}.

(** A state without the mark of the initial state *)
Definition dfa_shown (s : dfa_state) : str * bool * list nat := (ds_name s, ds_accepting s, ds_transitions s).
Definition nfa_shown (s : nfa_state) : str * bool * list (list nat) * list nat := (ns_name s, ns_accepting s, ns_transitions s, ns_eps s).
