(** * ReproSpec: automata that differ in names or in the order inside target sets only *)
From Coq Require Import List NArith Arith Bool.
From Verif Require Import Base DfaModel NfaModel Spec.
Import ListNotations.

(** the same states in the same order, with the same flags and transitions; only the names may differ *)
Definition dfa_same_but_names (d d' : dfa) : Prop :=
  dfa_alphabet d = dfa_alphabet d' /\ dfa_initial d = dfa_initial d' /\
  Forall2 (fun s s' => ds_initial s = ds_initial s' /\ ds_accepting s = ds_accepting s' /\ ds_transitions s = ds_transitions s')
          (dfa_states d) (dfa_states d').
Definition nfa_same_but_names (n n' : nfa) : Prop :=
  nfa_alphabet n = nfa_alphabet n' /\ nfa_initial n = nfa_initial n' /\
  Forall2 (fun s s' => ns_initial s = ns_initial s' /\ ns_accepting s = ns_accepting s' /\ ns_eps s = ns_eps s' /\
                       ns_transitions s = ns_transitions s')
          (nfa_states n) (nfa_states n').

(** the same states in the same order, with the same names, flags and sets of targets; only the order in which the
    targets are listed may differ *)
Definition nfa_same_but_order (n n' : nfa) : Prop :=
  nfa_alphabet n = nfa_alphabet n' /\ nfa_initial n = nfa_initial n' /\
  Forall2 (fun s s' => ns_name s = ns_name s' /\ ns_initial s = ns_initial s' /\ ns_accepting s = ns_accepting s' /\
                       ns_eps s = ns_eps s' /\ Forall2 same_set (ns_transitions s) (ns_transitions s'))
          (nfa_states n) (nfa_states n').

(** no state name contains a comma *)
Definition no_comma (names : list str) : Prop := forall nm, In nm names -> ~ In 44%N nm.

(** no state is called "none", the name the product of NFAs gives to an automaton that has no state left *)
Definition not_none (names : list str) : Prop := ~ In [110; 111; 110; 101]%N names.
