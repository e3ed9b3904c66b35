(** * Regular expressions: C36 and the regex part of C26 *)
From Coq Require Import List NArith Arith Bool Lia.
From Verif Require Import Base BaseLemmas Spec NfaModel RegexModel NfaBasics RegexProofs Messages MessageSpec Examples.
Import ListNotations.

(** ** C36: [to_nfa] accepts exactly what the expression matches *)
Theorem C36_regex_to_nfa : forall h t w, nfa_lang (regex_to_nfa h t) w <-> matches t w.
Proof. intros h t. apply regex_to_nfa_correct. Qed.
Print Assumptions C36_regex_to_nfa.

(** the alphabet consists of the graphemes of the expression, each once, in the order of their first occurrences *)
Theorem C36_alphabet : forall h t, nfa_alphabet (regex_to_nfa h t) = first_occurrences (regex_graphemes t).
Proof. intros h t. apply regex_to_nfa_correct. Qed.
Print Assumptions C36_alphabet.

Theorem C36_valid : forall h t, nfa_valid (regex_to_nfa h t).
Proof. intros h t. apply regex_to_nfa_correct. Qed.
Print Assumptions C36_valid.

(** evaluating the automaton of an expression decides matching, and never panics *)
Theorem C36_evaluate : forall h t w,
  exists b, nfa_accepts (regex_to_nfa h t) w = Ret b /\ (b = true <-> matches t w).
Proof.
  intros h t w. destruct (regex_to_nfa_correct h t) as (V & _ & HL).
  destruct (nfa_accepts_correct _ w V) as (b & Hb & Hi). exists b. split; auto. rewrite Hi. auto.
Qed.
Print Assumptions C36_evaluate.

(** ** C26: the names of the states of a regex automaton are unique *)
Theorem C26_regex_names : forall h t, NoDup (map ns_name (nfa_states (regex_to_nfa h t))).
Proof. intros h t. apply (C36_valid h t). Qed.
Print Assumptions C26_regex_names.

(** the states are numbered *)
Theorem C36_names : forall h t,
  map ns_name (nfa_states (regex_to_nfa h t)) = map decimal (seq 0 (length (nfa_states (regex_to_nfa h t)))).
Proof. intros h t. rewrite <- (map_ext _ _ dec_decimal). apply regex_to_nfa_full. Qed.
Print Assumptions C36_names.

(** (b|a)*ab, with an empty sequence and an empty alternative thrown in *)
Definition ex_regex : regex_tree :=
  RSequence [RRepeat (RAlt [RChar (RGrapheme el_b); RChar (RGrapheme el_a); RSequence []; RAlt []]);
             RChar (RGrapheme el_a); RChar (RGrapheme el_b); RChar REpsilon].
Example C36_example :
  matches ex_regex [el_b; el_a; el_b] /\ ~ matches ex_regex [el_b; el_a] /\
  nfa_accepts (regex_to_nfa rev_order ex_regex) [el_b; el_a; el_b] = Ret true /\
  nfa_alphabet (regex_to_nfa rev_order ex_regex) = [el_b; el_a].
Proof.
  split; [|split; [|split; vm_compute; reflexivity]].
  - apply (proj1 (C36_regex_to_nfa rev_order _ _)). destruct (nfa_accepts_correct _ [el_b; el_a; el_b] (C36_valid rev_order ex_regex)) as (b & Hb & Hi).
    apply Hi. vm_compute in Hb. congruence.
  - intros H. destruct (C36_evaluate rev_order ex_regex [el_b; el_a]) as (b & Hb & Hi). apply Hi in H. subst b.
    vm_compute in Hb. discriminate.
Qed.
