(** * GenModel: the generators of the property tests

    dandy/src/tests.rs:291-514.  A proptest strategy is modelled by the predicate of the values it can draw, and the closing
    expression of [prop_compose!] by a function.  [shuffle] gives an arbitrary permutation and a [HashSet] is visited in an
    arbitrary order. *)
From Coq Require Import List NArith Arith Bool Permutation.
From Verif Require Import Base Spec TableSpec LayoutSpec.
Import ListNotations.

(** dandy/src/tests.rs:445-448, 467-470: the positions of the [true]s *)
Definition chosen (bits : list bool) : list nat := map fst (filter snd (enumerate bits)).

(** dandy/src/tests.rs:502-514 [filtered_set] with the class [[^\s#{}]+] and the words that are denied.  [\s] is taken to be
    the whitespace of [char::is_whitespace], which the filter excludes anyway. *)
Definition token_drawn (s : str) : Prop :=
  s <> [] /\ (forall c, In c s -> ~ whitespace c /\ ~ In c [35; 123; 125]%N) /\
  ~ In s [[949]; [101; 112; 115]; [8594]; [45; 62]; [42]]%N.

(** dandy/src/tests.rs:502-514 [filtered_set]: a set of the given size *)
Definition filtered_set_drawn (ok : str -> Prop) (count : nat) (names : list str) : Prop :=
  length names = count /\ NoDup names /\ Forall ok names.
(** dandy/src/tests.rs:478-484, 494-500 *)
Definition state_names_drawn : nat -> list str -> Prop := filtered_set_drawn token_drawn.

(** dandy/src/tests.rs:494-500 *)
Definition alphabet_elems_drawn : nat -> list str -> Prop := filtered_set_drawn token_drawn.

(** dandy/src/tests.rs:433-439 *)
Definition dfa_transitions_drawn (states alphabet_size : nat) (ts : list nat) : Prop :=
  length ts = alphabet_size /\ Forall (fun t => t < states) ts.
(** dandy/src/tests.rs:441-453 *)
Definition epsilon_transitions_drawn (states : nat) (ts : list nat) : Prop :=
  exists bits, length bits = states /\ Permutation (chosen bits) ts.
(** dandy/src/tests.rs:455-476: every row is chosen and shuffled like the epsilon transitions *)
Definition nfa_transitions_drawn (states alphabet_size : nat) (ts : list (list nat)) : Prop :=
  length ts = alphabet_size /\ Forall (epsilon_transitions_drawn states) ts.

(** [vec(s, count..=count)]. dandy/src/tests.rs:291-431 (the vectors of the generators) *)
Definition vec_drawn {A} (ok : A -> Prop) (count : nat) (l : list A) : Prop := length l = count /\ Forall ok l.

(** dandy/src/tests.rs:376-390, 411-425 *)
Definition build_dfa (alphabet names : list str) (initial_state : nat) (accepting : list bool) (transitions : list (list nat)) : dfa :=
  {| dfa_alphabet := alphabet;
     dfa_states := map (fun '(idx, (name, (acc, ts))) =>
                          {| ds_name := name; ds_initial := idx =? initial_state; ds_accepting := acc; ds_transitions := ts |})
                       (enumerate (combine names (combine accepting transitions)));
     dfa_initial := initial_state |}.
(** dandy/src/tests.rs:302-319, 342-357 *)
Definition build_nfa (alphabet names : list str) (initial_state : nat) (accepting : list bool) (transitions : list (list (list nat)))
  (epsilon_transitions : list (list nat)) : nfa :=
  {| nfa_alphabet := alphabet;
     nfa_states := map (fun '(idx, (name, (acc, (ts, eps)))) =>
                          {| ns_name := name; ns_initial := idx =? initial_state; ns_accepting := acc;
                             ns_transitions := ts; ns_eps := eps |})
                       (enumerate (combine names (combine accepting (combine transitions epsilon_transitions))));
     nfa_initial := initial_state |}.

(** dandy/src/tests.rs:401-431 [dfa(max_states, max_alphabet_size)] *)
Definition dfa_drawn (max_states max_alphabet_size : nat) (d : dfa) : Prop :=
  exists num_states alphabet_size states alphabet initial_state accepting transitions,
    1 <= num_states < max_states /\ 1 <= alphabet_size < max_alphabet_size /\
    state_names_drawn num_states states /\ alphabet_elems_drawn alphabet_size alphabet /\ initial_state < num_states /\
    vec_drawn (fun _ : bool => True) num_states accepting /\
    vec_drawn (dfa_transitions_drawn num_states alphabet_size) num_states transitions /\
    d = build_dfa alphabet states initial_state accepting transitions.
(** dandy/src/tests.rs:366-399 [fixed_alphabet_dfa(max_states, alphabet, alphabet_size)]; [alphabet] is the range of characters *)
Definition fixed_alphabet_dfa_drawn (max_states : nat) (alphabet : list N) (alphabet_size : nat) (d : dfa) : Prop :=
  exists num_states states shuffled initial_state accepting transitions,
    1 <= num_states < max_states /\
    state_names_drawn num_states states /\ initial_state < num_states /\
    vec_drawn (fun _ : bool => True) num_states accepting /\
    vec_drawn (dfa_transitions_drawn num_states alphabet_size) num_states transitions /\
    Permutation (map (fun c => [c]) alphabet) shuffled /\
    d = build_dfa shuffled states initial_state accepting transitions.
(** dandy/src/tests.rs:330-364 [nfa(max_states, max_alphabet_size)] *)
Definition nfa_drawn (max_states max_alphabet_size : nat) (n : nfa) : Prop :=
  exists num_states alphabet_size states alphabet initial_state accepting epsilon_transitions transitions,
    1 <= num_states < max_states /\ 1 <= alphabet_size < max_alphabet_size /\
    state_names_drawn num_states states /\ alphabet_elems_drawn alphabet_size alphabet /\ initial_state < num_states /\
    vec_drawn (fun _ : bool => True) num_states accepting /\
    vec_drawn (epsilon_transitions_drawn num_states) num_states epsilon_transitions /\
    vec_drawn (nfa_transitions_drawn num_states alphabet_size) num_states transitions /\
    n = build_nfa alphabet states initial_state accepting transitions epsilon_transitions.
(** dandy/src/tests.rs:291-328 [fixed_alphabet_nfa(max_states, alphabet, alphabet_size)] *)
Definition fixed_alphabet_nfa_drawn (max_states : nat) (alphabet : list N) (alphabet_size : nat) (n : nfa) : Prop :=
  exists num_states states shuffled initial_state accepting transitions epsilon_transitions,
    1 <= num_states < max_states /\
    state_names_drawn num_states states /\ initial_state < num_states /\
    vec_drawn (fun _ : bool => True) num_states accepting /\
    vec_drawn (nfa_transitions_drawn num_states alphabet_size) num_states transitions /\
    vec_drawn (epsilon_transitions_drawn num_states) num_states epsilon_transitions /\
    Permutation (map (fun c => [c]) alphabet) shuffled /\
    n = build_nfa shuffled states initial_state accepting transitions epsilon_transitions.
