(** * Spec: what automata, regular expressions and their languages are

    This file contains the data types of the library and textbook definitions about them.  It contains no code of the
    library: no evaluators, no worklists, no constructions. *)
From Coq Require Import List NArith Arith Bool.
From Verif Require Import Base.
Import ListNotations.

(** ** Data types *)

(** dandy/src/dfa/mod.rs:244-249 [struct DfaState] *)
Record dfa_state : Type := mk_dfa_state {
  ds_name : str;
  ds_initial : bool;
  ds_accepting : bool;
  ds_transitions : list nat
}.

(** dandy/src/dfa/mod.rs:235-239 [struct Dfa] *)
Record dfa : Type := mk_dfa {
  dfa_alphabet : list str;
  dfa_states : list dfa_state;
  dfa_initial : nat
}.

(** dandy/src/nfa/mod.rs:271-277 [struct NfaState] *)
Record nfa_state : Type := mk_nfa_state {
  ns_name : str;
  ns_initial : bool;
  ns_accepting : bool;
  ns_eps : list nat;
  ns_transitions : list (list nat)
}.

(** dandy/src/nfa/mod.rs:262-266 [struct Nfa] *)
Record nfa : Type := mk_nfa {
  nfa_alphabet : list str;
  nfa_states : list nfa_state;
  nfa_initial : nat
}.

(** dandy/src/regex/mod.rs:72-77 [enum RegexChar] *)
Inductive regex_char : Type :=
| RGrapheme (g : str)
| REpsilon
| REmpty.

(** dandy/src/regex/mod.rs:64-70 [enum RegexTree] *)
Inductive regex_tree : Type :=
| RSequence (l : list regex_tree)
| RAlt (l : list regex_tree)
| RRepeat (r : regex_tree)
| RChar (c : regex_char).

(** A word is a list of alphabet elements (each of which is a string). *)
Definition word : Type := list str.

(** ** Deterministic automata *)

(** In state [p], the column of element [a] holds [q]. *)
Definition dfa_edge (d : dfa) (p : nat) (a : str) (q : nat) : Prop :=
  exists i s, nth_error (dfa_alphabet d) i = Some a /\
              nth_error (dfa_states d) p = Some s /\
              nth_error (ds_transitions s) i = Some q.

(** Reading [w] from [p] leads to [q]. *)
Inductive dfa_path (d : dfa) : nat -> word -> nat -> Prop :=
| dfa_path_nil p : dfa_path d p [] p
| dfa_path_cons p a q w r : dfa_edge d p a q -> dfa_path d q w r -> dfa_path d p (a :: w) r.

Definition dfa_accepting (d : dfa) (q : nat) : Prop :=
  exists s, nth_error (dfa_states d) q = Some s /\ ds_accepting s = true.

(** The language of a state, and of the automaton *)
Definition dfa_state_lang (d : dfa) (p : nat) (w : word) : Prop :=
  exists q, dfa_path d p w q /\ dfa_accepting d q.
Definition dfa_lang (d : dfa) (w : word) : Prop := dfa_state_lang d (dfa_initial d) w.

(** Valid DFAs: the transition table of a complete DFA with one initial state and unambiguous names *)
Record dfa_valid (d : dfa) : Prop := {
  dv_alphabet : NoDup (dfa_alphabet d);
  dv_names : NoDup (map ds_name (dfa_states d));
  dv_initial : dfa_initial d < length (dfa_states d);
  dv_flag : forall q s, nth_error (dfa_states d) q = Some s -> (ds_initial s = true <-> q = dfa_initial d);
  dv_width : forall q s, nth_error (dfa_states d) q = Some s -> length (ds_transitions s) = length (dfa_alphabet d);
  dv_range : forall q s t, nth_error (dfa_states d) q = Some s -> In t (ds_transitions s) ->
                           t < length (dfa_states d)
}.

Definition over (alphabet : list str) (w : word) : Prop := Forall (fun a => In a alphabet) w.

(** A state is reachable when some word leads to it. *)
Definition dfa_reachable (d : dfa) (q : nat) : Prop := exists w, dfa_path d (dfa_initial d) w q.

(** Two states are indistinguishable when no word is accepted from one and not from the other. *)
Definition dfa_indist (d : dfa) (p q : nat) : Prop := forall w, dfa_state_lang d p w <-> dfa_state_lang d q w.

(** ** Non-deterministic automata with epsilon moves *)

Definition nfa_edge (n : nfa) (p : nat) (a : str) (q : nat) : Prop :=
  exists i s ts, nth_error (nfa_alphabet n) i = Some a /\
                 nth_error (nfa_states n) p = Some s /\
                 nth_error (ns_transitions s) i = Some ts /\ In q ts.

Definition nfa_eps_edge (n : nfa) (p q : nat) : Prop :=
  exists s, nth_error (nfa_states n) p = Some s /\ In q (ns_eps s).

(** Some run from [p] to [q] spells [w]. *)
Inductive nfa_path (n : nfa) : nat -> word -> nat -> Prop :=
| nfa_path_nil p : nfa_path n p [] p
| nfa_path_eps p q w r : nfa_eps_edge n p q -> nfa_path n q w r -> nfa_path n p w r
| nfa_path_cons p a q w r : nfa_edge n p a q -> nfa_path n q w r -> nfa_path n p (a :: w) r.

Definition nfa_accepting (n : nfa) (q : nat) : Prop :=
  exists s, nth_error (nfa_states n) q = Some s /\ ns_accepting s = true.

Definition nfa_state_lang (n : nfa) (p : nat) (w : word) : Prop :=
  exists q, nfa_path n p w q /\ nfa_accepting n q.
Definition nfa_lang (n : nfa) (w : word) : Prop := nfa_state_lang n (nfa_initial n) w.

Record nfa_valid (n : nfa) : Prop := {
  nv_alphabet : NoDup (nfa_alphabet n);
  nv_names : NoDup (map ns_name (nfa_states n));
  nv_initial : nfa_initial n < length (nfa_states n);
  nv_flag : forall q s, nth_error (nfa_states n) q = Some s -> (ns_initial s = true <-> q = nfa_initial n);
  nv_width : forall q s, nth_error (nfa_states n) q = Some s -> length (ns_transitions s) = length (nfa_alphabet n);
  nv_range : forall q s ts t, nth_error (nfa_states n) q = Some s -> In ts (ns_transitions s) -> In t ts ->
                              t < length (nfa_states n);
  nv_eps_range : forall q s t, nth_error (nfa_states n) q = Some s -> In t (ns_eps s) -> t < length (nfa_states n)
}.

(** A state is reachable when some run leads to it. *)
Definition nfa_reachable (n : nfa) (q : nat) : Prop := exists w, nfa_path n (nfa_initial n) w q.

Definition eps_free (n : nfa) : Prop := forall q s, nth_error (nfa_states n) q = Some s -> ns_eps s = [].

(** ** Alphabets are compared as sets *)
Definition same_set {A} (l1 l2 : list A) : Prop := forall x, In x l1 <-> In x l2.

(** ** Regular expressions *)
Inductive matches : regex_tree -> word -> Prop :=
| m_char g : matches (RChar (RGrapheme g)) [g]
| m_eps : matches (RChar REpsilon) []
| m_seq l w : matches_seq l w -> matches (RSequence l) w
| m_alt l r w : In r l -> matches r w -> matches (RAlt l) w
| m_rep_nil r : matches (RRepeat r) []
| m_rep_cons r w1 w2 : matches r w1 -> matches (RRepeat r) w2 -> matches (RRepeat r) (w1 ++ w2)
with matches_seq : list regex_tree -> word -> Prop :=
| ms_nil : matches_seq [] []
| ms_cons r l w1 w2 : matches r w1 -> matches_seq l w2 -> matches_seq (r :: l) (w1 ++ w2).

(** ** Orders on words (as lists of alphabet indices): shorter first, then lexicographic *)
Inductive lex_lt : list nat -> list nat -> Prop :=
| lex_lt_nil x l : lex_lt [] (x :: l)
| lex_lt_head x y l1 l2 : x < y -> lex_lt (x :: l1) (y :: l2)
| lex_lt_tail x l1 l2 : lex_lt l1 l2 -> lex_lt (x :: l1) (x :: l2).

Definition shortlex_lt (u v : list nat) : Prop :=
  length u < length v \/ (length u = length v /\ lex_lt u v).

(** ** Isomorphism of DFAs over the same set of elements: a bijection on states that respects everything a user can
    observe apart from names and numbering *)
Record dfa_iso (d1 d2 : dfa) (f : nat -> nat) : Prop := {
  iso_range : forall q, q < length (dfa_states d1) -> f q < length (dfa_states d2);
  iso_inj : forall p q, p < length (dfa_states d1) -> q < length (dfa_states d1) -> f p = f q -> p = q;
  iso_surj : forall q, q < length (dfa_states d2) -> exists p, p < length (dfa_states d1) /\ f p = q;
  iso_initial : f (dfa_initial d1) = dfa_initial d2;
  iso_accepting : forall q, q < length (dfa_states d1) -> (dfa_accepting d1 q <-> dfa_accepting d2 (f q));
  iso_edge : forall p a q, p < length (dfa_states d1) -> q < length (dfa_states d1) ->
                           (dfa_edge d1 p a q <-> dfa_edge d2 (f p) a (f q))
}.

(** ** Restriction to some of the states: [d'] is [d] restricted to the states [k] (old numbers, in the new order) *)
Definition dfa_restriction (k : list nat) (d d' : dfa) : Prop :=
  dfa_alphabet d' = dfa_alphabet d /\
  nth_error k (dfa_initial d') = Some (dfa_initial d) /\
  Forall2 (fun q s' => exists s, nth_error (dfa_states d) q = Some s /\ ds_name s' = ds_name s /\
                            ds_initial s' = ds_initial s /\ ds_accepting s' = ds_accepting s /\
                            Forall2 (fun t t' => nth_error k t' = Some t) (ds_transitions s) (ds_transitions s'))
          k (dfa_states d').

(** The same for NFAs; target lists are kept in order *)
Definition nfa_restriction (k : list nat) (n n' : nfa) : Prop :=
  nfa_alphabet n' = nfa_alphabet n /\
  nth_error k (nfa_initial n') = Some (nfa_initial n) /\
  Forall2 (fun q s' => exists s, nth_error (nfa_states n) q = Some s /\ ns_name s' = ns_name s /\
                            ns_initial s' = ns_initial s /\ ns_accepting s' = ns_accepting s /\
                            Forall2 (fun t t' => nth_error k t' = Some t) (ns_eps s) (ns_eps s') /\
                            Forall2 (Forall2 (fun t t' => nth_error k t' = Some t)) (ns_transitions s) (ns_transitions s'))
          k (nfa_states n').

(** ** Pairs of runs of two NFAs, as walked by the product construction: when an element can be read in only one of the
    two states of a pair, the run of the other automaton ends and is absent from then on *)

(** Some run dies while reading [w]: it reaches a state that has no move for the next element. *)
Definition nfa_stuck (n : nfa) (w : word) : Prop :=
  exists u a v q, w = u ++ a :: v /\ nfa_path n (nfa_initial n) u q /\ ~ exists t, nfa_edge n q a t.

Definition nfa_pair_reached (n1 n2 : nfa) (w : word) (s1 s2 : option nat) : Prop :=
  match s1, s2 with
  | Some q1, Some q2 => nfa_path n1 (nfa_initial n1) w q1 /\ nfa_path n2 (nfa_initial n2) w q2
  | Some q1, None => nfa_path n1 (nfa_initial n1) w q1 /\ nfa_stuck n2 w
  | None, Some q2 => nfa_stuck n1 w /\ nfa_path n2 (nfa_initial n2) w q2
  | None, None => False
  end.

(** The state with an optional number *)
Definition nfa_at (n : nfa) (s : option nat) : option nfa_state :=
  match s with None => None | Some q => nth_error (nfa_states n) q end.

(** ** Dead states, as documented for epsilon removal (dandy/src/nfa/mod.rs:686-696): not accepting, not initial, and all
    transitions, after following epsilon moves, go to dead states.  [keep_initial = false] is the variant in which the
    initial state has no special standing. *)
Inductive nfa_dead (n : nfa) (keep_initial : bool) : nat -> Prop :=
| nfa_dead_intro q :
    q < length (nfa_states n) -> ~ nfa_accepting n q -> (keep_initial = true -> q <> nfa_initial n) ->
    (forall a t0 t, nfa_edge n q a t0 -> nfa_path n t0 [] t -> nfa_dead n keep_initial t) ->
    nfa_dead n keep_initial q.

(** ** Words given as positions in the alphabet *)
Definition spells (alphabet : list str) (idx : list nat) (w : word) : Prop :=
  Forall2 (fun i a => nth_error alphabet i = Some a) idx w.

(** ** The graphemes of a regular expression, in order of occurrence *)
Fixpoint regex_graphemes (t : regex_tree) : list str :=
  match t with
  | RSequence l => flat_map regex_graphemes l
  | RAlt l => flat_map regex_graphemes l
  | RRepeat r => regex_graphemes r
  | RChar (RGrapheme g) => [g]
  | RChar _ => []
  end.

(** [l] without the repetitions: every element stays where it occurs first *)
Fixpoint first_occurrences {A} `{Eqb A} (l : list A) : list A :=
  match l with
  | [] => []
  | x :: xs => x :: filter (fun y => negb (eqb x y)) (first_occurrences xs)
  end.
