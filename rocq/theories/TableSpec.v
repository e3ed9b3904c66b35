(** * TableSpec: transition tables as parsed data and as text

    Textbook-style definitions of what a well-formed table is, what automaton it denotes, which defects it may have, and
    which texts lay it out.  No parsing or validation code here. *)
From Coq Require Import List NArith Arith Bool.
From Verif Require Import Base Spec.
Import ListNotations.

(** ** Parsed tables *)

(** dandy/src/parser/mod.rs:91-97 [struct ParsedDfaState] *)
Record parsed_dfa_state : Type := mk_parsed_dfa_state {
  pds_name : str;
  pds_initial : bool;
  pds_accepting : bool;
  pds_transitions : list str
}.

(** dandy/src/parser/mod.rs:85-89 [struct ParsedDfa] *)
Record parsed_dfa : Type := mk_parsed_dfa {
  pd_head : list str;
  pd_states : list parsed_dfa_state
}.

(** dandy/src/parser/mod.rs:71-75 [enum NfaAlphabetEntry] *)
Inductive nfa_entry : Type :=
| Element (a : str)
| Eps.

(** dandy/src/parser/mod.rs:77-83 [struct ParsedNfaState] *)
Record parsed_nfa_state : Type := mk_parsed_nfa_state {
  pns_name : str;
  pns_initial : bool;
  pns_accepting : bool;
  pns_transitions : list (list str)
}.

(** dandy/src/parser/mod.rs:65-69 [struct ParsedNfa] *)
Record parsed_nfa : Type := mk_parsed_nfa {
  pn_head : list nfa_entry;
  pn_states : list parsed_nfa_state
}.

(** dandy/src/dfa/parse.rs:8-22 [enum DfaParseError], dandy/src/nfa/parse.rs:8-22 [enum NfaParseError] (same cases) *)
Inductive parse_error : Type :=
| WrongNumberOfTransitions (name : str) (has expected : nat)
| TransitionDoesNotExist (name target : str)
| MissingInitialState
| MultipleInitialStates
| DuplicateAlphabetSymbol (a : str)
| DuplicateStateDefinition (name : str).

(** [Result] *)
Inductive result (A E : Type) : Type :=
| Ok (a : A)
| Err (e : E).
Arguments Ok {A E} a.
Arguments Err {A E} e.

(** ** Well-formed DFA tables and the DFAs they denote *)

(** [x] occurs at least twice in [l]. *)
Definition repeated {A} (x : A) (l : list A) : Prop :=
  exists i j, i <> j /\ nth_error l i = Some x /\ nth_error l j = Some x.

(** Exactly one element of [l] satisfies [P], the one at position [i]. *)
Definition only_at {A} (P : A -> Prop) (l : list A) (i : nat) : Prop :=
  forall j x, nth_error l j = Some x -> (P x <-> j = i).

Record dfa_well_formed (p : parsed_dfa) : Prop := {
  dwf_head : forall a, ~ repeated a (pd_head p);
  dwf_names : forall s, ~ repeated s (map pds_name (pd_states p));
  dwf_width : forall s, In s (pd_states p) -> length (pds_transitions s) = length (pd_head p);
  dwf_targets : forall s t, In s (pd_states p) -> In t (pds_transitions s) -> In t (map pds_name (pd_states p));
  dwf_initial : exists i, i < length (pd_states p) /\ only_at (fun s => pds_initial s = true) (pd_states p) i
}.

(** State [q] of the table is called [name]. *)
Definition dfa_named (p : parsed_dfa) (name : str) (q : nat) : Prop :=
  exists s, nth_error (pd_states p) q = Some s /\ pds_name s = name.

Definition dfa_denotes (p : parsed_dfa) (d : dfa) : Prop :=
  dfa_alphabet d = pd_head p /\
  Forall2 (fun ps s => ds_name s = pds_name ps /\ ds_initial s = pds_initial ps /\ ds_accepting s = pds_accepting ps /\
                       Forall2 (dfa_named p) (pds_transitions ps) (ds_transitions s))
          (pd_states p) (dfa_states d) /\
  exists s, nth_error (pd_states p) (dfa_initial d) = Some s /\ pds_initial s = true.

(** The error describes a defect of the table. *)
Definition dfa_defect (p : parsed_dfa) (e : parse_error) : Prop :=
  match e with
  | DuplicateAlphabetSymbol a => repeated a (pd_head p)
  | DuplicateStateDefinition s => repeated s (map pds_name (pd_states p))
  | WrongNumberOfTransitions name has expected =>
      exists s, In s (pd_states p) /\ pds_name s = name /\ length (pds_transitions s) = has /\
                length (pd_head p) = expected /\ has <> expected
  | TransitionDoesNotExist name t =>
      exists s, In s (pd_states p) /\ pds_name s = name /\ In t (pds_transitions s) /\
                ~ In t (map pds_name (pd_states p))
  | MultipleInitialStates =>
      exists i j s1 s2, i <> j /\ nth_error (pd_states p) i = Some s1 /\ nth_error (pd_states p) j = Some s2 /\
                        pds_initial s1 = true /\ pds_initial s2 = true
  | MissingInitialState => forall s, In s (pd_states p) -> pds_initial s = false
  end.

(** ** The same for NFA tables *)

Record nfa_well_formed (p : parsed_nfa) : Prop := {
  nwf_head : forall a, ~ repeated (Element a) (pn_head p);
  nwf_eps : ~ repeated Eps (pn_head p);
  nwf_names : forall s, ~ repeated s (map pns_name (pn_states p));
  nwf_width : forall s, In s (pn_states p) -> length (pns_transitions s) = length (pn_head p);
  nwf_targets : forall s ts t, In s (pn_states p) -> In ts (pns_transitions s) -> In t ts ->
                               In t (map pns_name (pn_states p));
  nwf_initial : exists i, i < length (pn_states p) /\ only_at (fun s => pns_initial s = true) (pn_states p) i
}.

Definition nfa_named (p : parsed_nfa) (name : str) (q : nat) : Prop :=
  exists s, nth_error (pn_states p) q = Some s /\ pns_name s = name.

(** The elements of a header, without the epsilon column *)
Definition elements (head : list nfa_entry) : list str :=
  flat_map (fun e => match e with Element a => [a] | Eps => [] end) head.

(** The entries of [row] below the columns of the elements, respectively below the (first) epsilon column *)
Fixpoint element_columns {A} (head : list nfa_entry) (row : list A) : list A :=
  match head, row with
  | Element _ :: h, c :: r => c :: element_columns h r
  | Eps :: h, _ :: r => element_columns h r
  | _, _ => []
  end.
Fixpoint eps_column {A} (head : list nfa_entry) (row : list A) : option A :=
  match head, row with
  | Element _ :: h, _ :: r => eps_column h r
  | Eps :: _, c :: _ => Some c
  | _, _ => None
  end.

Definition nfa_denotes (p : parsed_nfa) (n : nfa) : Prop :=
  nfa_alphabet n = elements (pn_head p) /\
  Forall2 (fun ps s => ns_name s = pns_name ps /\ ns_initial s = pns_initial ps /\ ns_accepting s = pns_accepting ps /\
                       Forall2 (Forall2 (nfa_named p)) (element_columns (pn_head p) (pns_transitions ps)) (ns_transitions s) /\
                       match eps_column (pn_head p) (pns_transitions ps) with
                       | Some c => Forall2 (nfa_named p) c (ns_eps s)
                       | None => ns_eps s = []
                       end)
          (pn_states p) (nfa_states n) /\
  exists s, nth_error (pn_states p) (nfa_initial n) = Some s /\ pns_initial s = true.

(** The character "ε" as a string *)
Definition epsilon_str : str := [949%N].

Definition nfa_defect (p : parsed_nfa) (e : parse_error) : Prop :=
  match e with
  | DuplicateAlphabetSymbol a => repeated (Element a) (pn_head p) \/ (a = epsilon_str /\ repeated Eps (pn_head p))
  | DuplicateStateDefinition s => repeated s (map pns_name (pn_states p))
  | WrongNumberOfTransitions name has expected =>
      exists s, In s (pn_states p) /\ pns_name s = name /\ length (pns_transitions s) = has /\
                length (pn_head p) = expected /\ has <> expected
  | TransitionDoesNotExist name t =>
      exists s ts, In s (pn_states p) /\ pns_name s = name /\ In ts (pns_transitions s) /\ In t ts /\
                   ~ In t (map pns_name (pn_states p))
  | MultipleInitialStates =>
      exists i j s1 s2, i <> j /\ nth_error (pn_states p) i = Some s1 /\ nth_error (pn_states p) j = Some s2 /\
                        pns_initial s1 = true /\ pns_initial s2 = true
  | MissingInitialState => forall s, In s (pn_states p) -> pns_initial s = false
  end.
