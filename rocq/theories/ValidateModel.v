(** * ValidateModel: from parsed tables to automata

    Models dandy/src/dfa/parse.rs and dandy/src/nfa/parse.rs.  Neither function can panic, so both are pure. *)
From Coq Require Import List NArith Arith Bool.
From Verif Require Import Base Spec TableSpec.
Import ListNotations.

(** The first element that is already in the set when it is inserted: dandy/src/dfa/parse.rs:32-35 (in the header) and 46-50 (among
    the names); dandy/src/nfa/parse.rs:58-62 *)
Fixpoint first_repeated {A} `{Eqb A} (seen l : list A) : option A :=
  match l with
  | [] => None
  | x :: xs => let '(seen', new) := hs_insert x seen in if new then first_repeated seen' xs else Some x
  end.

(** dandy/src/dfa/parse.rs:38-42, dandy/src/nfa/parse.rs:50-54: [state_name_map] *)
Definition name_map (names : list str) : list (str * nat) :=
  hm_collect (map (fun '(i, s) => (s, i)) (enumerate names)).

(** "<unknown>": dandy/src/dfa/parse.rs:50, dandy/src/nfa/parse.rs:62 *)
Definition unknown_str : str := [60; 117; 110; 107; 110; 111; 119; 110; 62]%N.

(** dandy/src/dfa/parse.rs:73-80; dandy/src/nfa/parse.rs:90-96 and 99-105: the targets of one row (or of one set) *)
Fixpoint lookup_targets (m : list (str * nat)) (name : str) (targets : list str) : result (list nat) parse_error :=
  match targets with
  | [] => Ok []
  | t :: ts =>
      match hm_get t m with
      | Some idx => match lookup_targets m name ts with Ok l => Ok (idx :: l) | Err e => Err e end
      | None => Err (TransitionDoesNotExist name t)
      end
  end.

(** dandy/src/dfa/parse.rs:54-96: the loop over the rows; [initial_state] is the index of the initial row seen so far *)
Fixpoint dfa_rows (m : list (str * nat)) (head : list str) (idx : nat) (initial_state : option nat)
    (states : list parsed_dfa_state) : result (list dfa_state * option nat) parse_error :=
  match states with
  | [] => Ok ([], initial_state)
  | s :: rest =>
      if negb (length (pds_transitions s) =? length head) then
        Err (WrongNumberOfTransitions (pds_name s) (length (pds_transitions s)) (length head))
      else
        match lookup_targets m (pds_name s) (pds_transitions s) with
        | Err e => Err e
        | Ok new_transitions =>
            match (if pds_initial s then match initial_state with None => Some (Some idx) | Some _ => None end
                   else Some initial_state) with
            | None => Err MultipleInitialStates
            | Some initial_state =>
                match dfa_rows m head (S idx) initial_state rest with
                | Err e => Err e
                | Ok (new_states, i) =>
                    Ok ({| ds_name := pds_name s; ds_initial := pds_initial s; ds_accepting := pds_accepting s;
                           ds_transitions := new_transitions |} :: new_states, i)
                end
            end
        end
  end.

(** dandy/src/dfa/parse.rs:27-108 [impl TryFrom<ParsedDfa> for Dfa] *)
Definition dfa_try_from (value : parsed_dfa) : result dfa parse_error :=
  let head := pd_head value in
  let states := pd_states value in
  match first_repeated [] head with
  | Some d => Err (DuplicateAlphabetSymbol d)
  | None =>
      let m := name_map (map pds_name states) in
      if negb (length m =? length states) then
        Err (DuplicateStateDefinition
               (match first_repeated [] (map pds_name states) with Some s => s | None => unknown_str end))
      else
        match dfa_rows m head 0 None states with
        | Err e => Err e
        | Ok (new_states, Some i) => Ok {| dfa_alphabet := head; dfa_states := new_states; dfa_initial := i |}
        | Ok (_, None) => Err MissingInitialState
        end
  end.

(** dandy/src/nfa/parse.rs:31-48: the check of the header; returns the position of the epsilon column *)
Fixpoint nfa_head_check (idx : nat) (alphabet : list str) (eps_idx : option nat) (head : list nfa_entry)
    : result (option nat) str :=
  match head with
  | [] => Ok eps_idx
  | Element c :: rest =>
      let '(alphabet', new) := hs_insert c alphabet in
      if new then nfa_head_check (S idx) alphabet' eps_idx rest else Err c
  | Eps :: rest =>
      match eps_idx with
      | Some _ => Err epsilon_str
      | None => nfa_head_check (S idx) alphabet (Some idx) rest
      end
  end.

(** dandy/src/nfa/parse.rs:85-108: the columns of one row *)
Fixpoint nfa_columns (m : list (str * nat)) (name : str) (eps_idx : option nat) (idx : nat)
    (epsilon_transitions : option (list nat)) (transitions : list (list str))
    : result (list (list nat) * option (list nat)) parse_error :=
  match transitions with
  | [] => Ok ([], epsilon_transitions)
  | transition :: rest =>
      match lookup_targets m name transition with
      | Err e => Err e
      | Ok tr_idx =>
          if eqb (Some idx) eps_idx then nfa_columns m name eps_idx (S idx) (Some tr_idx) rest
          else
            match nfa_columns m name eps_idx (S idx) epsilon_transitions rest with
            | Err e => Err e
            | Ok (l, e) => Ok (tr_idx :: l, e)
            end
      end
  end.

(** dandy/src/nfa/parse.rs:69-125: the loop over the rows *)
Fixpoint nfa_rows (m : list (str * nat)) (head_len : nat) (eps_idx : option nat) (idx : nat)
    (initial_state : option nat) (states : list parsed_nfa_state) : result (list nfa_state * option nat) parse_error :=
  match states with
  | [] => Ok ([], initial_state)
  | s :: rest =>
      if negb (length (pns_transitions s) =? head_len) then
        Err (WrongNumberOfTransitions (pns_name s) (length (pns_transitions s)) head_len)
      else
        match nfa_columns m (pns_name s) eps_idx 0 None (pns_transitions s) with
        | Err e => Err e
        | Ok (new_transitions, epsilon_transitions) =>
            match (if pns_initial s then match initial_state with None => Some (Some idx) | Some _ => None end
                   else Some initial_state) with
            | None => Err MultipleInitialStates
            | Some initial_state =>
                match nfa_rows m head_len eps_idx (S idx) initial_state rest with
                | Err e => Err e
                | Ok (new_states, i) =>
                    Ok ({| ns_name := pns_name s; ns_initial := pns_initial s; ns_accepting := pns_accepting s;
                           ns_eps := match epsilon_transitions with Some e => e | None => [] end;
                           ns_transitions := new_transitions |} :: new_states, i)
                end
            end
        end
  end.

(** dandy/src/nfa/parse.rs:27-143 [impl TryFrom<ParsedNfa> for Nfa]; the alphabet is the [filter_map] of lines 129-135 *)
Definition nfa_try_from (value : parsed_nfa) : result nfa parse_error :=
  let head := pn_head value in
  let states := pn_states value in
  match nfa_head_check 0 [] None head with
  | Err d => Err (DuplicateAlphabetSymbol d)
  | Ok eps_idx =>
      let m := name_map (map pns_name states) in
      if negb (length m =? length states) then
        Err (DuplicateStateDefinition
               (match first_repeated [] (map pns_name states) with Some s => s | None => unknown_str end))
      else
        match nfa_rows m (length head) eps_idx 0 None states with
        | Err e => Err e
        | Ok (new_states, Some i) =>
            Ok {| nfa_alphabet := flat_map (fun e => match e with Eps => [] | Element s => [s] end) head;
                  nfa_states := new_states; nfa_initial := i |}
        | Ok (_, None) => Err MissingInitialState
        end
  end.
