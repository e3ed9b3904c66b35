(** * RegexModel: dandy/src/regex/mod.rs *)
From Coq Require Import List NArith Arith Bool.
From Verif Require Import Base Spec NfaModel.
Import ListNotations.

(** ** Regex to NFA *)

(** What [tree_to_nfa] mutates: the [StateCounter] (dandy/src/regex/mod.rs:79-98), the map from graphemes to alphabet
    positions and the counter [idx_acc] behind the closure [grapheme_idx] (lines 109-112) *)
Record regex_st : Type := mk_regex_st {
  rs_counter : nat;
  rs_map : list (str * nat);
  rs_idx : nat
}.

(** dandy/src/regex/mod.rs:89-93 [StateCounter::next] *)
Definition counter_next (st : regex_st) : regex_st * nat :=
  (mk_regex_st (S (rs_counter st)) (rs_map st) (rs_idx st), rs_counter st).

(** dandy/src/regex/mod.rs:111-112 the closure [grapheme_idx] *)
Definition grapheme_idx (st : regex_st) (g : str) : regex_st * nat :=
  match hm_get g (rs_map st) with
  | Some i => (st, i)
  | None => (mk_regex_st (rs_counter st) (hm_insert g (rs_idx st) (rs_map st)) (S (rs_idx st)), rs_idx st)
  end.

(** dandy/src/regex/mod.rs:222-228, 243-249: a state named by its number *)
Definition plain_state (idx : nat) (eps : list nat) (transitions : list (list nat)) : nfa_state :=
  {| ns_name := dec idx; ns_initial := false; ns_accepting := false; ns_eps := eps; ns_transitions := transitions |}.

(** dandy/src/regex/mod.rs:215-309 [tree_to_nfa] *)
Fixpoint tree_to_nfa (tree : regex_tree) (st : regex_st) (send_to : nat) : regex_st * list nfa_state :=
  let '(st, incoming) := counter_next st in
  match tree with
  | RSequence [] => (st, [plain_state incoming [send_to] []])
  | RSequence seq =>
      let eps := rs_counter st + 1 in
      let '(st, states) :=
        (fix seq_loop (l : list regex_tree) (st : regex_st) : regex_st * list nfa_state :=
           match l with
           | [] => (st, [])
           | subtree :: l' =>
               let '(st, after) := counter_next st in
               let '(st, new_states) := tree_to_nfa subtree st after in
               let after_eps := match l' with [] => send_to | _ => rs_counter st + 1 end in
               let '(st, rest) := seq_loop l' st in
               (st, (plain_state after [after_eps] [] :: new_states) ++ rest)
           end) seq st in
      (st, plain_state incoming [eps] [] :: states)
  | RAlt alt =>
      let '(st, eps, additional) :=
        (fix alt_loop (l : list regex_tree) (st : regex_st) : regex_st * list nat * list nfa_state :=
           match l with
           | [] => (st, [], [])
           | subtree :: l' =>
               let e := rs_counter st in
               let '(st, new_states) := tree_to_nfa subtree st send_to in
               let '(st, es, rest) := alt_loop l' st in
               (st, e :: es, new_states ++ rest)
           end) alt st in
      (st, plain_state incoming eps [] :: additional)
  | RRepeat r =>
      let eps := [rs_counter st; send_to] in
      let '(st, additional) := tree_to_nfa r st incoming in
      (st, plain_state incoming eps [] :: additional)
  | RChar (RGrapheme g) =>
      let '(st, cidx) := grapheme_idx st g in
      (st, [plain_state incoming [] (repeat [] cidx ++ [[send_to]])])
  | RChar REpsilon => (st, [plain_state incoming [send_to] []])
  | RChar REmpty => (st, [plain_state incoming [] []])
  end.

(** [Vec::resize(n, vec![])]. dandy/src/regex/mod.rs:139-141 *)
Definition resize (n : nat) (l : list (list nat)) : list (list nat) := firstn n l ++ repeat [] (n - length l).

(** dandy/src/regex/mod.rs:104-155 [Regex::to_nfa] *)
Definition regex_to_nfa (h : hash_order) (tree : regex_tree) : nfa :=
  let st := mk_regex_st 0 [] 0 in
  let '(st, a) := counter_next st in
  let accepting_state :=
    {| ns_name := dec a; ns_initial := false; ns_accepting := true; ns_eps := []; ns_transitions := [] |} in
  let '(st, i) := counter_next st in
  let initial_state :=
    {| ns_name := dec i; ns_initial := true; ns_accepting := false; ns_eps := [rs_counter st]; ns_transitions := [] |} in
  let '(st, tree_states) := tree_to_nfa tree st 0 in
  let all_states := accepting_state :: initial_state :: tree_states in
  let all_states := map (fun s => mk_nfa_state (ns_name s) (ns_initial s) (ns_accepting s) (ns_eps s)
                                               (resize (length (rs_map st)) (ns_transitions s))) all_states in
  let alphabet := map fst (sort_by_snd (ho h [51] (rs_map st))) in
  {| nfa_alphabet := alphabet; nfa_states := all_states; nfa_initial := 1 |}.

(** ** Printing *)

(** The reserved characters ( ) ∅ ε | * + \: dandy/src/regex/mod.rs:198, dandy/src/parser/regex.rs:104-106 *)
Definition reserved_chars : list N := [40; 41; 8709; 949; 124; 42; 43; 92]%N.

(** dandy/src/parser/regex.rs:104-106 [is_reserved_char] *)
Definition is_reserved_char (c : N) : bool := mem c reserved_chars.

(** dandy/src/regex/mod.rs:196-206: the printed form of a grapheme.  [g.len() == 1] counts bytes of the UTF-8 encoding:
    it holds exactly for the strings of one character below 128. *)
Definition grapheme_string (g : str) : str :=
  match g with
  | [c] => if (c <? 128)%N && is_reserved_char c then [92%N; c] else g
  | _ => g
  end.

(** dandy/src/regex/mod.rs:164-209 [build_string], 158-162 [to_string] *)
Fixpoint regex_to_string (tree : regex_tree) : str :=
  match tree with
  | RSequence seq => flat_map regex_to_string seq
  | RAlt seq =>
      [40%N] ++
      match seq with
      | [] => []
      | first :: rest => regex_to_string first ++ flat_map (fun item => [124%N] ++ regex_to_string item) rest
      end ++ [41%N]
  | RRepeat r => [40%N] ++ regex_to_string r ++ [41%N; 42%N]
  | RChar REpsilon => [949%N]
  | RChar REmpty => [8709%N]
  | RChar (RGrapheme g) => grapheme_string g
  end.
