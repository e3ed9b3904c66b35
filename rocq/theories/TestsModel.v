(** * TestsModel: the property tests of the repository, as programs

    dandy/src/tests.rs.  The strategies that generate the inputs become the quantifiers of the theorems; sizes, counts and lengths
    that the tests fix are parameters.  A failing assertion is a panic; a test passes when it returns [tt].  Every call of an
    operation that iterates over hash containers has its own hash order. *)
From Coq Require Import List NArith Arith Bool.
From Verif Require Import Base Spec TableSpec DfaModel NfaModel RegexModel ValidateModel ParserModel TableModel RegexParserModel WordsModel.
Import ListNotations.

(** [assert!]. E.g. dandy/src/tests.rs:92, 186 *)
Definition assert_that (b : bool) : R unit := if b then Ret tt else Panic.
(** [assert_eq!] on booleans. E.g. dandy/src/tests.rs:136-139, 278 *)
Definition assert_same (a b : bool) : R unit := assert_that (Bool.eqb a b).
(** an assertion about the result of a call. E.g. dandy/src/tests.rs:75, 92 *)
Definition assert_call (c : R bool) : R unit := b <- c ;; assert_that b.
(** [r.unwrap()] on a [Result]. E.g. dandy/src/tests.rs:68, 72, 83, 110 *)
Definition unwrap_result {A E} (r : result A E) : R A := match r with Ok a => Ret a | Err _ => Panic end.
(** [for x in l { f(x) }]. E.g. dandy/src/tests.rs:133, 188, 274 *)
Definition for_each {A} (f : A -> R unit) (l : list A) : R unit := foldR (fun _ x => f x) tt l.

(** dandy/src/dfa/mod.rs:234-240, 243-249: [==] on DFAs, derived: all fields are equal *)
Definition dfa_state_eq (s t : dfa_state) : bool :=
  eqb (ds_name s) (ds_name t) && eqb (ds_initial s) (ds_initial t) && eqb (ds_accepting s) (ds_accepting t) &&
  eqb (ds_transitions s) (ds_transitions t).

(** [==] of [Vec], for dandy/src/dfa/mod.rs:234 and dandy/src/nfa/mod.rs:261 *)
Fixpoint vec_eq {A} (eq : A -> A -> bool) (l l' : list A) : bool :=
  match l, l' with
  | [], [] => true
  | x :: xs, y :: ys => eq x y && vec_eq eq xs ys
  | _, _ => false
  end.

(** dandy/src/dfa/mod.rs:234-240: [==] on DFAs *)
Definition dfa_eq (d e : dfa) : bool :=
  eqb (dfa_alphabet d) (dfa_alphabet e) && vec_eq dfa_state_eq (dfa_states d) (dfa_states e) && eqb (dfa_initial d) (dfa_initial e).
(** dandy/src/nfa/mod.rs:261-267, 270-277: the same for NFAs *)
Definition nfa_state_eq (s t : nfa_state) : bool :=
  eqb (ns_name s) (ns_name t) && eqb (ns_initial s) (ns_initial t) && eqb (ns_accepting s) (ns_accepting t) &&
  eqb (ns_eps s) (ns_eps t) && eqb (ns_transitions s) (ns_transitions t).

(** dandy/src/nfa/mod.rs:261-267: [==] on NFAs *)
Definition nfa_eq (n m : nfa) : bool :=
  eqb (nfa_alphabet n) (nfa_alphabet m) && vec_eq nfa_state_eq (nfa_states n) (nfa_states m) && eqb (nfa_initial n) (nfa_initial m).

(** dandy/src/tests.rs:82-85 *)
Definition dfa_table_reparse (d : dfa) : R unit :=
  u <- dfa_to_table d ;;
  o <- parse_dfa u ;;
  p <- unwrap o ;;
  parsed <- unwrap_result (dfa_try_from p) ;;
  assert_that (dfa_eq d parsed).

(** dandy/src/tests.rs:89-94 *)
Definition dfa_minimize_eq (h : hash_order) (dbg : bool) (d : dfa) : R unit :=
  m <- dfa_minimize h dbg d ;;
  _ <- assert_call (dfa_equivalent_to m d) ;;
  assert_call (dfa_equivalent_to d m).

(** dandy/src/tests.rs:99-103 *)
Definition dfa_to_nfa_to_dfa (h : hash_order) (d : dfa) : R unit :=
  converted <- nfa_to_dfa h (dfa_to_nfa d) ;;
  _ <- assert_call (dfa_equivalent_to d converted) ;;
  assert_call (dfa_equivalent_to converted d).

(** dandy/src/tests.rs:109-112 *)
Definition nfa_table_reparse (n : nfa) : R unit :=
  u <- nfa_to_table n ;;
  o <- parse_nfa u ;;
  p <- unwrap o ;;
  parsed <- unwrap_result (nfa_try_from p) ;;
  assert_that (nfa_eq n parsed).

(** dandy/src/tests.rs:117-121 *)
Definition nfa_to_dfa_to_nfa (h : hash_order) (n : nfa) : R unit :=
  d <- nfa_to_dfa h n ;;
  let converted := dfa_to_nfa d in
  _ <- assert_call (nfa_equivalent_to n converted) ;;
  assert_call (nfa_equivalent_to converted n).

(** dandy/src/tests.rs:124-141 *)
Definition dfa_binary_ops (graphemes : str -> list str) (h1 h2 h3 h4 : hash_order) (d1 d2 : dfa) (tests : list str) : R unit :=
  o <- dfa_intersection h1 d1 d2 ;; intersection <- unwrap o ;;
  o <- dfa_union h2 d1 d2 ;; union <- unwrap o ;;
  o <- dfa_difference h3 d1 d2 ;; difference <- unwrap o ;;
  o <- dfa_symmetric_difference h4 d1 d2 ;; symmetric_difference <- unwrap o ;;
  for_each (fun test =>
    r1 <- dfa_accepts_graphemes graphemes d1 test ;;
    r2 <- dfa_accepts_graphemes graphemes d2 test ;;
    b <- dfa_accepts_graphemes graphemes intersection test ;; _ <- assert_same b (r1 && r2) ;;
    b <- dfa_accepts_graphemes graphemes union test ;; _ <- assert_same b (r1 || r2) ;;
    b <- dfa_accepts_graphemes graphemes difference test ;; _ <- assert_same b (r1 && negb r2) ;;
    b <- dfa_accepts_graphemes graphemes symmetric_difference test ;; assert_same b (negb (Bool.eqb r1 r2))) tests.

(** dandy/src/tests.rs:144-158 *)
Definition nfa_binary_ops (graphemes : str -> list str) (h : hash_order) (n1 n2 : nfa) (tests : list str) : R unit :=
  o <- nfa_intersection h n1 n2 ;; intersection <- unwrap o ;;
  r <- nfa_union n1 n2 ;; union <- (match r with inl n => Ret n | inr _ => Panic end) ;;
  for_each (fun test =>
    r1 <- nfa_accepts_graphemes graphemes n1 test ;;
    r2 <- nfa_accepts_graphemes graphemes n2 test ;;
    b <- nfa_accepts_graphemes graphemes intersection test ;; _ <- assert_same b (r1 && r2) ;;
    b <- nfa_accepts_graphemes graphemes union test ;; assert_same b (r1 || r2)) tests.

(** dandy/src/tests.rs:161-164, 167-170 *)
Definition dfa_self_union (h : hash_order) (d : dfa) : R unit :=
  o <- dfa_union h d d ;; union <- unwrap o ;; assert_call (dfa_equivalent_to union d).

(** dandy/src/tests.rs:167-170 *)
Definition dfa_self_intersection (h : hash_order) (d : dfa) : R unit :=
  o <- dfa_intersection h d d ;; intersection <- unwrap o ;; assert_call (dfa_equivalent_to intersection d).

(** dandy/src/tests.rs:173-192 *)
Definition dfa_inversion_tautologies (graphemes : str -> list str) (h1 h2 h3 h4 : hash_order) (d : dfa) (tests : list str) : R unit :=
  let inv_dfa := dfa_invert d in
  o <- dfa_union h1 d inv_dfa ;; union <- unwrap o ;;
  o <- dfa_intersection h2 d inv_dfa ;; intersection <- unwrap o ;;
  _ <- assert_call (dfa_has_reachable_accepting_state h3 union) ;;
  b <- dfa_has_reachable_accepting_state h4 intersection ;;
  _ <- assert_that (negb b) ;;
  for_each (fun test =>
    _ <- assert_call (dfa_accepts_graphemes graphemes union test) ;;
    b <- dfa_accepts_graphemes graphemes intersection test ;; assert_that (negb b)) tests.

(** dandy/src/tests.rs:195-203 *)
Definition nfa_remove_epsilon_transitions (h : hash_order) (dbg : bool) (n : nfa) : R unit :=
  no_eps <- nfa_remove_epsilon_moves h dbg n ;;
  _ <- assert_call (nfa_equivalent_to n no_eps) ;;
  _ <- assert_that (forallb (fun s => length (ns_eps s) =? 0) (nfa_states no_eps)) ;;
  assert_that (negb (nfa_has_epsilon_moves no_eps)).

(** dandy/src/tests.rs:206-212 *)
Definition nfa_remove_unreachable (h : hash_order) (dbg : bool) (n : nfa) : R unit :=
  no_unr_states <- nfa_remove_unreachable_states h dbg n ;;
  assert_call (nfa_equivalent_to n no_unr_states).

(** ** Words *)
(** dandy/src/tests.rs:11-17 [MultipleCounterIter] *)
Record counter : Type := mk_counter {
  mc_state : list nat;
  mc_len : nat;
  mc_max : nat;
  mc_returned : bool;
  mc_finished : bool
}.
(** dandy/src/tests.rs:20-28 *)
Definition counter_new (length max : nat) : counter := mk_counter (repeat 0 length) 0 max false false.
(** [self.state[i] = x]. E.g. dandy/src/tests.rs:45, 47 *)
Definition set_index (l : list nat) (i x : nat) : R (list nat) := if i <? length l then Ret (set_nth i x l) else Panic.
(** [self.state[0..self.len].to_vec()]. E.g. dandy/src/tests.rs:49, 59 *)
Definition prefix_vec (l : list nat) (k : nat) : R (list nat) := if k <=? length l then Ret (firstn k l) else Panic.
(** dandy/src/tests.rs:44-51, the loop [for i in (0..self.len).rev()]: the new digits, and whether the loop returned *)
Fixpoint counter_carry (max : nat) (digits : list nat) (i : nat) : R (list nat * bool) :=
  match i with
  | O => Ret (digits, false)
  | S j =>
      x <- index digits j ;;
      if max <? S x then digits' <- set_index digits j 0 ;; counter_carry max digits' j
      else digits' <- set_index digits j (S x) ;; Ret (digits', true)
  end.
(** dandy/src/tests.rs:34-61 [next] *)
Definition counter_next (c : counter) : R (counter * option (list nat)) :=
  if mc_finished c then Ret (c, None)
  else if negb (mc_returned c) then Ret (mk_counter (mc_state c) (mc_len c) (mc_max c) true (mc_finished c), Some [])
  else
    '(digits, returned) <- counter_carry (mc_max c) (mc_state c) (mc_len c) ;;
    if (returned : bool) then
      w <- prefix_vec digits (mc_len c) ;; Ret (mk_counter digits (mc_len c) (mc_max c) true (mc_finished c), Some w)
    else
      let len := S (mc_len c) in
      if length digits <? len then Ret (mk_counter digits len (mc_max c) true true, None)
      else w <- prefix_vec digits len ;; Ret (mk_counter digits len (mc_max c) true (mc_finished c), Some w).

(** [iter.take(k).for_each(f)]: stops at the first [None]. E.g. dandy/src/tests.rs:231-239 *)
Fixpoint take_each {A} (next : words_iter -> R (words_iter * option A)) (f : A -> R unit) (wi : words_iter) (k : nat) : R unit :=
  match k with
  | O => Ret tt
  | S k' => '(wi', o) <- next wi ;; match o with None => Ret tt | Some a => _ <- f a ;; take_each next f wi' k' end
  end.

(** dandy/src/tests.rs:251-259: one round of the loop that merges the words of the two iterators *)
Definition merge_state : Type := (counter * (words_iter * option (list nat)) * (words_iter * option (list nat)))%type.

(** dandy/src/tests.rs:252, 254: [next == Some(word)] *)
Definition is_word (o : option (list nat)) (word : list nat) : bool := match o with Some w => eqb w word | None => false end.

(** dandy/src/tests.rs:251-259: one round of the loop *)
Definition merge_step (st : merge_state) : R (merge_state + unit) :=
  let '(c, (iter_nfa, next_nfa), (iter_inv, next_inv)) := st in
  '(c', o) <- counter_next c ;;
  match o with
  | None => Ret (inr tt)
  | Some word =>
      if is_word next_nfa word then p <- wci_next iter_nfa ;; Ret (inl (c', p, (iter_inv, next_inv)))
      else if is_word next_inv word then p <- wci_next iter_inv ;; Ret (inl (c', (iter_nfa, next_nfa), p))
      else Panic
  end.
(** the number of words of at most [len] symbols, of [m] symbols. (the number of rounds of dandy/src/tests.rs:251) *)
Fixpoint short_words (m len : nat) : nat := match len with O => 1 | S k => m ^ len + short_words m k end.

(** dandy/src/tests.rs:215-260; [take] is 100 and [len] is 3 there *)
Definition nfa_words (graphemes : str -> list str) (h1 h2 h3 h4 : hash_order) (dbg : bool) (take len : nat) (d : dfa) : R unit :=
  let n := dfa_to_nfa d in
  no_eps <- nfa_remove_epsilon_moves h1 dbg n ;;
  e <- nfa_to_dfa h2 n ;;
  m <- dfa_minimize h3 dbg e ;;
  inverse <- nfa_remove_epsilon_moves h4 dbg (dfa_to_nfa (dfa_invert m)) ;;
  wi <- words_new no_eps ;;
  _ <- take_each words_next (fun word =>
         _ <- assert_call (nfa_accepts_graphemes graphemes n word) ;;
         b <- nfa_accepts_graphemes graphemes inverse word ;; assert_that (negb b)) wi take ;;
  wi <- words_new inverse ;;
  _ <- take_each words_next (fun word =>
         b <- nfa_accepts_graphemes graphemes n word ;;
         _ <- assert_that (negb b) ;;
         assert_call (nfa_accepts_graphemes graphemes inverse word)) wi take ;;
  match length (nfa_alphabet n) with
  | O => Panic
  | S max =>
      iter_nfa <- words_new n ;;
      first_nfa <- wci_next iter_nfa ;;
      iter_inv <- words_new inverse ;;
      first_inv <- wci_next iter_inv ;;
      while (S (short_words (S max) len)) merge_step (counter_new len max, first_nfa, first_inv)
  end.

(** ** Regular expressions *)
(** dandy/src/tests.rs:516-526 [random_regex]: the texts it generates, for a base [base] of characters; the bounds on depth and
    number of items are dropped *)
Definition join (sep : str) (l : list str) : str :=
  match l with
  | [] => []
  | x :: xs => x ++ flat_map (fun y => sep ++ y) xs
  end.

(** dandy/src/tests.rs:516-526 [random_regex] *)
Inductive random_regex (base : N -> Prop) : str -> Prop :=
| rr_base c : base c -> random_regex base [c]
| rr_group l : l <> [] -> Forall (random_regex base) l -> random_regex base (40%N :: join [] l ++ [41%N])
| rr_alt l : l <> [] -> Forall (random_regex base) l -> random_regex base (join [124%N] l)
| rr_star r : random_regex base r -> random_regex base (40%N :: r ++ [41; 42]%N)
| rr_plus r : random_regex base r -> random_regex base (40%N :: r ++ [41; 43]%N).

(** dandy/src/tests.rs:263-280; [is_match] stands for the matcher of the external crate regex for "^(text)$" *)
Definition regex_test (graphemes : str -> list str) (is_match : str -> bool) (h1 h2 h3 : hash_order) (dbg : bool)
  (regex_str : str) (tests : list str) : R unit :=
  o <- parse_regex graphemes regex_str ;;
  regex <- unwrap o ;;
  e <- nfa_to_dfa h2 (regex_to_nfa h1 regex) ;;
  d <- dfa_minimize h3 dbg e ;;
  for_each (fun test =>
    let s := filter (fun c => existsb (N.eqb c) regex_str) test in
    b <- dfa_accepts_graphemes graphemes d s ;; assert_same b (is_match s)) tests.

(** dandy/src/tests.rs:283-288 *)
Definition regex_parse (graphemes : str -> list str) (h1 h2 : hash_order) (regex_str : str) : R unit :=
  o <- parse_regex graphemes regex_str ;;
  parse1 <- unwrap o ;;
  let stringified := regex_to_string parse1 in
  o <- parse_regex graphemes stringified ;;
  parse2 <- unwrap o ;;
  assert_call (nfa_equivalent_to (regex_to_nfa h1 parse1) (regex_to_nfa h2 parse2)).

(** ** The one example test *)
(** dandy/tests/test_files/nfa1.nfa *)
Definition nfa1_text : str :=
  ([35; 32; 65; 110; 32; 949; 45; 78; 70; 65; 46; 10; 10; 32; 32; 32; 32; 32; 949; 32; 32; 32; 32; 97; 32; 32; 32; 32; 32; 32;
    32; 98; 10; 10; 8594; 32; 115; 8320; 32; 123; 125; 32; 32; 32; 123; 115; 8321; 125; 32; 32; 32; 32; 123; 115; 8320; 32; 115;
    8322; 125; 10; 32; 32; 115; 8321; 32; 123; 115; 8322; 125; 32; 123; 115; 8324; 125; 32; 32; 32; 32; 123; 115; 8323; 125; 10;
    32; 32; 115; 8322; 32; 123; 125; 32; 32; 32; 123; 115; 8321; 32; 115; 8324; 125; 32; 123; 115; 8323; 125; 10; 32; 32; 115;
    8323; 32; 123; 115; 8325; 125; 32; 123; 115; 8324; 32; 115; 8325; 125; 32; 123; 125; 10; 32; 32; 115; 8324; 32; 123; 115;
    8323; 125; 32; 123; 125; 32; 32; 32; 32; 32; 32; 123; 115; 8325; 125; 10; 42; 32; 115; 8325; 32; 123; 125; 32; 32; 32; 123;
    115; 8325; 125; 32; 32; 32; 32; 123; 115; 8325; 125; 10; 10; 35; 32; 116; 111; 32; 100; 102; 97; 58; 10; 35; 32; 32; 32; 32;
    32; 32; 32; 32; 32; 32; 32; 32; 32; 32; 32; 32; 32; 32; 32; 32; 32; 32; 97; 32; 32; 32; 32; 32; 32; 32; 32; 32; 32; 32; 32;
    32; 32; 32; 32; 32; 32; 98; 10; 35; 32; 45; 62; 32; 123; 115; 48; 125; 32; 32; 32; 32; 32; 32; 32; 32; 32; 32; 32; 32; 32;
    32; 123; 115; 49; 32; 115; 50; 125; 32; 32; 32; 32; 32; 32; 32; 32; 32; 32; 32; 32; 123; 115; 48; 32; 115; 50; 125; 10; 35;
    32; 32; 32; 32; 123; 115; 49; 32; 115; 50; 125; 32; 32; 32; 32; 32; 32; 32; 32; 32; 32; 32; 123; 115; 49; 32; 115; 50; 32;
    115; 51; 32; 115; 52; 32; 115; 53; 125; 32; 32; 32; 123; 115; 51; 32; 115; 53; 125; 10; 35; 32; 32; 32; 32; 123; 115; 48; 32;
    115; 50; 125; 32; 32; 32; 32; 32; 32; 32; 32; 32; 32; 32; 123; 115; 49; 32; 115; 50; 32; 115; 51; 32; 115; 52; 32; 115; 53;
    125; 32; 32; 32; 123; 115; 48; 32; 115; 50; 32; 115; 51; 32; 115; 53; 125; 10; 35; 32; 32; 42; 32; 123; 115; 49; 32; 115; 50;
    32; 115; 51; 32; 115; 52; 32; 115; 53; 125; 32; 32; 123; 115; 49; 32; 115; 50; 32; 115; 51; 32; 115; 52; 32; 115; 53; 125;
    32; 32; 32; 123; 115; 51; 32; 115; 53; 125; 10; 35; 32; 32; 42; 32; 123; 115; 51; 32; 115; 53; 125; 32; 32; 32; 32; 32; 32;
    32; 32; 32; 32; 32; 123; 115; 51; 32; 115; 52; 32; 115; 53; 125; 32; 32; 32; 32; 32; 32; 32; 32; 32; 123; 115; 53; 125; 10;
    35; 32; 32; 42; 32; 123; 115; 48; 32; 115; 50; 32; 115; 51; 32; 115; 53; 125; 32; 32; 32; 32; 32; 123; 115; 49; 32; 115; 50;
    32; 115; 51; 32; 115; 52; 32; 115; 53; 125; 32; 32; 32; 123; 115; 48; 32; 115; 50; 32; 115; 51; 32; 115; 53; 125; 10; 35; 32;
    32; 42; 32; 123; 115; 51; 32; 115; 52; 32; 115; 53; 125; 32; 32; 32; 32; 32; 32; 32; 32; 123; 115; 51; 32; 115; 52; 32; 115;
    53; 125; 32; 32; 32; 32; 32; 32; 32; 32; 32; 123; 115; 53; 125; 10; 35; 32; 32; 42; 32; 123; 115; 53; 125; 32; 32; 32; 32;
    32; 32; 32; 32; 32; 32; 32; 32; 32; 32; 123; 115; 53; 125; 32; 32; 32; 32; 32; 32; 32; 32; 32; 32; 32; 32; 32; 32; 32; 123;
    115; 53; 125; 10; 10; 35; 32; 114; 101; 110; 97; 109; 101; 100; 32; 115; 116; 97; 116; 101; 115; 58; 32; 40; 115; 101; 101;
    32; 101; 113; 95; 116; 111; 95; 110; 102; 97; 49; 46; 100; 102; 97; 41; 10; 35; 32; 32; 32; 32; 32; 32; 32; 97; 32; 98; 10;
    35; 32; 45; 62; 32; 97; 32; 32; 98; 32; 99; 10; 35; 32; 32; 32; 32; 98; 32; 32; 100; 32; 101; 10; 35; 32; 32; 32; 32; 99; 32;
    32; 100; 32; 102; 10; 35; 32; 32; 42; 32; 100; 32; 32; 100; 32; 101; 10; 35; 32; 32; 42; 32; 101; 32; 32; 103; 32; 104; 10;
    35; 32; 32; 42; 32; 102; 32; 32; 100; 32; 102; 10; 35; 32; 32; 42; 32; 103; 32; 32; 103; 32; 104; 10; 35; 32; 32; 42; 32;
    104; 32; 32; 104; 32; 104])%N.
(** dandy/tests/test_files/eq_to_nfa1.dfa *)
Definition eq_to_nfa1_text : str :=
  ([32; 32; 32; 32; 32; 32; 97; 32; 98; 10; 45; 62; 32; 97; 32; 32; 98; 32; 99; 10; 32; 32; 32; 98; 32; 32; 100; 32; 101; 10; 32;
    32; 32; 99; 32; 32; 100; 32; 102; 10; 32; 42; 32; 100; 32; 32; 100; 32; 101; 10; 32; 42; 32; 101; 32; 32; 103; 32; 104; 10;
    32; 42; 32; 102; 32; 32; 100; 32; 102; 10; 32; 42; 32; 103; 32; 32; 103; 32; 104; 10; 32; 42; 32; 104; 32; 32; 104; 32; 104])%N.
(** dandy/src/tests.rs:65-76 *)
Definition subset_construction (h : hash_order) (dfa_source nfa_source : str) : R unit :=
  o <- parse_dfa dfa_source ;; parsed_dfa <- unwrap o ;;
  d <- unwrap_result (dfa_try_from parsed_dfa) ;;
  o <- parse_nfa nfa_source ;; parsed_nfa <- unwrap o ;;
  n <- unwrap_result (nfa_try_from parsed_nfa) ;;
  converted <- nfa_to_dfa h n ;;
  assert_call (dfa_equivalent_to d converted).

(** dandy/src/tests.rs:65-76, on the two files of dandy/tests/test_files *)
Definition test_subset_construction (h : hash_order) : R unit := subset_construction h eq_to_nfa1_text nfa1_text.
