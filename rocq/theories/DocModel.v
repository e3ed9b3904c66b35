(** * DocModel: the examples of the documentation, as programs

    The documentation comments of dandy/src contain programs with assertions and tables with claims about the accepted words.  A
    failing assertion or [unwrap] is a panic; an example passes when it returns [tt].  Every call of an operation that iterates over
    hash containers has its own hash order.  The comment marks and the space after them are not part of a text. *)
From Coq Require Import List NArith Arith Bool String Ascii.
From Verif Require Import Base Spec TableSpec DfaModel NfaModel RegexModel ValidateModel ParserModel RegexParserModel WordsModel ApiModel TestsModel.
Import ListNotations.
Local Open Scope string_scope.

(** Sources are UTF-8; sequences of at most three bytes occur. (The texts of dandy/src/lib.rs:12-17 etc.) *)
Fixpoint utf8_decode (bs : list N) : str :=
  match bs with
  | [] => []
  | b1 :: r => if (b1 <? 128)%N then b1 :: utf8_decode r else
      match r with
      | [] => []
      | b2 :: r => if (b1 <? 224)%N then ((b1 - 192) * 64 + (b2 - 128))%N :: utf8_decode r else
          match r with
          | [] => []
          | b3 :: r => ((b1 - 224) * 4096 + (b2 - 128) * 64 + (b3 - 128))%N :: utf8_decode r
          end
      end
  end.

(** A text of the documentation (dandy/src/lib.rs:12-17 etc.) *)
Definition utf8 (s : string) : str := utf8_decode (map N_of_ascii (list_ascii_of_string s)).
(** [&["a", "b"]]. E.g. dandy/src/lib.rs:23-25. *)
Definition strs (l : list string) : list str := map utf8 l.

(** dandy/src/lib.rs:12-17 *)
Definition doc_table : str := utf8 "
       a  b  c
→ * s₀ s₁ s₀ s₂
    s₁ s₂ s₁ s₁
  * s₂ s₂ s₂ s₂
".
(** dandy/src/lib.rs:27-33 *)
Definition doc_equivalent_table : str := utf8 "
    a b c
→ * x z x y
  * y y y y
    z y w z
    w y z w
".
(** dandy/src/dfa/mod.rs:17-23 *)
Definition odd_as_table : str := utf8 "
           a  b
    ->  s1 s2 s1
      * s2 s3 s2
        s3 s4 s3
      * s4 s1 s4
".
(** dandy/src/dfa/mod.rs:36-40 *)
Definition dfa_without_initial_state : str := utf8 "
        a b
    * x y x
      y x y
".
(** dandy/src/dfa/mod.rs:100-104 (and 804-808) *)
Definition even_odd_table : str := utf8 "
           0   1
-> even even odd
 * odd  even odd
".
(** dandy/src/dfa/mod.rs:172-175 (and 331-334, 362-365, 393-396, 424-427) *)
Definition ends_with_a_table : str := utf8 "
     a b c
-> n y n n
 * y y n n".
(** dandy/src/dfa/mod.rs:176-180 (and 335-339, 366-370, 397-401, 428-432) *)
Definition starts_with_b_table : str := utf8 "
     a b c
-> i n y n
   n n n n
 * y y y y".
(** dandy/src/dfa/mod.rs:306-309 *)
Definition contains_a_table : str := utf8 "
     a b c
-> n y n n
 * y y y y".
(** dandy/src/dfa/mod.rs:560-567 *)
Definition accepts_everything_table : str := utf8 "
       a b c
-> * y y y y
     a b c d
     b c d a
   * c a b c
     d d d c
".
(** dandy/src/dfa/mod.rs:829-832 *)
Definition single_graphemes_table : str := utf8 "
       a b
-> * s s s
".
(** dandy/src/dfa/mod.rs:837-840 *)
Definition multiple_graphemes_table : str := utf8 "
       abc def
-> * s s   s
".
(** dandy/src/nfa/mod.rs:17-23 (and 105-111, 180-186, 320-326, 426-432) *)
Definition ends_with_aab_table : str := utf8 "
            a       b
    ->  s1 {s1 s2} {s1}
        s2 {s3}    {}
        s3 {}      {s4}
      * s4 {}      {}
".
(** dandy/src/nfa/mod.rs:38-42 *)
Definition nfa_without_initial_state : str := utf8 "
         a   b
    * x {y} {x}
      y {x} {y}
".
(** dandy/src/nfa/mod.rs:187-194 (and 327-334, 433-440) *)
Definition contains_babb_table : str := utf8 "
            a    b
    ->  s1 {s1} {s1 s2}
        s2 {s3} {}
        s3 {}   {s4}
        s4 {}   {s5}
      * s5 {s5} {s5}
".
(** dandy/src/nfa/mod.rs:706-712 *)
Definition contains_eps_moves_table : str := utf8 "
       eps  a    b    c
-> s0 {}   {s1} {s1} {s2} # This is not a dead state, it is initial and has transitions to s2
   s1 {s0} {}   {}   {}   # This is a dead state, it only has epsilon transitions
 * s2 {s1} {s2} {s2} {s2} # This is not a dead state, it is accepting
   s3 {s3} {s1} {s1} {s1} # Not dead, since closure of {s1} is {s0 s1}, and {s0} isn't dead
".
(** dandy/src/nfa/mod.rs:736-745 *)
Definition branching_initial_state_table : str := utf8 "
       eps        a       b       c
-> i  {i0 i1 i2} {i0}    {i2}    {i0 i2}
   i0 {i0}       {}      {}      {}
   i1 {y}        {i0}    {i0}    {i}
   i2 {}         {}      {i0}    {i0}
   i3 {i1}       {i1}    {i1}    {i1}
   x  {x}        {y}     {x}     {x}
 * y  {}         {x}     {y}     {y}
".
(** dandy/src/dfa/mod.rs:80-82 *)
Definition a_aa_table : str := utf8 "      a  aa
-> s1 s1 s2
 * s2 s1 s1".
(** dandy/src/nfa/mod.rs:84-86 *)
Definition nfa_a_aa_table : str := utf8 "       a    aa
-> s1 {s1} {s2}
 * s2 {s1} {s1}".
(** dandy/src/parser/mod.rs:35-41 *)
Definition parser_nfa_table : str := utf8 "     ε    a       b
→ s₀ {}   {s₁}    {s₀ s₂}
  s₁ {s₂} {s₄}    {s₃}
  s₂ {}   {s₁ s₄} {s₃}
  s₃ {s₅} {s₄ s₅} {}
  s₄ {s₃} {}      {s₅}
* s₅ {}   {s₅}    {s₅}".
(** [parser::dfa(text).unwrap().try_into().unwrap()]. E.g. dandy/src/lib.rs:19, 22. *)
Definition doc_dfa (u : str) : R dfa := o <- load_dfa u ;; unwrap o.

(** The same for NFAs, e.g. dandy/src/nfa/mod.rs:25, 27 *)
Definition doc_nfa (u : str) : R nfa := o <- load_nfa u ;; unwrap o.
(** [assert!(!call)]. E.g. dandy/src/lib.rs:25, dandy/src/dfa/mod.rs:29. *)
Definition refute_call (c : R bool) : R unit := b <- c ;; assert_that (negb b).
(** [assert_eq!(o, Some(s))] for names and words. (dandy/src/nfa/mod.rs:34-36) *)
Definition is_text (o : option str) (s : string) : bool := match o with Some u => eqb u (utf8 s) | None => false end.
(** [x.states()[i].name()]. (dandy/src/nfa/mod.rs:702-755) *)
Definition assert_name (n : nfa) (i : nat) (s : string) : R unit := q <- index (nfa_states n) i ;; assert_that (eqb (ns_name q) (utf8 s)).

(** dandy/src/lib.rs:9-36, dandy/README.md:11-40 *)
Definition doc_usage : R unit :=
  dfa <- doc_dfa doc_table ;;
  _ <- assert_call (dfa_accepts dfa (strs ["a"; "b"; "c"; "c"; "a"])) ;;
  _ <- assert_call (dfa_accepts dfa (strs ["c"; "b"; "a"])) ;;
  _ <- refute_call (dfa_accepts dfa (strs ["a"; "b"; "b"; "c"])) ;;
  dfa2 <- doc_dfa doc_equivalent_table ;;
  assert_call (dfa_equivalent_to dfa dfa2).

(** dandy/src/dfa/mod.rs:11-46 *)
Definition doc_dfa_parsing (graphemes : str -> list str) (h : hash_order) (dbg : bool) : R unit :=
  dfa <- doc_dfa odd_as_table ;;
  _ <- assert_call (dfa_accepts_graphemes graphemes dfa (utf8 "abb")) ;;
  _ <- refute_call (dfa_accepts_graphemes graphemes dfa (utf8 "aab")) ;;
  dfa <- dfa_minimize h dbg dfa ;;
  _ <- assert_that (List.length (dfa_states dfa) =? 2)%nat ;;
  o <- parse_dfa dfa_without_initial_state ;;
  parsed_dfa <- unwrap o ;;
  match dfa_try_from parsed_dfa with Err MissingInitialState => Ret tt | _ => Panic end.

(** dandy/src/dfa/mod.rs:96-124 *)
Definition doc_dfa_accepting (graphemes : str -> list str) : R unit :=
  dfa <- doc_dfa even_odd_table ;;
  _ <- assert_that (dfa_graphemes_only graphemes dfa) ;;
  _ <- assert_call (dfa_accepts dfa (strs ["0"; "0"; "1"])) ;;
  _ <- assert_call (dfa_accepts_graphemes graphemes dfa (utf8 "001")) ;;
  '(evaluator, first_state) <- de_step (dfa_evaluator dfa) (utf8 "0") ;;
  _ <- assert_that (match first_state with Some s => eqb (ds_name s) (utf8 "even") | None => false end) ;;
  '(evaluator, _) <- de_step evaluator (utf8 "0") ;;
  '(evaluator, _) <- de_step evaluator (utf8 "1") ;;
  assert_call (de_is_accepting evaluator).

(** dandy/src/dfa/mod.rs:168-191, 327-348, 358-379, 389-410, 420-441: two automata, an operation, and the answers for "aa", "ab", "ba"
    and "bb" *)
Definition doc_operation (graphemes : str -> list str) (operation : dfa -> dfa -> R (option dfa)) (aa ab ba bb : bool) : R unit :=
  ends_with_a <- doc_dfa ends_with_a_table ;;
  starts_with_b <- doc_dfa starts_with_b_table ;;
  o <- operation ends_with_a starts_with_b ;;
  r <- unwrap o ;;
  _ <- (b <- dfa_accepts_graphemes graphemes r (utf8 "aa") ;; assert_same b aa) ;;
  _ <- (b <- dfa_accepts_graphemes graphemes r (utf8 "ab") ;; assert_same b ab) ;;
  _ <- (b <- dfa_accepts_graphemes graphemes r (utf8 "ba") ;; assert_same b ba) ;;
  b <- dfa_accepts_graphemes graphemes r (utf8 "bb") ;; assert_same b bb.

(** dandy/src/dfa/mod.rs:168-191 *)
Definition doc_product (graphemes : str -> list str) (h : hash_order) : R unit :=
  doc_operation graphemes (fun a b => dfa_product_construction h a b (fun first second => ds_accepting first && negb (ds_accepting second)))
    true false false false.

(** dandy/src/dfa/mod.rs:327-348 *)
Definition doc_union (graphemes : str -> list str) (h : hash_order) : R unit := doc_operation graphemes (dfa_union h) true false true true.

(** dandy/src/dfa/mod.rs:358-379 *)
Definition doc_intersection (graphemes : str -> list str) (h : hash_order) : R unit := doc_operation graphemes (dfa_intersection h) false false true false.

(** dandy/src/dfa/mod.rs:389-410 *)
Definition doc_difference (graphemes : str -> list str) (h : hash_order) : R unit := doc_operation graphemes (dfa_difference h) true false false false.

(** dandy/src/dfa/mod.rs:420-441 *)
Definition doc_symmetric_difference (graphemes : str -> list str) (h : hash_order) : R unit :=
  doc_operation graphemes (dfa_symmetric_difference h) true false false true.

(** dandy/src/dfa/mod.rs:302-316 *)
Definition doc_invert (graphemes : str -> list str) : R unit :=
  contains_a <- doc_dfa contains_a_table ;;
  _ <- assert_call (dfa_accepts_graphemes graphemes contains_a (utf8 "abc")) ;;
  _ <- refute_call (dfa_accepts_graphemes graphemes contains_a (utf8 "bcb")) ;;
  let contains_a := dfa_invert contains_a in
  _ <- refute_call (dfa_accepts_graphemes graphemes contains_a (utf8 "abc")) ;;
  assert_call (dfa_accepts_graphemes graphemes contains_a (utf8 "bcb")).

(** dandy/src/dfa/mod.rs:555-571 *)
Definition doc_minimize (h : hash_order) (dbg : bool) : R unit :=
  dfa <- doc_dfa accepts_everything_table ;;
  dfa <- dfa_minimize h dbg dfa ;;
  assert_that (List.length (dfa_states dfa) =? 1)%nat.

(** dandy/src/dfa/mod.rs:800-813 *)
Definition doc_accepts_graphemes (graphemes : str -> list str) : R unit :=
  dfa <- doc_dfa even_odd_table ;;
  _ <- assert_that (dfa_graphemes_only graphemes dfa) ;;
  assert_call (dfa_accepts_graphemes graphemes dfa (utf8 "001")).

(** dandy/src/dfa/mod.rs:825-844 *)
Definition doc_graphemes_only (graphemes : str -> list str) : R unit :=
  dfa <- doc_dfa single_graphemes_table ;;
  _ <- assert_that (dfa_graphemes_only graphemes dfa) ;;
  dfa <- doc_dfa multiple_graphemes_table ;;
  assert_that (negb (dfa_graphemes_only graphemes dfa)).

(** dandy/src/nfa/mod.rs:11-48 *)
Definition doc_nfa_parsing (graphemes : str -> list str) : R unit :=
  nfa <- doc_nfa ends_with_aab_table ;;
  _ <- assert_call (nfa_accepts_graphemes graphemes nfa (utf8 "abaab")) ;;
  _ <- refute_call (nfa_accepts_graphemes graphemes nfa (utf8 "aabb")) ;;
  iter <- words_new nfa ;;
  '(iter, w) <- words_next iter ;; _ <- assert_that (is_text w "aab") ;;
  '(iter, w) <- words_next iter ;; _ <- assert_that (is_text w "aaab") ;;
  '(iter, w) <- words_next iter ;; _ <- assert_that (is_text w "baab") ;;
  o <- parse_nfa nfa_without_initial_state ;;
  parsed_nfa <- unwrap o ;;
  match nfa_try_from parsed_nfa with Err MissingInitialState => Ret tt | _ => Panic end.

(** dandy/src/nfa/mod.rs:100-128 *)
Definition doc_nfa_accepting (graphemes : str -> list str) : R unit :=
  nfa <- doc_nfa ends_with_aab_table ;;
  _ <- assert_that (nfa_graphemes_only graphemes nfa) ;;
  _ <- assert_call (nfa_accepts nfa (strs ["a"; "a"; "a"; "b"])) ;;
  _ <- assert_call (nfa_accepts_graphemes graphemes nfa (utf8 "aaab")) ;;
  evaluator <- nfa_evaluator nfa ;;
  '(evaluator, _) <- ne_step evaluator (utf8 "a") ;;
  '(evaluator, _) <- ne_step evaluator (utf8 "a") ;;
  '(evaluator, _) <- ne_step evaluator (utf8 "a") ;;
  '(evaluator, _) <- ne_step evaluator (utf8 "b") ;;
  assert_call (ne_is_accepting evaluator).

(** dandy/src/nfa/mod.rs:176-203, 316-343 *)
Definition doc_nfa_union (graphemes : str -> list str) : R unit :=
  ends_with_aab <- doc_nfa ends_with_aab_table ;;
  contains_babb <- doc_nfa contains_babb_table ;;
  r <- nfa_union ends_with_aab contains_babb ;;
  any <- match r with inl any => Ret any | inr _ => Panic end ;;
  _ <- refute_call (nfa_accepts_graphemes graphemes any (utf8 "abbabab")) ;;
  _ <- assert_call (nfa_accepts_graphemes graphemes any (utf8 "aaab")) ;;
  _ <- assert_call (nfa_accepts_graphemes graphemes any (utf8 "bbabbaab")) ;;
  assert_call (nfa_accepts_graphemes graphemes any (utf8 "bbaabaab")).

(** dandy/src/nfa/mod.rs:422-448 *)
Definition doc_nfa_intersection (graphemes : str -> list str) (h : hash_order) : R unit :=
  ends_with_aab <- doc_nfa ends_with_aab_table ;;
  contains_babb <- doc_nfa contains_babb_table ;;
  o <- nfa_intersection h ends_with_aab contains_babb ;;
  both <- unwrap o ;;
  _ <- refute_call (nfa_accepts_graphemes graphemes both (utf8 "aaab")) ;;
  _ <- refute_call (nfa_accepts_graphemes graphemes both (utf8 "abbabb")) ;;
  assert_call (nfa_accepts_graphemes graphemes both (utf8 "bbabbaab")).

(** dandy/src/nfa/mod.rs:702-755; the line that prints the table is left out *)
Definition doc_remove_epsilon_moves (h1 h2 : hash_order) (dbg : bool) : R unit :=
  nfa <- doc_nfa contains_eps_moves_table ;;
  nfa <- nfa_remove_epsilon_moves h1 dbg nfa ;;
  _ <- assert_that (List.length (nfa_states nfa) =? 3)%nat ;;
  _ <- assert_name nfa 0 "s0" ;;
  _ <- assert_name nfa 1 "s2" ;;
  _ <- assert_name nfa 2 "s3" ;;
  nfa <- doc_nfa branching_initial_state_table ;;
  nfa <- nfa_remove_epsilon_moves h2 dbg nfa ;;
  _ <- assert_that (List.length (nfa_states nfa) =? 5)%nat ;;
  _ <- assert_name nfa 0 "i1" ;;
  _ <- assert_name nfa 1 "i3" ;;
  _ <- assert_name nfa 2 "x" ;;
  _ <- assert_name nfa 3 "y" ;;
  assert_name nfa 4 "i".

(** [&[..].iter().all(|s| nfa.accepts_graphemes(s))]. (dandy/src/regex/mod.rs:24-52) *)
Fixpoint all_accepted (graphemes : str -> list str) (n : nfa) (l : list string) : R bool :=
  match l with
  | [] => Ret true
  | s :: r => b <- nfa_accepts_graphemes graphemes n (utf8 s) ;; if b then all_accepted graphemes n r else Ret false
  end.

(** The assertions of dandy/src/regex/mod.rs:24-52 *)
Definition accepts_all (graphemes : str -> list str) (n : nfa) (l : list string) : R unit := assert_call (all_accepted graphemes n l).
(** dandy/src/regex/mod.rs:24-52 *)
Definition doc_regex (graphemes : str -> list str) (h1 h2 h3 h4 h5 h6 h7 : hash_order) (dbg : bool) : R unit :=
  o <- parse_regex graphemes (utf8 "(ab)+") ;; regex1 <- unwrap o ;;
  o <- parse_regex graphemes (utf8 "(ab)*") ;; regex2 <- unwrap o ;;
  o <- parse_regex graphemes (utf8 "0*1(0|ε)") ;; regex3 <- unwrap o ;;
  let nfa1 := regex_to_nfa h1 regex1 in
  let nfa2 := regex_to_nfa h2 regex2 in
  let nfa3 := regex_to_nfa h3 regex3 in
  _ <- accepts_all graphemes nfa1 ["ab"; "abab"; "ababab"] ;;
  _ <- accepts_all graphemes nfa2 [""; "ab"; "abab"; "ababab"] ;;
  _ <- accepts_all graphemes nfa3 ["1"; "10"; "0001"] ;;
  dfa1 <- nfa_to_dfa h4 nfa1 ;;
  dfa2 <- nfa_to_dfa h5 nfa2 ;;
  o <- dfa_symmetric_difference h6 dfa1 dfa2 ;;
  d <- unwrap o ;;
  let symmetric_difference := dfa_to_nfa d in
  words <- words_new symmetric_difference ;;
  '(words, w) <- words_next words ;; _ <- assert_that (is_text w "") ;;
  '(words, w) <- words_next words ;; _ <- assert_that (match w with Some _ => false | None => true end) ;;
  nfa3 <- nfa_remove_epsilon_moves h7 dbg nfa3 ;;
  words <- words_new nfa3 ;;
  '(words, w) <- words_next words ;; _ <- assert_that (is_text w "1") ;;
  '(words, w) <- words_next words ;; _ <- assert_that (is_text w "01") ;;
  '(words, w) <- words_next words ;; assert_that (is_text w "10").
