(** * ShippedModel: the example files of the repository, and the programs that use them

    The files of dandy-cli/tests and those of dandy/benches/example_dfas and dandy/benches/example_regexes that the benchmarks read, as texts;
    the functions measured by the benchmarks (dandy/benches/benchmark.rs); the unused function main1 of dandy-cli.  Not modelled: the
    measuring (criterion), the regular expressions of the other library, and the random text of [regex_check], which is a parameter. *)
From Coq Require Import Ascii String List NArith Bool.
From Verif Require Import Base Spec TableSpec DfaModel NfaModel RegexModel RegexParserModel Messages CliModel FileModel TestsModel DocModel.
Import ListNotations.
Close Scope string_scope.
Open Scope list_scope.

(** dandy-cli/tests/dfa1.dfa:1-4 *)
Definition f_dfa1_dfa : str :=
  of_string "          a    b" ++ [10%N] ++
  of_string "-> * ok   fail ok" ++ [10%N] ++
  of_string "     fail ok   fail" ++ [10%N] ++
  of_string "     fail ok   fail" ++ [10%N].
(** dandy-cli/tests/dfa1_test.txt:1-8 *)
Definition f_dfa1_test_txt : str :=
  of_string "a" ++ [10%N] ++
  of_string "ab" ++ [10%N] ++
  of_string "aa" ++ [10%N] ++
  of_string "aab" ++ [10%N] ++
  of_string "aaa" ++ [10%N] ++
  of_string "abab" ++ [10%N] ++
  of_string "baaab" ++ [10%N] ++
  of_string "baaaba" ++ [10%N].
(** dandy-cli/tests/nfa1.nfa:1-5 *)
Definition f_nfa1_nfa : str :=
  of_string "           eps     a            b" ++ [10%N] ++
  of_string "-> * ok    {other} {fail other} {ok}" ++ [10%N] ++
  of_string "     fail  {other} {ok}         {fail}" ++ [10%N] ++
  of_string "     other {inf}   {other}      {}" ++ [10%N] ++
  of_string "     inf   {}      {other}      {other}" ++ [10%N].
(** dandy-cli/tests/eq_example2_nfa.dfa:1-9 *)
Definition f_eq_example2_nfa_dfa : str :=
  of_string "      a b" ++ [10%N] ++
  of_string "-> a  b c" ++ [10%N] ++
  of_string "   b  d e" ++ [10%N] ++
  of_string "   c  d f" ++ [10%N] ++
  of_string " * d  d e" ++ [10%N] ++
  of_string " * e  g h" ++ [10%N] ++
  of_string " * f  d f" ++ [10%N] ++
  of_string " * g  g h" ++ [10%N] ++
  of_string " * h  h h".
(** dandy-cli/tests/example.dfa:1-4 *)
Definition f_example_dfa : str :=
  of_string "       a  b  c" ++ [10%N] ++
  [8594%N] ++ of_string " * s" ++ [8320%N] ++ of_string " s" ++ [8321%N] ++ of_string " s" ++ [8320%N] ++ of_string " s" ++ [8322%N] ++ [10%N] ++
  of_string "    s" ++ [8321%N] ++ of_string " s" ++ [8322%N] ++ of_string " s" ++ [8321%N] ++ of_string " s" ++ [8321%N] ++ [10%N] ++
  of_string "  * s" ++ [8322%N] ++ of_string " s" ++ [8322%N] ++ of_string " s" ++ [8322%N] ++ of_string " s" ++ [8322%N] ++ [10%N].
(** dandy-cli/tests/example.nfa:1-6 *)
Definition f_example_nfa : str :=
  of_string "     a    b    c" ++ [10%N] ++
  [8594%N] ++ of_string " s" ++ [8320%N] ++ of_string " {s" ++ [8320%N] ++ of_string "} {s" ++ [8321%N] ++ of_string "} {s" ++ [8320%N] ++ of_string " s" ++ [8322%N] ++ of_string "}" ++ [10%N] ++
  of_string "  s" ++ [8321%N] ++ of_string " {}   {s" ++ [8323%N] ++ of_string "} {s" ++ [8322%N] ++ of_string "}" ++ [10%N] ++
  of_string "  s" ++ [8322%N] ++ of_string " {}   {s" ++ [8321%N] ++ of_string "} {s" ++ [8324%N] ++ of_string "}" ++ [10%N] ++
  of_string "  s" ++ [8323%N] ++ of_string " {s" ++ [8324%N] ++ of_string "} {}   {s" ++ [8323%N] ++ of_string "}" ++ [10%N] ++
  of_string "* s" ++ [8324%N] ++ of_string " {}   {s" ++ [8324%N] ++ of_string "} {}" ++ [10%N].
(** dandy-cli/tests/example2.dfa:1-5 *)
Definition f_example2_dfa : str :=
  of_string "      a b c" ++ [10%N] ++
  [8594%N] ++ of_string " * x z x y" ++ [10%N] ++
  of_string "  * y y y y" ++ [10%N] ++
  of_string "    z y a a" ++ [10%N] ++
  of_string "    a y z a".
(** dandy-cli/tests/example2.nfa:1-32 *)
Definition f_example2_nfa : str :=
  of_string "# An " ++ [949%N] ++ of_string "-NFA." ++ [10%N] ++
  [10%N] ++
  of_string "     " ++ [949%N] ++ of_string "    a       b" ++ [10%N] ++
  [10%N] ++
  [8594%N] ++ of_string " s" ++ [8320%N] ++ of_string " {}   {s" ++ [8321%N] ++ of_string "}    {s" ++ [8320%N] ++ of_string " s" ++ [8322%N] ++ of_string "}" ++ [10%N] ++
  of_string "  s" ++ [8321%N] ++ of_string " {s" ++ [8322%N] ++ of_string "} {s" ++ [8324%N] ++ of_string "}    {s" ++ [8323%N] ++ of_string "}" ++ [10%N] ++
  of_string "  s" ++ [8322%N] ++ of_string " {}   {s" ++ [8321%N] ++ of_string " s" ++ [8324%N] ++ of_string "} {s" ++ [8323%N] ++ of_string "}" ++ [10%N] ++
  of_string "  s" ++ [8323%N] ++ of_string " {s" ++ [8325%N] ++ of_string "} {s" ++ [8324%N] ++ of_string " s" ++ [8325%N] ++ of_string "} {}" ++ [10%N] ++
  of_string "  s" ++ [8324%N] ++ of_string " {s" ++ [8323%N] ++ of_string "} {}      {s" ++ [8325%N] ++ of_string "}" ++ [10%N] ++
  of_string "* s" ++ [8325%N] ++ of_string " {}   {s" ++ [8325%N] ++ of_string "}    {s" ++ [8325%N] ++ of_string "}" ++ [10%N] ++
  [10%N] ++
  of_string "# to dfa:" ++ [10%N] ++
  of_string "#                      a                  b" ++ [10%N] ++
  of_string "# -> {s0}              {s1 s2}            {s0 s2}" ++ [10%N] ++
  of_string "#    {s1 s2}           {s1 s2 s3 s4 s5}   {s3 s5}" ++ [10%N] ++
  of_string "#    {s0 s2}           {s1 s2 s3 s4 s5}   {s0 s2 s3 s5}" ++ [10%N] ++
  of_string "#  * {s1 s2 s3 s4 s5}  {s1 s2 s3 s4 s5}   {s3 s5}" ++ [10%N] ++
  of_string "#  * {s3 s5}           {s3 s4 s5}         {s5}" ++ [10%N] ++
  of_string "#  * {s0 s2 s3 s5}     {s1 s2 s3 s4 s5}   {s0 s2 s3 s5}" ++ [10%N] ++
  of_string "#  * {s3 s4 s5}        {s3 s4 s5}         {s5}" ++ [10%N] ++
  of_string "#  * {s5}              {s5}               {s5}" ++ [10%N] ++
  [10%N] ++
  of_string "# renamed states:" ++ [10%N] ++
  of_string "#       a b" ++ [10%N] ++
  of_string "# -> a  b c" ++ [10%N] ++
  of_string "#    b  d e" ++ [10%N] ++
  of_string "#    c  d f" ++ [10%N] ++
  of_string "#  * d  d e" ++ [10%N] ++
  of_string "#  * e  g h" ++ [10%N] ++
  of_string "#  * f  d f" ++ [10%N] ++
  of_string "#  * g  g h" ++ [10%N] ++
  of_string "#  * h  h h".
(** dandy-cli/tests/example3.nfa:1-11 *)
Definition f_example3_nfa : str :=
  of_string "# An " ++ [949%N] ++ of_string "-NFA." ++ [10%N] ++
  [10%N] ++
  [949%N] ++ of_string " a b" ++ [10%N] ++
  [10%N] ++
  [8594%N] ++ of_string " s" ++ [8320%N] ++ of_string " {a} {s" ++ [8321%N] ++ of_string " a} {s" ++ [8320%N] ++ of_string " s" ++ [8322%N] ++ of_string "}" ++ [10%N] ++
  of_string "s" ++ [8321%N] ++ of_string " {s" ++ [8322%N] ++ of_string "} {s" ++ [8324%N] ++ of_string "} {s" ++ [8323%N] ++ of_string " a}" ++ [10%N] ++
  of_string "s" ++ [8322%N] ++ of_string " {} {s" ++ [8321%N] ++ of_string " s" ++ [8324%N] ++ of_string "} {s" ++ [8323%N] ++ of_string "}" ++ [10%N] ++
  of_string "s" ++ [8323%N] ++ of_string " {s" ++ [8325%N] ++ of_string "} {s" ++ [8324%N] ++ of_string " s" ++ [8325%N] ++ of_string " a} {}" ++ [10%N] ++
  of_string "s" ++ [8324%N] ++ of_string " {s" ++ [8323%N] ++ of_string "} {} {s" ++ [8325%N] ++ of_string "}" ++ [10%N] ++
  of_string "* s" ++ [8325%N] ++ of_string " {} {s" ++ [8325%N] ++ of_string " a} {s" ++ [8325%N] ++ of_string "}" ++ [10%N] ++
  of_string "a {a} {a} {a}".
(** dandy-cli/tests/init_b.dfa:1-4 *)
Definition f_init_b_dfa : str :=
  of_string "     a b c" ++ [10%N] ++
  of_string "-> i n y n" ++ [10%N] ++
  of_string "   n n n n" ++ [10%N] ++
  of_string " * y y y y" ++ [10%N].
(** dandy-cli/tests/term_a.dfa:1-3 *)
Definition f_term_a_dfa : str :=
  of_string "     a b c" ++ [10%N] ++
  of_string "-> n y n n" ++ [10%N] ++
  of_string " * y y n n" ++ [10%N].
(** dandy-cli/tests/example_tree/user1/correct.dfa:1-6 *)
Definition f_user1_correct_dfa : str :=
  of_string "       a b" ++ [10%N] ++
  of_string "-> * 0 1 0" ++ [10%N] ++
  of_string "     1 2 1" ++ [10%N] ++
  of_string "   * 2 3 2" ++ [10%N] ++
  of_string "     3 0 3" ++ [10%N] ++
  of_string "     4 4 4" ++ [10%N].
(** dandy-cli/tests/example_tree/user1/same.regex:1-1 *)
Definition f_user1_same_regex : str :=
  of_string "b*(b*ab*ab*)*b*" ++ [10%N].
(** dandy-cli/tests/example_tree/user2/incorrect.dfa:1-9 *)
Definition f_user2_incorrect_dfa : str :=
  of_string "      a b" ++ [10%N] ++
  of_string "-> a  b c" ++ [10%N] ++
  of_string "   b  d e" ++ [10%N] ++
  of_string "   c  d f" ++ [10%N] ++
  of_string " * d  d e" ++ [10%N] ++
  of_string " * e  g h" ++ [10%N] ++
  of_string " * f  d f" ++ [10%N] ++
  of_string " * g  g h" ++ [10%N] ++
  of_string " * h  h h" ++ [10%N].
(** dandy-cli/tests/example_tree/user3/invalid.dfa:1-3 *)
Definition f_user3_invalid_dfa : str :=
  of_string "       a b" ++ [10%N] ++
  of_string "-> * 1 2 3" ++ [10%N] ++
  of_string "     2 1 1" ++ [10%N].
(** dandy-cli/tests/example_tree/user4/unparsable.dfa:1-1 *)
Definition f_user4_unparsable_dfa : str :=
  of_string "iasjfpskdfkm".
(** dandy-cli/tests/example_tree/user5/correct_minimized.dfa:1-3 *)
Definition f_user5_correct_minimized_dfa : str :=
  of_string "       a b" ++ [10%N] ++
  of_string "-> * 0 1 0" ++ [10%N] ++
  of_string "     1 0 1" ++ [10%N].
(** dandy/benches/example_dfas/dfa0.txt:1-4 *)
Definition bench_dfa0 : str :=
  of_string "          a     b     e     d     c     f     " ++ [10%N] ++
  of_string "    ggosc ggosc ggosc pxhd  pxhd  ggosc pxhd  " ++ [10%N] ++
  [8594%N] ++ of_string "   ecwrp pxhd  ecwrp ecwrp ecwrp ggosc ecwrp " ++ [10%N] ++
  of_string "  * pxhd  ggosc ecwrp ecwrp ecwrp pxhd  ecwrp ".
(** dandy/benches/example_dfas/dfa1.txt:1-18 *)
Definition bench_dfa1 : str :=
  of_string "           d      a      c      e      f      b      " ++ [10%N] ++
  of_string "    nzqeo  efq    hguxl  vozpv  vozpv  njemhk wab    " ++ [10%N] ++
  of_string "  * plobkg njemhk hguxl  tji    cdco   tji    aey    " ++ [10%N] ++
  of_string "    tji    iwhv   uxk    suz    fuzgzc plobkg uxk    " ++ [10%N] ++
  of_string "  * nijsy  iwhv   wab    njemhk hguxl  aey    iwhv   " ++ [10%N] ++
  of_string "  * vozpv  vozpv  vozpv  uxk    hguxl  suz    iwhv   " ++ [10%N] ++
  of_string "  * fuzgzc bppeer tji    aey    plobkg vozpv  bppeer " ++ [10%N] ++
  [8594%N] ++ of_string " * uxk    njemhk efq    vozpv  fuzgzc ahobm  nzqeo  " ++ [10%N] ++
  of_string "  * bppeer uxk    plobkg bppeer hguxl  hguxl  nijsy  " ++ [10%N] ++
  of_string "  * njemhk hguxl  nzqeo  plobkg njemhk nijsy  fuzgzc " ++ [10%N] ++
  of_string "  * efq    vozpv  aey    fuzgzc vozpv  vozpv  ahobm  " ++ [10%N] ++
  of_string "  * aey    uxk    ahobm  plobkg aey    wab    suz    " ++ [10%N] ++
  of_string "    ahobm  cdco   bppeer wab    wab    efq    aey    " ++ [10%N] ++
  of_string "  * iwhv   nzqeo  plobkg bppeer aey    bppeer tji    " ++ [10%N] ++
  of_string "    cdco   ahobm  ahobm  bppeer hguxl  tji    wab    " ++ [10%N] ++
  of_string "  * suz    iwhv   uxk    bppeer fuzgzc plobkg plobkg " ++ [10%N] ++
  of_string "    wab    suz    iwhv   vozpv  nzqeo  vozpv  fuzgzc " ++ [10%N] ++
  of_string "    hguxl  hguxl  bppeer plobkg bppeer hguxl  nzqeo  ".
(** dandy/benches/example_regexes/regex6.txt:1-1 *)
Definition bench_regex6 : str :=
  of_string "v|t|w|w|t|u|m|w|o|c|z|i|b|r|z|g|(moblvpxmljcsudq)|k|t|z|h|g|w|t|g|q".

(** The directory dandy-cli of the repository, as the tool sees it when it is started there: the files of dandy-cli/tests, and no others.
    Simplification: the message for other paths is a parameter. dandy-cli/tests *)
Definition shipped_files : list (str * str) :=
  [(of_string "tests/dfa1.dfa", f_dfa1_dfa);
   (of_string "tests/dfa1_test.txt", f_dfa1_test_txt);
   (of_string "tests/nfa1.nfa", f_nfa1_nfa);
   (of_string "tests/eq_example2_nfa.dfa", f_eq_example2_nfa_dfa);
   (of_string "tests/example.dfa", f_example_dfa);
   (of_string "tests/example.nfa", f_example_nfa);
   (of_string "tests/example2.dfa", f_example2_dfa);
   (of_string "tests/example2.nfa", f_example2_nfa);
   (of_string "tests/example3.nfa", f_example3_nfa);
   (of_string "tests/init_b.dfa", f_init_b_dfa);
   (of_string "tests/term_a.dfa", f_term_a_dfa);
   (of_string "tests/example_tree/user1/correct.dfa", f_user1_correct_dfa);
   (of_string "tests/example_tree/user1/same.regex", f_user1_same_regex);
   (of_string "tests/example_tree/user2/incorrect.dfa", f_user2_incorrect_dfa);
   (of_string "tests/example_tree/user3/invalid.dfa", f_user3_invalid_dfa);
   (of_string "tests/example_tree/user4/unparsable.dfa", f_user4_unparsable_dfa);
   (of_string "tests/example_tree/user5/correct_minimized.dfa", f_user5_correct_minimized_dfa)].
Definition shipped (missing : str) (create : str -> result unit str) : machine :=
  mk_machine (fun p => match find (fun f => eqb (fst f) p) shipped_files with Some f => Ok (snd f) | None => Err missing end)
             (fun p q => eqb p q) create.

(** dandy/benches/benchmark.rs:33-46 [powerset]: the four calls that are measured *)
Definition bench_powerset (h1 h2 h3 h4 : hash_order) : R (option dfa * option dfa * option dfa * option dfa) :=
  dfa1 <- doc_dfa bench_dfa0 ;;
  dfa2 <- doc_dfa bench_dfa1 ;;
  u <- dfa_union h1 dfa1 dfa2 ;;
  i <- dfa_intersection h2 dfa1 dfa2 ;;
  d <- dfa_difference h3 dfa1 dfa2 ;;
  s <- dfa_symmetric_difference h4 dfa1 dfa2 ;;
  Ret (u, i, d, s).

(** dandy/benches/benchmark.rs:48-54 [equivalence_check] *)
Definition bench_equivalence_check : R bool :=
  dfa1 <- doc_dfa bench_dfa0 ;;
  dfa2 <- doc_dfa bench_dfa1 ;;
  dfa_equivalent_to dfa1 dfa2.

(** dandy/benches/benchmark.rs:56-65 [regex_compile] *)
Definition bench_regex_compile (graphemes : str -> list str) (h1 h2 : hash_order) : R dfa :=
  o <- parse_regex graphemes bench_regex6 ;;
  regex <- unwrap o ;;
  nfa_to_dfa h2 (regex_to_nfa h1 regex).

(** dandy/benches/benchmark.rs:75-83 [regex_check]; [text] is [string_gen.current()], a text of lower-case letters *)
Definition bench_regex_check (graphemes : str -> list str) (h1 h2 h3 : hash_order) (dbg : bool) (text : str) : R bool :=
  o <- parse_regex graphemes bench_regex6 ;;
  regex <- unwrap o ;;
  dfa <- nfa_to_dfa h2 (regex_to_nfa h1 regex) ;;
  dfa <- dfa_minimize h3 dbg dfa ;;
  dfa_accepts_graphemes graphemes dfa text.

(** dandy-cli/src/main.rs:365-370 *)
Definition main1_table : str := utf8 "
           a  b  c
    → * s₀ s₁ s₀ s₂
        s₁ s₂ s₁ s₁
      * s₂ s₂ s₂ s₂
    ".
(** dandy-cli/src/main.rs:377-383 *)
Definition main1_equivalent_table : str := utf8 "
        a b c
    → * x z x y
      * y y y y
        z y w z
        w y z w
    ".
(** dandy-cli/src/main.rs:362-386 [main1] *)
Definition main1 : R unit :=
  dfa <- doc_dfa main1_table ;;
  _ <- assert_call (dfa_accepts dfa (map utf8 ["a"; "b"; "c"; "c"; "a"]%string)) ;;
  _ <- assert_call (dfa_accepts dfa (map utf8 ["c"; "b"; "a"]%string)) ;;
  _ <- refute_call (dfa_accepts dfa (map utf8 ["a"; "b"; "b"; "c"]%string)) ;;
  dfa2 <- doc_dfa main1_equivalent_table ;;
  assert_call (dfa_equivalent_to dfa dfa2).
