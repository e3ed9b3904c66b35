(** * C66: the property tests of the repository hold for all inputs

    Every test of dandy/src/tests.rs is a program (TestsModel); it passes when it returns [tt].  The tests try some hundred random
    automata, words and expressions of bounded size each; here the automata, words, expressions, hash orders and bounds are
    arbitrary.  Debug assertions may be on or off ([dbg]). *)
From Coq Require Import List NArith Arith Bool Lia.
From Verif Require Import Base BaseLemmas Spec TableSpec LayoutSpec RegexSpec DfaModel NfaModel ParserModel ValidateModel RegexParserModel
  DfaBasics WordsProofs TestsModel TestsProofs Examples Prop_Dfa Prop_Nfa Prop_Validate.
Import ListNotations.

(** Two automata are equal ([==]) if and only if they are the same: nothing is ignored *)
Theorem C66_equality : (forall d e, dfa_eq d e = true <-> d = e) /\ (forall n m, nfa_eq n m = true <-> n = m).
Proof.
  split; [intros d e; destruct (dfa_eq_spec d e)|intros n m; destruct (nfa_eq_spec n m)]; split; congruence.
Qed.
Print Assumptions C66_equality.

(** ** Tables *)
Theorem C66_dfa_table_reparse : forall d, dfa_valid d -> dfa_alphabet d <> [] ->
  Forall legal_token (dfa_alphabet d) -> Forall (fun s => legal_token (ds_name s)) (dfa_states d) -> dfa_table_reparse d = Ret tt.
Proof. exact dfa_table_reparse_ok. Qed.
Print Assumptions C66_dfa_table_reparse.
Theorem C66_nfa_table_reparse : forall n, nfa_valid n ->
  Forall legal_token (nfa_alphabet n) -> Forall (fun s => legal_token (ns_name s)) (nfa_states n) -> nfa_table_reparse n = Ret tt.
Proof. exact nfa_table_reparse_ok. Qed.
Print Assumptions C66_nfa_table_reparse.

(** ** Conversions *)
Theorem C66_dfa_minimize_eq : forall h dbg d, dfa_valid d -> dfa_minimize_eq h dbg d = Ret tt.
Proof. exact dfa_minimize_eq_ok. Qed.
Print Assumptions C66_dfa_minimize_eq.
Theorem C66_dfa_to_nfa_to_dfa : forall h d, dfa_valid d -> dfa_to_nfa_to_dfa h d = Ret tt.
Proof. exact dfa_to_nfa_to_dfa_ok. Qed.
Print Assumptions C66_dfa_to_nfa_to_dfa.
Theorem C66_nfa_to_dfa_to_nfa : forall h n, nfa_valid n -> nfa_to_dfa_to_nfa h n = Ret tt.
Proof. exact nfa_to_dfa_to_nfa_ok. Qed.
Print Assumptions C66_nfa_to_dfa_to_nfa.
Theorem C66_nfa_remove_epsilon_transitions : forall h dbg n, nfa_valid n -> nfa_remove_epsilon_transitions h dbg n = Ret tt.
Proof. exact nfa_remove_epsilon_transitions_ok. Qed.
Print Assumptions C66_nfa_remove_epsilon_transitions.
Theorem C66_nfa_remove_unreachable_states : forall h dbg n, nfa_valid n -> nfa_remove_unreachable h dbg n = Ret tt.
Proof. exact nfa_remove_unreachable_ok. Qed.
Print Assumptions C66_nfa_remove_unreachable_states.

(** ** Set operations: for any segmentation of the test strings *)
Theorem C66_dfa_binary_ops : forall graphemes h1 h2 h3 h4 d1 d2 tests, dfa_valid d1 -> dfa_valid d2 ->
  same_set (dfa_alphabet d1) (dfa_alphabet d2) -> dfa_binary_ops graphemes h1 h2 h3 h4 d1 d2 tests = Ret tt.
Proof. exact dfa_binary_ops_ok. Qed.
Print Assumptions C66_dfa_binary_ops.
Theorem C66_nfa_binary_ops : forall graphemes h n1 n2 tests, nfa_valid n1 -> nfa_valid n2 ->
  same_set (nfa_alphabet n1) (nfa_alphabet n2) -> nfa_binary_ops graphemes h n1 n2 tests = Ret tt.
Proof. exact nfa_binary_ops_ok. Qed.
Print Assumptions C66_nfa_binary_ops.
Theorem C66_dfa_self_union : forall h d, dfa_valid d -> dfa_self_union h d = Ret tt.
Proof. exact dfa_self_union_ok. Qed.
Print Assumptions C66_dfa_self_union.
Theorem C66_dfa_self_intersection : forall h d, dfa_valid d -> dfa_self_intersection h d = Ret tt.
Proof. exact dfa_self_intersection_ok. Qed.
Print Assumptions C66_dfa_self_intersection.
Theorem C66_dfa_inversion_tautologies : forall graphemes h1 h2 h3 h4 d tests, dfa_valid d ->
  (forall test, In test tests -> over (dfa_alphabet d) (graphemes test)) ->
  dfa_inversion_tautologies graphemes h1 h2 h3 h4 d tests = Ret tt.
Proof. exact dfa_inversion_tautologies_ok. Qed.
Print Assumptions C66_dfa_inversion_tautologies.

(** ** Words: with [take] words of each iterator instead of 100, and words of at most [len] elements instead of 3 *)
Theorem C66_nfa_words : forall graphemes h1 h2 h3 h4 dbg take len d, dfa_valid d -> dfa_alphabet d <> [] ->
  (forall w, over (dfa_alphabet d) w -> graphemes (concat w) = w) ->
  nfa_words graphemes h1 h2 h3 h4 dbg take len d = Ret tt.
Proof. exact nfa_words_ok. Qed.
Print Assumptions C66_nfa_words.

(** ** Regular expressions: all texts of the grammar of the test, over any characters [base] that are neither whitespace nor reserved
    (for the second test ε and ∅ are allowed), if the segmentation splits such texts into single characters *)
Theorem C66_regex : forall (base : N -> Prop) graphemes is_match h1 h2 h3 dbg regex_str tests,
  (forall c, base c -> ~ syntax_char c /\ ~ whitespace c) ->
  divides graphemes ->
  (forall s, (forall c, In c s -> base c \/ syntax_char c) -> graphemes s = map (fun c => [c]) s) ->
  random_regex base regex_str ->
  (forall test c, In test tests -> In c test -> base c) ->
  (forall e s, shows 0 e (map (fun c => [c]) regex_str) -> (forall c, In c s -> base c) ->
     (is_match s = true <-> doc_lang e (map (fun c => [c]) s))) ->
  regex_test graphemes is_match h1 h2 h3 dbg regex_str tests = Ret tt.
Proof.
  intros base graphemes is_match h1 h2 h3 dbg u tests Hb Hd Hg. apply (regex_test_ok base); auto.
  intros c Hc. destruct (Hb c Hc). auto.
Qed.
Print Assumptions C66_regex.
(** The test passes exactly if the other matcher is right about the characters of the test strings that occur in the expression. *)
Theorem C66_regex_decides : forall (base : N -> Prop) graphemes is_match h1 h2 h3 dbg regex_str tests,
  (forall c, base c -> ~ syntax_char c /\ ~ whitespace c) ->
  divides graphemes ->
  (forall s, (forall c, In c s -> base c \/ syntax_char c) -> graphemes s = map (fun c => [c]) s) ->
  random_regex base regex_str ->
  (forall test c, In test tests -> In c test -> base c) ->
  exists e, shows 0 e (map (fun c => [c]) regex_str) /\
    let right_ := forall test, In test tests -> let s := filter (fun c => if in_dec N.eq_dec c regex_str then true else false) test in
                               (is_match s = true <-> doc_lang e (map (fun c => [c]) s)) in
    (regex_test graphemes is_match h1 h2 h3 dbg regex_str tests = Ret tt /\ right_) \/
    (regex_test graphemes is_match h1 h2 h3 dbg regex_str tests = Panic /\ ~ right_).
Proof.
  intros base graphemes is_match h1 h2 h3 dbg u tests Hb Hd Hg. apply (regex_test_decides base); auto.
  intros c Hc. destruct (Hb c Hc). auto.
Qed.
Print Assumptions C66_regex_decides.
Theorem C66_regex_parse : forall (base : N -> Prop) graphemes h1 h2 regex_str,
  (forall c, base c -> (c = 949%N \/ c = 8709%N \/ ~ syntax_char c) /\ ~ whitespace c) ->
  divides graphemes ->
  (forall s, (forall c, In c s -> base c \/ syntax_char c) -> graphemes s = map (fun c => [c]) s) ->
  random_regex base regex_str -> regex_parse graphemes h1 h2 regex_str = Ret tt.
Proof. intros base graphemes h1 h2 u Hb Hd Hg. apply (regex_parse_ok base); auto. Qed.
Print Assumptions C66_regex_parse.

(** every text of that grammar parses, and the documented syntax gives it a meaning *)
Theorem C66_random_regex_parses : forall (base : N -> Prop) graphemes regex_str,
  (forall c, base c -> (c = 949%N \/ c = 8709%N \/ ~ syntax_char c) /\ ~ whitespace c) ->
  divides graphemes ->
  (forall s, (forall c, In c s -> base c \/ syntax_char c) -> graphemes s = map (fun c => [c]) s) ->
  random_regex base regex_str ->
  exists t e, parse_regex graphemes regex_str = Ret (Some t) /\ shows 0 e (map (fun c => [c]) regex_str) /\
    forall w, matches t w <-> doc_lang e w.
Proof. intros base graphemes u Hb Hd Hg. apply (random_parses base); auto. Qed.
Print Assumptions C66_random_regex_parses.

(** ** The example test, for every hash order *)
Theorem C66_test_subset_construction : forall h, test_subset_construction h = Ret tt.
Proof. intros h. apply (subset_construction_any id_order). vm_compute. reflexivity. Qed.
Print Assumptions C66_test_subset_construction.

(** ** Concrete cases *)
Definition per_char (u : str) : list str := map (fun c => [c]) u.
Lemma per_char_word w : over (dfa_alphabet ex_even) w -> per_char (concat w) = w.
Proof.
  unfold per_char. induction 1 as [|a w Ha Hw IH]; auto. cbn [concat]. rewrite map_app, IH.
  destruct Ha as [<- |[<- |[]]]; reflexivity.
Qed.
Example C66_example_automata : dfa_valid ex_even /\ dfa_alphabet ex_even <> [] /\ (forall w, over (dfa_alphabet ex_even) w -> per_char (concat w) = w) /\
  Forall legal_token (dfa_alphabet ex_even) /\ Forall (fun s => legal_token (ds_name s)) (dfa_states ex_even) /\
  nfa_words per_char id_order id_order id_order id_order true 20 3 ex_even = Ret tt /\
  nfa_words per_char id_order id_order id_order id_order true 20 3 ex_end_b = Ret tt.
Proof.
  split; [apply ex_even_valid|]. split; [discriminate|]. split; [apply per_char_word|].
  assert (T : forall c : N, c = 48%N \/ c = 49%N \/ c = 50%N \/ c = 51%N \/ c = 52%N \/ c = 97%N \/ c = 98%N -> legal_token [c]).
  { intros c Hc. split; [discriminate|]. split.
    - intros c' [<- |[]]. unfold whitespace. lia.
    - simpl. intros [[= E]|[E|[[= E]|[E|[[= E]|[]]]]]]; try discriminate; lia. }
  split; [repeat (constructor; [apply T; tauto|]); constructor|].
  split; [repeat (constructor; [apply T; tauto|]); constructor|]. split; vm_compute; reflexivity.
Qed.
(** "(a|bε)*", built by the grammar *)
Definition ex_base (c : N) : Prop := c = 97%N \/ c = 98%N \/ c = 949%N.
Definition ex_random : str := [40; 40; 97; 124; 98; 949; 41; 41; 42]%N.
Example C66_example_regex : random_regex ex_base ex_random /\
  (forall c, ex_base c -> (c = 949%N \/ c = 8709%N \/ ~ syntax_char c) /\ ~ whitespace c) /\ divides per_char /\
  regex_parse per_char id_order id_order ex_random = Ret tt.
Proof.
  split; [|split; [|split; [|vm_compute; reflexivity]]].
  - apply (rr_star _ [40; 97; 124; 98; 949; 41]%N). apply (rr_group _ [[97; 124; 98]%N; [949%N]]); [discriminate|].
    constructor; [|constructor; [|constructor]].
    + apply (rr_alt _ [[97%N]; [98%N]]); [discriminate|]. constructor; [|constructor; [|constructor]]; apply rr_base; unfold ex_base; auto.
    + apply rr_base. unfold ex_base; auto.
  - intros c H. split; [|unfold whitespace; unfold ex_base in H; lia]. destruct H as [->|[->| ->]]; auto; right; right; unfold syntax_char; simpl;
      intuition discriminate.
  - intros u. split; [induction u; simpl; congruence|]. intros H. apply in_map_iff in H as (c & E & _). discriminate.
Qed.
(** the tests can fail: a wrong minimization, for example one that drops the language, makes the equivalence assertion panic *)
Example C66_example_sensitive : assert_call (dfa_equivalent_to ex_end_b ex_even) = Panic /\ dfa_eq ex_even ex_end_b = false.
Proof. split; vm_compute; reflexivity. Qed.
