(** * The documentation: C70 *)
From Coq Require Import List NArith Arith Bool Lia String.
From Verif Require Import Base BaseLemmas Spec TableSpec DfaModel NfaModel RegexModel ValidateModel ParserModel RegexParserModel WordsModel
  ApiModel TestsModel DocModel DocSpec ReproSpec.
From Verif Require Import DocProofs DocRuns CliProofs Examples Prop_Dfa Prop_Nfa Prop_Words Prop_Regex Prop_Repro.
Import ListNotations.
Local Open Scope string_scope.

(** ** The iterators list the same words, in the same order, for any two automata with one language and one order of symbols *)
Theorem C34_language_only : forall n n' k, nfa_valid n -> nfa_valid n' -> eps_free n -> eps_free n' -> nfa_alphabet n = nfa_alphabet n' ->
  (forall w, nfa_lang n w <-> nfa_lang n' w) ->
  word_component_indices_calls n k = word_component_indices_calls n' k /\ word_components_calls n k = word_components_calls n' k /\
  words_calls n k = words_calls n' k.
Proof. exact words_language_only. Qed.
Print Assumptions C34_language_only.

(** ** The tables accept what the documentation says, for all words *)
Theorem C70_table : (exists d, load_dfa doc_table = Ret (Some d) /\ decides (dfa_accepts d) documented_table_language) /\
  (exists d, load_dfa doc_equivalent_table = Ret (Some d) /\ decides (dfa_accepts d) documented_table_language).
Proof.
  split; [exists d_table|exists d_equivalent]; (split; [vm_compute; reflexivity|]); apply decides_dfa.
  - apply d_table_valid.
  - apply d_table_lang.
  - apply d_equivalent_valid.
  - apply d_equivalent_lang.
Qed.
Print Assumptions C70_table.

Theorem C70_dfa_tables :
  (exists d, load_dfa odd_as_table = Ret (Some d) /\ decides (dfa_accepts d) odd_number_of_as) /\
  (exists d, load_dfa even_odd_table = Ret (Some d) /\ decides (dfa_accepts d) odd_binary) /\
  (exists d, load_dfa contains_a_table = Ret (Some d) /\ decides (dfa_accepts d) contains_a /\
             decides (dfa_accepts (dfa_invert d)) (fun w => over [la; lb; lc] w /\ ~ In la w)) /\
  (exists d, load_dfa accepts_everything_table = Ret (Some d) /\ decides (dfa_accepts d) (over [la; lb; lc])).
Proof.
  split; [|split; [|split]].
  - exists d_odd_as. split; [vm_compute; reflexivity|]. apply decides_dfa; [apply d_odd_as_valid|apply d_odd_as_lang].
  - exists d_even_odd. split; [vm_compute; reflexivity|]. apply decides_dfa; [apply d_even_odd_valid|apply d_even_odd_lang].
  - exists d_contains_a. split; [vm_compute; reflexivity|]. split; [apply decides_dfa; [apply d_contains_a_valid|apply d_contains_a_lang]|].
    destruct (C23_invert d_contains_a d_contains_a_valid) as (V & _ & _ & _ & _ & _ & L). apply decides_dfa; auto.
    intros w. rewrite L, d_contains_a_lang. unfold contains_a. change (dfa_alphabet d_contains_a) with [la; lb; lc]. tauto.
  - exists d_everything. split; [vm_compute; reflexivity|]. apply decides_dfa; [apply d_everything_valid|apply d_everything_lang].
Qed.
Print Assumptions C70_dfa_tables.

(** "'any' accepts strings that ends with a or starts with b", and so on *)
Theorem C70_operations : exists d1 d2, load_dfa ends_with_a_table = Ret (Some d1) /\ load_dfa starts_with_b_table = Ret (Some d2) /\
  decides (dfa_accepts d1) ends_with_a /\ decides (dfa_accepts d2) starts_with_b /\
  forall h,
  (exists r, dfa_union h d1 d2 = Ret (Some r) /\ decides (dfa_accepts r) (fun w => ends_with_a w \/ starts_with_b w)) /\
  (exists r, dfa_intersection h d1 d2 = Ret (Some r) /\ decides (dfa_accepts r) (fun w => ends_with_a w /\ starts_with_b w)) /\
  (exists r, dfa_difference h d1 d2 = Ret (Some r) /\ decides (dfa_accepts r) (fun w => ends_with_a w /\ ~ starts_with_b w)) /\
  (exists r, dfa_symmetric_difference h d1 d2 = Ret (Some r) /\
     decides (dfa_accepts r) (fun w => ends_with_a w /\ ~ starts_with_b w \/ ~ ends_with_a w /\ starts_with_b w)) /\
  (exists r, dfa_product_construction h d1 d2 (fun first second => ds_accepting first && negb (ds_accepting second)) = Ret (Some r) /\
     decides (dfa_accepts r) (fun w => ends_with_a w /\ ~ starts_with_b w)).
Proof.
  pose proof d_ends_with_a_valid as V1. pose proof d_starts_with_b_valid as V2. pose proof d_ends_with_a_lang as L1. pose proof d_starts_with_b_lang as L2.
  exists d_ends_with_a, d_starts_with_b. split; [vm_compute; reflexivity|]. split; [vm_compute; reflexivity|].
  split; [apply decides_dfa; auto|]. split; [apply decides_dfa; auto|]. intros h.
  assert (S : same_set (dfa_alphabet d_ends_with_a) (dfa_alphabet d_starts_with_b)) by (intros x; reflexivity).
  split; [|split; [|split; [|split]]].
  - destruct (C25_union h _ _ V1 V2) as ([r|] & E & N & H); [|destruct (proj1 N eq_refl S)]. exists r. split; auto.
    destruct (H r eq_refl) as (V & _ & L). apply decides_dfa; auto. intros w. rewrite L, L1, L2. reflexivity.
  - destruct (C25_intersection h _ _ V1 V2) as ([r|] & E & N & H); [|destruct (proj1 N eq_refl S)]. exists r. split; auto.
    destruct (H r eq_refl) as (V & _ & L). apply decides_dfa; auto. intros w. rewrite L, L1, L2. reflexivity.
  - destruct (C25_difference h _ _ V1 V2) as ([r|] & E & N & H); [|destruct (proj1 N eq_refl S)]. exists r. split; auto.
    destruct (H r eq_refl) as (V & _ & L). apply decides_dfa; auto. intros w. rewrite L, L1, L2. reflexivity.
  - destruct (C25_symmetric_difference h _ _ V1 V2) as ([r|] & E & N & H); [|destruct (proj1 N eq_refl S)]. exists r. split; auto.
    destruct (H r eq_refl) as (V & _ & L). apply decides_dfa; auto. intros w. rewrite L, L1, L2. reflexivity.
  - destruct (C25_difference h _ _ V1 V2) as ([r|] & E & N & H); [|destruct (proj1 N eq_refl S)]. exists r. split; auto.
    destruct (H r eq_refl) as (V & _ & L). apply decides_dfa; auto. intros w. rewrite L, L1, L2. reflexivity.
Qed.
Print Assumptions C70_operations.

Theorem C70_nfa_tables : exists n1 n2, load_nfa ends_with_aab_table = Ret (Some n1) /\ load_nfa contains_babb_table = Ret (Some n2) /\
  decides (nfa_accepts n1) ends_with_aab /\ decides (nfa_accepts n2) contains_babb /\
  (exists r, nfa_union n1 n2 = Ret (inl r) /\ decides (nfa_accepts r) (fun w => contains_babb w \/ ends_with_aab w)) /\
  (forall h, exists r, nfa_intersection h n1 n2 = Ret (Some r) /\ decides (nfa_accepts r) (fun w => contains_babb w /\ ends_with_aab w)).
Proof.
  pose proof n_ends_with_aab_valid as V1. pose proof n_contains_babb_valid as V2. pose proof n_ends_with_aab_lang as L1. pose proof n_contains_babb_lang as L2.
  exists n_ends_with_aab, n_contains_babb. split; [vm_compute; reflexivity|]. split; [vm_compute; reflexivity|].
  split; [apply decides_nfa; auto|]. split; [apply decides_nfa; auto|].
  assert (S : same_set (nfa_alphabet n_ends_with_aab) (nfa_alphabet n_contains_babb)) by (intros x; reflexivity).
  split.
  - destruct (C27_nfa_union _ _ V1 V2) as (r & E & _ & H). destruct (H S) as (n & -> & V & _ & L). exists n. split; auto.
    apply decides_nfa; auto. intros w. rewrite L, L1, L2. tauto.
  - intros h. destruct (C28_nfa_intersection h _ _ V1 V2) as ([r|] & E & N & H); [|destruct (proj1 N eq_refl S)]. exists r. split; auto.
    destruct (H r eq_refl) as (V & _ & L). apply decides_nfa; auto. intros w. rewrite L, L1, L2. tauto.
Qed.
Print Assumptions C70_nfa_tables.

(** The example of an NFA with epsilon moves: its columns become the epsilon moves and the two lists of targets of each state *)
Theorem C70_parser_nfa : exists n, load_nfa parser_nfa_table = Ret (Some n) /\ nfa_valid n /\ nfa_alphabet n = [la; lb] /\ nfa_initial n = 0 /\
  map ns_name (nfa_states n) = strs ["s₀"; "s₁"; "s₂"; "s₃"; "s₄"; "s₅"] /\
  map ns_initial (nfa_states n) = [true; false; false; false; false; false] /\
  map ns_accepting (nfa_states n) = [false; false; false; false; false; true] /\
  map ns_eps (nfa_states n) = [[]; [2]; []; [5]; [3]; []] /\
  map ns_transitions (nfa_states n) = [[[1]; [0; 2]]; [[4]; [3]]; [[1; 4]; [3]]; [[4; 5]; []]; [[]; [5]]; [[5]; [5]]].
Proof.
  eexists. split; [vm_compute; reflexivity|]. split; [apply nfa_validb_valid; vm_compute; reflexivity|].
  split; [reflexivity|]. split; [reflexivity|]. split; [vm_compute; reflexivity|]. repeat split.
Qed.
Print Assumptions C70_parser_nfa.

(** The expressions that the documentation explains *)
Theorem C70_regex : forall graphemes, splits_plainly graphemes ->
  (exists t, parse_regex graphemes (utf8 "(ab)+") = Ret (Some t) /\ forall h, decides (nfa_accepts (regex_to_nfa h t)) ab_plus) /\
  (exists t, parse_regex graphemes (utf8 "(ab)*") = Ret (Some t) /\ forall h, decides (nfa_accepts (regex_to_nfa h t)) ab_star) /\
  (exists t, parse_regex graphemes (utf8 "0*1(0|ε)") = Ret (Some t) /\ forall h, decides (nfa_accepts (regex_to_nfa h t)) zeros_one) /\
  (exists t, parse_regex graphemes (utf8 "0*1(0+ε)") = Ret (Some t) /\ forall h, decides (nfa_accepts (regex_to_nfa h t)) zeros_one_zeros) /\
  (exists t, parse_regex graphemes (utf8 "(ab)+c") = Ret (Some t) /\ forall h, decides (nfa_accepts (regex_to_nfa h t)) ab_plus_c) /\
  (exists t, parse_regex graphemes (utf8 "c(a|b)*c") = Ret (Some t) /\ forall h, decides (nfa_accepts (regex_to_nfa h t)) c_ab_c).
Proof.
  intros g Hg.
  assert (P : forall u t L, plainb (trim u) = true -> parse_regex singles u = Ret (Some t) -> (forall w, matches t w <-> L w) ->
            exists t, parse_regex g u = Ret (Some t) /\ forall h, decides (nfa_accepts (regex_to_nfa h t)) L).
  { intros u t L Hu Ht HL. exists t. rewrite (plain_regex g u Hg (plainb_plain _ Hu)). split; auto. intros h. apply decides_nfa; [apply C36_valid|].
    intros w. rewrite C36_regex_to_nfa. apply HL. }
  split; [|split; [|split; [|split; [|split]]]].
  - apply (P _ t_plus); [reflexivity|vm_compute; reflexivity|apply t_plus_iff].
  - apply (P _ t_star); [reflexivity|vm_compute; reflexivity|apply t_star_iff].
  - apply (P _ t_zeros); [reflexivity|vm_compute; reflexivity|apply t_zeros_iff].
  - apply (P _ t_zeros_plus); [reflexivity|vm_compute; reflexivity|apply t_zeros_plus_iff].
  - apply (P _ t_plus_c); [reflexivity|vm_compute; reflexivity|apply t_plus_c_iff].
  - apply (P _ t_c_c); [reflexivity|vm_compute; reflexivity|apply t_c_c_iff].
Qed.
Print Assumptions C70_regex.

(** The claim of dandy/src/regex/mod.rs:16 is wrong even for the expression of the example program: 100 contains 1 once *)
Theorem C70_one_once_refuted : forall graphemes, splits_plainly graphemes ->
  exists t, parse_regex graphemes (utf8 "0*1(0|ε)") = Ret (Some t) /\ forall h, nfa_accepts (regex_to_nfa h t) [l1; l0; l0] = Ret false.
Proof.
  intros g Hg. destruct (C70_regex g Hg) as (_ & _ & (t & E & H) & _). exists t. split; auto. intros h. destruct (H h [l1; l0; l0]) as (b & Eb & Hb).
  destruct b; auto. exfalso. destruct (proj1 Hb eq_refl) as (k & [X|X]); destruct k as [|k]; discriminate X.
Qed.
Print Assumptions C70_one_once_refuted.

(** and the expression that is written there, 0*1(0+ε), does not match the words 1 and 0001 that are listed *)
Theorem C70_listed_words_refuted : forall graphemes, splits_plainly graphemes ->
  exists t, parse_regex graphemes (utf8 "0*1(0+ε)") = Ret (Some t) /\
    forall h, nfa_accepts (regex_to_nfa h t) [l1] = Ret false /\ nfa_accepts (regex_to_nfa h t) [l0; l0; l0; l1] = Ret false /\
              nfa_accepts (regex_to_nfa h t) [l1; l0] = Ret true.
Proof.
  intros g Hg. destruct (C70_regex g Hg) as (_ & _ & _ & (t & E & H) & _). exists t. split; auto. intros h.
  assert (K : forall w : word, (exists u : word, w = (u ++ [l1])%list) -> nfa_accepts (regex_to_nfa h t) w = Ret false).
  { intros w (u & ->). destruct (H h (u ++ [l1])%list) as (b & Eb & Hb). destruct b; auto. exfalso. destruct (proj1 Hb eq_refl) as (k & j & X).
    rewrite app_assoc in X. replace (S j) with (j + 1) in X by lia. rewrite repeat_app, app_assoc in X. apply app_inj_tail in X as [_ X]. discriminate. }
  split; [apply K; exists []; reflexivity|]. split; [apply K; exists [l0; l0; l0]; reflexivity|].
  destruct (H h [l1; l0]) as (b & Eb & Hb). rewrite Eb. f_equal. apply Hb. exists 0, 0. reflexivity.
Qed.
Print Assumptions C70_listed_words_refuted.

(** "If we would be given the input string "aaa", it is ambiguous how to break it down": two ways, with different answers *)
Theorem C70_ambiguous : (exists d, load_dfa a_aa_table = Ret (Some d) /\ dfa_accepts d [la; laa] = Ret true /\ dfa_accepts d [laa; la] = Ret false) /\
  (exists n, load_nfa nfa_a_aa_table = Ret (Some n) /\ nfa_accepts n [la; laa] = Ret true /\ nfa_accepts n [laa; la] = Ret false) /\
  List.concat [la; laa] = List.concat [laa; la].
Proof. split; [eexists; split; [vm_compute; reflexivity|]; split; vm_compute; reflexivity|]. split; [eexists; split; [vm_compute; reflexivity|]; split; vm_compute; reflexivity|reflexivity]. Qed.
Print Assumptions C70_ambiguous.

(** ** The example programs pass in every run *)
Theorem C70_examples : forall graphemes, splits_plainly graphemes ->
  doc_usage = Ret tt /\
  (forall h dbg, doc_dfa_parsing graphemes h dbg = Ret tt) /\ doc_dfa_accepting graphemes = Ret tt /\
  (forall h, doc_product graphemes h = Ret tt) /\ (forall h, doc_union graphemes h = Ret tt) /\
  (forall h, doc_intersection graphemes h = Ret tt) /\ (forall h, doc_difference graphemes h = Ret tt) /\
  (forall h, doc_symmetric_difference graphemes h = Ret tt) /\ doc_invert graphemes = Ret tt /\
  (forall h dbg, doc_minimize h dbg = Ret tt) /\ doc_accepts_graphemes graphemes = Ret tt /\ doc_graphemes_only graphemes = Ret tt /\
  doc_nfa_parsing graphemes = Ret tt /\ doc_nfa_accepting graphemes = Ret tt /\ doc_nfa_union graphemes = Ret tt /\
  (forall h, doc_nfa_intersection graphemes h = Ret tt) /\ (forall h1 h2 dbg, doc_remove_epsilon_moves h1 h2 dbg = Ret tt) /\
  (forall h1 h2 h3 h4 h5 h6 h7 dbg, doc_regex graphemes h1 h2 h3 h4 h5 h6 h7 dbg = Ret tt).
Proof. exact all_examples. Qed.
Print Assumptions C70_examples.

Example C70_example : splits_plainly (fun s => map (fun c => [c]) s) /\
  doc_regex (fun s => map (fun c => [c]) s) id_order id_order id_order id_order id_order id_order id_order true = Ret tt.
Proof. split; [intros s _; reflexivity|vm_compute; reflexivity]. Qed.
