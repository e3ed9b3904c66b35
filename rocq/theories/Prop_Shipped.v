(** * Prop_Shipped: the example files of the repository, the documented commands and the benchmarks (C87) *)
From Coq Require Import Ascii String List NArith Arith Bool.
From Verif Require Import Base BaseLemmas Spec TableSpec DfaModel NfaModel RegexModel ValidateModel RegexParserModel TableModel Messages MessageSpec CliModel CliSpec
  FileModel FileSpec ArgsModel ArgsSpec TestsModel DocModel DocSpec DocProofs ApiModel ShippedModel ShippedSpec ShippedProofs CliReproSpec Examples.
From Verif Require Import Prop_Args Prop_CliRepro Prop_Dfa Prop_Nfa Prop_Regex Prop_Repro Prop_Doc.
Import ListNotations.
Close Scope string_scope.
Open Scope list_scope.

Definition tree : list string :=
  ["tests/example_tree/user1/correct.dfa"; "tests/example_tree/user2/incorrect.dfa"; "tests/example_tree/user3/invalid.dfa";
   "tests/example_tree/user4/unparsable.dfa"; "tests/example_tree/user5/correct_minimized.dfa"]%string.
(** The first command of the comment at dandy-cli/src/main.rs:19-20 always fails, because its first file defines a state twice. *)
Theorem C87_documented_example : forall env b ms missing create hs, exists m',
  dandy (rebuilt env b ms) (shipped missing create) hs (strings (["equivalence"; "tests/dfa1.dfa"]%string ++ tree)) =
  Some (Ret (mk_main_result [] (text [of_string "Error in Equivalence: Error compiling DFA: State 'fail' defined multiple times"]) None, m')).
Proof.
  intros env b ms missing create hs.
  assert (A : exists a args, parse_args (strings (["equivalence"; "tests/dfa1.dfa"]%string ++ tree)) = Some a /\ da_command a = OpEquivalence args)
    by (do 2 eexists; split; vm_compute; reflexivity).
  destruct A as (a & args & A & C). apply C85_exact in A.
  destruct (C86_equivalence env b false ms 0 (shipped missing create) hs forwards _ a args A C) as (res & res' & m' & E1 & E2 & H).
  exists m'. rewrite E1. vm_compute in E2. injection E2 as <- <-. destruct H as [->|(_ & _ & _ & tb & tb' & bf & af & _ & _ & X)]; [reflexivity|].
  cbn [mr_stdout] in X. discriminate X.
Qed.
Print Assumptions C87_documented_example.

(** What the tool prints and reports for a command line, in every run of every build. *)
Definition always (env : cli_env) (argv : list string) (out err : list str) : Prop := forall b ms missing create hs, exists m',
  dandy (rebuilt env b ms) (shipped missing create) hs (strings argv) = Some (Ret (mk_main_result (text out) (text err) None, m')).
Ltac always := intros b ms missing create hs;
  rewrite (C86_same_output _ b false ms 0 _ hs forwards);
    [eexists; vm_compute; reflexivity
    |let a := fresh in let A := fresh in intros a A; apply C85_exact in A; vm_compute in A; injection A as <-; vm_compute; auto].

(** The second command of the comment, with --less-logs *)
Theorem C87_documented_second_example : forall env,
  always env (["--less-logs"; "equivalence"; "--in-type"; "nfa"; "--minimized"; "tests/nfa1.nfa"]%string ++ tree)
    [of_string "tests/example_tree/user1/correct.dfa: Equivalent but not minimized";
     of_string "tests/example_tree/user2/incorrect.dfa: Not Equivalent";
     of_string "tests/example_tree/user3/invalid.dfa: Failed to validate (State '3' does not exist (in transition from state '1'))";
     of_string "tests/example_tree/user4/unparsable.dfa: Failed to parse (" ++ ce_nom_display env TDfa f_user4_unparsable_dfa ++ of_string ")";
     of_string "tests/example_tree/user5/correct_minimized.dfa: Equivalent"] [].
Proof. intros env. always. Qed.
Print Assumptions C87_documented_second_example.

Theorem C87_comparisons : forall env,
  always env (["--less-logs"; "equivalence"; "tests/example_tree/user5/correct_minimized.dfa"]%string ++ tree)
    [of_string "tests/example_tree/user1/correct.dfa: Equivalent";
     of_string "tests/example_tree/user2/incorrect.dfa: Not Equivalent";
     of_string "tests/example_tree/user3/invalid.dfa: Failed to validate (State '3' does not exist (in transition from state '1'))";
     of_string "tests/example_tree/user4/unparsable.dfa: Failed to parse (" ++ ce_nom_display env TDfa f_user4_unparsable_dfa ++ of_string ")";
     of_string "tests/example_tree/user5/correct_minimized.dfa: Equivalent"] [] /\
  always env ["--less-logs"; "equivalence"; "tests/example.dfa"; "tests/example2.dfa"]%string [of_string "tests/example2.dfa: Equivalent"] [] /\
  always env ["--less-logs"; "equivalence"; "--in-type=nfa"; "tests/example2.nfa"; "tests/eq_example2_nfa.dfa"]%string
    [of_string "tests/eq_example2_nfa.dfa: Equivalent"] [] /\
  always env ["--less-logs"; "equivalence"; "--in-type=dfa"; "--type=nfa"; "tests/eq_example2_nfa.dfa"; "tests/example2.nfa"; "tests/example3.nfa"; "tests/example.nfa"]%string
    [of_string "tests/example2.nfa: Equivalent"; of_string "tests/example3.nfa: Equivalent"; of_string "tests/example.nfa: Not Equivalent"] [].
Proof. intros env. split; [|split; [|split]]; always. Qed.
Print Assumptions C87_comparisons.

(** A machine whose segmentation splits printable ASCII characters and epsilon into single characters, and anything else as it likes *)
Definition splitting (env : cli_env) (other : str -> list str) : cli_env :=
  mk_cli_env (ce_read env) (ce_nom_display env) (ce_nom_debug env) (fun s => if plainb s then map (fun c => [c]) s else other s)
    (ce_dbg env) (ce_log env) (ce_millis env).
Theorem C87_test_file : forall env other,
  always env ["test-file"; "tests/dfa1.dfa"; "tests/dfa1_test.txt"]%string []
    [of_string "Error in testing file: Error compiling DFA: State 'fail' defined multiple times"] /\
  always (splitting env other) ["test-file"; "tests/example_tree/user1/correct.dfa"; "tests/dfa1_test.txt"]%string
    ([of_string "Loaded NFA:"] ++
     [utf8 "      ε  a   b "; utf8 "→ * 0 {} {1} {0} "; utf8 "    1 {} {2} {1} "; utf8 "  * 2 {} {3} {2} "; utf8 "    3 {} {0} {3} "; utf8 "    4 {} {4} {4} "] ++
     [of_string "Testing file tests/dfa1_test.txt:"; of_string "[FAIL] a"; of_string "[FAIL] ab"; of_string "[ OK ] aa"; of_string "[ OK ] aab";
      of_string "[FAIL] aaa"; of_string "[ OK ] abab"; of_string "[FAIL] baaab"; of_string "[ OK ] baaaba";
      of_string "4/8 lines passed in file tests/dfa1_test.txt:"]) [].
Proof. intros env other. split; always. Qed.
Print Assumptions C87_test_file.

(** ** What the example files mean *)
Theorem C87_even_number_of_as : forall graphemes, splits_plainly graphemes ->
  (exists d, load_dfa f_user1_correct_dfa = Ret (Some d) /\ decides (dfa_accepts d) even_number_of_as) /\
  (exists d, load_dfa f_user5_correct_minimized_dfa = Ret (Some d) /\ decides (dfa_accepts d) even_number_of_as) /\
  (exists n, load_nfa f_nfa1_nfa = Ret (Some n) /\ decides (nfa_accepts n) even_number_of_as) /\
  (exists t, parse_regex graphemes f_user1_same_regex = Ret (Some t) /\ forall h, decides (nfa_accepts (regex_to_nfa h t)) even_number_of_as) /\
  (exists d, load_dfa f_user2_incorrect_dfa = Ret (Some d) /\ ~ decides (dfa_accepts d) even_number_of_as).
Proof.
  intros g Hg. split; [|split; [|split; [|split]]].
  - exists s_correct. split; [vm_compute; reflexivity|]. apply decides_dfa; [apply s_correct_valid|apply s_correct_lang].
  - exists s_minimized. split; [vm_compute; reflexivity|]. apply decides_dfa; [apply s_minimized_valid|apply s_minimized_lang].
  - exists s_nfa1. split; [vm_compute; reflexivity|]. intros w. destruct (C03_nfa_accepts s_nfa1 w s_nfa1_valid) as (b & -> & Hb).
    exists b. split; auto. rewrite Hb. apply s_nfa1_lang.
  - exists s_same. split; [rewrite (plain_regex g) by (auto; apply plainb_plain; reflexivity); vm_compute; reflexivity|].
    intros h w. destruct (C03_nfa_accepts _ w (C36_valid h s_same)) as (b & -> & Hb). exists b. split; auto. rewrite Hb, C36_regex_to_nfa. apply s_same_lang.
  - exists s_incorrect. split; [vm_compute; reflexivity|]. intros H. destruct (H []) as (b & E & Hb). vm_compute in E. injection E as <-.
    discriminate (proj2 Hb (conj (Forall_nil _) eq_refl)).
Qed.
Print Assumptions C87_even_number_of_as.

Theorem C87_example_tables :
  (exists d, load_dfa f_example_dfa = Ret (Some d) /\ decides (dfa_accepts d) documented_table_language) /\
  (exists d, load_dfa f_example2_dfa = Ret (Some d) /\ decides (dfa_accepts d) documented_table_language) /\
  (exists d, load_dfa f_init_b_dfa = Ret (Some d) /\ decides (dfa_accepts d) starts_with_b) /\
  (exists d, load_dfa f_term_a_dfa = Ret (Some d) /\ decides (dfa_accepts d) ends_with_a).
Proof.
  split; [|split; [|split]].
  - exists s_example. split; [vm_compute; reflexivity|]. apply decides_dfa; [apply s_example_valid|]. intros w. rewrite <- d_table_lang.
    apply computed_equal; [apply s_example_valid|apply d_table_valid|vm_compute; reflexivity].
  - exists s_example2. split; [vm_compute; reflexivity|]. apply decides_dfa; [apply s_example2_valid|]. intros w. rewrite <- d_table_lang.
    apply computed_equal; [apply s_example2_valid|apply d_table_valid|vm_compute; reflexivity].
  - exists s_init_b. split; [vm_compute; reflexivity|]. apply decides_dfa; [apply s_init_b_valid|]. intros w. rewrite <- d_starts_with_b_lang.
    apply computed_equal; [apply s_init_b_valid|apply d_starts_with_b_valid|vm_compute; reflexivity].
  - exists s_term_a. split; [vm_compute; reflexivity|]. apply decides_dfa; [apply s_term_a_valid|]. intros w. rewrite <- d_ends_with_a_lang.
    apply computed_equal; [apply s_term_a_valid|apply d_ends_with_a_valid|vm_compute; reflexivity].
Qed.
Print Assumptions C87_example_tables.

(** The comment of example2.nfa writes down its subset construction: that is the DFA of eq_example2_nfa.dfa. *)
Theorem C87_subset_construction : exists n n' d, load_nfa f_example2_nfa = Ret (Some n) /\ load_nfa f_example3_nfa = Ret (Some n') /\
  load_dfa f_eq_example2_nfa_dfa = Ret (Some d) /\
  (forall w, nfa_lang n w <-> dfa_lang d w) /\ (forall w, nfa_lang n' w <-> dfa_lang d w) /\
  exists subsets f, (forall h, nfa_to_dfa h n = Ret subsets) /\ dfa_iso subsets d f.
Proof.
  exists s_nfa2, s_nfa3, s_eq2. do 3 (split; [vm_compute; reflexivity|]). split; [exact s_nfa2_lang|]. split.
  - intros w. rewrite <- s_nfa2_lang. apply computed_equal_nfa; [apply s_nfa3_valid|apply s_nfa2_valid|vm_compute; reflexivity].
  - exists s_subsets, s_swap. split; [exact s_subsets_eq|exact s_subsets_iso].
Qed.
Print Assumptions C87_subset_construction.

(** ** The benchmarks and the unused function main1 never panic, and what they compute *)
Theorem C87_bench_powerset : forall h1 h2 h3 h4, exists d0 d1 u i d s,
  load_dfa bench_dfa0 = Ret (Some d0) /\ load_dfa bench_dfa1 = Ret (Some d1) /\
  bench_powerset h1 h2 h3 h4 = Ret (Some u, Some i, Some d, Some s) /\
  decides (dfa_accepts u) (fun w => dfa_lang d0 w \/ dfa_lang d1 w) /\
  decides (dfa_accepts i) (fun w => dfa_lang d0 w /\ dfa_lang d1 w) /\
  decides (dfa_accepts d) (fun w => dfa_lang d0 w /\ ~ dfa_lang d1 w) /\
  decides (dfa_accepts s) (fun w => dfa_lang d0 w /\ ~ dfa_lang d1 w \/ ~ dfa_lang d0 w /\ dfa_lang d1 w).
Proof.
  intros h1 h2 h3 h4. pose proof s_bench0_valid as V0. pose proof s_bench1_valid as V1.
  assert (S : ~ ~ same_set (dfa_alphabet s_bench0) (dfa_alphabet s_bench1)) by (intros H; apply H; split; vm_compute; intuition).
  destruct (C25_union h1 _ _ V0 V1) as ([u|] & Eu & Nu & Hu); [|destruct S; apply Nu; auto].
  destruct (C25_intersection h2 _ _ V0 V1) as ([i|] & Ei & Ni & Hi); [|destruct S; apply Ni; auto].
  destruct (C25_difference h3 _ _ V0 V1) as ([d|] & Ed & Nd & Hd); [|destruct S; apply Nd; auto].
  destruct (C25_symmetric_difference h4 _ _ V0 V1) as ([s|] & Es & Ns & Hs); [|destruct S; apply Ns; auto].
  exists s_bench0, s_bench1, u, i, d, s. do 2 (split; [vm_compute; reflexivity|]).
  split; [|split; [|split; [|split]]]; try (apply decides_dfa; [apply (Hu u eq_refl)|apply (Hu u eq_refl)]); try (apply decides_dfa; [apply (Hi i eq_refl)|apply (Hi i eq_refl)]);
    try (apply decides_dfa; [apply (Hd d eq_refl)|apply (Hd d eq_refl)]); try (apply decides_dfa; [apply (Hs s eq_refl)|apply (Hs s eq_refl)]).
  unfold bench_powerset. replace (doc_dfa bench_dfa0) with (Ret s_bench0) by (vm_compute; reflexivity).
  replace (doc_dfa bench_dfa1) with (Ret s_bench1) by (vm_compute; reflexivity). cbn [bind].
  rewrite Eu. cbn [bind]. rewrite Ei. cbn [bind]. rewrite Ed. cbn [bind]. rewrite Es. reflexivity.
Qed.
Print Assumptions C87_bench_powerset.

Theorem C87_bench_equivalence_check : bench_equivalence_check = Ret false.
Proof. vm_compute. reflexivity. Qed.
Print Assumptions C87_bench_equivalence_check.

Theorem C87_bench_regex : forall graphemes h1 h2 h3 dbg text, splits_plainly graphemes ->
  (exists d, bench_regex_compile graphemes h1 h2 = Ret d /\ decides (dfa_accepts d) (fun w => exists u, In u bench_words /\ w = singles u)) /\
  (exists b, bench_regex_check graphemes h1 h2 h3 dbg text = Ret b /\ (b = true <-> exists u, In u bench_words /\ graphemes text = singles u)).
Proof.
  intros g h1 h2 h3 dbg tx Hg. unfold bench_regex_compile, bench_regex_check.
  rewrite (plain_regex g) by (auto; apply plainb_plain; reflexivity).
  replace (parse_regex singles bench_regex6) with (Ret (Some s_bench6)) by (vm_compute; reflexivity). cbn [bind unwrap].
  destruct (C15_nfa_to_dfa h2 _ (C36_valid h1 s_bench6)) as (d & -> & V & _ & _ & _ & _ & L). cbn [bind]. split.
  - exists d. split; auto. apply decides_dfa; auto. intros w. rewrite L, C36_regex_to_nfa. apply bench6_lang.
  - destruct (C21_minimize h3 dbg d V) as (d' & -> & V' & _ & L' & _). cbn [bind].
    destruct (C01_dfa_accepts_graphemes g d' tx V') as (b & -> & Hb). exists b. split; auto. rewrite Hb, L', L, C36_regex_to_nfa. apply bench6_lang.
Qed.
Print Assumptions C87_bench_regex.

Theorem C87_main1 : main1 = Ret tt.
Proof. vm_compute. reflexivity. Qed.
Print Assumptions C87_main1.

Example C87_example : splits_plainly (fun s => map (fun c => [c]) s) /\ even_number_of_as [la; lb; la] /\ ~ even_number_of_as [la; lb] /\
  bench_regex_check (fun s => map (fun c => [c]) s) id_order rev_order id_order true (of_string "moblvpxmljcsudq") = Ret true /\
  bench_regex_check (fun s => map (fun c => [c]) s) id_order rev_order id_order true (of_string "mob") = Ret false.
Proof.
  assert (O : over [la; lb] [la; lb; la]) by (apply Forall_forall; cbn; intuition).
  split; [intros s H; reflexivity|]. split; [exact (conj O eq_refl)|].
  split; [intros [_ H]; discriminate H|]. split; vm_compute; reflexivity.
Qed.
