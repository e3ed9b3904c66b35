(** * DocRuns: the example programs of the documentation pass in every run *)
From Coq Require Import String List NArith Arith Bool Lia.
From Verif Require Import Base BaseLemmas Spec TableSpec DfaModel NfaModel RegexModel ValidateModel ParserModel RegexParserModel
  WordsModel ApiModel TestsModel DocModel DocSpec ReproSpec.
From Verif Require Import DocProofs CliSpec CliProofs Examples Prop_Dfa Prop_Nfa Prop_Words Prop_Regex Prop_Repro.
Import ListNotations.
Local Open Scope string_scope.
Local Open Scope list_scope.

Definition no_commab (l : list str) : bool := forallb (fun s => negb (existsb (N.eqb 44) s)) l.
Lemma no_commab_ok l : no_commab l = true -> no_comma l.
Proof.
  intros H nm Hn X. unfold no_commab in H. rewrite forallb_forall in H. specialize (H _ Hn). rewrite negb_true_iff in H.
  assert (Y : existsb (N.eqb 44) nm = true) by (apply existsb_exists; exists 44%N; split; auto). congruence.
Qed.
Definition not_noneb (l : list str) : bool := forallb (fun s => negb (if list_eq_dec N.eq_dec s [110; 111; 110; 101]%N then true else false)) l.
Lemma not_noneb_ok l : not_noneb l = true -> not_none l.
Proof. intros H X. unfold not_noneb in H. rewrite forallb_forall in H. specialize (H _ X). destruct (list_eq_dec N.eq_dec _ _); [discriminate H|auto]. Qed.

Section Programs.
  Variable g : str -> list str.
  Hypothesis Hg : splits_plainly g.
  Ltac run := repeat first [rewrite (plain_dfa g) by (auto; reflexivity) | rewrite (plain_nfa g) by (auto; reflexivity) |
    rewrite (plain_only g) by (auto; reflexivity) | rewrite (plain_only_nfa g) by (auto; reflexivity)].
  Ltac load_d t d := let E := fresh in assert (E : doc_dfa t = Ret d) by (vm_compute; reflexivity); rewrite E; clear E; cbn [bind].
  Ltac load_n t d := let E := fresh in assert (E : doc_nfa t = Ret d) by (vm_compute; reflexivity); rewrite E; clear E; cbn [bind].

  Lemma minimize_size h dbg d k : dfa_valid d -> (exists m, dfa_minimize id_order true d = Ret m /\ List.length (dfa_states m) = k) ->
    exists m, dfa_minimize h dbg d = Ret m /\ List.length (dfa_states m) = k.
  Proof.
    intros V (m0 & E0 & L0). destruct (C63_minimize h id_order dbg true d V) as (m & m' & E & E' & L & _). exists m. split; auto. congruence.
  Qed.
  Lemma dfa_parsing_ok h dbg : doc_dfa_parsing g h dbg = Ret tt.
  Proof.
    unfold doc_dfa_parsing. load_d odd_as_table d_odd_as. run.
    destruct (minimize_size h dbg d_odd_as 2 d_odd_as_valid) as (m & -> & L); [eexists; split; vm_compute; reflexivity|].
    assert (A : assert_call (dfa_accepts d_odd_as (singles (utf8 "abb"))) = Ret tt) by (vm_compute; reflexivity). rewrite A. clear A.
    assert (A : refute_call (dfa_accepts d_odd_as (singles (utf8 "aab"))) = Ret tt) by (vm_compute; reflexivity). rewrite A. clear A.
    cbn [bind]. rewrite L. vm_compute. reflexivity.
  Qed.
  Lemma dfa_accepting_ok : doc_dfa_accepting g = Ret tt.
  Proof. unfold doc_dfa_accepting. load_d even_odd_table d_even_odd. run. vm_compute. reflexivity. Qed.
  Lemma operation_ok (op : dfa -> dfa -> R (option dfa)) aa ab ba bb r : op d_ends_with_a d_starts_with_b = Ret (Some r) ->
    dfa_accepts r (singles (utf8 "aa")) = Ret aa -> dfa_accepts r (singles (utf8 "ab")) = Ret ab ->
    dfa_accepts r (singles (utf8 "ba")) = Ret ba -> dfa_accepts r (singles (utf8 "bb")) = Ret bb -> doc_operation g op aa ab ba bb = Ret tt.
  Proof.
    intros E A B C D. unfold doc_operation. load_d ends_with_a_table d_ends_with_a. load_d starts_with_b_table d_starts_with_b.
    rewrite E. cbn [bind unwrap]. run. rewrite A, B, C, D. cbn [bind]. unfold assert_same. rewrite !eqb_reflx. reflexivity.
  Qed.
  Lemma ab_no_comma : no_comma (map ds_name (dfa_states d_ends_with_a)).
  Proof. apply no_commab_ok. vm_compute. reflexivity. Qed.
  Definition gives (v : R (option dfa)) (u : string) (b : bool) : bool :=
    match v with Ret (Some r) => match dfa_accepts r (singles (utf8 u)) with Ret b' => Bool.eqb b b' | _ => false end | _ => false end.
  Lemma operation_from (op : dfa -> dfa -> R (option dfa)) aa ab ba bb v : op d_ends_with_a d_starts_with_b = v ->
    gives v "aa" aa && gives v "ab" ab && gives v "ba" ba && gives v "bb" bb = true -> doc_operation g op aa ab ba bb = Ret tt.
  Proof.
    intros E H. apply andb_true_iff in H. destruct H as (H & D). apply andb_true_iff in H. destruct H as (H & C). apply andb_true_iff in H. destruct H as (A & B).
    unfold gives in *. destruct v as [[r|]| |]; try discriminate A. apply (operation_ok op aa ab ba bb r E).
    - destruct (dfa_accepts r (singles (utf8 "aa"))); try discriminate A. apply eqb_prop in A. congruence.
    - destruct (dfa_accepts r (singles (utf8 "ab"))); try discriminate B. apply eqb_prop in B. congruence.
    - destruct (dfa_accepts r (singles (utf8 "ba"))); try discriminate C. apply eqb_prop in C. congruence.
    - destruct (dfa_accepts r (singles (utf8 "bb"))); try discriminate D. apply eqb_prop in D. congruence.
  Qed.
  Lemma product_ok h : doc_product g h = Ret tt.
  Proof.
    unfold doc_product. eapply operation_from; [cbv beta; exact (C63_dfa_product h id_order _ _ _ d_ends_with_a_valid d_starts_with_b_valid (or_introl ab_no_comma))|].
    vm_compute. reflexivity.
  Qed.
  Lemma set_operations_ok h : doc_union g h = Ret tt /\ doc_intersection g h = Ret tt /\ doc_difference g h = Ret tt /\ doc_symmetric_difference g h = Ret tt.
  Proof.
    destruct (C63_dfa_set_operations h id_order _ _ d_ends_with_a_valid d_starts_with_b_valid (or_introl ab_no_comma)) as (E1 & E2 & E3 & E4).
    unfold doc_union, doc_intersection, doc_difference, doc_symmetric_difference.
    split; [eapply operation_from; [exact E1|vm_compute; reflexivity]|]. split; [eapply operation_from; [exact E2|vm_compute; reflexivity]|].
    split; [eapply operation_from; [exact E3|vm_compute; reflexivity]|eapply operation_from; [exact E4|vm_compute; reflexivity]].
  Qed.
  Lemma invert_ok : doc_invert g = Ret tt.
  Proof. unfold doc_invert. load_d contains_a_table d_contains_a. cbv zeta. run. vm_compute. reflexivity. Qed.
  Lemma minimize_ok h dbg : doc_minimize h dbg = Ret tt.
  Proof.
    unfold doc_minimize. load_d accepts_everything_table d_everything.
    destruct (minimize_size h dbg d_everything 1 d_everything_valid) as (m & -> & L); [eexists; split; vm_compute; reflexivity|].
    cbn [bind]. rewrite L. reflexivity.
  Qed.
  Lemma accepts_graphemes_ok : doc_accepts_graphemes g = Ret tt.
  Proof. unfold doc_accepts_graphemes. load_d even_odd_table d_even_odd. run. vm_compute. reflexivity. Qed.
  Definition d_single : dfa := Eval vm_compute in the_dfa single_graphemes_table.
  Definition d_multiple : dfa := Eval vm_compute in the_dfa multiple_graphemes_table.
  Lemma graphemes_only_ok : doc_graphemes_only g = Ret tt.
  Proof. unfold doc_graphemes_only. load_d single_graphemes_table d_single. load_d multiple_graphemes_table d_multiple. run. vm_compute. reflexivity. Qed.
  Lemma nfa_parsing_ok : doc_nfa_parsing g = Ret tt.
  Proof. unfold doc_nfa_parsing. load_n ends_with_aab_table n_ends_with_aab. run. vm_compute. reflexivity. Qed.
  Lemma nfa_accepting_ok : doc_nfa_accepting g = Ret tt.
  Proof. unfold doc_nfa_accepting. load_n ends_with_aab_table n_ends_with_aab. run. vm_compute. reflexivity. Qed.
  Lemma nfa_union_ok : doc_nfa_union g = Ret tt.
  Proof.
    unfold doc_nfa_union. load_n ends_with_aab_table n_ends_with_aab. load_n contains_babb_table n_contains_babb.
    destruct (nfa_union n_ends_with_aab n_contains_babb) as [[u|]| |] eqn:E; vm_compute in E; try discriminate E.
    injection E as <-. cbn [bind]. run. vm_compute. reflexivity.
  Qed.
  Lemma nfa_intersection_ok h : doc_nfa_intersection g h = Ret tt.
  Proof.
    unfold doc_nfa_intersection. load_n ends_with_aab_table n_ends_with_aab. load_n contains_babb_table n_contains_babb.
    rewrite (C63_nfa_intersection h id_order _ _ n_ends_with_aab_valid n_contains_babb_valid).
    2: { left. apply no_commab_ok. vm_compute. reflexivity. }
    2, 3: apply not_noneb_ok; vm_compute; reflexivity.
    destruct (nfa_intersection id_order n_ends_with_aab n_contains_babb) as [[u|]| |] eqn:E; vm_compute in E; try discriminate E.
    injection E as <-. cbn [bind unwrap]. run. vm_compute. reflexivity.
  Qed.
End Programs.

(** *** The names of the states that are left after epsilon removal *)
Definition n_eps : nfa := Eval vm_compute in the_nfa contains_eps_moves_table.
Definition n_branching : nfa := Eval vm_compute in the_nfa branching_initial_state_table.
Lemma names_left h dbg n names : nfa_valid n -> (exists m, nfa_remove_epsilon_moves id_order true n = Ret m /\ map ns_name (nfa_states m) = names) ->
  exists m, nfa_remove_epsilon_moves h dbg n = Ret m /\ map ns_name (nfa_states m) = names.
Proof.
  intros V (m0 & E0 & <-). destruct (C63_remove_epsilon_moves h id_order dbg true n V) as (m & m' & E & E' & _ & _ & F). exists m. split; auto.
  assert (m' = m0) by congruence. subst. revert F. generalize (nfa_states m) (nfa_states m0). induction 1 as [|s s' l l' (H & _)]; simpl; congruence.
Qed.
Lemma name_at n names i s : map ns_name (nfa_states n) = names -> nth_error names i = Some (utf8 s) -> assert_name n i s = Ret tt.
Proof.
  intros <- H. unfold assert_name, index. rewrite nth_error_map in H. destruct (nth_error (nfa_states n) i) as [q|]; [|discriminate H]. injection H as E. cbn [bind unwrap].
  rewrite E, BaseLemmas.eqb_refl. reflexivity.
Qed.
Lemma remove_epsilon_moves_ok h1 h2 dbg : doc_remove_epsilon_moves h1 h2 dbg = Ret tt.
Proof.
  unfold doc_remove_epsilon_moves.
  assert (E : doc_nfa contains_eps_moves_table = Ret n_eps) by (vm_compute; reflexivity). rewrite E. clear E. cbn [bind].
  destruct (names_left h1 dbg n_eps (strs ["s0"; "s2"; "s3"])) as (m & -> & N); [apply nfa_validb_valid; vm_compute; reflexivity|eexists; split; vm_compute; reflexivity|].
  cbn [bind]. rewrite !(name_at m _ _ _ N) by (vm_compute; reflexivity). rewrite <- (map_length ns_name), N.
  assert (E : doc_nfa branching_initial_state_table = Ret n_branching) by (vm_compute; reflexivity). rewrite E. clear E. cbn [bind].
  destruct (names_left h2 dbg n_branching (strs ["i1"; "i3"; "x"; "y"; "i"])) as (m' & -> & N'); [apply nfa_validb_valid; vm_compute; reflexivity|eexists; split; vm_compute; reflexivity|].
  cbn [bind]. rewrite !(name_at m' _ _ _ N') by (vm_compute; reflexivity). rewrite <- (map_length ns_name), N'. reflexivity.
Qed.

(** *** Regular expressions *)
Lemma all_plain g n l : splits_plainly g -> forallb (fun s => plainb (utf8 s)) l = true -> all_accepted g n l = all_accepted singles n l.
Proof.
  intros Hg. induction l as [|s l IH]; intros H; [reflexivity|]. cbn [all_accepted]. cbn [forallb] in H. apply andb_true_iff in H. destruct H as (H & H').
  rewrite !plain_nfa by (auto; intros u _; reflexivity). destruct (nfa_accepts n (singles (utf8 s))) as [[|]| |]; cbn [bind]; auto.
Qed.
Definition n_regex (t : regex_tree) : nfa := regex_to_nfa id_order t.
Lemma n_regex_any h t : regex_to_nfa h t = n_regex t.
Proof. exact (proj1 (C63_regex h id_order t)). Qed.
Definition d_regex (t : regex_tree) : R dfa := nfa_to_dfa id_order (n_regex t).
Definition d_plus : dfa := Eval vm_compute in match d_regex t_plus with Ret d => d | _ => d_table end.
Definition d_star : dfa := Eval vm_compute in match d_regex t_star with Ret d => d | _ => d_table end.
Definition d_differ : dfa := Eval vm_compute in match dfa_symmetric_difference id_order d_plus d_star with Ret (Some d) => d | _ => d_table end.
Definition n_zeros : nfa := Eval vm_compute in match nfa_remove_epsilon_moves id_order true (n_regex t_zeros) with Ret n => n | _ => n_eps end.
Lemma zeros_words h dbg : exists n, nfa_remove_epsilon_moves h dbg (n_regex t_zeros) = Ret n /\ words_calls n 3 = Ret [Some (utf8 "1"); Some (utf8 "01"); Some (utf8 "10")].
Proof.
  assert (V : nfa_valid (n_regex t_zeros)) by apply C36_valid.
  destruct (C30_remove_epsilon_moves h dbg _ V) as (n & E & Vn & Fn & _ & An & Ln & _). exists n. split; auto.
  destruct (C30_remove_epsilon_moves id_order true _ V) as (n' & E' & Vn' & Fn' & _ & An' & Ln' & _).
  assert (X : n' = n_zeros). { assert (Y : Ret n' = Ret n_zeros) by (rewrite <- E'; vm_compute; reflexivity). injection Y; auto. }
  subst n'. destruct (words_language_only n n_zeros 3 Vn Vn' Fn Fn') as (_ & _ & ->).
  - congruence.
  - intros w. rewrite Ln, Ln'. reflexivity.
  - vm_compute. reflexivity.
Qed.
Lemma regex_ok g h1 h2 h3 h4 h5 h6 h7 dbg : splits_plainly g -> doc_regex g h1 h2 h3 h4 h5 h6 h7 dbg = Ret tt.
Proof.
  intros Hg. unfold doc_regex.
  assert (E : parse_regex g (utf8 "(ab)+") = Ret (Some t_plus)) by (rewrite (plain_regex g) by (auto; apply plainb_plain; reflexivity); vm_compute; reflexivity).
  rewrite E. clear E. cbn [bind unwrap].
  assert (E : parse_regex g (utf8 "(ab)*") = Ret (Some t_star)) by (rewrite (plain_regex g) by (auto; apply plainb_plain; reflexivity); vm_compute; reflexivity).
  rewrite E. clear E. cbn [bind unwrap].
  assert (E : parse_regex g (utf8 "0*1(0|ε)") = Ret (Some t_zeros)) by (rewrite (plain_regex g) by (auto; apply plainb_plain; reflexivity); vm_compute; reflexivity).
  rewrite E. clear E. cbn [bind unwrap]. cbv zeta.
  rewrite (n_regex_any h1 t_plus), (n_regex_any h2 t_star), (n_regex_any h3 t_zeros). unfold accepts_all.
  rewrite !(all_plain g) by (auto; reflexivity).
  assert (E : assert_call (all_accepted singles (n_regex t_plus) ["ab"; "abab"; "ababab"]) = Ret tt) by (vm_compute; reflexivity). rewrite E. clear E. cbn [bind].
  assert (E : assert_call (all_accepted singles (n_regex t_star) [""; "ab"; "abab"; "ababab"]) = Ret tt) by (vm_compute; reflexivity). rewrite E. clear E. cbn [bind].
  assert (E : assert_call (all_accepted singles (n_regex t_zeros) ["1"; "10"; "0001"]) = Ret tt) by (vm_compute; reflexivity). rewrite E. clear E. cbn [bind].
  rewrite (C63_nfa_to_dfa h4 id_order (n_regex t_plus)) by apply C36_valid. rewrite (C63_nfa_to_dfa h5 id_order (n_regex t_star)) by apply C36_valid.
  assert (E : nfa_to_dfa id_order (n_regex t_plus) = Ret d_plus) by (vm_compute; reflexivity). rewrite E. clear E. cbn [bind].
  assert (E : nfa_to_dfa id_order (n_regex t_star) = Ret d_star) by (vm_compute; reflexivity). rewrite E. clear E. cbn [bind].
  assert (E : dfa_symmetric_difference h6 d_plus d_star = dfa_symmetric_difference id_order d_plus d_star).
  { apply C63_dfa_set_operations; [apply dfa_validb_valid; vm_compute; reflexivity..|left; apply no_commab_ok; vm_compute; reflexivity]. }
  rewrite E. clear E.
  assert (E : dfa_symmetric_difference id_order d_plus d_star = Ret (Some d_differ)) by (vm_compute; reflexivity). rewrite E. clear E. cbn [bind unwrap].
  destruct (zeros_words h7 dbg) as (n & -> & W). cbn [bind].
  rewrite (three_words n _ _ _ (fun w => is_text w "1") (fun w => is_text w "01") (fun w => is_text w "10") W) by reflexivity.
  vm_compute. reflexivity.
Qed.

Lemma all_examples : forall graphemes, splits_plainly graphemes ->
  doc_usage = Ret tt /\
  (forall h dbg, doc_dfa_parsing graphemes h dbg = Ret tt) /\ doc_dfa_accepting graphemes = Ret tt /\
  (forall h, doc_product graphemes h = Ret tt) /\ (forall h, doc_union graphemes h = Ret tt) /\
  (forall h, doc_intersection graphemes h = Ret tt) /\ (forall h, doc_difference graphemes h = Ret tt) /\
  (forall h, doc_symmetric_difference graphemes h = Ret tt) /\ doc_invert graphemes = Ret tt /\
  (forall h dbg, doc_minimize h dbg = Ret tt) /\ doc_accepts_graphemes graphemes = Ret tt /\ doc_graphemes_only graphemes = Ret tt /\
  doc_nfa_parsing graphemes = Ret tt /\ doc_nfa_accepting graphemes = Ret tt /\ doc_nfa_union graphemes = Ret tt /\
  (forall h, doc_nfa_intersection graphemes h = Ret tt) /\ (forall h1 h2 dbg, doc_remove_epsilon_moves h1 h2 dbg = Ret tt) /\
  (forall h1 h2 h3 h4 h5 h6 h7 dbg, doc_regex graphemes h1 h2 h3 h4 h5 h6 h7 dbg = Ret tt).
Proof.
  intros g Hg. split; [vm_compute; reflexivity|]. split; [intros; apply dfa_parsing_ok, Hg|]. split; [apply dfa_accepting_ok, Hg|].
  split; [intros; apply product_ok, Hg|]. split; [intros h; apply (set_operations_ok g Hg h)|]. split; [intros h; apply (set_operations_ok g Hg h)|].
  split; [intros h; apply (set_operations_ok g Hg h)|]. split; [intros h; apply (set_operations_ok g Hg h)|]. split; [apply invert_ok, Hg|].
  split; [apply minimize_ok|]. split; [apply accepts_graphemes_ok, Hg|]. split; [apply graphemes_only_ok, Hg|].
  split; [apply nfa_parsing_ok, Hg|]. split; [apply nfa_accepting_ok, Hg|]. split; [apply nfa_union_ok, Hg|]. split; [intros; apply nfa_intersection_ok, Hg|].
  split; [apply remove_epsilon_moves_ok|]. intros. apply regex_ok, Hg.
Qed.
