(** * The generators of the property tests: C69 *)
From Coq Require Import List NArith Arith Bool Lia Permutation.
From Verif Require Import Base BaseLemmas Spec TableSpec LayoutSpec GenModel GenProofs TableProofs TestsModel Prop_Tests Examples.
Import ListNotations.

(** ** What can be drawn: exactly the valid automata of the right size with printable names *)
Theorem C69_dfa : forall max_states max_alphabet_size d, dfa_drawn max_states max_alphabet_size d <->
  dfa_valid d /\ length (dfa_states d) < max_states /\ 1 <= length (dfa_alphabet d) < max_alphabet_size /\
  Forall legal_token (dfa_alphabet d) /\ Forall (fun s => legal_token (ds_name s)) (dfa_states d).
Proof.
  intros M K d. split.
  - intros (k & a & names & al & i0 & acc & tr & Hk & Ha & Hn & Hal & Hi & Hacc & Htr & ->).
    apply names_drawn in Hn as (Ln & NDn & Tn). apply names_drawn in Hal as (La & NDa & Ta).
    split; [apply (build_dfa_valid al names i0 acc tr k a); auto; apply Hacc|]. rewrite (build_dfa_length _ _ _ _ _ k); auto; try apply Hacc; try apply Htr.
    split; [lia|]. split; [cbn; lia|]. split; [exact Ta|].
    rewrite <- Forall_map. rewrite (build_dfa_names _ _ _ _ _ k); auto; [apply Hacc|apply Htr].
  - intros (V & Hk & Ha & Ta & Tn). exists (length (dfa_states d)), (length (dfa_alphabet d)), (map ds_name (dfa_states d)), (dfa_alphabet d),
      (dfa_initial d), (map ds_accepting (dfa_states d)), (map ds_transitions (dfa_states d)). pose proof (dv_initial d V).
    split; [lia|]. split; [lia|]. split; [apply names_drawn; rewrite map_length; split; auto; split; [apply V|rewrite Forall_map; auto]|].
    split; [apply names_drawn; split; auto; split; [apply V|auto]|]. split; [auto|].
    split; [split; [apply map_length|apply Forall_forall; auto]|]. split; [apply columns_dfa; auto|apply rebuild_dfa; auto].
Qed.
Print Assumptions C69_dfa.

Theorem C69_fixed_alphabet_dfa : forall max_states chars d, NoDup chars -> (fixed_alphabet_dfa_drawn max_states chars (length chars) d <->
  dfa_valid d /\ length (dfa_states d) < max_states /\ Permutation (map (fun c => [c]) chars) (dfa_alphabet d) /\
  Forall (fun s => legal_token (ds_name s)) (dfa_states d)).
Proof.
  intros M chars d ND. split.
  - intros (k & names & al & i0 & acc & tr & Hk & Hn & Hi & Hacc & Htr & Hp & ->).
    apply names_drawn in Hn as (Ln & NDn & Tn).
    assert (La : length al = length chars) by (etransitivity; [symmetry; exact (Permutation_length Hp)|apply map_length]).
    split; [apply (build_dfa_valid al names i0 acc tr k (length chars)); auto; [|apply Hacc]|].
    { apply (Permutation_NoDup Hp). apply singles_nodup; auto. }
    rewrite (build_dfa_length _ _ _ _ _ k); auto; try apply Hacc; try apply Htr.
    split; [lia|]. split; [exact Hp|].
    rewrite <- Forall_map. rewrite (build_dfa_names _ _ _ _ _ k); auto; [apply Hacc|apply Htr].
  - intros (V & Hk & Hp & Tn). exists (length (dfa_states d)), (map ds_name (dfa_states d)), (dfa_alphabet d),
      (dfa_initial d), (map ds_accepting (dfa_states d)), (map ds_transitions (dfa_states d)). pose proof (dv_initial d V).
    assert (La : length (dfa_alphabet d) = length chars) by (etransitivity; [symmetry; exact (Permutation_length Hp)|apply map_length]).
    split; [lia|]. split; [apply names_drawn; rewrite map_length; split; auto; split; [apply V|rewrite Forall_map; auto]|].
    split; [auto|]. split; [split; [apply map_length|apply Forall_forall; auto]|].
    split; [rewrite <- La; apply columns_dfa; auto|]. split; [exact Hp|apply rebuild_dfa; auto].
Qed.
Print Assumptions C69_fixed_alphabet_dfa.

(** NFAs: moreover no target is listed twice *)
Theorem C69_nfa : forall max_states max_alphabet_size n, nfa_drawn max_states max_alphabet_size n <->
  nfa_valid n /\ length (nfa_states n) < max_states /\ 1 <= length (nfa_alphabet n) < max_alphabet_size /\
  Forall legal_token (nfa_alphabet n) /\ Forall (fun s => legal_token (ns_name s)) (nfa_states n) /\
  Forall (fun s => NoDup (ns_eps s) /\ Forall (@NoDup nat) (ns_transitions s)) (nfa_states n).
Proof.
  intros M K d. split.
  - intros (k & a & names & al & i0 & acc & ep & tr & Hk & Ha & Hn & Hal & Hi & Hacc & Hep & Htr & ->).
    apply names_drawn in Hn as (Ln & NDn & Tn). apply names_drawn in Hal as (La & NDa & Ta).
    split; [apply (build_nfa_valid al names i0 acc tr ep k a); auto; apply Hacc|].
    rewrite (build_nfa_length _ _ _ _ _ _ k); auto; try apply Hacc; try apply Htr; try apply Hep.
    split; [lia|]. split; [cbn; lia|]. split; [exact Ta|]. split.
    + rewrite <- Forall_map. rewrite (build_nfa_names _ _ _ _ _ _ k); auto; [apply Hacc|apply Htr|apply Hep].
    + exact (build_nfa_distinct al names i0 acc tr ep k a Htr Hep).
  - intros (V & Hk & Ha & Ta & Tn & HD). exists (length (nfa_states d)), (length (nfa_alphabet d)), (map ns_name (nfa_states d)), (nfa_alphabet d),
      (nfa_initial d), (map ns_accepting (nfa_states d)), (map ns_eps (nfa_states d)), (map ns_transitions (nfa_states d)). pose proof (nv_initial d V).
    split; [lia|]. split; [lia|]. split; [apply names_drawn; rewrite map_length; split; auto; split; [apply V|rewrite Forall_map; auto]|].
    split; [apply names_drawn; split; auto; split; [apply V|auto]|]. split; [auto|].
    split; [split; [apply map_length|apply Forall_forall; auto]|]. split; [apply columns_nfa; auto|]. split; [apply columns_nfa; auto|apply rebuild_nfa; auto].
Qed.
Print Assumptions C69_nfa.

Theorem C69_fixed_alphabet_nfa : forall max_states chars n, NoDup chars -> (fixed_alphabet_nfa_drawn max_states chars (length chars) n <->
  nfa_valid n /\ length (nfa_states n) < max_states /\ Permutation (map (fun c => [c]) chars) (nfa_alphabet n) /\
  Forall (fun s => legal_token (ns_name s)) (nfa_states n) /\
  Forall (fun s => NoDup (ns_eps s) /\ Forall (@NoDup nat) (ns_transitions s)) (nfa_states n)).
Proof.
  intros M chars d ND. split.
  - intros (k & names & al & i0 & acc & tr & ep & Hk & Hn & Hi & Hacc & Htr & Hep & Hp & ->).
    apply names_drawn in Hn as (Ln & NDn & Tn).
    assert (La : length al = length chars) by (etransitivity; [symmetry; exact (Permutation_length Hp)|apply map_length]).
    split; [apply (build_nfa_valid al names i0 acc tr ep k (length chars)); auto; [|apply Hacc]|].
    { apply (Permutation_NoDup Hp). apply singles_nodup; auto. }
    rewrite (build_nfa_length _ _ _ _ _ _ k); auto; try apply Hacc; try apply Htr; try apply Hep.
    split; [lia|]. split; [exact Hp|]. split.
    + rewrite <- Forall_map. rewrite (build_nfa_names _ _ _ _ _ _ k); auto; [apply Hacc|apply Htr|apply Hep].
    + exact (build_nfa_distinct al names i0 acc tr ep k _ Htr Hep).
  - intros (V & Hk & Hp & Tn & HD). exists (length (nfa_states d)), (map ns_name (nfa_states d)), (nfa_alphabet d),
      (nfa_initial d), (map ns_accepting (nfa_states d)), (map ns_transitions (nfa_states d)), (map ns_eps (nfa_states d)). pose proof (nv_initial d V).
    assert (La : length (nfa_alphabet d) = length chars) by (etransitivity; [symmetry; exact (Permutation_length Hp)|apply map_length]).
    split; [lia|]. split; [apply names_drawn; rewrite map_length; split; auto; split; [apply V|rewrite Forall_map; auto]|].
    split; [auto|]. split; [split; [apply map_length|apply Forall_forall; auto]|].
    split; [rewrite <- La; apply columns_nfa; auto|]. split; [apply columns_nfa; auto|]. split; [exact Hp|apply rebuild_nfa; auto].
Qed.
Print Assumptions C69_fixed_alphabet_nfa.

(** ** Hence no drawn input makes a test fail, with any bounds [m], [k] in place of the ones in the code *)
Theorem C69_tests : forall m k,
  (forall d, dfa_drawn m k d -> dfa_table_reparse d = Ret tt) /\
  (forall h dbg d, dfa_drawn m k d -> dfa_minimize_eq h dbg d = Ret tt) /\
  (forall h d, dfa_drawn m k d -> dfa_to_nfa_to_dfa h d = Ret tt) /\
  (forall n, nfa_drawn m k n -> nfa_table_reparse n = Ret tt) /\
  (forall h n, nfa_drawn m k n -> nfa_to_dfa_to_nfa h n = Ret tt) /\
  (forall h dbg n, nfa_drawn m k n -> nfa_remove_epsilon_transitions h dbg n = Ret tt) /\
  (forall h dbg n, nfa_drawn m k n -> nfa_remove_unreachable h dbg n = Ret tt).
Proof.
  intros m k. split; [|split; [|split; [|split; [|split; [|split]]]]].
  - intros d H. apply C69_dfa in H as (V & _ & Ha & T1 & T2). apply C66_dfa_table_reparse; auto. intros E. rewrite E in Ha. cbn in Ha. lia.
  - intros h dbg d H. apply C69_dfa in H as (V & _). apply C66_dfa_minimize_eq; auto.
  - intros h d H. apply C69_dfa in H as (V & _). apply C66_dfa_to_nfa_to_dfa; auto.
  - intros n H. apply C69_nfa in H as (V & _ & _ & T1 & T2 & _). apply C66_nfa_table_reparse; auto.
  - intros h n H. apply C69_nfa in H as (V & _). apply C66_nfa_to_dfa_to_nfa; auto.
  - intros h dbg n H. apply C69_nfa in H as (V & _). apply C66_nfa_remove_epsilon_transitions; auto.
  - intros h dbg n H. apply C69_nfa in H as (V & _). apply C66_nfa_remove_unreachable_states; auto.
Qed.
Print Assumptions C69_tests.

Theorem C69_fixed_alphabet_tests : forall m chars graphemes, NoDup chars -> chars <> [] ->
  (forall s, (forall c, In c s -> In c chars) -> graphemes s = map (fun c => [c]) s) ->
  let dfa_ok := fixed_alphabet_dfa_drawn m chars (length chars) in
  let nfa_ok := fixed_alphabet_nfa_drawn m chars (length chars) in
  (forall h1 h2 h3 h4 d1 d2 tests, dfa_ok d1 -> dfa_ok d2 -> dfa_binary_ops graphemes h1 h2 h3 h4 d1 d2 tests = Ret tt) /\
  (forall h n1 n2 tests, nfa_ok n1 -> nfa_ok n2 -> nfa_binary_ops graphemes h n1 n2 tests = Ret tt) /\
  (forall h d, dfa_ok d -> dfa_self_union h d = Ret tt) /\
  (forall h d, dfa_ok d -> dfa_self_intersection h d = Ret tt) /\
  (forall h1 h2 h3 h4 d tests, dfa_ok d -> (forall test c, In test tests -> In c test -> In c chars) ->
     dfa_inversion_tautologies graphemes h1 h2 h3 h4 d tests = Ret tt) /\
  (forall h1 h2 h3 h4 dbg take len d, dfa_ok d -> nfa_words graphemes h1 h2 h3 h4 dbg take len d = Ret tt).
Proof.
  intros m chars g ND NE Hg dfa_ok nfa_ok.
  assert (HA : forall d, dfa_ok d -> dfa_valid d /\ forall a, In a (dfa_alphabet d) <-> exists c, In c chars /\ a = [c]).
  { intros d H. apply C69_fixed_alphabet_dfa in H as (V & _ & P & _); auto. split; auto. intros a. split.
    - intros Ha. apply (Permutation_in _ (Permutation_sym P)) in Ha. apply in_map_iff in Ha as (c & <- & Hc). eauto.
    - intros (c & Hc & ->). apply (Permutation_in _ P). apply (in_map (fun c => [c])). auto. }
  assert (HN : forall d, nfa_ok d -> nfa_valid d /\ forall a, In a (nfa_alphabet d) <-> exists c, In c chars /\ a = [c]).
  { intros d H. apply C69_fixed_alphabet_nfa in H as (V & _ & P & _); auto. split; auto. intros a. split.
    - intros Ha. apply (Permutation_in _ (Permutation_sym P)) in Ha. apply in_map_iff in Ha as (c & <- & Hc). eauto.
    - intros (c & Hc & ->). apply (Permutation_in _ P). apply (in_map (fun c => [c])). auto. }
  split; [|split; [|split; [|split; [|split]]]].
  - intros h1 h2 h3 h4 d1 d2 tests H1 H2. destruct (HA d1 H1) as [V1 A1], (HA d2 H2) as [V2 A2]. apply C66_dfa_binary_ops; auto. intros a. rewrite A1, A2. tauto.
  - intros h d1 d2 tests H1 H2. destruct (HN d1 H1) as [V1 A1], (HN d2 H2) as [V2 A2]. apply C66_nfa_binary_ops; auto. intros a. rewrite A1, A2. tauto.
  - intros h d H. apply C66_dfa_self_union, (HA d H).
  - intros h d H. apply C66_dfa_self_intersection, (HA d H).
  - intros h1 h2 h3 h4 d tests H Ht. destruct (HA d H) as [V A]. apply C66_dfa_inversion_tautologies; auto. intros test Hin. rewrite Hg by eauto.
    apply Forall_forall. intros a Ha. apply in_map_iff in Ha as (c & <- & Hc). apply A. exists c. split; [eapply Ht; eauto|reflexivity].
  - intros h1 h2 h3 h4 dbg take len d H. destruct (HA d H) as [V A]. apply C66_nfa_words; auto.
    + intros E. destruct chars as [|c l]; [congruence|]. assert (In [c] (dfa_alphabet d)) by (apply A; exists c; split; [left; auto|auto]). rewrite E in *. auto.
    + intros w Hw. assert (E : w = map (fun c => [c]) (concat w) /\ forall c, In c (concat w) -> In c chars).
      { induction Hw as [|a w Ha Hw [IH1 IH2]]; [split; [reflexivity|intros c []]|]. apply A in Ha as (c & Hc & ->). cbn. split; [f_equal; exact IH1|].
        intros x [<- |Hx]; auto. }
      rewrite Hg by apply E. symmetry. apply E.
Qed.
Print Assumptions C69_fixed_alphabet_tests.

(** ** Concrete cases *)
Example C69_example : dfa_drawn 50 50 ex_even /\ fixed_alphabet_dfa_drawn 20 [97; 98]%N 2 ex_end_b /\ nfa_drawn 50 50 ex_nfa /\
  fixed_alphabet_nfa_drawn 20 [97; 98]%N 2 ex_nfa_ab.
Proof.
  split; [|split; [|split]].
  - apply C69_dfa. split; [apply ex_even_valid|]. split; [cbn; lia|]. split; [cbn; lia|]. split; repeat (apply Forall_cons; [apply legal_tokenb_legal; reflexivity|]); apply Forall_nil.
  - apply (C69_fixed_alphabet_dfa 20 [97; 98]%N); [repeat constructor; cbn; intuition discriminate|]. split; [apply ex_end_b_valid|]. split; [cbn; lia|].
    split; [apply perm_swap|]. repeat (apply Forall_cons; [apply legal_tokenb_legal; reflexivity|]); apply Forall_nil.
  - apply C69_nfa. split; [apply ex_nfa_valid|]. split; [cbn; lia|]. split; [cbn; lia|]. split; [repeat (apply Forall_cons; [apply legal_tokenb_legal; reflexivity|]); apply Forall_nil|].
    split; [repeat (apply Forall_cons; [apply legal_tokenb_legal; reflexivity|]); apply Forall_nil|]. repeat constructor; cbn; intuition discriminate.
  - apply (C69_fixed_alphabet_nfa 20 [97; 98]%N); [repeat constructor; cbn; intuition discriminate|]. split; [apply ex_nfa_ab_valid|]. split; [cbn; lia|].
    split; [apply perm_swap|]. split; [repeat (apply Forall_cons; [apply legal_tokenb_legal; reflexivity|]); apply Forall_nil|]. repeat constructor; cbn; intuition discriminate.
Qed.
(** A repeated target is never drawn, although the type of NFAs admits it; nor is a name that could not be parsed back *)
Example C69_not_drawn : (forall m k, ~ nfa_drawn m k {| nfa_alphabet := [el_a]; nfa_states := [mk_nfa_state [48%N] true true [] [[0; 0]]]; nfa_initial := 0 |}) /\
  (forall m k, ~ dfa_drawn m k {| dfa_alphabet := [el_a]; dfa_states := [mk_dfa_state [42%N] true true [0]]; dfa_initial := 0 |}).
Proof.
  split; intros m k H.
  - apply C69_nfa in H as (_ & _ & _ & _ & _ & H). inversion H as [|? ? [_ H1] _]; subst. inversion H1 as [|? ? H2 _]; subst. inversion H2 as [|? ? H3 _]; subst.
    apply H3. left. reflexivity.
  - apply C69_dfa in H as (_ & _ & _ & _ & H). inversion H as [|? ? H1 _]; subst. destruct H1 as (_ & _ & H1). apply H1. cbn. auto 10.
Qed.
