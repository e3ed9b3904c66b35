(** Properties about the size of the automaton of a parsed regular expression. *)
From Coq Require Import List NArith Arith Bool Lia.
From Verif Require Import Base BaseLemmas Spec LayoutSpec RegexSpec SizeSpec NfaModel RegexModel RegexParserModel SizeProofs RegexSizeProofs
  Prop_RegexParser Prop_Size.
Import ListNotations.

(** ** C64: the size of the automaton against the length of the text *)

Theorem C64_bound : forall seg h gs u t, divides seg -> tokens seg gs -> trims_to u (concat gs) -> parse_regex seg u = Ret (Some t) ->
  length (nfa_states (regex_to_nfa h t)) < 6 * length gs * 2 ^ plus_signs gs.
Proof.
  intros seg h gs u t H1 H2 H3 H4. pose proof (parse_regex_nodes _ _ _ _ H1 H2 H3 H4). destruct (C62_regex h t) as (E & L). lia.
Qed.
Print Assumptions C64_bound.

Theorem C64_no_plus_linear : forall seg h gs u t, divides seg -> tokens seg gs -> trims_to u (concat gs) -> ~ In [43%N] gs ->
  parse_regex seg u = Ret (Some t) -> length (nfa_states (regex_to_nfa h t)) < 6 * length gs.
Proof.
  intros seg h gs u t H1 H2 H3 Hp H4. pose proof (C64_bound seg h gs u t H1 H2 H3 H4) as H.
  rewrite (no_plus_signs gs Hp) in H. simpl in H. lia.
Qed.
Print Assumptions C64_no_plus_linear.

Theorem C64_nested_plus : forall seg h n u, divides seg -> tokens seg (nested_plus n) -> trims_to u (concat (nested_plus n)) ->
  exists t, parse_regex seg u = Ret (Some t) /\ length (nfa_states (regex_to_nfa h t)) + 2 = 5 * 2 ^ n.
Proof.
  intros seg h n u H1 H2 H3. exists (plus_tree n). split.
  - exact (alts_parse_regex seg _ _ u (nested_plus_alts n) H1 H2 H3).
  - destruct (C62_regex h (plus_tree n)) as (E & _). pose proof (plus_tree_nodes n). pose proof (plus_tree_elements n). lia.
Qed.
Print Assumptions C64_nested_plus.

Theorem C64_polynomial_refuted : forall c k, exists gs seg u t, divides seg /\ tokens seg gs /\ trims_to u (concat gs) /\
  parse_regex seg u = Ret (Some t) /\ forall h, c * length gs ^ k < length (nfa_states (regex_to_nfa h t)).
Proof.
  intros c k. destruct (beyond_polynomials c k) as (n & Hn). exists (nested_plus n), singles, (concat (nested_plus n)), (plus_tree n).
  assert (H1 : tokens singles (nested_plus n)) by (apply nested_plus_tokens; intros m; eexists; reflexivity).
  split; [apply singles_divides|]. split; auto. split; [apply nested_plus_trims|]. split.
  - exact (alts_parse_regex singles _ _ _ (nested_plus_alts n) singles_divides H1 (nested_plus_trims n)).
  - intros h. rewrite nested_plus_length. destruct (C62_regex h (plus_tree n)) as (E & _).
    pose proof (plus_tree_nodes n). pose proof (plus_tree_elements n). pose proof (pow_pos n). lia.
Qed.
Print Assumptions C64_polynomial_refuted.

Example C64_example : divides singles /\ tokens singles (nested_plus 3) /\ trims_to (concat (nested_plus 3)) (concat (nested_plus 3)) /\
  concat (nested_plus 3) = [40; 40; 40; 97; 41; 43; 41; 43; 41; 43]%N /\ plus_signs (nested_plus 3) = 3.
Proof.
  split; [apply singles_divides|]. split; [apply nested_plus_tokens; intros m; eexists; reflexivity|]. split; [apply nested_plus_trims|]. split; reflexivity. Qed.
