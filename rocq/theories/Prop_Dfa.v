(** * Properties of deterministic automata

    Every theorem quantifies over every automaton that satisfies [dfa_valid] (see C41: everything the public API can
    build does), over every hash iteration order [h] and over builds with and without debug assertions [dbg]. *)
From Coq Require Import List NArith Arith Bool Permutation Sorted Lia.
From Verif Require Import MessageSpec.
From Verif Require Import Base BaseLemmas Spec DfaModel NfaModel Histories Examples.
From Verif Require Import DfaBasics DfaReach DfaEquiv DfaHopcroft DfaMinimize DfaHistory DfaFinal.
Import ListNotations.

(** ** C01: [Dfa::accepts] decides the language of the table *)
Theorem C01_dfa_accepts : forall d w, dfa_valid d ->
  exists b, dfa_accepts d w = Ret b /\ (b = true <-> dfa_lang d w).
Proof. exact dfa_accepts_correct. Qed.
Print Assumptions C01_dfa_accepts.

Theorem C01_dfa_accepts_foreign : forall d w a, dfa_valid d -> In a w -> ~ In a (dfa_alphabet d) ->
  dfa_accepts d w = Ret false.
Proof.
  intros d w a V Ha Hn. destruct (dfa_accepts_correct d w V) as ([] & -> & Hb); auto.
  exfalso. apply Hn. pose proof (dfa_lang_over d w (proj1 Hb eq_refl)) as Ho. unfold over in Ho.
  rewrite Forall_forall in Ho. auto.
Qed.
Print Assumptions C01_dfa_accepts_foreign.

(** the character-based variant, for any segmentation of the input *)
Theorem C01_dfa_accepts_graphemes : forall graphemes d s, dfa_valid d ->
  exists b, dfa_accepts_graphemes graphemes d s = Ret b /\ (b = true <-> dfa_lang d (graphemes s)).
Proof. intros g d s. exact (dfa_accepts_correct d (g s)). Qed.
Print Assumptions C01_dfa_accepts_graphemes.

Example C01_example : dfa_valid ex_even /\ dfa_accepts ex_even [el_a; el_b; el_a] = Ret true /\
                      dfa_accepts ex_even [el_a; el_b] = Ret false /\ dfa_accepts ex_even [el_a; el_c; el_a] = Ret false.
Proof. split; [apply ex_even_valid|]. vm_compute. auto. Qed.

(** ** C02: histories of a DFA evaluator *)
(** After any history of [step] and [step_multiple] calls the evaluator is in the state the table prescribes for all
    elements fed so far, reports no state once an element was foreign, and [is_accepting] agrees with [accepts]. *)
Theorem C02_dfa_history : forall d cs, dfa_valid d ->
  exists e, de_run d cs = Ret e /\
    (over (dfa_alphabet d) (history_word cs) ->
       exists q s, dfa_path d (dfa_initial d) (history_word cs) q /\ nth_error (dfa_states d) q = Some s /\
                   de_current_state_idx e = q /\ de_current_state e = Ret (Some s)) /\
    (~ over (dfa_alphabet d) (history_word cs) -> de_current_state e = Ret None) /\
    de_is_accepting e = dfa_accepts d (history_word cs).
Proof.
  intros d cs V. destruct (de_run_after d cs V) as (e & He & Ha). exists e. split; auto.
  exact (de_after_observe d _ e V Ha).
Qed.
Print Assumptions C02_dfa_history.

(** What [step] returns after any history *)
Theorem C02_dfa_step_result : forall d cs e a, dfa_valid d -> de_run d cs = Ret e ->
  exists e' o, de_step e a = Ret (e', o) /\
    (over (dfa_alphabet d) (history_word cs ++ [a]) ->
       exists q s, dfa_path d (dfa_initial d) (history_word cs ++ [a]) q /\ nth_error (dfa_states d) q = Some s /\ o = Some s) /\
    (~ over (dfa_alphabet d) (history_word cs ++ [a]) -> o = None).
Proof.
  intros d cs e a V He. destruct (de_run_after d cs V) as (e1 & He1 & Ha). rewrite He in He1. injection He1 as <-.
  destruct (de_after_step d _ e a V Ha) as (e' & o & Hs & _ & H1 & H2). exists e', o. auto.
Qed.
Print Assumptions C02_dfa_step_result.

(** What [step_multiple] returns after any history.  The call with no elements is only specified while no foreign
    element was seen: see [C47_step_multiple_empty_refuted]. *)
Theorem C02_dfa_step_multiple_result : forall d cs e l, dfa_valid d -> de_run d cs = Ret e ->
  exists e' o, de_step_multiple e l = Ret (e', o) /\
    (over (dfa_alphabet d) (history_word cs ++ l) ->
       exists q s, dfa_path d (dfa_initial d) (history_word cs ++ l) q /\ nth_error (dfa_states d) q = Some s /\ o = Some s) /\
    (~ over (dfa_alphabet d) (history_word cs ++ l) -> l <> [] -> o = None).
Proof.
  intros d cs e l V He. destruct (de_run_after d cs V) as (e1 & He1 & Ha). rewrite He in He1. injection He1 as <-.
  destruct (de_after_step_multiple d _ e l V Ha) as (e' & o & Hs & _ & H1 & H2 & _). exists e', o. auto.
Qed.
Print Assumptions C02_dfa_step_multiple_result.

(** [step_all] gives, for each element in order, an evaluator that behaves as after that element *)
Theorem C02_dfa_step_all : forall d cs e, dfa_valid d -> de_run d cs = Ret e -> over (dfa_alphabet d) (history_word cs) ->
  exists es, de_step_all e = Ret es /\
    Forall2 (fun a e' => exists q s, dfa_path d (dfa_initial d) (history_word cs ++ [a]) q /\
                          nth_error (dfa_states d) q = Some s /\
                          de_current_state_idx e' = q /\ de_current_state e' = Ret (Some s)) (dfa_alphabet d) es.
Proof.
  intros d cs e V He Ho. destruct (de_run_after d cs V) as (e1 & He1 & Ha). rewrite He in He1. injection He1 as <-.
  destruct (de_step_all_after d _ e V Ha Ho) as (es & Hes & HF). exists es. split; auto.
  apply Forall2_of_nth; [eapply Forall2_len; eauto|]. intros i a e' Hi He'.
  destruct (Forall2_nth _ _ _ HF _ _ Hi) as (e2 & He2 & Ha2). rewrite He' in He2. injection He2 as <-.
  apply (de_after_observe d _ e' V Ha2). apply over_app. split; auto. constructor; [|constructor].
  eapply nth_error_In; eauto.
Qed.
Print Assumptions C02_dfa_step_all.

Example C02_example :
  exists e, de_run ex_even [CStep el_a; CStepMultiple [el_b; el_a]; CStepMultiple []] = Ret e /\
            over (dfa_alphabet ex_even) (history_word [CStep el_a; CStepMultiple [el_b; el_a]; CStepMultiple []]) /\
            de_is_accepting e = Ret true.
Proof.
  eexists. split; [vm_compute; reflexivity|]. split; [|vm_compute; auto].
  apply overb_over. vm_compute. reflexivity.
Qed.
Example C02_example_foreign :
  exists e, de_run ex_even [CStep el_c; CStepMultiple [el_a; el_a]] = Ret e /\ de_current_state e = Ret None.
Proof. eexists. split; vm_compute; reflexivity. Qed.

(** ** C47: [step_multiple] with no elements forgets that an element was foreign.
    The natural claim "after a foreign element every call returns [None]" fails for [step_multiple(&[])]. *)
Theorem C47_step_multiple_empty_refuted :
  exists d cs e e' s, dfa_valid d /\ de_run d cs = Ret e /\ ~ over (dfa_alphabet d) (history_word cs) /\
                      de_current_state e = Ret None /\ de_step_multiple e [] = Ret (e', Some s).
Proof.
  exists ex_even, [CStep el_c]. do 3 eexists. split; [apply ex_even_valid|]. split; [vm_compute; reflexivity|].
  split; [|split; vm_compute; reflexivity].
  intros H. inversion H as [|x l Hx Hl]; subst. vm_compute in Hx. repeat destruct Hx as [Hx|Hx]; try discriminate; auto.
Qed.
Print Assumptions C47_step_multiple_empty_refuted.

(** ** C12: [Dfa::equivalent_to] decides equality of the element sets and of the languages *)
Theorem C12_dfa_equivalent_to : forall d1 d2, dfa_valid d1 -> dfa_valid d2 ->
  exists b, dfa_equivalent_to d1 d2 = Ret b /\
            (b = true <-> same_set (dfa_alphabet d1) (dfa_alphabet d2) /\ forall w, dfa_lang d1 w <-> dfa_lang d2 w).
Proof. exact dfa_equivalent_to_correct. Qed.
Print Assumptions C12_dfa_equivalent_to.
Example C12_example : dfa_valid ex_even /\ dfa_valid ex_even_min /\ dfa_valid ex_end_b /\
  dfa_equivalent_to ex_even ex_even_min = Ret true /\ dfa_equivalent_to ex_even ex_end_b = Ret false.
Proof.
  split; [apply ex_even_valid|]. split; [apply ex_even_min_valid|]. split; [apply ex_end_b_valid|]. vm_compute. auto.
Qed.

(** ** C14: [Dfa::to_nfa] *)
Theorem C14_dfa_to_nfa : forall d, dfa_valid d ->
  nfa_valid (dfa_to_nfa d) /\ eps_free (dfa_to_nfa d) /\ nfa_alphabet (dfa_to_nfa d) = dfa_alphabet d /\
  map ns_name (nfa_states (dfa_to_nfa d)) = map ds_name (dfa_states d) /\
  map ns_initial (nfa_states (dfa_to_nfa d)) = map ds_initial (dfa_states d) /\
  map ns_accepting (nfa_states (dfa_to_nfa d)) = map ds_accepting (dfa_states d) /\
  nfa_initial (dfa_to_nfa d) = dfa_initial d /\
  (forall p a q, nfa_edge (dfa_to_nfa d) p a q <-> dfa_edge d p a q) /\
  (forall w, nfa_lang (dfa_to_nfa d) w <-> dfa_lang d w).
Proof.
  intros d V. split; [apply dfa_to_nfa_valid; auto|]. split.
  { intros q s Hs. simpl in Hs. rewrite nth_error_map in Hs. destruct (nth_error (dfa_states d) q); [|discriminate].
    injection Hs as <-. reflexivity. }
  split; [reflexivity|]. split; [simpl; rewrite map_map; reflexivity|]. split; [simpl; rewrite map_map; reflexivity|].
  split; [simpl; rewrite map_map; reflexivity|]. split; [reflexivity|]. split.
  - intros. apply dfa_to_nfa_edge.
  - intros. apply dfa_to_nfa_lang.
Qed.
Print Assumptions C14_dfa_to_nfa.
Example C14_example : dfa_valid ex_even /\ nfa_accepts (dfa_to_nfa ex_even) [el_a; el_a] = Ret true.
Proof. split; [apply ex_even_valid|vm_compute; auto]. Qed.

(** ** C16: reachability is exact *)
Theorem C16_dfa_reachable_state_idx : forall h d, dfa_valid d ->
  exists r, dfa_reachable_state_idx h d = Ret r /\ NoDup r /\ forall q, In q r <-> dfa_reachable d q.
Proof. exact dfa_reachable_state_idx_correct. Qed.
Print Assumptions C16_dfa_reachable_state_idx.
Theorem C16_dfa_unreachable_state_idx : forall h d, dfa_valid d ->
  exists r, dfa_unreachable_state_idx h d = Ret r /\ NoDup r /\
            forall q, In q r <-> q < length (dfa_states d) /\ ~ dfa_reachable d q.
Proof. exact dfa_unreachable_state_idx_correct. Qed.
Print Assumptions C16_dfa_unreachable_state_idx.
Theorem C16_dfa_reachable_states : forall h d, dfa_valid d ->
  exists ss k, dfa_reachable_states h d = Ret ss /\ NoDup k /\ (forall q, In q k <-> dfa_reachable d q) /\
               Forall2 (fun q s => nth_error (dfa_states d) q = Some s) k ss.
Proof. exact dfa_reachable_states_correct. Qed.
Print Assumptions C16_dfa_reachable_states.
Theorem C16_dfa_unreachable_states : forall h d, dfa_valid d ->
  exists ss k, dfa_unreachable_states h d = Ret ss /\ NoDup k /\
               (forall q, In q k <-> q < length (dfa_states d) /\ ~ dfa_reachable d q) /\
               Forall2 (fun q s => nth_error (dfa_states d) q = Some s) k ss.
Proof. exact dfa_unreachable_states_correct. Qed.
Print Assumptions C16_dfa_unreachable_states.
Example C16_example : dfa_valid ex_even /\ dfa_reachable_state_idx rev_order ex_even = Ret [0; 1; 3; 2] /\
                      dfa_unreachable_state_idx id_order ex_even = Ret [4].
Proof. split; [apply ex_even_valid|vm_compute; auto]. Qed.

(** ** C17: [remove_unreachable_states] keeps exactly the reachable states, in order, and the language *)
Theorem C17_dfa_remove_unreachable : forall h dbg d, dfa_valid d ->
  exists d', dfa_remove_unreachable_states h dbg d = Ret d' /\ dfa_valid d' /\
             (exists k, StronglySorted lt k /\ (forall q, In q k <-> dfa_reachable d q) /\ dfa_restriction k d d') /\
             forall w, dfa_lang d' w <-> dfa_lang d w.
Proof.
  intros h dbg d V. destruct (dfa_remove_unreachable_states_correct h dbg d V) as (d' & Hd & V' & k & Hk & Hin & Hr).
  exists d'. split; auto. split; auto. split; [exists k; auto|]. intros w. symmetry.
  exact (dfa_restriction_lang k d d' w Hr (lt_sorted_NoDup k Hk)).
Qed.
Print Assumptions C17_dfa_remove_unreachable.
Example C17_example : dfa_valid ex_even /\
  exists d', dfa_remove_unreachable_states rev_order true ex_even = Ret d' /\ length (dfa_states d') = 4.
Proof. split; [apply ex_even_valid|]. eexists. split; vm_compute; reflexivity. Qed.

(** ** C18: the emptiness test is exact *)
Theorem C18_dfa_has_reachable_accepting_state : forall h d, dfa_valid d ->
  exists b, dfa_has_reachable_accepting_state h d = Ret b /\ (b = true <-> exists w, dfa_lang d w).
Proof. exact dfa_has_reachable_accepting_state_correct. Qed.
Print Assumptions C18_dfa_has_reachable_accepting_state.
Example C18_example : dfa_valid ex_even /\ dfa_has_reachable_accepting_state id_order ex_even = Ret true /\
  dfa_has_reachable_accepting_state id_order
    {| dfa_alphabet := [el_a]; dfa_states := [mk_dfa_state el_a true false [0]; mk_dfa_state el_b false true [1]];
       dfa_initial := 0 |} = Ret false.
Proof. split; [apply ex_even_valid|vm_compute; auto]. Qed.

(** ** C19: equivalence classes *)
Theorem C19_state_equivalence_classes_idx : forall d, dfa_valid d ->
  exists cs, dfa_state_equivalence_classes_idx d = Ret cs /\
    NoDup (concat cs) /\ (forall q, In q (concat cs) <-> q < length (dfa_states d)) /\ Forall (fun c => c <> []) cs /\
    forall p q, p < length (dfa_states d) -> q < length (dfa_states d) ->
                ((exists c, In c cs /\ In p c /\ In q c) <-> dfa_indist d p q).
Proof.
  intros d V. destruct (dfa_state_equivalence_classes_idx_correct d V) as (cs & Hcs & [H1 H2 H3 H4]). exists cs. auto 10.
Qed.
Print Assumptions C19_state_equivalence_classes_idx.
Theorem C19_state_equivalence_classes : forall h d, dfa_valid d ->
  exists css cs, dfa_state_equivalence_classes h d = Ret css /\
    Forall2 (Forall2 (fun q s => nth_error (dfa_states d) q = Some s)) cs css /\
    NoDup (concat cs) /\ (forall q, In q (concat cs) <-> q < length (dfa_states d)) /\ Forall (fun c => c <> []) cs /\
    forall p q, p < length (dfa_states d) -> q < length (dfa_states d) ->
                ((exists c, In c cs /\ In p c /\ In q c) <-> dfa_indist d p q).
Proof.
  intros h d V. destruct (dfa_state_equivalence_classes_correct h d V) as (css & cs & Hcs & [H1 H2 H3 H4] & HF).
  exists css, cs. auto 10.
Qed.
Print Assumptions C19_state_equivalence_classes.
Example C19_example : dfa_valid ex_even /\ dfa_state_equivalence_classes_idx ex_even = Ret [[0; 3]; [4]; [1; 2]].
Proof. split; [apply ex_even_valid|vm_compute; reflexivity]. Qed.

(** ** C20: merging *)
Theorem C20_merge : forall h dbg d, dfa_valid d ->
  exists d' k, dfa_merge_nondistinguishable_states h dbg d = Ret d' /\ dfa_valid d' /\
    dfa_alphabet d' = dfa_alphabet d /\ (forall w, dfa_lang d' w <-> dfa_lang d w) /\
    (forall p q, p < length (dfa_states d') -> q < length (dfa_states d') -> dfa_indist d' p q -> p = q) /\
    (* state [i] of the result is the old state [k_i], same name and flag, accepting the same words *)
    StronglySorted lt k /\ length k = length (dfa_states d') /\
    (forall i q, nth_error k i = Some q ->
       exists s s', nth_error (dfa_states d) q = Some s /\ nth_error (dfa_states d') i = Some s' /\
                    ds_name s' = ds_name s /\ ds_accepting s' = ds_accepting s /\
                    (* transitions lead to the representatives of their targets *)
                    Forall2 (fun t t' => exists r, nth_error k t' = Some r /\ dfa_indist d t r) (ds_transitions s) (ds_transitions s') /\
                    forall w, dfa_state_lang d' i w <-> dfa_state_lang d q w) /\
    (* every old state has a representative *)
    (forall q, q < length (dfa_states d) -> exists r, In r k /\ dfa_indist d q r).
Proof.
  intros h dbg d V. destruct (dfa_merge_correct h dbg d V) as (d' & k & Hd & V' & Hm). exists d', k.
  split; auto. split; auto. split; [apply Hm|]. split; [intros w; eapply dfa_merged_lang; eauto|].
  split; [exact (dfa_merged_distinct d d' k Hm)|]. split; [apply Hm|]. split; [symmetry; apply Hm|]. split.
  - intros i q Hi. destruct (nth_error_lt (dfa_states d') i) as [s' Hs'].
    { rewrite (mg_length _ _ _ Hm). eapply nth_error_length; eauto. }
    destruct (mg_state _ _ _ Hm _ _ _ Hi Hs') as (s & Hs & En & Ea & Et). exists s, s'. split; auto. split; auto. split; auto. split; auto.
    split; auto. intros w. apply (mg_lang _ _ _ Hm _ _ w Hi).
  - apply Hm.
Qed.
Print Assumptions C20_merge.
Example C20_example : dfa_valid ex_even /\
  exists d', dfa_merge_nondistinguishable_states rev_order true ex_even = Ret d' /\ length (dfa_states d') = 3.
Proof. split; [apply ex_even_valid|]. eexists. split; vm_compute; reflexivity. Qed.

(** ** C21: [minimize] preserves the language and is minimal among all DFAs over the same elements *)
Theorem C21_minimize : forall h dbg d, dfa_valid d ->
  exists d', dfa_minimize h dbg d = Ret d' /\ dfa_valid d' /\ dfa_alphabet d' = dfa_alphabet d /\
    (forall w, dfa_lang d' w <-> dfa_lang d w) /\
    (forall q, q < length (dfa_states d') -> dfa_reachable d' q) /\
    (forall d2, dfa_valid d2 -> same_set (dfa_alphabet d2) (dfa_alphabet d) -> (forall w, dfa_lang d2 w <-> dfa_lang d w) ->
                length (dfa_states d') <= length (dfa_states d2)).
Proof.
  intros h dbg d V. destruct (dfa_minimize_correct h dbg d V) as (d' & Hd & V' & T & Ea & Hl). exists d'.
  split; auto. split; auto. split; auto. split; auto. split; [apply T|]. intros d2 V2 Hs2 Hl2.
  apply dfa_trim_minimal; auto.
  - rewrite Ea. apply same_set_sym; auto.
  - intros w. rewrite Hl, Hl2. tauto.
Qed.
Print Assumptions C21_minimize.
(** and keeps one of the reachable states of every class, in the old order, with its name and its language *)
Theorem C21_minimize_states : forall h dbg d d', dfa_valid d -> dfa_minimize h dbg d = Ret d' ->
  exists k, StronglySorted lt k /\ length (dfa_states d') = length k /\ (forall q, In q k -> dfa_reachable d q) /\
    (forall q, dfa_reachable d q -> exists r, In r k /\ dfa_indist d q r) /\
    (forall i q, nth_error k i = Some q ->
       exists s s', nth_error (dfa_states d) q = Some s /\ nth_error (dfa_states d') i = Some s' /\
                    ds_name s' = ds_name s /\ ds_accepting s' = ds_accepting s /\
                    forall w, dfa_state_lang d' i w <-> dfa_state_lang d q w).
Proof. exact dfa_minimize_states. Qed.
Print Assumptions C21_minimize_states.
Example C21_example : dfa_valid ex_even /\
  exists d', dfa_minimize rev_order true ex_even = Ret d' /\ length (dfa_states d') = 2.
Proof. split; [apply ex_even_valid|]. eexists. split; vm_compute; reflexivity. Qed.

(** ** C22: the minimal DFA is unique up to the numbering and the names of its states *)
Theorem C22_minimal_unique : forall h dbg h' dbg' d1 d2 d1' d2',
  dfa_valid d1 -> dfa_valid d2 -> same_set (dfa_alphabet d1) (dfa_alphabet d2) ->
  (forall w, dfa_lang d1 w <-> dfa_lang d2 w) ->
  dfa_minimize h dbg d1 = Ret d1' -> dfa_minimize h' dbg' d2 = Ret d2' ->
  length (dfa_states d1') = length (dfa_states d2') /\ exists f, dfa_iso d1' d2' f.
Proof. exact dfa_minimize_iso. Qed.
Print Assumptions C22_minimal_unique.
Example C22_example : dfa_valid ex_even /\ dfa_valid ex_even_min /\
  same_set (dfa_alphabet ex_even) (dfa_alphabet ex_even_min) /\ (forall w, dfa_lang ex_even w <-> dfa_lang ex_even_min w).
Proof.
  split; [apply ex_even_valid|]. split; [apply ex_even_min_valid|].
  destruct (dfa_equivalent_to_correct _ _ ex_even_valid ex_even_min_valid) as (b & Hb & Hiff).
  apply Hiff. assert (E : dfa_equivalent_to ex_even ex_even_min = Ret true) by (vm_compute; reflexivity). congruence.
Qed.

(** ** C23: [invert] complements *)
Theorem C23_invert : forall d, dfa_valid d ->
  dfa_valid (dfa_invert d) /\ dfa_alphabet (dfa_invert d) = dfa_alphabet d /\
  dfa_initial (dfa_invert d) = dfa_initial d /\
  map ds_name (dfa_states (dfa_invert d)) = map ds_name (dfa_states d) /\
  map ds_transitions (dfa_states (dfa_invert d)) = map ds_transitions (dfa_states d) /\
  dfa_invert (dfa_invert d) = d /\
  (forall w, dfa_lang (dfa_invert d) w <-> over (dfa_alphabet d) w /\ ~ dfa_lang d w).
Proof.
  intros d V. split; [apply dfa_invert_valid; auto|]. split; [reflexivity|]. split; [reflexivity|].
  split; [simpl; rewrite map_map; reflexivity|]. split; [simpl; rewrite map_map; reflexivity|].
  split; [apply dfa_invert_involutive|]. intros w. apply dfa_invert_lang; auto.
Qed.
Print Assumptions C23_invert.
Example C23_example : dfa_valid ex_even /\ dfa_accepts (dfa_invert ex_even) [el_a] = Ret true /\
                      dfa_accepts (dfa_invert ex_even) [el_a; el_c] = Ret false.
Proof. split; [apply ex_even_valid|vm_compute; auto]. Qed.

(** ** C24: the product construction *)
Theorem C24_dfa_product : forall h d1 d2 comb, dfa_valid d1 -> dfa_valid d2 ->
  exists r, dfa_product_construction h d1 d2 comb = Ret r /\
    (r = None <-> ~ same_set (dfa_alphabet d1) (dfa_alphabet d2)) /\
    forall d, r = Some d -> dfa_valid d /\ dfa_alphabet d = dfa_alphabet d1 /\
      (forall q, q < length (dfa_states d) -> dfa_reachable d q) /\
      (forall w, dfa_lang d w <->
         exists q1 q2 s1 s2, dfa_path d1 (dfa_initial d1) w q1 /\ dfa_path d2 (dfa_initial d2) w q2 /\
           nth_error (dfa_states d1) q1 = Some s1 /\ nth_error (dfa_states d2) q2 = Some s2 /\ comb s1 s2 = true).
Proof.
  intros h d1 d2 comb V1 V2. destruct (alphabet_equal_spec _ _ (dv_alphabet _ V1) (dv_alphabet _ V2)) as [Hs|Hs].
  - destruct (dfa_product_construction_correct h d1 d2 comb V1 V2 Hs) as (d & ks & Hd & V & HP). exists (Some d).
    split; auto. split; [split; [discriminate|tauto]|]. intros d' [= <-]. split; auto. split; [apply HP|]. split.
    + exact (dfa_product_reach comb d1 d2 d ks V1 V2 V HP).
    + intros w. exact (dfa_product_lang comb d1 d2 d ks w V1 V2 V HP).
  - exists None. rewrite dfa_product_none by auto. split; auto. split; [tauto|]. discriminate.
Qed.
Print Assumptions C24_dfa_product.
(** the product has exactly one state per pair of states reached together, and names it after the pair whenever these
    names are distinct *)
Theorem C24_dfa_product_states : forall h d1 d2 comb d, dfa_valid d1 -> dfa_valid d2 ->
  dfa_product_construction h d1 d2 comb = Ret (Some d) ->
  exists ks, NoDup ks /\ length ks = length (dfa_states d) /\
    (forall q1 q2, In (q1, q2) ks <-> exists w, dfa_path d1 (dfa_initial d1) w q1 /\ dfa_path d2 (dfa_initial d2) w q2) /\
    (forall i q1 q2 s1 s2 s, nth_error ks i = Some (q1, q2) -> nth_error (dfa_states d1) q1 = Some s1 ->
       nth_error (dfa_states d2) q2 = Some s2 -> nth_error (dfa_states d) i = Some s -> ds_accepting s = comb s1 s2) /\
    (NoDup (map (fun '(q1, q2) => match nth_error (dfa_states d1) q1, nth_error (dfa_states d2) q2 with
                                  | Some s1, Some s2 => [40%N] ++ ds_name s1 ++ [44%N] ++ ds_name s2 ++ [41%N]
                                  | _, _ => [] end) ks) ->
     forall i q1 q2 s1 s2 s, nth_error ks i = Some (q1, q2) -> nth_error (dfa_states d1) q1 = Some s1 ->
       nth_error (dfa_states d2) q2 = Some s2 -> nth_error (dfa_states d) i = Some s ->
       ds_name s = [40%N] ++ ds_name s1 ++ [44%N] ++ ds_name s2 ++ [41%N]) /\
    (~ NoDup (map (fun '(q1, q2) => match nth_error (dfa_states d1) q1, nth_error (dfa_states d2) q2 with
                                  | Some s1, Some s2 => [40%N] ++ ds_name s1 ++ [44%N] ++ ds_name s2 ++ [41%N]
                                  | _, _ => [] end) ks) ->
     forall s, In s (dfa_states d) -> exists i, i < length ks /\ ds_name s = decimal i) /\
    nth_error ks (dfa_initial d) = Some (dfa_initial d1, dfa_initial d2) /\
    (forall i q1 q2 a j, nth_error ks i = Some (q1, q2) ->
       (dfa_edge d i a j <-> exists t1 t2, nth_error ks j = Some (t1, t2) /\ dfa_edge d1 q1 a t1 /\ dfa_edge d2 q2 a t2)).
Proof.
  intros h d1 d2 comb d V1 V2 Hd. destruct (alphabet_equal_spec _ _ (dv_alphabet _ V1) (dv_alphabet _ V2)) as [Hs|Hs].
  2:{ rewrite dfa_product_none in Hd by auto. discriminate. }
  destruct (dfa_product_construction_correct h d1 d2 comb V1 V2 Hs) as (d' & ks & Hd' & V & HP).
  rewrite Hd in Hd'. injection Hd' as <-. exists ks. split; [apply HP|]. split; [symmetry; apply HP|].
  assert (Hlen := dp_length _ _ _ _ _ HP).
  assert (Hst : forall q1 q2, In (q1, q2) ks -> exists s1 s2, nth_error (dfa_states d1) q1 = Some s1 /\ nth_error (dfa_states d2) q2 = Some s2).
  { intros q1 q2 Hq. apply (dp_reach _ _ _ _ _ HP) in Hq as (w & P1 & P2).
    destruct (nth_error_lt (dfa_states d1) q1) as [s1 H1]; [eapply dfa_path_range; eauto; apply V1|].
    destruct (nth_error_lt (dfa_states d2) q2) as [s2 H2]; [eapply dfa_path_range; eauto; apply V2|]. eauto. }
  split; [apply HP|]. split; [apply HP|]. split; [|split; [|split; [apply HP|]]].
  - intros Hnd i q1 q2 s1 s2 s Hi H1 H2 Hs'. destruct (dp_names _ _ _ _ _ HP) as [Hn|[Hn _]].
    + rewrite (Hn _ _ _ Hi Hs'). unfold dfa_pair_name. simpl. rewrite H1, H2. reflexivity.
    + exfalso. apply Hn. erewrite map_ext; [exact Hnd|]. intros [a b]. reflexivity.
  - intros Hnd s Hin. destruct (dp_names _ _ _ _ _ HP) as [Hn|[_ Hn]].
    + exfalso. apply Hnd. replace (map _ ks) with (map ds_name (dfa_states d)); [apply (dv_names _ V)|].
      apply nth_error_ext. intros i. rewrite !nth_error_map. destruct (nth_error ks i) as [[q1 q2]|] eqn:Ei.
      * destruct (nth_error_lt (dfa_states d) i) as [st Hs']; [rewrite Hlen; eapply nth_error_length; eauto|]. rewrite Hs'. simpl.
        rewrite (Hn _ _ _ Ei Hs'). destruct (Hst q1 q2 (nth_error_In _ _ Ei)) as (s1 & s2 & H1 & H2).
        unfold dfa_pair_name. simpl. rewrite H1, H2. reflexivity.
      * assert (Hno : nth_error (dfa_states d) i = None) by (apply nth_error_None; rewrite Hlen; apply nth_error_None; auto). rewrite Hno. auto.
    + destruct (Hn s Hin) as (i & Hi & E). exists i. split; auto. rewrite E. apply dec_decimal.
  - intros i q1 q2 a j Hi. split; [apply (dp_edge _ _ _ _ _ HP); auto|]. intros (t1 & t2 & Hj & E1 & E2).
    assert (Hil : i < length (dfa_states d)) by (rewrite Hlen; eapply nth_error_length; eauto).
    destruct (dfa_edge_total d i a V Hil) as (j' & He & _); [rewrite (dp_alphabet _ _ _ _ _ HP); eapply dfa_edge_elem; eauto|].
    destruct (dp_edge _ _ _ _ _ HP _ _ _ _ _ Hi He) as (u1 & u2 & Hj' & F1 & F2).
    rewrite (dfa_edge_fun d1 q1 a u1 t1), (dfa_edge_fun d2 q2 a u2 t2) in Hj' by (auto; try apply V1; apply V2).
    rewrite (NoDup_nth_error_inj ks j j' (t1, t2)) by (auto; apply HP). auto.
Qed.
Print Assumptions C24_dfa_product_states.
Example C24_example : dfa_valid ex_even /\ dfa_valid ex_end_b /\
  exists d, dfa_product_construction rev_order ex_even ex_end_b (fun s1 s2 => ds_accepting s1 && ds_accepting s2) = Ret (Some d) /\
            dfa_accepts d [el_a; el_a; el_b] = Ret true.
Proof. split; [apply ex_even_valid|]. split; [apply ex_end_b_valid|]. eexists. split; vm_compute; reflexivity. Qed.

(** ** C25: Boolean operations *)
Theorem C25_union : forall h d1 d2, dfa_valid d1 -> dfa_valid d2 ->
  exists r, dfa_union h d1 d2 = Ret r /\ (r = None <-> ~ same_set (dfa_alphabet d1) (dfa_alphabet d2)) /\
    forall d, r = Some d -> dfa_valid d /\ dfa_alphabet d = dfa_alphabet d1 /\
                            forall w, dfa_lang d w <-> (dfa_lang d1 w \/ dfa_lang d2 w).
Proof.
  intros h d1 d2 V1 V2. apply (dfa_boolean h orb d1 d2 or); auto; try tauto. intros [] []; simpl; intuition.
Qed.
Print Assumptions C25_union.
Theorem C25_intersection : forall h d1 d2, dfa_valid d1 -> dfa_valid d2 ->
  exists r, dfa_intersection h d1 d2 = Ret r /\ (r = None <-> ~ same_set (dfa_alphabet d1) (dfa_alphabet d2)) /\
    forall d, r = Some d -> dfa_valid d /\ dfa_alphabet d = dfa_alphabet d1 /\
                            forall w, dfa_lang d w <-> (dfa_lang d1 w /\ dfa_lang d2 w).
Proof.
  intros h d1 d2 V1 V2. apply (dfa_boolean h andb d1 d2 and); auto; try tauto. intros [] []; simpl; intuition.
Qed.
Print Assumptions C25_intersection.
Theorem C25_difference : forall h d1 d2, dfa_valid d1 -> dfa_valid d2 ->
  exists r, dfa_difference h d1 d2 = Ret r /\ (r = None <-> ~ same_set (dfa_alphabet d1) (dfa_alphabet d2)) /\
    forall d, r = Some d -> dfa_valid d /\ dfa_alphabet d = dfa_alphabet d1 /\
                            forall w, dfa_lang d w <-> (dfa_lang d1 w /\ ~ dfa_lang d2 w).
Proof.
  intros h d1 d2 V1 V2. apply (dfa_boolean h (fun a b => a && negb b) d1 d2 (fun A B => A /\ ~ B)); auto; try tauto.
  intros [] []; simpl; intuition congruence.
Qed.
Print Assumptions C25_difference.
Theorem C25_symmetric_difference : forall h d1 d2, dfa_valid d1 -> dfa_valid d2 ->
  exists r, dfa_symmetric_difference h d1 d2 = Ret r /\ (r = None <-> ~ same_set (dfa_alphabet d1) (dfa_alphabet d2)) /\
    forall d, r = Some d -> dfa_valid d /\ dfa_alphabet d = dfa_alphabet d1 /\
                            forall w, dfa_lang d w <-> (dfa_lang d1 w /\ ~ dfa_lang d2 w \/ ~ dfa_lang d1 w /\ dfa_lang d2 w).
Proof.
  intros h d1 d2 V1 V2.
  apply (dfa_boolean h (fun a b => negb (Bool.eqb a b)) d1 d2 (fun A B => A /\ ~ B \/ ~ A /\ B)); auto; try tauto.
  intros [] []; simpl; intuition congruence.
Qed.
Print Assumptions C25_symmetric_difference.
Example C25_example : dfa_valid ex_even /\ dfa_valid ex_end_b /\
  exists d, dfa_symmetric_difference rev_order ex_even ex_end_b = Ret (Some d) /\
            dfa_accepts d [el_a; el_b] = Ret true /\ dfa_accepts d [el_b] = Ret false.
Proof. split; [apply ex_even_valid|]. split; [apply ex_end_b_valid|]. eexists. split; [vm_compute; reflexivity|]. vm_compute. auto. Qed.
