(** Properties about the number of states of the results. *)
From Coq Require Import List NArith Arith Bool Lia Sorting.Sorted.
From Verif Require Import Base BaseLemmas Spec SizeSpec DfaModel NfaModel RegexModel Examples DfaBasics NfaBasics DfaReach NfaReach DfaMinimize
  NfaToDfa NfaProduct NfaUnion NfaEps RegexProofs Prop_Dfa Prop_Nfa SizeProofs.
Import ListNotations.

(** ** C62: sizes *)

Theorem C62_same_size : forall d,
  length (nfa_states (dfa_to_nfa d)) = length (dfa_states d) /\ length (dfa_states (dfa_invert d)) = length (dfa_states d).
Proof. intros d. split; apply map_length. Qed.
Print Assumptions C62_same_size.

Theorem C62_dfa_product : forall h d1 d2 comb d, dfa_valid d1 -> dfa_valid d2 ->
  dfa_product_construction h d1 d2 comb = Ret (Some d) -> length (dfa_states d) <= length (dfa_states d1) * length (dfa_states d2).
Proof.
  intros h d1 d2 comb d V1 V2 E. destruct (C24_dfa_product_states h d1 d2 comb d V1 V2 E) as (ks & N & L & K & _). rewrite <- L.
  apply nodup_pairs; auto. intros p q Hp. apply K in Hp as (w & P1 & P2).
  split; [eapply dfa_path_range; eauto; apply V1|eapply dfa_path_range; eauto; apply V2].
Qed.
Print Assumptions C62_dfa_product.
Theorem C62_dfa_set_operations : forall h d1 d2 d, dfa_valid d1 -> dfa_valid d2 ->
  dfa_union h d1 d2 = Ret (Some d) \/ dfa_intersection h d1 d2 = Ret (Some d) \/ dfa_difference h d1 d2 = Ret (Some d) \/
  dfa_symmetric_difference h d1 d2 = Ret (Some d) -> length (dfa_states d) <= length (dfa_states d1) * length (dfa_states d2).
Proof. intros h d1 d2 d V1 V2 [E|[E|[E|E]]]; exact (C62_dfa_product h d1 d2 _ d V1 V2 E). Qed.
Print Assumptions C62_dfa_set_operations.

Theorem C62_nfa_product : forall h n1 n2 comb n, nfa_valid n1 -> nfa_valid n2 ->
  nfa_product_construction h n1 n2 comb = Ret (Some n) \/ nfa_intersection h n1 n2 = Ret (Some n) ->
  length (nfa_states n) < S (length (nfa_states n1)) * S (length (nfa_states n2)).
Proof.
  assert (K : forall h n1 n2 comb n, nfa_valid n1 -> nfa_valid n2 -> nfa_product_construction h n1 n2 comb = Ret (Some n) ->
    length (nfa_states n) < S (length (nfa_states n1)) * S (length (nfa_states n2))).
  { intros h n1 n2 comb n V1 V2 E. destruct (alphabet_equal_spec _ _ (nv_alphabet _ V1) (nv_alphabet _ V2)) as [Hs|Hs].
    - destruct (nfa_product_construction_struct h n1 n2 comb V1 V2 Hs) as (n' & ks & Hn & V & HP). rewrite E in Hn. injection Hn as <-.
      rewrite (np_length _ _ _ _ _ HP). apply nodup_option_pairs; [apply HP| |].
      + intros H. apply (np_reach _ _ _ _ _ HP) in H as (w & Hw). exact (ppath_sound _ _ _ _ Hw).
      + intros p H. apply (np_reach _ _ _ _ _ HP) in H as (w & Hw). exact (ppath_orange n1 n2 w p V1 V2 Hw).
    - rewrite nfa_product_none in E by auto. discriminate. }
  intros h n1 n2 comb n V1 V2 [E|E]; eapply K; eauto.
Qed.
Print Assumptions C62_nfa_product.

Theorem C62_nfa_union : forall n1 n2 n, nfa_valid n1 -> nfa_valid n2 -> nfa_union n1 n2 = Ret (inl n) ->
  length (nfa_states n) = S (length (nfa_states n1) + length (nfa_states n2)).
Proof.
  intros n1 n2 n V1 V2 E. destruct (alphabet_equal_spec _ _ (nv_alphabet _ V1) (nv_alphabet _ V2)) as [Hs|Hs].
  - destruct (nfa_union_struct n1 n2 V1 V2 Hs) as (n' & Hn & U). rewrite E in Hn. injection Hn as <-. exact (un_length _ _ _ U).
  - rewrite nfa_union_none in E by auto. discriminate.
Qed.
Print Assumptions C62_nfa_union.

Theorem C62_subset_construction : forall h n d, nfa_valid n -> nfa_to_dfa h n = Ret d ->
  1 <= length (dfa_states d) <= 2 ^ length (nfa_states n).
Proof.
  intros h n d V E. destruct (nfa_to_dfa_subset h n V) as (d' & ks & E' & S). rewrite E in E'. injection E' as <-.
  split; [|eapply subset_size; eauto]. pose proof (dv_initial _ (subset_valid n d ks V S)). lia.
Qed.
Print Assumptions C62_subset_construction.

Theorem C62_minimize : forall h dbg d, dfa_valid d ->
  (forall d', dfa_minimize h dbg d = Ret d' -> length (dfa_states d') <= length (dfa_states d)) /\
  (forall d', dfa_remove_unreachable_states h dbg d = Ret d' -> length (dfa_states d') <= length (dfa_states d)) /\
  (forall d', dfa_merge_nondistinguishable_states h dbg d = Ret d' -> length (dfa_states d') <= length (dfa_states d)).
Proof.
  intros h dbg d V. split; [|split]; intros d' E.
  - destruct (C21_minimize h dbg d V) as (d2 & E2 & _ & _ & _ & _ & M). rewrite E in E2. injection E2 as <-.
    apply M; auto; [intros x|intros w]; tauto.
  - destruct (C17_dfa_remove_unreachable h dbg d V) as (d2 & E2 & _ & (k & K & Hk & R) & _). rewrite E in E2. injection E2 as <-.
    rewrite (dfa_restriction_length _ _ _ R). apply nodup_range; [apply lt_sorted_NoDup; auto|].
    intros q Hq. apply Hk in Hq as (w & Hw). eapply dfa_path_range; eauto. apply V.
  - destruct (C20_merge h dbg d V) as (d2 & k & E2 & _ & _ & _ & _ & N & L & K & _). rewrite E in E2. injection E2 as <-.
    rewrite <- L. apply nodup_range; [apply lt_sorted_NoDup; auto|]. intros q Hq. apply In_nth_error in Hq as (i & Hi).
    destruct (K i q Hi) as (s & _ & Hs & _). eapply nth_error_length; eauto.
Qed.
Print Assumptions C62_minimize.

Theorem C62_optimize : forall h dbg n, nfa_valid n ->
  (forall n', nfa_remove_unreachable_states h dbg n = Ret n' -> length (nfa_states n') <= length (nfa_states n)) /\
  (forall n', nfa_remove_epsilon_moves h dbg n = Ret n' -> length (nfa_states n') <= S (length (nfa_states n))) /\
  (forall n', nfa_optimize h dbg n = Ret n' -> length (nfa_states n') <= S (length (nfa_states n))).
Proof.
  assert (A : forall h dbg n n', nfa_valid n -> nfa_remove_unreachable_states h dbg n = Ret n' ->
    nfa_valid n' /\ length (nfa_states n') <= length (nfa_states n)).
  { intros h dbg n n' V E. destruct (C17_nfa_remove_unreachable h dbg n V) as (n2 & E2 & V2 & (k & K & Hk & R) & _). rewrite E in E2.
    injection E2 as <-. split; auto. rewrite (nfa_restriction_length _ _ _ R). apply nodup_range; [apply lt_sorted_NoDup; auto|].
    intros q Hq. apply Hk in Hq as (w & Hw). eapply nfa_path_range; eauto. apply V. }
  assert (B : forall h dbg n n', nfa_valid n -> nfa_remove_epsilon_moves h dbg n = Ret n' -> length (nfa_states n') <= S (length (nfa_states n))).
  { intros h dbg n n' V E. destruct (nfa_has_epsilon_moves n) eqn:He.
    - destruct (nfa_remove_epsilon_moves_correct h dbg n V He) as (n2 & k & E2 & R). rewrite E in E2. injection E2 as <-.
      assert (length k <= length (nfa_states n)).
      { apply nodup_range; [apply lt_sorted_NoDup, R|]. intros q Hq.
        destruct (er_cases _ _ _ R) as [(_ & K & _)|(_ & K & _)]; apply K in Hq; tauto. }
      destruct (er_cases _ _ _ R) as [(_ & _ & _ & M & _)|(_ & _ & _ & _ & nm & M & _)];
        apply (f_equal (@length _)) in M; rewrite ?app_length, !map_length in M; cbn [length] in M; lia.
    - unfold nfa_remove_epsilon_moves in E. rewrite He in E. injection E as <-. lia. }
  intros h dbg n V. split; [|split]; intros n' E; [eapply A; eauto|eapply B; eauto|].
  unfold nfa_optimize in E. destruct (C17_nfa_remove_unreachable h dbg n V) as (n1 & E1 & V1 & _). rewrite E1 in E. cbn [bind] in E.
  pose proof (proj2 (A h dbg n n1 V E1)). pose proof (B h dbg n1 n' V1 E). lia.
Qed.
Print Assumptions C62_optimize.

Theorem C62_regex : forall h t, length (nfa_states (regex_to_nfa h t)) = 2 + regex_nodes t + sequence_elements t /\
  length (nfa_states (regex_to_nfa h t)) <= 1 + 2 * regex_nodes t.
Proof. intros h t. rewrite regex_to_nfa_length. pose proof (sequence_elements_lt t). unfold fragment_size. lia. Qed.
Print Assumptions C62_regex.

(** the bounds are reached *)
Example C62_example : dfa_valid ex_even_min /\ dfa_valid ex_end_b /\
  (exists d, dfa_union id_order ex_even_min ex_end_b = Ret (Some d) /\ length (dfa_states d) = 2 * 2) /\
  length (nfa_states (regex_to_nfa id_order (RSequence [RChar (RGrapheme el_a); RChar (RGrapheme el_b)]))) = 1 + 2 * 3.
Proof.
  split; [apply ex_even_min_valid|]. split; [apply ex_end_b_valid|]. split; [|reflexivity]. eexists. split; vm_compute; reflexivity.
Qed.
