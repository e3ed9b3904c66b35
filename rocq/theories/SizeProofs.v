(** * SizeProofs: numbers of states *)
From Coq Require Import List NArith Arith Bool Lia Sorting.Sorted.
From Verif Require Import Base BaseLemmas Spec SizeSpec DfaModel NfaModel RegexModel DfaBasics NfaBasics DfaReach NfaReach DfaMinimize
  NfaEquiv NfaToDfa NfaProduct NfaUnion NfaEps RegexProofs Prop_Dfa Prop_Nfa.
Import ListNotations.

Lemma list_sum_le {A} (f g : A -> nat) l : (forall x, In x l -> f x <= g x) -> list_sum (map f l) <= list_sum (map g l).
Proof.
  induction l as [|x l IH]; intros H; simpl; auto. pose proof (H x (or_introl eq_refl)).
  assert (list_sum (map f l) <= list_sum (map g l)) by (apply IH; intros; apply H; right; auto). lia.
Qed.

Lemma sequence_elements_lt t : S (sequence_elements t) <= regex_nodes t.
Proof.
  induction t as [l IH|l IH|r IH|c] using regex_ind'; cbn [regex_nodes sequence_elements]; try lia.
  - apply le_n_S. induction IH as [|x l Hx Hl IHl]; simpl; lia.
  - apply le_n_S. apply list_sum_le. rewrite Forall_forall in IH. intros x Hx. pose proof (IH x Hx). lia.
Qed.

Definition fragment_size (t : regex_tree) : nat := regex_nodes t + sequence_elements t.

Lemma seq_states_length send l : Forall (fun t => forall st send, length (snd (tree_to_nfa t st send)) = fragment_size t) l ->
  forall st, length (snd (seq_states send l st)) = length l + list_sum (map fragment_size l).
Proof.
  induction l as [|x l IH]; intros H st; [reflexivity|]. inversion H as [|? ? Hx Hl]; subst. cbn [seq_states].
  destruct (counter_next st) as [st1 after]. destruct (tree_to_nfa x st1 after) as [st2 sts] eqn:E2.
  destruct (seq_states send l st2) as [st3 rest] eqn:E3.
  pose proof (Hx st1 after) as A. rewrite E2 in A. pose proof (IH Hl st2) as B. rewrite E3 in B. cbn [snd] in *.
  simpl. try rewrite E3. simpl. rewrite app_length. lia.
Qed.

Lemma alt_states_length send l : Forall (fun t => forall st send, length (snd (tree_to_nfa t st send)) = fragment_size t) l ->
  forall st, length (snd (alt_states send l st)) = list_sum (map fragment_size l).
Proof.
  induction l as [|x l IH]; intros H st; [reflexivity|]. inversion H as [|? ? Hx Hl]; subst. cbn [alt_states].
  destruct (tree_to_nfa x st send) as [st2 sts] eqn:E2. destruct (alt_states send l st2) as [[st3 es] rest] eqn:E3.
  pose proof (Hx st send) as A. rewrite E2 in A. pose proof (IH Hl st2) as B. rewrite E3 in B. cbn [snd] in *.
  simpl. rewrite app_length. lia.
Qed.

Lemma fragment_sum l : list_sum (map fragment_size l) = list_sum (map regex_nodes l) + list_sum (map sequence_elements l).
Proof. unfold fragment_size. induction l as [|x l IH]; simpl; lia. Qed.

Lemma tree_to_nfa_length t : forall st send, length (snd (tree_to_nfa t st send)) = fragment_size t.
Proof.
  induction t as [l IH|l IH|r IH|c] using regex_ind'; intros st send.
  - destruct l as [|x l]; [reflexivity|]. rewrite tree_to_nfa_seq. destruct (counter_next st) as [st1 i].
    pose proof (seq_states_length send (x :: l) IH st1) as A. destruct (seq_states send (x :: l) st1) as [st2 sts]. cbn [snd] in *.
    cbn [length]. rewrite A, fragment_sum. unfold fragment_size. cbn [regex_nodes sequence_elements]. cbn [length]. lia.
  - rewrite tree_to_nfa_alt. destruct (counter_next st) as [st1 i].
    pose proof (alt_states_length send l IH st1) as A. destruct (alt_states send l st1) as [[st2 es] sts]. cbn [snd] in *.
    cbn [length]. rewrite A, fragment_sum. unfold fragment_size. cbn [regex_nodes sequence_elements]. lia.
  - cbn [tree_to_nfa]. destruct (counter_next st) as [st1 i]. pose proof (IH st1 i) as A.
    destruct (tree_to_nfa r st1 i) as [st2 sts]. cbn [snd] in *. cbn [length]. rewrite A. unfold fragment_size.
    cbn [regex_nodes sequence_elements]. lia.
  - destruct c; cbn [tree_to_nfa]; destruct (counter_next st) as [st1 i]; try reflexivity.
    destruct (grapheme_idx st1 g) as [st2 j]. reflexivity.
Qed.

Lemma regex_to_nfa_length h t : length (nfa_states (regex_to_nfa h t)) = 2 + fragment_size t.
Proof.
  unfold regex_to_nfa. cbn [counter_next rs_counter rs_map rs_idx].
  match goal with |- context [tree_to_nfa t ?st 0] => pose proof (tree_to_nfa_length t st 0) as A; destruct (tree_to_nfa t st 0) as [st' sts] end.
  cbn [snd] in A. cbn [nfa_states]. rewrite map_length. cbn [length]. lia.
Qed.

(** ** Lists of states without repetition *)
Lemma nodup_range (k : list nat) n : NoDup k -> (forall q, In q k -> q < n) -> length k <= n.
Proof.
  intros N H. rewrite <- (seq_length n 0) at 1. apply NoDup_incl_length; auto. intros q Hq. apply in_seq. specialize (H q Hq). lia.
Qed.
Lemma nodup_pairs (k : list (nat * nat)) n m : NoDup k -> (forall p q, In (p, q) k -> p < n /\ q < m) -> length k <= n * m.
Proof.
  intros N H. replace (n * m) with (length (list_prod (seq 0 n) (seq 0 m))) by (rewrite prod_length, !seq_length; auto).
  apply NoDup_incl_length; auto. intros [p q] Hq. apply in_prod; apply in_seq; specialize (H p q Hq); lia.
Qed.
Definition some_or_none (n : nat) : list (option nat) := None :: map Some (seq 0 n).
Lemma some_or_none_in n o : In o (some_or_none n) <-> forall q, o = Some q -> q < n.
Proof.
  unfold some_or_none. destruct o as [q|]; split.
  - intros [H|H] x [= <-]; [discriminate|]. apply in_map_iff in H as (y & [= ->] & Hy). apply in_seq in Hy. lia.
  - intros H. right. apply in_map. apply in_seq. specialize (H q eq_refl). lia.
  - discriminate.
  - left. reflexivity.
Qed.
Lemma nodup_option_pairs (k : list (option nat * option nat)) n m : NoDup k -> ~ In (None, None) k ->
  (forall p, In p k -> (forall q, fst p = Some q -> q < n) /\ (forall q, snd p = Some q -> q < m)) -> length k < S n * S m.
Proof.
  intros N X H. change (S (length k) <= S n * S m).
  replace (S n * S m) with (length (list_prod (some_or_none n) (some_or_none m)))
    by (rewrite prod_length; unfold some_or_none; cbn [length]; rewrite !map_length, !seq_length; auto).
  change (S (length k)) with (length ((None, None) :: k)). apply NoDup_incl_length; [constructor; auto|].
  intros [p q] [[= <- <-]|Hp]; apply in_prod; try (left; reflexivity); apply some_or_none_in; apply (H _ Hp).
Qed.

Lemma subset_size n d ks : nfa_valid n -> dfa_is_subset n d ks -> length (dfa_states d) <= 2 ^ length (nfa_states n).
Proof.
  intros V S. rewrite (sb_length _ _ _ S), <- (seq_length (length (nfa_states n)) 0), <- subsets_length.
  apply NoDup_incl_length; [apply S|]. intros k Hk. apply In_nth_error in Hk as (i & Hi).
  destruct (sb_reach _ _ _ S i k Hi) as (w & _ & Hs & Hin).
  apply subsets_sorted; auto. apply Forall_forall. intros q Hq. apply Hin in Hq. split; [lia|]. simpl.
  eapply nfa_path_range; eauto. apply nv_initial; auto.
Qed.
