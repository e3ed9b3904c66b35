(** * ShippedProofs: lemmas about the example files and benchmarks of the repository *)
From Coq Require Import Ascii String List NArith Arith Bool Lia.
From Verif Require Import Base BaseLemmas Spec TableSpec DfaModel NfaModel RegexModel ValidateModel RegexParserModel ApiModel TableModel Messages
  TestsModel DocModel DocSpec DocProofs NfaBasics DfaBasics DfaEquiv NfaEquiv NfaToDfa RegexProofs ReproProofs ShippedModel ShippedSpec Examples.
Import ListNotations.
Close Scope string_scope.
Open Scope list_scope.

(** The words of an expression without repetition *)
Fixpoint listed (t : regex_tree) : option (list word) :=
  match t with
  | RChar (RGrapheme g) => Some [[g]]
  | RChar REpsilon => Some [[]]
  | RChar REmpty => Some []
  | RAlt l => (fix go l := match l with
                           | [] => Some []
                           | r :: l => match listed r, go l with Some a, Some b => Some (a ++ b) | _, _ => None end
                           end) l
  | RSequence l => (fix go l := match l with
                                | [] => Some [[]]
                                | r :: l => match listed r, go l with Some a, Some b => Some (flat_map (fun u => map (app u) b) a) | _, _ => None end
                                end) l
  | RRepeat _ => None
  end.
Fixpoint listed_correct (t : regex_tree) {struct t} : forall ws, listed t = Some ws -> forall w, matches t w <-> In w ws.
Proof.
  destruct t as [l|l|r|[g| |]]; intros ws E w.
  - assert (G : forall w, matches_seq l w <-> In w ws).
    { cbn [listed] in E. revert ws E. induction l as [|r l IH]; intros ws E v.
      - injection E as <-. split; [inversion 1; left; auto|]. intros [<-|[]]. constructor.
      - destruct (listed r) as [a|] eqn:Er; [|discriminate].
        match type of E with match ?g with _ => _ end = _ => destruct g as [b|] eqn:Eb; [|discriminate] end. injection E as <-.
        pose proof (listed_correct r a Er) as Hr. rewrite in_flat_map. split.
        + inversion 1; subst. exists w1. split; [apply Hr; auto|]. apply in_map. apply (IH b eq_refl). auto.
        + intros (u & Hu & Hv). apply in_map_iff in Hv as (x & <- & Hx). constructor; [apply Hr; auto|]. apply (IH b eq_refl). auto. }
    rewrite <- G. split; [inversion 1; auto|intros; constructor; auto].
  - assert (G : forall w, (exists r, In r l /\ matches r w) <-> In w ws).
    { cbn [listed] in E. revert ws E. induction l as [|r l IH]; intros ws E v.
      - injection E as <-. split; [intros (? & [] & _)|intros []].
      - destruct (listed r) as [a|] eqn:Er; [|discriminate].
        match type of E with match ?g with _ => _ end = _ => destruct g as [b|] eqn:Eb; [|discriminate] end. injection E as <-.
        pose proof (listed_correct r a Er) as Hr. rewrite in_app_iff, <- Hr, <- (IH b eq_refl). split.
        + intros (x & [<-|Hx] & Hm); eauto.
        + intros [H|(x & Hx & Hm)]; [exists r; split; [left|]; auto|exists x; split; [right|]; auto]. }
    rewrite <- G. split; [inversion 1; eauto|intros (r & Hr & Hm); apply (m_alt l r w); auto].
  - discriminate.
  - injection E as <-. split; [inversion 1; left; auto|]. intros [<-|[]]. constructor.
  - injection E as <-. split; [inversion 1; left; auto|]. intros [<-|[]]. constructor.
  - injection E as <-. split; [inversion 1|intros []].
Qed.

(** ** The loaded example files *)
Definition s_correct : dfa := Eval vm_compute in the_dfa f_user1_correct_dfa.
Definition s_minimized : dfa := Eval vm_compute in the_dfa f_user5_correct_minimized_dfa.
Definition s_incorrect : dfa := Eval vm_compute in the_dfa f_user2_incorrect_dfa.
Definition s_nfa1 : nfa := Eval vm_compute in the_nfa f_nfa1_nfa.
Definition s_example : dfa := Eval vm_compute in the_dfa f_example_dfa.
Definition s_example2 : dfa := Eval vm_compute in the_dfa f_example2_dfa.
Definition s_nfa2 : nfa := Eval vm_compute in the_nfa f_example2_nfa.
Definition s_nfa3 : nfa := Eval vm_compute in the_nfa f_example3_nfa.
Definition s_eq2 : dfa := Eval vm_compute in the_dfa f_eq_example2_nfa_dfa.
Definition s_init_b : dfa := Eval vm_compute in the_dfa f_init_b_dfa.
Definition s_term_a : dfa := Eval vm_compute in the_dfa f_term_a_dfa.
Definition s_bench0 : dfa := Eval vm_compute in the_dfa bench_dfa0.
Definition s_bench1 : dfa := Eval vm_compute in the_dfa bench_dfa1.

Lemma s_correct_valid : dfa_valid s_correct. Proof. dvalid. Qed.
Lemma s_minimized_valid : dfa_valid s_minimized. Proof. dvalid. Qed.
Lemma s_incorrect_valid : dfa_valid s_incorrect. Proof. dvalid. Qed.
Lemma s_nfa1_valid : nfa_valid s_nfa1. Proof. nvalid. Qed.
Lemma s_example_valid : dfa_valid s_example. Proof. dvalid. Qed.
Lemma s_example2_valid : dfa_valid s_example2. Proof. dvalid. Qed.
Lemma s_nfa2_valid : nfa_valid s_nfa2. Proof. nvalid. Qed.
Lemma s_nfa3_valid : nfa_valid s_nfa3. Proof. nvalid. Qed.
Lemma s_eq2_valid : dfa_valid s_eq2. Proof. dvalid. Qed.
Lemma s_init_b_valid : dfa_valid s_init_b. Proof. dvalid. Qed.
Lemma s_term_a_valid : dfa_valid s_term_a. Proof. dvalid. Qed.
Lemma s_bench0_valid : dfa_valid s_bench0. Proof. dvalid. Qed.
Lemma s_bench1_valid : dfa_valid s_bench1. Proof. dvalid. Qed.

Lemma computed_equal d1 d2 : dfa_valid d1 -> dfa_valid d2 -> dfa_equivalent_to d1 d2 = Ret true -> forall w, dfa_lang d1 w <-> dfa_lang d2 w.
Proof. intros V1 V2 E. destruct (dfa_equivalent_to_correct d1 d2 V1 V2) as (b & Eb & H). rewrite E in Eb. injection Eb as <-. apply H. auto. Qed.
Lemma computed_equal_nfa n1 n2 : nfa_valid n1 -> nfa_valid n2 -> nfa_equivalent_to n1 n2 = Ret true -> forall w, nfa_lang n1 w <-> nfa_lang n2 w.
Proof. intros V1 V2 E. destruct (nfa_equivalent_to_correct n1 n2 V1 V2) as (b & Eb & H). rewrite E in Eb. injection Eb as <-. apply H. auto. Qed.
Lemma computed_same n d : nfa_valid n -> dfa_valid d -> (exists d', nfa_to_dfa id_order n = Ret d' /\ dfa_equivalent_to d' d = Ret true) ->
  forall w, nfa_lang n w <-> dfa_lang d w.
Proof.
  intros Vn Vd (d' & E & Q) w. destruct (nfa_to_dfa_correct id_order n Vn) as (d2 & E2 & V2 & _ & _ & _ & _ & L). rewrite E in E2. injection E2 as <-.
  rewrite <- L. apply computed_equal; auto.
Qed.

Lemma s_minimized_lang w : dfa_lang s_minimized w <-> over [la; lb] w /\ Nat.even (occurrences la w) = true.
Proof.
  apply (dfa_by_states s_minimized (fun p w => match p with 0 => Nat.even (occurrences la w) = true | _ => Nat.even (occurrences la w) = false end)
    s_minimized_valid).
  - all_nil; cbn; intuition discriminate.
  - all_cons; cbv beta iota; rewrite occ_cons; fin; rewrite ?Nat.even_add; try change (Nat.odd 1) with true in *; cbn [Nat.add] in *;
      rewrite ?Nat.even_succ in *; rewrite <- ?Nat.negb_even in *; revert H; try (destruct (Nat.even (occurrences _ v)); cbn; congruence).
Qed.
Lemma s_correct_lang w : dfa_lang s_correct w <-> over [la; lb] w /\ Nat.even (occurrences la w) = true.
Proof. rewrite <- s_minimized_lang. apply computed_equal; [apply s_correct_valid|apply s_minimized_valid|vm_compute; reflexivity]. Qed.
Lemma s_nfa1_lang w : nfa_lang s_nfa1 w <-> over [la; lb] w /\ Nat.even (occurrences la w) = true.
Proof. rewrite <- s_minimized_lang. apply computed_same; [apply s_nfa1_valid|apply s_minimized_valid|]. eexists. split; vm_compute; reflexivity. Qed.

Definition s_same : regex_tree := Eval vm_compute in match parse_regex singles f_user1_same_regex with Ret (Some t) => t | _ => RChar REmpty end.
Lemma s_same_lang w : matches s_same w <-> over [la; lb] w /\ Nat.even (occurrences la w) = true.
Proof.
  transitivity (nfa_lang (regex_to_nfa id_order s_same) w); [symmetry; apply regex_to_nfa_correct|]. rewrite <- s_minimized_lang.
  apply computed_same; [apply regex_to_nfa_correct|apply s_minimized_valid|]. eexists. split; vm_compute; reflexivity.
Qed.
Definition s_bench6 : regex_tree := Eval vm_compute in match parse_regex singles bench_regex6 with Ret (Some t) => t | _ => RChar REmpty end.

Lemma s_nfa2_lang w : nfa_lang s_nfa2 w <-> dfa_lang s_eq2 w.
Proof. apply computed_same; [apply s_nfa2_valid|apply s_eq2_valid|]. eexists. split; vm_compute; reflexivity. Qed.
Definition s_swap (q : nat) : nat := match q with 4 => 5 | 5 => 4 | _ => q end.
Definition s_subsets : dfa := Eval vm_compute in match nfa_to_dfa id_order s_nfa2 with Ret d => d | _ => ex_even end.
Lemma s_subsets_eq h : nfa_to_dfa h s_nfa2 = Ret s_subsets.
Proof. rewrite (nfa_to_dfa_order h id_order); [vm_compute; reflexivity|apply s_nfa2_valid]. Qed.
Lemma s_subsets_iso : dfa_iso s_subsets s_eq2 s_swap.
Proof.
  constructor.
  - intros q Hq. change (length (dfa_states s_subsets)) with 8 in Hq. change (length (dfa_states s_eq2)) with 8.
    do 8 (destruct q as [|q]; [vm_compute; lia|]). lia.
  - intros p q Hp Hq. change (length (dfa_states s_subsets)) with 8 in *. unfold s_swap.
    do 8 (destruct p as [|p]; [do 8 (destruct q as [|q]; [lia|]); lia|]). lia.
  - intros q Hq. change (length (dfa_states s_eq2)) with 8 in Hq. change (length (dfa_states s_subsets)) with 8. exists (s_swap q).
    do 8 (destruct q as [|q]; [vm_compute; split; [lia|reflexivity]|]). lia.
  - reflexivity.
  - intros q Hq. change (length (dfa_states s_subsets)) with 8 in Hq. unfold dfa_accepting.
    do 8 (destruct q as [|q]; [cbn; split; intros (s & E & A); injection E as <-; (eexists; split; [reflexivity|exact A])|]). lia.
  - intros p a q Hp Hq. change (length (dfa_states s_subsets)) with 8 in *. unfold dfa_edge.
    assert (G : forall i, i < 2 -> forall p, p < 8 -> forall q, q < 8 ->
      ((exists s, nth_error (dfa_states s_subsets) p = Some s /\ nth_error (ds_transitions s) i = Some q) <->
       (exists s, nth_error (dfa_states s_eq2) (s_swap p) = Some s /\ nth_error (ds_transitions s) i = Some (s_swap q)))).
    { clear. intros i Hi p Hp q Hq.
      do 2 (destruct i as [|i]; [do 8 (destruct p as [|p]; [do 8 (destruct q as [|q];
        [cbn; split; intros (s & E & A); injection E as <-; cbn in A; try discriminate A; (eexists; split; reflexivity)|]); lia|]); lia|]). lia. }
    assert (A : forall i, nth_error (dfa_alphabet s_eq2) i = Some a -> i < 2).
    { intros i Hi. change 2 with (length (dfa_alphabet s_eq2)). apply nth_error_Some. rewrite Hi. discriminate. }
    split; intros (i & s & Hi & Hs & Ht); exists i; pose proof (A i Hi) as L.
    + destruct (proj1 (G i L p Hp q Hq)) as (s' & Hs' & Ht'); eauto.
    + destruct (proj2 (G i L p Hp q Hq)) as (s' & Hs' & Ht'); eauto.
Qed.
Lemma bench6_lang w : matches s_bench6 w <-> exists u, In u bench_words /\ w = singles u.
Proof.
  assert (E : listed s_bench6 = Some (match listed s_bench6 with Some l => l | None => [] end)) by (vm_compute; reflexivity).
  rewrite (listed_correct _ _ E). transitivity (In w (map singles bench_words)).
  - split; intros H.
    + vm_compute in H. vm_compute. intuition.
    + vm_compute in H. vm_compute. intuition.
  - rewrite in_map_iff. split; intros (u & A & B); exists u; auto.
Qed.
