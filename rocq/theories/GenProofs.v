(** * GenProofs: what the generators of the tests draw *)
From Coq Require Import List NArith Arith Bool Lia Permutation.
From Verif Require Import Base BaseLemmas Spec TableSpec LayoutSpec GenModel.
Import ListNotations.

Lemma token_drawn_legal s : token_drawn s <-> legal_token s.
Proof.
  unfold token_drawn, legal_token, reserved_words. split; intros (H1 & H2 & H3); (split; [auto|]; split; [|exact H3]); intros c Hc;
    destruct (H2 c Hc) as [Hw H]; (split; [exact Hw|]).
  - repeat split; intros ->; apply H; simpl; auto.
  - intros [<- |[<- |[<- |[]]]]; intuition congruence.
Qed.
Lemma names_drawn k l : filtered_set_drawn token_drawn k l <-> length l = k /\ NoDup l /\ Forall legal_token l.
Proof.
  unfold filtered_set_drawn. rewrite !Forall_forall. split; intros (H1 & H2 & H3); (split; [auto|]; split; [auto|]); intros s Hs; apply token_drawn_legal; auto.
Qed.

(** ** chosen positions *)
Lemma chosen_in bits i : In i (chosen bits) <-> nth_error bits i = Some true.
Proof.
  unfold chosen. rewrite in_map_iff. split.
  - intros ([j b] & <- & H). apply filter_In in H as [H Hb]. cbn in *. subst b. apply enumerate_In in H. exact H.
  - intros H. exists (i, true). split; auto. apply filter_In. split; [apply enumerate_In; exact H|reflexivity].
Qed.
Lemma NoDup_map_filter {A B} (f : A -> B) p l : NoDup (map f l) -> NoDup (map f (filter p l)).
Proof.
  induction l as [|x l IH]; cbn [map filter]; [auto|]. intros H. inversion H; subst. destruct (p x); auto. cbn [map]. constructor; auto.
  intros Hi. apply in_map_iff in Hi as (y & Ey & Hy). apply filter_In in Hy as [Hy _]. apply H2. rewrite <- Ey. apply in_map; auto.
Qed.
Lemma chosen_nodup bits : NoDup (chosen bits).
Proof. unfold chosen. apply NoDup_map_filter. rewrite enumerate_fst. apply seq_NoDup. Qed.
Lemma epsilon_drawn k ts : epsilon_transitions_drawn k ts <-> NoDup ts /\ Forall (fun t => t < k) ts.
Proof.
  split.
  - intros (bits & Hl & Hp). split; [eapply Permutation_NoDup; [exact Hp|apply chosen_nodup]|]. apply Forall_forall. intros t Ht.
    apply (Permutation_in _ (Permutation_sym Hp)) in Ht. apply chosen_in in Ht. rewrite <- Hl. apply nth_error_Some. congruence.
  - intros [ND HF]. exists (map (fun i => existsb (Nat.eqb i) ts) (seq 0 k)). split; [rewrite map_length, seq_length; auto|].
    apply NoDup_Permutation; [apply chosen_nodup|auto|]. intros i. rewrite chosen_in, nth_error_map. rewrite Forall_forall in HF. split.
    + destruct (nth_error (seq 0 k) i) as [j|] eqn:E; [|discriminate]. cbn. intros [= H]. apply existsb_exists in H as (x & Hx & Ex).
      apply Nat.eqb_eq in Ex. subst x. assert (j = i); [|subst; auto].
      assert (i < length (seq 0 k)) by (apply nth_error_Some; congruence). rewrite seq_length in H.
      apply nth_error_nth with (d := 0) in E. rewrite seq_nth in E by auto. lia.
    + intros Hi. assert (E : nth_error (seq 0 k) i = Some i).
      { assert (i < k) by auto. rewrite (nth_error_nth' _ 0) by (rewrite seq_length; auto). rewrite seq_nth by auto. reflexivity. }
      rewrite E. cbn. f_equal. apply existsb_exists. exists i. split; auto. apply Nat.eqb_refl.
Qed.
Lemma nfa_transitions_iff k a ts : nfa_transitions_drawn k a ts <-> length ts = a /\ Forall (fun t => NoDup t /\ Forall (fun q => q < k) t) ts.
Proof.
  unfold nfa_transitions_drawn. rewrite !Forall_forall. split; intros [H1 H2]; (split; [auto|]); intros t Ht; apply epsilon_drawn; auto.
Qed.

(** ** combining columns *)
Lemma nth_combine {A B} (l : list A) : forall (l' : list B) i,
  nth_error (combine l l') i = match nth_error l i, nth_error l' i with Some a, Some b => Some (a, b) | _, _ => None end.
Proof.
  induction l as [|a l IH]; intros [|b l'] [|i]; cbn; auto; try (destruct (nth_error l i); reflexivity).
Qed.
Lemma nth_enumerate {A} (l : list A) i : nth_error (enumerate l) i = option_map (fun x => (i, x)) (nth_error l i).
Proof.
  unfold enumerate. rewrite nth_combine. destruct (nth_error l i) as [x|] eqn:E; [|destruct (nth_error (seq _ _) i); reflexivity].
  assert (i < length l) by (apply nth_error_Some; congruence). rewrite (nth_error_nth' _ 0) by (rewrite seq_length; auto).
  rewrite seq_nth by auto. reflexivity.
Qed.

Lemma build_dfa_nth al names i0 acc tr q :
  nth_error (dfa_states (build_dfa al names i0 acc tr)) q =
  match nth_error names q, nth_error acc q, nth_error tr q with
  | Some nm, Some a, Some ts => Some {| ds_name := nm; ds_initial := q =? i0; ds_accepting := a; ds_transitions := ts |}
  | _, _, _ => None
  end.
Proof.
  unfold build_dfa. cbn [dfa_states]. rewrite nth_error_map, nth_enumerate, !nth_combine.
  destruct (nth_error names q), (nth_error acc q), (nth_error tr q); reflexivity.
Qed.
Lemma build_nfa_nth al names i0 acc tr ep q :
  nth_error (nfa_states (build_nfa al names i0 acc tr ep)) q =
  match nth_error names q, nth_error acc q, nth_error tr q, nth_error ep q with
  | Some nm, Some a, Some ts, Some es => Some {| ns_name := nm; ns_initial := q =? i0; ns_accepting := a; ns_transitions := ts; ns_eps := es |}
  | _, _, _, _ => None
  end.
Proof.
  unfold build_nfa. cbn [nfa_states]. rewrite nth_error_map, nth_enumerate, !nth_combine.
  destruct (nth_error names q), (nth_error acc q), (nth_error tr q), (nth_error ep q); reflexivity.
Qed.
Lemma build_dfa_length al names i0 acc tr k : length names = k -> length acc = k -> length tr = k ->
  length (dfa_states (build_dfa al names i0 acc tr)) = k.
Proof. intros H1 H2 H3. unfold build_dfa. cbn. rewrite map_length, enumerate_length, !combine_length. lia. Qed.
Lemma build_nfa_length al names i0 acc tr ep k : length names = k -> length acc = k -> length tr = k -> length ep = k ->
  length (nfa_states (build_nfa al names i0 acc tr ep)) = k.
Proof. intros H1 H2 H3 H4. unfold build_nfa. cbn. rewrite map_length, enumerate_length, !combine_length. lia. Qed.
Lemma some_at {A} (l : list A) k q : length l = k -> q < k -> exists x, nth_error l q = Some x.
Proof. intros <- H. apply nth_error_Some in H. destruct (nth_error l q); eauto. congruence. Qed.
Lemma build_dfa_names al names i0 acc tr k : length names = k -> length acc = k -> length tr = k ->
  map ds_name (dfa_states (build_dfa al names i0 acc tr)) = names.
Proof.
  intros H1 H2 H3. apply nth_error_ext. intros q. rewrite nth_error_map, build_dfa_nth. destruct (nth_error names q) as [nm|] eqn:E; [|reflexivity].
  assert (q < k) by (rewrite <- H1; apply nth_error_Some; congruence). destruct (some_at acc k q H2 H) as [a ->]. destruct (some_at tr k q H3 H) as [t ->]. reflexivity.
Qed.
Lemma build_nfa_names al names i0 acc tr ep k : length names = k -> length acc = k -> length tr = k -> length ep = k ->
  map ns_name (nfa_states (build_nfa al names i0 acc tr ep)) = names.
Proof.
  intros H1 H2 H3 H4. apply nth_error_ext. intros q. rewrite nth_error_map, build_nfa_nth. destruct (nth_error names q) as [nm|] eqn:E; [|reflexivity].
  assert (q < k) by (rewrite <- H1; apply nth_error_Some; congruence). destruct (some_at acc k q H2 H) as [a ->].
  destruct (some_at tr k q H3 H) as [t ->]. destruct (some_at ep k q H4 H) as [e ->]. reflexivity.
Qed.

Lemma build_dfa_valid al names i0 acc tr k a : NoDup al -> length al = a -> NoDup names -> length names = k -> i0 < k ->
  length acc = k -> vec_drawn (dfa_transitions_drawn k a) k tr -> dfa_valid (build_dfa al names i0 acc tr).
Proof.
  intros Ha La Hn Ln Hi Lc [Lt Ht]. rewrite Forall_forall in Ht. constructor.
  - exact Ha.
  - rewrite (build_dfa_names _ _ _ _ _ k); auto.
  - rewrite (build_dfa_length _ _ _ _ _ k); auto.
  - intros q s. rewrite build_dfa_nth. destruct (nth_error names q), (nth_error acc q), (nth_error tr q); try discriminate. intros [= <-]. cbn. apply Nat.eqb_eq.
  - intros q s. rewrite build_dfa_nth. destruct (nth_error names q), (nth_error acc q), (nth_error tr q) as [ts|] eqn:E; try discriminate. intros [= <-]. cbn.
    rewrite La. apply (Ht ts). eapply nth_error_In; eauto.
  - intros q s t. rewrite (build_dfa_length _ _ _ _ _ k), build_dfa_nth by auto. destruct (nth_error names q), (nth_error acc q), (nth_error tr q) as [ts|] eqn:E; try discriminate. intros [= <-]. cbn.
    intros Hin. destruct (Ht ts) as [_ H]; [eapply nth_error_In; eauto|]. rewrite Forall_forall in H. auto.
Qed.
Lemma build_nfa_valid al names i0 acc tr ep k a : NoDup al -> length al = a -> NoDup names -> length names = k -> i0 < k ->
  length acc = k -> vec_drawn (nfa_transitions_drawn k a) k tr -> vec_drawn (epsilon_transitions_drawn k) k ep ->
  nfa_valid (build_nfa al names i0 acc tr ep).
Proof.
  intros Ha La Hn Ln Hi Lc [Lt Ht] [Le He]. rewrite Forall_forall in Ht, He. constructor.
  - exact Ha.
  - rewrite (build_nfa_names _ _ _ _ _ _ k); auto.
  - rewrite (build_nfa_length _ _ _ _ _ _ k); auto.
  - intros q s. rewrite build_nfa_nth. destruct (nth_error names q), (nth_error acc q), (nth_error tr q), (nth_error ep q); try discriminate. intros [= <-]. cbn. apply Nat.eqb_eq.
  - intros q s. rewrite build_nfa_nth. destruct (nth_error names q), (nth_error acc q), (nth_error tr q) as [ts|] eqn:E, (nth_error ep q); try discriminate. intros [= <-]. cbn.
    rewrite La. apply (Ht ts). eapply nth_error_In; eauto.
  - intros q s ts t. rewrite (build_nfa_length _ _ _ _ _ _ k), build_nfa_nth by auto.
    destruct (nth_error names q), (nth_error acc q), (nth_error tr q) as [rs|] eqn:E, (nth_error ep q); try discriminate. intros [= <-]. cbn.
    intros H1 H2. apply nth_error_In, Ht in E. apply nfa_transitions_iff in E as [_ E]. rewrite Forall_forall in E. destruct (E ts H1) as [_ H].
    rewrite Forall_forall in H. auto.
  - intros q s t. rewrite (build_nfa_length _ _ _ _ _ _ k), build_nfa_nth by auto.
    destruct (nth_error names q), (nth_error acc q), (nth_error tr q), (nth_error ep q) as [es|] eqn:E; try discriminate. intros [= <-]. cbn.
    intros H. apply nth_error_In, He in E. apply epsilon_drawn in E as [_ E]. rewrite Forall_forall in E. auto.
Qed.

(** ** every valid automaton is built from its columns *)
Lemma rebuild_dfa d : dfa_valid d ->
  d = build_dfa (dfa_alphabet d) (map ds_name (dfa_states d)) (dfa_initial d) (map ds_accepting (dfa_states d)) (map ds_transitions (dfa_states d)).
Proof.
  intros V. destruct d as [al ss i0] eqn:Ed. rewrite <- Ed in V. cbn [dfa_alphabet dfa_states dfa_initial].
  match goal with |- _ = ?b => assert (E : ss = dfa_states b) end.
  { apply nth_error_ext. intros q. rewrite build_dfa_nth, !nth_error_map. destruct (nth_error ss q) as [s|] eqn:E; [|reflexivity]. cbn. f_equal.
    destruct s as [nm ini acc ts] eqn:Es. cbn. f_equal. pose proof (dv_flag d V q s) as H. subst d. cbn in H. rewrite E, Es in H. specialize (H eq_refl). cbn in H.
    apply eq_true_iff_eq. rewrite H. symmetry. apply Nat.eqb_eq. }
  unfold build_dfa in *. cbn [dfa_states] in E. rewrite <- E. reflexivity.
Qed.
Lemma rebuild_nfa n : nfa_valid n ->
  n = build_nfa (nfa_alphabet n) (map ns_name (nfa_states n)) (nfa_initial n) (map ns_accepting (nfa_states n)) (map ns_transitions (nfa_states n))
                (map ns_eps (nfa_states n)).
Proof.
  intros V. destruct n as [al ss i0] eqn:Ed. rewrite <- Ed in V. cbn [nfa_alphabet nfa_states nfa_initial].
  match goal with |- _ = ?b => assert (E : ss = nfa_states b) end.
  { apply nth_error_ext. intros q. rewrite build_nfa_nth, !nth_error_map. destruct (nth_error ss q) as [s|] eqn:E; [|reflexivity]. cbn. f_equal.
    destruct s as [nm ini acc ts es] eqn:Es. cbn. f_equal. pose proof (nv_flag n V q s) as H. subst n. cbn in H. rewrite E, Es in H. specialize (H eq_refl). cbn in H.
    apply eq_true_iff_eq. rewrite H. symmetry. apply Nat.eqb_eq. }
  unfold build_nfa in *. cbn [nfa_states] in E. rewrite <- E. reflexivity.
Qed.
Lemma columns_dfa d : dfa_valid d -> let k := length (dfa_states d) in
  vec_drawn (dfa_transitions_drawn k (length (dfa_alphabet d))) k (map ds_transitions (dfa_states d)).
Proof.
  intros V k. split; [apply map_length|]. apply Forall_forall. intros ts H. apply in_map_iff in H as (s & <- & Hs). apply In_nth_error in Hs as [q Hq].
  split; [eapply dv_width; eauto|]. apply Forall_forall. intros t Ht. eapply dv_range; eauto.
Qed.
Definition distinct_targets (s : nfa_state) : Prop := NoDup (ns_eps s) /\ Forall (@NoDup nat) (ns_transitions s).
Lemma columns_nfa n : nfa_valid n -> Forall distinct_targets (nfa_states n) -> let k := length (nfa_states n) in
  vec_drawn (nfa_transitions_drawn k (length (nfa_alphabet n))) k (map ns_transitions (nfa_states n)) /\
  vec_drawn (epsilon_transitions_drawn k) k (map ns_eps (nfa_states n)).
Proof.
  intros V HD k. rewrite Forall_forall in HD. split; (split; [apply map_length|]); apply Forall_forall; intros ts H; apply in_map_iff in H as (s & <- & Hs);
    pose proof (HD s Hs) as [D1 D2]; apply In_nth_error in Hs as [q Hq].
  - apply nfa_transitions_iff. split; [eapply nv_width; eauto|]. rewrite Forall_forall in *. intros t Ht. split; auto. apply Forall_forall. intros x Hx. eapply nv_range; eauto.
  - apply epsilon_drawn. split; auto. apply Forall_forall. intros x Hx. eapply nv_eps_range; eauto.
Qed.
Lemma build_nfa_distinct al names i0 acc tr ep k a : vec_drawn (nfa_transitions_drawn k a) k tr -> vec_drawn (epsilon_transitions_drawn k) k ep ->
  Forall distinct_targets (nfa_states (build_nfa al names i0 acc tr ep)).
Proof.
  intros [Lt Ht] [Le He]. rewrite Forall_forall in *. intros s Hs. apply In_nth_error in Hs as [q Hq]. rewrite build_nfa_nth in Hq.
  destruct (nth_error names q), (nth_error acc q), (nth_error tr q) as [rs|] eqn:E, (nth_error ep q) as [es|] eqn:E'; try discriminate. injection Hq as <-.
  apply nth_error_In in E, E'. apply Ht, nfa_transitions_iff in E as [_ E]. apply He, epsilon_drawn in E' as [E' _]. split; cbn; auto.
  rewrite Forall_forall in *. intros t Ht'. apply E; auto.
Qed.

(** ** fixed alphabets *)
Lemma singles_nodup (l : list N) : NoDup l <-> NoDup (map (fun c => [c]) l).
Proof.
  split; [|apply NoDup_map_inv]. induction 1 as [|c l Hc Hl IH]; cbn; constructor; auto. intros H. apply in_map_iff in H as (x & [= ->] & Hx). auto.
Qed.
