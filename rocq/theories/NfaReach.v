(** * Reachability and removal of states in NFAs *)
From Coq Require Import List NArith Arith Bool Lia Permutation Sorted.
From Verif Require Import Base BaseLemmas Spec Search DfaModel DfaBasics DfaReach NfaModel NfaBasics Bfs.
Import ListNotations.

Definition nfa_succ (n : nfa) (p q : nat) : Prop := (exists a, nfa_edge n p a q) \/ nfa_path n p [] q.

Lemma nfa_edge_trans n p q : nfa_valid n ->
  ((exists a, nfa_edge n p a q) <-> exists s, nth_error (nfa_states n) p = Some s /\ In q (concat (ns_transitions s))).
Proof.
  intros V. split.
  - intros (a & i & s & ts & Hi & Hs & Hts & Hq). exists s; split; auto. apply in_concat_iff. exists ts. split; auto.
    eapply nth_error_In; eauto.
  - intros (s & Hs & Hq). apply in_concat_iff in Hq as (ts & Hts & Hq). apply In_nth_error in Hts as [i Hi].
    destruct (nth_error_lt (nfa_alphabet n) i) as [a Ha].
    { rewrite <- (nv_width _ V _ _ Hs). eapply nth_error_length; eauto. }
    exists a, i, s, ts; auto.
Qed.

Lemma nfa_reachable_star n q : star (nfa_succ n) (nfa_initial n) q <-> nfa_reachable n q.
Proof.
  split.
  - induction 1 as [|y z Hy IH Hyz].
    + exists []; constructor.
    + destruct IH as [w Hw]. destruct Hyz as [[a Ha]|Hp].
      * exists (w ++ [a]). eapply nfa_path_app; eauto. eapply nfa_path_cons; eauto. constructor.
      * exists (w ++ []). eapply nfa_path_app; eauto.
  - intros [w Hw]. revert Hw. generalize (nfa_initial n). intros p Hw.
    induction Hw as [|p q w r He Hp IH|p a q w r He Hp IH]; [constructor| |].
    + eapply star_head; eauto. right. eapply nfa_path_eps; eauto. constructor.
    + eapply star_head; eauto. left; eauto.
Qed.

Lemma nfa_succ_range n p q : nfa_valid n -> p < length (nfa_states n) -> nfa_succ n p q -> q < length (nfa_states n).
Proof. intros V Hp [[a Ha]|H]; [eapply nfa_edge_dst; eauto|eapply nfa_path_range; eauto]. Qed.

Lemma nfa_reachable_state_idx_correct h n : nfa_valid n ->
  exists r, nfa_reachable_state_idx h n = Ret r /\ NoDup r /\ forall q, In q r <-> nfa_reachable n q.
Proof.
  intros V. unfold nfa_reachable_state_idx.
  destruct (bfs_total (nfa_reach_step h n) (fun s => fst (fst s)) (fun s => snd (fst s)) (nfa_succ n)
                      (length (nfa_states n)) (nfa_initial n) ([nfa_initial n], [nfa_initial n], 0)
                      (S (length (nfa_states n)))) as (r & Hr & Hnd & Hin).
  - intros [[all new] i]; simpl. intros ->. reflexivity.
  - intros [[all new] i]; simpl. intros Hne Hnd Hrange.
    match goal with |- context[mapR ?f (ho h [30; i] new)] =>
      destruct (mapR_total f (fun q ts => forall x, In x ts <-> nfa_succ n q x) (ho h [30; i] new)) as (ts & Hts & HF) end.
    { intros q Hq. rewrite ho_In in Hq. rewrite Forall_forall in Hrange. specialize (Hrange q Hq).
      destruct (nth_error_lt _ _ Hrange) as [s Hs]. rewrite (index_Some _ _ _ Hs). simpl.
      destruct (nfa_closure_in n q V Hrange) as (cl & Hcl & _ & Hin). rewrite Hcl. simpl. eexists; split; [reflexivity|].
      intros x. rewrite in_app_iff, ho_In, Hin. unfold nfa_succ. rewrite (nfa_edge_trans n q x V).
      enough (In x (concat (ns_transitions s)) <->
              exists s0, nth_error (nfa_states n) q = Some s0 /\ In x (concat (ns_transitions s0))) by tauto.
      split; [eauto|]. intros (s0 & Hs0 & Hx). congruence. }
    rewrite Hts. simpl. destruct (fold_insert_new (concat ts) all [] Hnd) as (nw & He & Hnd' & Hx).
    rewrite He. simpl. destruct new as [|q0 qs]; [congruence|]. do 2 eexists. split; [reflexivity|].
    simpl. split; [reflexivity|]. split; [reflexivity|]. split; auto.
    intros x. rewrite Hx, in_concat_iff.
    enough ((exists l, In l ts /\ In x l) <-> (exists q, In q (q0 :: qs) /\ nfa_succ n q x)) by tauto. split.
    + intros (l & Hl & Hxl). destruct (Forall2_In_r _ _ _ _ HF Hl) as (q & Hq & Hi).
      exists q. rewrite ho_In in Hq. split; auto. apply Hi; auto.
    + intros (q & Hq & Hqx). rewrite <- (ho_In h [30; i]) in Hq. destruct (Forall2_In_l _ _ _ _ HF Hq) as (l & Hl & Hi).
      exists l. split; auto. apply Hi; auto.
  - intros q x Hq He. eapply nfa_succ_range; eauto.
  - apply nv_initial; auto.
  - reflexivity.
  - reflexivity.
  - pose proof (pow2_gt (S (length (nfa_states n)))). lia.
  - exists r. split; auto. split; auto. intros q. rewrite Hin. apply nfa_reachable_star.
Qed.

Lemma nfa_reachable_range n q : nfa_valid n -> nfa_reachable n q -> q < length (nfa_states n).
Proof. intros V [w Hw]. eapply nfa_path_range; eauto. apply nv_initial; auto. Qed.

Lemma nfa_unreachable_state_idx_correct h n : nfa_valid n ->
  exists r, nfa_unreachable_state_idx h n = Ret r /\ NoDup r /\
            forall q, In q r <-> q < length (nfa_states n) /\ ~ nfa_reachable n q.
Proof.
  intros V. destruct (nfa_reachable_state_idx_correct h n V) as (r & Hr & Hnd & Hin).
  unfold nfa_unreachable_state_idx. rewrite Hr. simpl. eexists; split; [reflexivity|]. split.
  - apply NoDup_filter, seq_NoDup.
  - intros q. rewrite filter_In, in_seq, negb_true_iff, mem_nIn, Hin. intuition lia.
Qed.

Lemma nfa_reachable_states_correct h n : nfa_valid n ->
  exists ss k, nfa_reachable_states h n = Ret ss /\ NoDup k /\ (forall q, In q k <-> nfa_reachable n q) /\
               Forall2 (fun q s => nth_error (nfa_states n) q = Some s) k ss.
Proof.
  intros V. destruct (nfa_reachable_state_idx_correct h n V) as (r & Hr & Hnd & Hin).
  unfold nfa_reachable_states. rewrite Hr. simpl.
  destruct (mapR_index_perm (nfa_states n) (ho h [32] r)) as (ss & Hss & HF).
  { intros i Hi. rewrite ho_In, Hin in Hi. apply nfa_reachable_range; auto. }
  exists ss, (ho h [32] r). split; auto. split; [apply ho_NoDup; auto|]. split; auto. intros q. rewrite ho_In. auto.
Qed.

Lemma nfa_unreachable_states_correct h n : nfa_valid n ->
  exists ss k, nfa_unreachable_states h n = Ret ss /\ NoDup k /\
               (forall q, In q k <-> q < length (nfa_states n) /\ ~ nfa_reachable n q) /\
               Forall2 (fun q s => nth_error (nfa_states n) q = Some s) k ss.
Proof.
  intros V. destruct (nfa_unreachable_state_idx_correct h n V) as (r & Hr & Hnd & Hin).
  unfold nfa_unreachable_states. rewrite Hr. simpl.
  destruct (mapR_index_perm (nfa_states n) (ho h [33] r)) as (ss & Hss & HF).
  { intros i Hi. rewrite ho_In, Hin in Hi. tauto. }
  exists ss, (ho h [33] r). split; auto. split; [apply ho_NoDup; auto|]. split; auto. intros q. rewrite ho_In. auto.
Qed.

Lemma nfa_has_reachable_accepting_state_correct h n : nfa_valid n ->
  exists b, nfa_has_reachable_accepting_state h n = Ret b /\ (b = true <-> exists w, nfa_lang n w).
Proof.
  intros V. destruct (nfa_reachable_state_idx_correct h n V) as (r & Hr & Hnd & Hin).
  unfold nfa_has_reachable_accepting_state. rewrite Hr. simpl.
  destruct (anyR_total (fun q => s <- index (nfa_states n) q ;; Ret (ns_accepting s)) (nfa_accepting n) (ho h [34] r))
    as (b & Hb & Hiff).
  - intros q Hq. rewrite ho_In, Hin in Hq. apply nfa_reachable_range in Hq; auto.
    destruct (nth_error_lt _ _ Hq) as [s Hs]. rewrite (index_Some _ _ _ Hs). simpl. eexists; split; eauto.
    unfold nfa_accepting. rewrite Hs. split; [eauto|]. intros (s' & [= ->] & Ha). auto.
  - exists b; split; auto. rewrite Hiff. split.
    + intros (q & Hq & Ha). rewrite ho_In, Hin in Hq. destruct Hq as [w Hw]. exists w, q; auto.
    + intros (w & q & Hp & Ha). exists q. rewrite ho_In, Hin. split; auto. exists w; auto.
Qed.

(** ** Restriction to a list of states *)
Lemma nfa_restriction_nth k n n' j q : nfa_restriction k n n' -> nth_error k j = Some q ->
  exists s s', nth_error (nfa_states n) q = Some s /\ nth_error (nfa_states n') j = Some s' /\ ns_name s' = ns_name s /\
               ns_initial s' = ns_initial s /\ ns_accepting s' = ns_accepting s /\
               Forall2 (fun t t' => nth_error k t' = Some t) (ns_eps s) (ns_eps s') /\
               Forall2 (Forall2 (fun t t' => nth_error k t' = Some t)) (ns_transitions s) (ns_transitions s').
Proof.
  intros (_ & _ & HF) Hj. destruct (Forall2_nth _ _ _ HF _ _ Hj) as (s' & Hs' & s & Hs & H1 & H2 & H3 & H4 & H5).
  exists s, s'. auto 10.
Qed.

Lemma nfa_restriction_edge k n n' j q a : nfa_restriction k n n' -> nth_error k j = Some q ->
  (forall t, nfa_edge n q a t -> exists t', nfa_edge n' j a t' /\ nth_error k t' = Some t) /\
  (forall t', nfa_edge n' j a t' -> exists t, nfa_edge n q a t /\ nth_error k t' = Some t).
Proof.
  intros Hr Hj. destruct (nfa_restriction_nth _ _ _ _ _ Hr Hj) as (s & s' & Hs & Hs' & _ & _ & _ & _ & HF).
  destruct Hr as (Ha & _). split.
  - intros t (i & s0 & ts & Hi & Hs0 & Hts & Ht). rewrite Hs in Hs0. injection Hs0 as <-.
    destruct (Forall2_nth _ _ _ HF _ _ Hts) as (ts' & Hts' & HF2).
    destruct (Forall2_In_l _ _ _ _ HF2 Ht) as (t' & Ht' & Hk). exists t'. split; auto.
    exists i, s', ts'. rewrite Ha. auto.
  - intros t' (i & s0 & ts' & Hi & Hs0 & Hts' & Ht'). rewrite Hs' in Hs0. injection Hs0 as <-.
    destruct (Forall2_nth_r _ _ _ HF _ _ Hts') as (ts & Hts & HF2).
    destruct (Forall2_In_r _ _ _ _ HF2 Ht') as (t & Ht & Hk). exists t. split; auto.
    exists i, s, ts. rewrite <- Ha. auto.
Qed.

Lemma nfa_restriction_eps k n n' j q : nfa_restriction k n n' -> nth_error k j = Some q ->
  (forall t, nfa_eps_edge n q t -> exists t', nfa_eps_edge n' j t' /\ nth_error k t' = Some t) /\
  (forall t', nfa_eps_edge n' j t' -> exists t, nfa_eps_edge n q t /\ nth_error k t' = Some t).
Proof.
  intros Hr Hj. destruct (nfa_restriction_nth _ _ _ _ _ Hr Hj) as (s & s' & Hs & Hs' & _ & _ & _ & HF & _). split.
  - intros t (s0 & Hs0 & Ht). rewrite Hs in Hs0. injection Hs0 as <-.
    destruct (Forall2_In_l _ _ _ _ HF Ht) as (t' & Ht' & Hk). exists t'. split; auto. exists s'. auto.
  - intros t' (s0 & Hs0 & Ht'). rewrite Hs' in Hs0. injection Hs0 as <-.
    destruct (Forall2_In_r _ _ _ _ HF Ht') as (t & Ht & Hk). exists t. split; auto. exists s. auto.
Qed.

Lemma nfa_restriction_path_l k n n' w j q r : nfa_restriction k n n' -> nth_error k j = Some q ->
  nfa_path n q w r -> exists r', nfa_path n' j w r' /\ nth_error k r' = Some r.
Proof.
  intros Hr Hj Hp. revert j Hj. induction Hp as [q|p q w r He Hp IH|p a q w r He Hp IH]; intros j Hj.
  - exists j. split; auto. constructor.
  - destruct (proj1 (nfa_restriction_eps k n n' j p Hr Hj) _ He) as (t' & He' & Ht').
    destruct (IH _ Ht') as (r' & Hp' & Hr'). exists r'. split; auto. eapply nfa_path_eps; eauto.
  - destruct (proj1 (nfa_restriction_edge k n n' j p a Hr Hj) _ He) as (t' & He' & Ht').
    destruct (IH _ Ht') as (r' & Hp' & Hr'). exists r'. split; auto. eapply nfa_path_cons; eauto.
Qed.

Lemma nfa_restriction_path_r k n n' w j q r' : nfa_restriction k n n' -> nth_error k j = Some q ->
  nfa_path n' j w r' -> exists r, nfa_path n q w r /\ nth_error k r' = Some r.
Proof.
  intros Hr Hj Hp. revert q Hj. induction Hp as [j|j j2 w r He Hp IH|j a j2 w r He Hp IH]; intros q Hj.
  - exists q. split; auto. constructor.
  - destruct (proj2 (nfa_restriction_eps k n n' j q Hr Hj) _ He) as (t' & He' & Ht').
    destruct (IH _ Ht') as (r' & Hp' & Hr'). exists r'. split; auto. eapply nfa_path_eps; eauto.
  - destruct (proj2 (nfa_restriction_edge k n n' j q a Hr Hj) _ He) as (t' & He' & Ht').
    destruct (IH _ Ht') as (r' & Hp' & Hr'). exists r'. split; auto. eapply nfa_path_cons; eauto.
Qed.

Lemma nfa_restriction_accepting k n n' j q : nfa_restriction k n n' -> nth_error k j = Some q ->
  (nfa_accepting n q <-> nfa_accepting n' j).
Proof.
  intros Hr Hj. destruct (nfa_restriction_nth _ _ _ _ _ Hr Hj) as (s & s' & Hs & Hs' & _ & _ & Ha & _).
  unfold nfa_accepting. rewrite Hs, Hs'. split; intros (x & [= <-] & Hx); eexists; split; eauto; congruence.
Qed.

Lemma nfa_restriction_state_lang k n n' j q w : nfa_restriction k n n' -> nth_error k j = Some q ->
  (nfa_state_lang n q w <-> nfa_state_lang n' j w).
Proof.
  intros Hr Hj. split.
  - intros (r & Hp & Ha). destruct (nfa_restriction_path_l k n n' w j q r Hr Hj Hp) as (r' & Hp' & Hk). exists r'; split; auto.
    apply (nfa_restriction_accepting k n n' r' r Hr Hk); auto.
  - intros (r & Hp & Ha). destruct (nfa_restriction_path_r k n n' w j q r Hr Hj Hp) as (r' & Hp' & Hk). exists r'; split; auto.
    apply (nfa_restriction_accepting k n n' r r' Hr Hk); auto.
Qed.

Lemma nfa_restriction_lang k n n' w : nfa_restriction k n n' -> (nfa_lang n w <-> nfa_lang n' w).
Proof. intros Hr. apply (nfa_restriction_state_lang k); auto. apply Hr. Qed.

Lemma nfa_restriction_length k n n' : nfa_restriction k n n' -> length (nfa_states n') = length k.
Proof. intros (_ & _ & HF). symmetry. eapply Forall2_len; eauto. Qed.

Lemma nodup_names_inj (l : list nfa_state) p q s s' : NoDup (map ns_name l) ->
  nth_error l p = Some s -> nth_error l q = Some s' -> ns_name s = ns_name s' -> p = q.
Proof.
  intros Hnd Hp Hq Hn. apply (NoDup_nth_error_inj _ p q (ns_name s) Hnd).
  - rewrite nth_error_map, Hp; auto.
  - rewrite nth_error_map, Hq; simpl. congruence.
Qed.

Lemma nfa_restriction_valid k n n' :
  nfa_restriction k n n' -> NoDup k -> NoDup (nfa_alphabet n) ->
  (forall p q s s', In p k -> In q k -> nth_error (nfa_states n) p = Some s -> nth_error (nfa_states n) q = Some s' ->
                    ns_name s = ns_name s' -> p = q) ->
  (forall q s, In q k -> nth_error (nfa_states n) q = Some s -> (ns_initial s = true <-> q = nfa_initial n)) ->
  (forall q s, In q k -> nth_error (nfa_states n) q = Some s -> length (ns_transitions s) = length (nfa_alphabet n)) ->
  nfa_valid n'.
Proof.
  intros Hr Hnd Hna Hnn Hfl Hw.
  assert (Hget : forall j s', nth_error (nfa_states n') j = Some s' -> exists q, nth_error k j = Some q).
  { intros j s' Hj. apply nth_error_length in Hj. rewrite (nfa_restriction_length _ _ _ Hr) in Hj.
    apply nth_error_lt; auto. }
  constructor.
  - destruct Hr as (-> & _); auto.
  - apply NoDup_nth_error. intros i j Hi Hij. rewrite map_length in Hi.
    rewrite (nfa_restriction_length _ _ _ Hr) in Hi. destruct (nth_error_lt _ _ Hi) as [p Hp].
    destruct (nfa_restriction_nth _ _ _ _ _ Hr Hp) as (s & s' & Hs & Hs' & Hn & _).
    rewrite nth_error_map, Hs' in Hij. simpl in Hij. symmetry in Hij.
    rewrite nth_error_map in Hij. destruct (nth_error (nfa_states n') j) as [s2'|] eqn:Hs2'; simpl in Hij; [|discriminate].
    destruct (Hget _ _ Hs2') as [q Hq].
    destruct (nfa_restriction_nth _ _ _ _ _ Hr Hq) as (s2 & s2'' & Hs2 & Hs2'' & Hn2 & _).
    rewrite Hs2'' in Hs2'. injection Hs2' as ->.
    assert (p = q).
    { apply (Hnn p q s s2); auto; try (eapply nth_error_In; eauto). congruence. }
    subst. exact (NoDup_nth_error_inj k i j q Hnd Hp Hq).
  - rewrite (nfa_restriction_length _ _ _ Hr). destruct Hr as (_ & Hi & _). eapply nth_error_length; eauto.
  - intros j s' Hj. destruct (Hget _ _ Hj) as [q Hq].
    destruct (nfa_restriction_nth _ _ _ _ _ Hr Hq) as (s & s'' & Hs & Hs' & _ & Hi & _).
    rewrite Hs' in Hj. injection Hj as ->.
    rewrite Hi, (Hfl q s); [|eapply nth_error_In; eauto|auto]. destruct Hr as (_ & Hini & _). split.
    + intros ->. exact (NoDup_nth_error_inj k _ _ _ Hnd Hq Hini).
    + intros ->. congruence.
  - intros j s' Hj. destruct (Hget _ _ Hj) as [q Hq].
    destruct (nfa_restriction_nth _ _ _ _ _ Hr Hq) as (s & s'' & Hs & Hs' & _ & _ & _ & _ & HF).
    rewrite Hs' in Hj. injection Hj as ->.
    rewrite <- (Forall2_len _ _ _ HF). destruct Hr as (-> & _). eapply Hw; eauto. eapply nth_error_In; eauto.
  - intros j s' ts t Hj Hts Ht. destruct (Hget _ _ Hj) as [q Hq].
    destruct (nfa_restriction_nth _ _ _ _ _ Hr Hq) as (s & s'' & Hs & Hs' & _ & _ & _ & _ & HF).
    rewrite Hs' in Hj. injection Hj as ->.
    destruct (Forall2_In_r _ _ _ _ HF Hts) as (ts0 & _ & HF2).
    destruct (Forall2_In_r _ _ _ _ HF2 Ht) as (t0 & _ & Hk). rewrite (nfa_restriction_length _ _ _ Hr).
    eapply nth_error_length; eauto.
  - intros j s' t Hj Ht. destruct (Hget _ _ Hj) as [q Hq].
    destruct (nfa_restriction_nth _ _ _ _ _ Hr Hq) as (s & s'' & Hs & Hs' & _ & _ & _ & HF & _).
    rewrite Hs' in Hj. injection Hj as ->.
    destruct (Forall2_In_r _ _ _ _ HF Ht) as (t0 & _ & Hk). rewrite (nfa_restriction_length _ _ _ Hr).
    eapply nth_error_length; eauto.
Qed.

(** ** remove_states *)
Lemma nfa_remove_states_correct dbg rem n :
  NoDup rem -> (forall q, In q rem -> q < length (nfa_states n)) ->
  nfa_initial n < length (nfa_states n) -> ~ In (nfa_initial n) rem ->
  (forall q s t, ~ In q rem -> nth_error (nfa_states n) q = Some s ->
                 In t (ns_eps s) \/ In t (concat (ns_transitions s)) -> t < length (nfa_states n) /\ ~ In t rem) ->
  exists n', nfa_remove_states dbg rem n = Ret n' /\ nfa_restriction (kept rem (length (nfa_states n))) n n'.
Proof.
  intros Hnd Hrange Hi Hni Hcl. unfold nfa_remove_states.
  rewrite binary_search_notin by (rewrite sort_In; auto).
  rewrite usize_sub_below by (apply sort_NoDup; auto). cbn [bind].
  rewrite foldR_remove.
  2:{ apply sorted_lt; [apply sort_NoDup; auto|apply sort_sorted]. }
  2:{ apply Forall_forall. intros x Hx. rewrite sort_In in Hx; auto. }
  2:{ rewrite seq_length; auto. }
  simpl. change (keep 0 (sort rem) (seq 0 (length (nfa_states n)))) with (kept (sort rem) (length (nfa_states n))).
  assert (Hke : kept (sort rem) (length (nfa_states n)) = kept rem (length (nfa_states n)))
    by (apply kept_ext; intros; apply sort_In).
  rewrite Hke. set (k := kept rem (length (nfa_states n))) in *.
  unfold nfa_remap_transitions.
  match goal with |- context[mapR (mapR ?g)] => set (go := g) end.
  assert (Hgo : forall t, t < length (nfa_states n) -> ~ In t rem -> exists t', go t = Ret t' /\ nth_error k t' = Some t).
  { intros t Ht1 Ht2. assert (Hin : In t k) by (apply kept_In; auto).
    apply In_nth_error in Hin as [i Hin]. exists i. split; auto.
    assert (Hb : binary_search k t = inl i) by (apply binary_search_inl; [apply kept_NoDup|auto]).
    unfold go. rewrite Hb. reflexivity. }
  match goal with |- context[mapR ?f (keep 0 (sort rem) (nfa_states n))] =>
    destruct (mapR_total f (fun s s' => ns_name s' = ns_name s /\ ns_initial s' = ns_initial s /\ ns_accepting s' = ns_accepting s /\
                            Forall2 (fun t t' => nth_error k t' = Some t) (ns_eps s) (ns_eps s') /\
                            Forall2 (Forall2 (fun t t' => nth_error k t' = Some t)) (ns_transitions s) (ns_transitions s'))
               (keep 0 (sort rem) (nfa_states n))) as (ss & Hss & HF) end.
  - intros s Hs. apply In_nth_error in Hs as [j Hj]. apply keep_nth0 in Hj as (q & Hq & Hs).
    rewrite Hke in Hq. fold k in Hq.
    assert (Hqr : ~ In q rem) by (apply nth_error_In in Hq; apply kept_In in Hq; tauto).
    destruct (mapR_total (mapR go) (Forall2 (fun t t' => nth_error k t' = Some t)) (ns_transitions s)) as (ts & Hts & HFt).
    { intros l Hl. apply mapR_total. intros t Ht. destruct (Hcl q s t Hqr Hs) as [H1 H2]; [|auto].
      right. apply in_concat_iff. eauto. }
    destruct (mapR_total go (fun t t' => nth_error k t' = Some t) (ns_eps s)) as (es & Hes & HFe).
    { intros t Ht. destruct (Hcl q s t Hqr Hs) as [H1 H2]; auto. }
    rewrite Hts. simpl. rewrite Hes. simpl. eexists; split; [reflexivity|]. simpl. auto.
  - rewrite Hss. simpl. eexists; split; [reflexivity|]. split; [|split]; simpl; auto.
    + replace (length (filter (fun y => y <? nfa_initial n) (sort rem)))
        with (length (filter (fun y => y <? nfa_initial n) rem)).
      * apply kept_index; auto.
      * apply Permutation_length. apply NoDup_Permutation; try apply NoDup_filter; auto using sort_NoDup.
        intros x. rewrite !filter_In, sort_In. tauto.
    + apply Forall2_of_nth.
      * rewrite <- (Forall2_len _ _ _ HF), keep_length. fold (kept (sort rem) (length (nfa_states n))).
        rewrite Hke. reflexivity.
      * intros j q s' Hq Hs'. destruct (Forall2_nth_r _ _ _ HF _ _ Hs') as (s & Hs & Hprop).
        apply keep_nth0 in Hs as (q' & Hq' & Hs). rewrite Hke in Hq'. fold k in Hq'.
        rewrite Hq in Hq'. injection Hq' as <-. exists s. tauto.
Qed.

Lemma nfa_remove_unreachable_states_correct h dbg n : nfa_valid n ->
  exists n', nfa_remove_unreachable_states h dbg n = Ret n' /\ nfa_valid n' /\
             exists k, StronglySorted lt k /\ (forall q, In q k <-> nfa_reachable n q) /\ nfa_restriction k n n'.
Proof.
  intros V. destruct (nfa_unreachable_state_idx_correct h n V) as (r & Hr & Hnd & Hin).
  unfold nfa_remove_unreachable_states. rewrite Hr. simpl.
  assert (Hreach0 : nfa_reachable n (nfa_initial n)) by (exists []; constructor).
  assert (Hreach_dec : forall q, q < length (nfa_states n) -> ~ In q r -> nfa_reachable n q).
  { intros q Hq Hn. destruct (nfa_reachable_state_idx_correct h n V) as (r' & Hr' & _ & Hin').
    apply Hin'. destruct (In_dec q r') as [|Hx]; auto. exfalso; apply Hn, Hin. rewrite Hin' in Hx. auto. }
  destruct (nfa_remove_states_correct dbg (ho h [35] r) n) as (n' & Hn' & Hres).
  - apply ho_NoDup; auto.
  - intros q Hq. rewrite ho_In, Hin in Hq. tauto.
  - apply nv_initial; auto.
  - rewrite ho_In, Hin. tauto.
  - intros q s t Hq Hs Ht. rewrite ho_In in *.
    assert (Hqr : nfa_reachable n q) by (apply Hreach_dec; auto; eapply nth_error_length; eauto).
    assert (Hsucc : nfa_succ n q t).
    { destruct Ht as [Ht|Ht].
      - right. eapply nfa_path_eps; [exists s; eauto|constructor].
      - left. apply nfa_edge_trans; eauto. }
    assert (Hrt : nfa_reachable n t).
    { apply nfa_reachable_star. apply nfa_reachable_star in Hqr. econstructor; eauto. }
    split; [apply nfa_reachable_range; auto|]. rewrite Hin. tauto.
  - exists n'. split; auto.
    assert (Hk : forall q, In q (kept (ho h [35] r) (length (nfa_states n))) <-> nfa_reachable n q).
    { intros q. rewrite kept_In, ho_In. split.
      - intros [H1 H2]; auto.
      - intros Hq. split; [apply nfa_reachable_range; auto|]. rewrite Hin. tauto. }
    split.
    + eapply nfa_restriction_valid; eauto using kept_NoDup.
      * apply nv_alphabet; auto.
      * intros; eapply nodup_names_inj; eauto. apply nv_names; auto.
      * intros; apply nv_flag; auto.
      * intros; eapply nv_width; eauto.
    + eexists; split; [apply kept_sorted|]. split; eauto.
Qed.
