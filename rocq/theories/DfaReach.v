(** * Reachability and removal of states in DFAs *)
From Coq Require Import List NArith Arith Bool Lia Permutation Sorted.
From Verif Require Import Base BaseLemmas Spec Search DfaModel DfaBasics Bfs.
Import ListNotations.

(** ** Reachability *)
Definition dfa_succ (d : dfa) (p q : nat) : Prop := exists a, dfa_edge d p a q.

Lemma dfa_succ_trans d p q : dfa_valid d ->
  (dfa_succ d p q <-> exists s, nth_error (dfa_states d) p = Some s /\ In q (ds_transitions s)).
Proof.
  intros Hv. split.
  - intros (a & i & s & Hi & Hs & Hq). exists s; split; auto. eapply nth_error_In; eauto.
  - intros (s & Hs & Hq). apply In_nth_error in Hq as [i Hi].
    destruct (nth_error_lt (dfa_alphabet d) i) as [a Ha].
    { rewrite <- (dv_width _ Hv _ _ Hs). eapply nth_error_length; eauto. }
    exists a, i, s; auto.
Qed.

Lemma dfa_reachable_star d q : star (dfa_succ d) (dfa_initial d) q <-> dfa_reachable d q.
Proof.
  split.
  - induction 1 as [|y z Hy IH Hyz].
    + exists []; constructor.
    + destruct IH as [w Hw]. destruct Hyz as [a Ha]. exists (w ++ [a]). eapply dfa_path_snoc; eauto.
  - intros [w Hw]. revert Hw. generalize (dfa_initial d). intros p Hw.
    induction Hw as [|p a q w r He Hp IH]; [constructor|]. eapply star_head; eauto. exists a; auto.
Qed.

Lemma dfa_reachable_state_idx_correct h d : dfa_valid d ->
  exists r, dfa_reachable_state_idx h d = Ret r /\ NoDup r /\ forall q, In q r <-> dfa_reachable d q.
Proof.
  intros Hv. unfold dfa_reachable_state_idx.
  destruct (bfs_total (dfa_reach_step h d) (fun s => fst (fst s)) (fun s => snd (fst s)) (dfa_succ d)
                      (length (dfa_states d)) (dfa_initial d) ([dfa_initial d], [dfa_initial d], 0)
                      (S (length (dfa_states d)))) as (r & Hr & Hnd & Hin).
  - intros [[all new] i]; simpl. intros ->. reflexivity.
  - intros [[all new] i]; simpl. intros Hne Hnd Hrange.
    destruct (mapR_total (fun q => s <- index (dfa_states d) q ;; Ret (ds_transitions s))
                (fun q ts => exists s, nth_error (dfa_states d) q = Some s /\ ts = ds_transitions s)
                (ho h [10; i] new)) as (ts & Hts & HF).
    { intros q Hq. rewrite ho_In in Hq. rewrite Forall_forall in Hrange.
      destruct (nth_error_lt _ _ (Hrange q Hq)) as [s Hs]. rewrite (index_Some _ _ _ Hs). simpl. eauto. }
    rewrite Hts. simpl. destruct (fold_insert_new (concat ts) all [] Hnd) as (nw & He & Hnd' & Hx).
    rewrite He. simpl. destruct new as [|q0 qs]; [congruence|]. do 2 eexists. split; [reflexivity|].
    simpl. split; [reflexivity|]. split; [reflexivity|]. split; auto.
    intros x. rewrite Hx, in_concat_iff.
    enough ((exists l, In l ts /\ In x l) <-> (exists q, In q (q0 :: qs) /\ dfa_succ d q x)) by tauto. split.
    + intros (l & Hl & Hxl). destruct (Forall2_In_r _ _ _ _ HF Hl) as (q & Hq & s & Hs & ->).
      exists q. rewrite ho_In in Hq. split; auto. apply dfa_succ_trans; eauto.
    + intros (q & Hq & Hqx). apply (dfa_succ_trans d q x Hv) in Hqx as (s & Hs & Hxs).
      rewrite <- (ho_In h [10; i]) in Hq. destruct (Forall2_In_l _ _ _ _ HF Hq) as (l & Hl & s' & Hs' & ->).
      exists (ds_transitions s'). split; auto. congruence.
  - intros q x Hq (a & He). eapply dfa_edge_range; eauto.
  - apply dv_initial; auto.
  - reflexivity.
  - reflexivity.
  - pose proof (pow2_gt (S (length (dfa_states d)))). lia.
  - exists r. split; auto. split; auto. intros q. rewrite Hin. apply dfa_reachable_star.
Qed.

Lemma dfa_reachable_range d q : dfa_valid d -> dfa_reachable d q -> q < length (dfa_states d).
Proof. intros Hv [w Hw]. eapply dfa_path_range; eauto. apply dv_initial; auto. Qed.

Lemma dfa_unreachable_state_idx_correct h d : dfa_valid d ->
  exists r, dfa_unreachable_state_idx h d = Ret r /\ NoDup r /\
            forall q, In q r <-> q < length (dfa_states d) /\ ~ dfa_reachable d q.
Proof.
  intros Hv. destruct (dfa_reachable_state_idx_correct h d Hv) as (r & Hr & Hnd & Hin).
  unfold dfa_unreachable_state_idx. rewrite Hr. simpl. eexists; split; [reflexivity|]. split.
  - apply NoDup_filter, seq_NoDup.
  - intros q. rewrite filter_In, in_seq, negb_true_iff, mem_nIn, Hin. intuition lia.
Qed.

Lemma mapR_index_perm {A} (l : list A) idx :
  (forall i, In i idx -> i < length l) ->
  exists ys, mapR (index l) idx = Ret ys /\ Forall2 (fun i y => nth_error l i = Some y) idx ys.
Proof.
  intros Hr. apply mapR_total. intros i Hi. destruct (nth_error_lt _ _ (Hr i Hi)) as [x Hx].
  exists x. split; auto. apply index_Some; auto.
Qed.

Lemma anyR_total {A} (p : A -> R bool) (P : A -> Prop) l :
  (forall x, In x l -> exists b, p x = Ret b /\ (b = true <-> P x)) ->
  exists b, anyR p l = Ret b /\ (b = true <-> exists x, In x l /\ P x).
Proof.
  induction l as [|x xs IH]; intros Hp; simpl.
  - exists false; split; auto. split; [discriminate|]. intros (x & [] & _).
  - destruct (Hp x) as (b & Hb & Hiff); [left; auto|]. rewrite Hb. simpl. destruct b.
    + exists true; split; auto. split; auto. intros _. exists x. intuition.
    + destruct IH as (b & Hb' & Hiff'); [intros; apply Hp; right; auto|]. exists b; split; auto. rewrite Hiff'. split.
      * intros (y & Hy & HP). eauto.
      * intros (y & [->|Hy] & HP); [apply Hiff in HP; discriminate|eauto].
Qed.

Lemma dfa_has_reachable_accepting_state_correct h d : dfa_valid d ->
  exists b, dfa_has_reachable_accepting_state h d = Ret b /\ (b = true <-> exists w, dfa_lang d w).
Proof.
  intros Hv. destruct (dfa_reachable_state_idx_correct h d Hv) as (r & Hr & Hnd & Hin).
  unfold dfa_has_reachable_accepting_state. rewrite Hr. simpl.
  destruct (anyR_total (fun q => s <- index (dfa_states d) q ;; Ret (ds_accepting s)) (dfa_accepting d) (ho h [13] r))
    as (b & Hb & Hiff).
  - intros q Hq. rewrite ho_In, Hin in Hq. apply dfa_reachable_range in Hq; auto.
    destruct (nth_error_lt _ _ Hq) as [s Hs]. rewrite (index_Some _ _ _ Hs). simpl. eexists; split; eauto.
    unfold dfa_accepting. rewrite Hs. split; [eauto|]. intros (s' & [= ->] & Ha). auto.
  - exists b; split; auto. rewrite Hiff. split.
    + intros (q & Hq & Ha). rewrite ho_In, Hin in Hq. destruct Hq as [w Hw]. exists w, q; auto.
    + intros (w & q & Hp & Ha). exists q. rewrite ho_In, Hin. split; auto. exists w; auto.
Qed.

(** ** Restriction to a list of states *)

Lemma dfa_restriction_nth k d d' j q : dfa_restriction k d d' -> nth_error k j = Some q ->
  exists s s', nth_error (dfa_states d) q = Some s /\ nth_error (dfa_states d') j = Some s' /\ ds_name s' = ds_name s /\
               ds_initial s' = ds_initial s /\ ds_accepting s' = ds_accepting s /\
               Forall2 (fun t t' => nth_error k t' = Some t) (ds_transitions s) (ds_transitions s').
Proof.
  intros (_ & _ & HF) Hj. destruct (Forall2_nth _ _ _ HF _ _ Hj) as (s' & Hs' & s & Hs & H1 & H2 & H3 & H4).
  exists s, s'. auto 10.
Qed.

Lemma dfa_restriction_edge k d d' j q a : dfa_restriction k d d' -> NoDup k -> nth_error k j = Some q ->
  (forall t, dfa_edge d q a t -> exists t', dfa_edge d' j a t' /\ nth_error k t' = Some t) /\
  (forall t', dfa_edge d' j a t' -> exists t, dfa_edge d q a t /\ nth_error k t' = Some t).
Proof.
  intros Hr Hnd Hj. destruct (dfa_restriction_nth _ _ _ _ _ Hr Hj) as (s & s' & Hs & Hs' & _ & _ & _ & HF).
  destruct Hr as (Ha & _). split.
  - intros t (i & s0 & Hi & Hs0 & Ht). rewrite Hs in Hs0. inv Hs0.
    destruct (Forall2_nth _ _ _ HF _ _ Ht) as (t' & Ht' & Hk). exists t'. split; auto.
    exists i, s'. rewrite Ha. auto.
  - intros t' (i & s0 & Hi & Hs0 & Ht). rewrite Hs' in Hs0. inv Hs0.
    destruct (Forall2_nth_r _ _ _ HF _ _ Ht) as (t & Ht' & Hk). exists t. split; auto.
    exists i, s. rewrite <- Ha. auto.
Qed.

Lemma dfa_restriction_path k d d' w j q : dfa_restriction k d d' -> NoDup k -> nth_error k j = Some q ->
  (forall r, dfa_path d q w r -> exists r', dfa_path d' j w r' /\ nth_error k r' = Some r) /\
  (forall r', dfa_path d' j w r' -> exists r, dfa_path d q w r /\ nth_error k r' = Some r).
Proof.
  intros Hr Hnd. revert j q; induction w as [|a w IH]; intros j q Hj; split.
  - intros r Hp. inv Hp. exists j; split; auto. constructor.
  - intros r Hp. inv Hp. exists q; split; auto. constructor.
  - intros r Hp. inv Hp. destruct (dfa_restriction_edge k d d' j q a Hr Hnd Hj) as [H1 _].
    destruct (H1 _ H2) as (t' & He & Ht'). destruct (IH _ _ Ht') as [IH1 _]. destruct (IH1 _ H4) as (r' & Hp' & Hr').
    exists r'; split; auto. econstructor; eauto.
  - intros r Hp. inv Hp. destruct (dfa_restriction_edge k d d' j q a Hr Hnd Hj) as [_ H1].
    destruct (H1 _ H2) as (t' & He & Ht'). destruct (IH _ _ Ht') as [_ IH1]. destruct (IH1 _ H4) as (r' & Hp' & Hr').
    exists r'; split; auto. econstructor; eauto.
Qed.

Lemma dfa_restriction_accepting k d d' j q : dfa_restriction k d d' -> nth_error k j = Some q ->
  (dfa_accepting d q <-> dfa_accepting d' j).
Proof.
  intros Hr Hj. destruct (dfa_restriction_nth _ _ _ _ _ Hr Hj) as (s & s' & Hs & Hs' & _ & _ & Ha & _).
  unfold dfa_accepting. rewrite Hs, Hs'. split; intros (x & [= <-] & Hx); eexists; split; eauto; congruence.
Qed.

Lemma dfa_restriction_state_lang k d d' j q w : dfa_restriction k d d' -> NoDup k -> nth_error k j = Some q ->
  (dfa_state_lang d q w <-> dfa_state_lang d' j w).
Proof.
  intros Hr Hnd Hj. destruct (dfa_restriction_path k d d' w j q Hr Hnd Hj) as [H1 H2]. split.
  - intros (r & Hp & Ha). destruct (H1 _ Hp) as (r' & Hp' & Hk). exists r'; split; auto.
    apply (dfa_restriction_accepting k d d' r' r Hr Hk); auto.
  - intros (r & Hp & Ha). destruct (H2 _ Hp) as (r' & Hp' & Hk). exists r'; split; auto.
    apply (dfa_restriction_accepting k d d' r r' Hr Hk); auto.
Qed.

Lemma dfa_restriction_lang k d d' w : dfa_restriction k d d' -> NoDup k -> (dfa_lang d w <-> dfa_lang d' w).
Proof. intros Hr Hnd. apply (dfa_restriction_state_lang k); auto. apply Hr. Qed.

Lemma dfa_restriction_length k d d' : dfa_restriction k d d' -> length (dfa_states d') = length k.
Proof. intros (_ & _ & HF). symmetry. eapply Forall2_len; eauto. Qed.

(** The hypotheses are those of [d] that matter for the states in [k] *)
Lemma dfa_restriction_valid k d d' :
  dfa_restriction k d d' -> NoDup k -> NoDup (dfa_alphabet d) -> NoDup (map ds_name (dfa_states d)) ->
  (forall q s, In q k -> nth_error (dfa_states d) q = Some s -> (ds_initial s = true <-> q = dfa_initial d)) ->
  (forall q s, In q k -> nth_error (dfa_states d) q = Some s -> length (ds_transitions s) = length (dfa_alphabet d)) ->
  dfa_valid d'.
Proof.
  intros Hr Hnd Hna Hnn Hfl Hw.
  assert (Hget : forall j s', nth_error (dfa_states d') j = Some s' -> exists q, nth_error k j = Some q).
  { intros j s' Hj. apply nth_error_length in Hj. rewrite (dfa_restriction_length _ _ _ Hr) in Hj.
    apply nth_error_lt; auto. }
  constructor.
  - destruct Hr as (-> & _); auto.
  - apply NoDup_nth_error. intros i j Hi Hij. rewrite map_length in Hi.
    rewrite (dfa_restriction_length _ _ _ Hr) in Hi. destruct (nth_error_lt _ _ Hi) as [p Hp].
    destruct (dfa_restriction_nth _ _ _ _ _ Hr Hp) as (s & s' & Hs & Hs' & Hn & _).
    rewrite nth_error_map, Hs' in Hij. simpl in Hij. symmetry in Hij.
    rewrite nth_error_map in Hij. destruct (nth_error (dfa_states d') j) as [s2'|] eqn:Hs2'; simpl in Hij; [|discriminate].
    destruct (Hget _ _ Hs2') as [q Hq].
    destruct (dfa_restriction_nth _ _ _ _ _ Hr Hq) as (s2 & s2'' & Hs2 & Hs2'' & Hn2 & _).
    rewrite Hs2'' in Hs2'. injection Hs2' as ->.
    assert (p = q).
    { eapply (NoDup_nth_error_inj _ p q (ds_name s) Hnn).
      - rewrite nth_error_map, Hs; auto.
      - rewrite nth_error_map, Hs2; simpl. congruence. }
    subst. exact (NoDup_nth_error_inj k i j q Hnd Hp Hq).
  - rewrite (dfa_restriction_length _ _ _ Hr). destruct Hr as (_ & Hi & _). eapply nth_error_length; eauto.
  - intros j s' Hj. destruct (Hget _ _ Hj) as [q Hq].
    destruct (dfa_restriction_nth _ _ _ _ _ Hr Hq) as (s & s'' & Hs & Hs' & _ & Hi & _). rewrite Hs' in Hj. inv Hj.
    rewrite Hi, (Hfl q s); [|eapply nth_error_In; eauto|auto]. destruct Hr as (_ & Hini & _). split.
    + intros ->. exact (NoDup_nth_error_inj k _ _ _ Hnd Hq Hini).
    + intros ->. congruence.
  - intros j s' Hj. destruct (Hget _ _ Hj) as [q Hq].
    destruct (dfa_restriction_nth _ _ _ _ _ Hr Hq) as (s & s'' & Hs & Hs' & _ & _ & _ & HF). rewrite Hs' in Hj. inv Hj.
    rewrite <- (Forall2_len _ _ _ HF). destruct Hr as (-> & _). eapply Hw; eauto. eapply nth_error_In; eauto.
  - intros j s' t Hj Ht. destruct (Hget _ _ Hj) as [q Hq].
    destruct (dfa_restriction_nth _ _ _ _ _ Hr Hq) as (s & s'' & Hs & Hs' & _ & _ & _ & HF). rewrite Hs' in Hj. inv Hj.
    destruct (Forall2_In_r _ _ _ _ HF Ht) as (t0 & _ & Hk). rewrite (dfa_restriction_length _ _ _ Hr).
    eapply nth_error_length; eauto.
Qed.

(** ** remove_states *)
Lemma Forall2_map_id {A B} (P : A -> B -> Prop) (l : list A) (f : A -> B) :
  (forall x, In x l -> P x (f x)) -> Forall2 P l (map f l).
Proof. induction l; simpl; intros Hp; constructor; auto. Qed.

Lemma kept_ext r1 r2 n : (forall x, In x r1 <-> In x r2) -> kept r1 n = kept r2 n.
Proof. intros; apply keep_ext; auto. Qed.

Lemma Forall2_of_nth {A B} (P : A -> B -> Prop) l l' :
  length l = length l' -> (forall i x y, nth_error l i = Some x -> nth_error l' i = Some y -> P x y) -> Forall2 P l l'.
Proof.
  revert l'; induction l as [|x xs IH]; intros [|y ys]; simpl; intros Hl HP; try discriminate; constructor.
  - apply (HP 0); auto.
  - apply IH; [lia|]. intros i a b Ha Hb. apply (HP (S i)); auto.
Qed.

Lemma dfa_remove_states_correct dbg rem d :
  NoDup rem -> (forall q, In q rem -> q < length (dfa_states d)) ->
  dfa_initial d < length (dfa_states d) -> ~ In (dfa_initial d) rem ->
  (forall q s t, ~ In q rem -> nth_error (dfa_states d) q = Some s -> In t (ds_transitions s) ->
                 t < length (dfa_states d) /\ ~ In t rem) ->
  exists d', dfa_remove_states dbg rem d = Ret d' /\ dfa_restriction (kept rem (length (dfa_states d))) d d'.
Proof.
  intros Hnd Hrange Hi Hni Hcl. unfold dfa_remove_states.
  rewrite binary_search_notin by (rewrite sort_In; auto).
  rewrite usize_sub_below by (apply sort_NoDup; auto). cbn [bind].
  rewrite foldR_remove.
  2:{ apply sorted_lt; [apply sort_NoDup; auto|apply sort_sorted]. }
  2:{ apply Forall_forall. intros x Hx. rewrite sort_In in Hx; auto. }
  2:{ rewrite seq_length; auto. }
  simpl. change (keep 0 (sort rem) (seq 0 (length (dfa_states d)))) with (kept (sort rem) (length (dfa_states d))).
  assert (Hke : kept (sort rem) (length (dfa_states d)) = kept rem (length (dfa_states d)))
    by (apply kept_ext; intros; apply sort_In).
  rewrite Hke. set (k := kept rem (length (dfa_states d))) in *.
  unfold dfa_remap_transitions.
  match goal with |- context[mapR ?f (keep 0 (sort rem) (dfa_states d))] =>
    destruct (mapR_total f (fun s s' => ds_name s' = ds_name s /\ ds_initial s' = ds_initial s /\ ds_accepting s' = ds_accepting s /\
                            Forall2 (fun t t' => nth_error k t' = Some t) (ds_transitions s) (ds_transitions s'))
               (keep 0 (sort rem) (dfa_states d))) as (ss & Hss & HF) end.
  - intros s Hs. apply In_nth_error in Hs as [j Hj]. apply keep_nth0 in Hj as (q & Hq & Hs).
    rewrite Hke in Hq. fold k in Hq.
    assert (Hqr : ~ In q rem) by (apply nth_error_In in Hq; apply kept_In in Hq; tauto).
    match goal with |- context[mapR ?f (ds_transitions s)] =>
      destruct (mapR_total f (fun t t' => nth_error k t' = Some t) (ds_transitions s)) as (ts & Hts & HFt) end.
    { intros t Ht. destruct (Hcl q s t Hqr Hs Ht) as [Ht1 Ht2].
      assert (Hin : In t k) by (apply kept_In; auto).
      apply In_nth_error in Hin as [i Hin].
      assert (Hb : binary_search k t = inl i) by (apply binary_search_inl; [apply kept_NoDup|auto]).
      rewrite Hb. simpl. eauto. }
    rewrite Hts. simpl. eexists; split; [reflexivity|]. simpl. auto.
  - rewrite Hss. simpl. eexists; split; [reflexivity|]. split; [|split]; simpl; auto.
    + replace (length (filter (fun y => y <? dfa_initial d) (sort rem)))
        with (length (filter (fun y => y <? dfa_initial d) rem)).
      * apply kept_index; auto.
      * apply Permutation_length. apply NoDup_Permutation; try apply NoDup_filter; auto using sort_NoDup.
        intros x. rewrite !filter_In, sort_In. tauto.
    + apply Forall2_of_nth.
      * rewrite <- (Forall2_len _ _ _ HF), keep_length. fold (kept (sort rem) (length (dfa_states d))).
        rewrite Hke. reflexivity.
      * intros j q s' Hq Hs'. destruct (Forall2_nth_r _ _ _ HF _ _ Hs') as (s & Hs & Hprop).
        apply keep_nth0 in Hs as (q' & Hq' & Hs). rewrite Hke in Hq'. fold k in Hq'.
        rewrite Hq in Hq'. inv Hq'. exists s. tauto.
Qed.

Lemma kept_sorted rem n : StronglySorted lt (kept rem n).
Proof.
  rewrite kept_filter. generalize 0. induction n; intros i; simpl; [constructor|].
  destruct (negb (mem i rem)); auto. constructor; auto. apply Forall_forall. intros x Hx.
  apply filter_In in Hx as [Hx _]. apply in_seq in Hx. lia.
Qed.

Lemma dfa_remove_unreachable_states_correct h dbg d : dfa_valid d ->
  exists d', dfa_remove_unreachable_states h dbg d = Ret d' /\ dfa_valid d' /\
             exists k, StronglySorted lt k /\ (forall q, In q k <-> dfa_reachable d q) /\ dfa_restriction k d d'.
Proof.
  intros Hv. destruct (dfa_unreachable_state_idx_correct h d Hv) as (r & Hr & Hnd & Hin).
  unfold dfa_remove_unreachable_states. rewrite Hr. simpl.
  assert (Hreach0 : dfa_reachable d (dfa_initial d)) by (exists []; constructor).
  assert (Hreach_dec : forall q, q < length (dfa_states d) -> ~ In q r -> dfa_reachable d q).
  { intros q Hq Hn. destruct (dfa_reachable_state_idx_correct h d Hv) as (r' & Hr' & _ & Hin').
    apply Hin'. destruct (In_dec q r') as [|Hx]; auto. exfalso; apply Hn, Hin. rewrite Hin' in Hx. auto. }
  destruct (dfa_remove_states_correct dbg (ho h [14] r) d) as (d' & Hd' & Hres).
  - apply ho_NoDup; auto.
  - intros q Hq. rewrite ho_In, Hin in Hq. tauto.
  - apply dv_initial; auto.
  - rewrite ho_In, Hin. tauto.
  - intros q s t Hq Hs Ht. rewrite ho_In in *.
    assert (Hqr : dfa_reachable d q) by (apply Hreach_dec; auto; eapply nth_error_length; eauto).
    split; [eapply dv_range; eauto|]. rewrite Hin. intros [_ Hn]. apply Hn.
    assert (Hsucc : dfa_succ d q t) by (apply dfa_succ_trans; eauto).
    apply dfa_reachable_star. apply dfa_reachable_star in Hqr. econstructor; eauto.
  - exists d'. split; auto.
    assert (Hk : forall q, In q (kept (ho h [14] r) (length (dfa_states d))) <-> dfa_reachable d q).
    { intros q. rewrite kept_In, ho_In. split.
      - intros [H1 H2]; auto.
      - intros Hq. split; [apply dfa_reachable_range; auto|]. rewrite Hin. tauto. }
    split.
    + eapply dfa_restriction_valid; eauto using kept_NoDup.
      * apply dv_alphabet; auto.
      * apply dv_names; auto.
      * intros; apply dv_flag; auto.
      * intros; eapply dv_width; eauto.
    + eexists; split; [apply kept_sorted|]. split; eauto.
Qed.
