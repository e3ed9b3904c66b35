(** * Merging of indistinguishable states and minimisation *)
From Coq Require Import List NArith Arith Bool Lia Permutation Sorted.
From Verif Require Import Base BaseLemmas Spec Search DfaModel DfaBasics DfaReach DfaEquiv DfaHopcroft.
Import ListNotations.

(** ** The mapper of [merge_nondistinguishable_states] *)
Record mapper_spec (d : dfa) (mapper : list (nat * nat)) : Prop := {
  mp_nodup : NoDup (map fst mapper);
  mp_get : forall q r, hm_get q mapper = Some r ->
             q < length (dfa_states d) /\ r < length (dfa_states d) /\ dfa_indist d q r /\ hm_get r mapper = None;
  mp_none : forall p q, p < length (dfa_states d) -> q < length (dfa_states d) -> hm_get p mapper = None ->
              hm_get q mapper = None -> dfa_indist d p q -> p = q
}.

Definition merge_pairs (h : hash_order) (dbg : bool) (cs : list (list nat)) : R (list (list (nat * nat))) :=
  mapR (fun '(i, set) =>
          match ho h [16; i] set with
          | [] => if dbg then Panic else Ret []
          | new :: olds => Ret (map (fun old => (old, new)) olds)
          end) (enumerate cs).

Lemma merge_pairs_spec h dbg cs : Forall (fun B => B <> []) cs ->
  exists pairs, merge_pairs h dbg cs = Ret pairs /\
    Forall2 (fun B ps => exists new olds, Permutation B (new :: olds) /\ ps = map (fun old => (old, new)) olds) cs pairs.
Proof.
  intros Hne. unfold merge_pairs, enumerate.
  generalize 16 as tag. generalize 0. intros z tag; revert z.
  induction Hne as [|B cs HB Hne IH]; intros k; simpl.
  - exists []. split; auto.
  - destruct (ho h [tag; k] B) as [|new olds] eqn:Eo.
    + exfalso. apply HB. pose proof (ho_perm h _ [tag; k] B) as HP. rewrite Eo in HP. apply Permutation_nil in HP. auto.
    + simpl. destruct (IH (S k)) as (pairs & -> & HF). simpl. eexists; split; [reflexivity|]. constructor; auto.
      exists new, olds. split; auto. rewrite <- Eo. symmetry. apply ho_perm.
Qed.

Lemma merge_keys cs pairs :
  Forall2 (fun B ps => exists new olds, Permutation B (new :: olds) /\ ps = map (fun old => (old, new)) olds) cs pairs ->
  NoDup (concat cs) ->
  NoDup (map fst (concat pairs)) /\ incl (map fst (concat pairs)) (concat cs) /\
  (forall q r, In (q, r) (concat pairs) -> same_block cs q r /\ ~ In r (map fst (concat pairs))) /\
  (forall p q, same_block cs p q -> ~ In p (map fst (concat pairs)) -> ~ In q (map fst (concat pairs)) -> p = q).
Proof.
  induction 1 as [|B ps cs pairs (new & olds & HP & ->) HF IH]; intros Hnd; simpl in *.
  - split; [constructor|]. split; [intros x []|]. split; [intros ? ? []|]. intros p q (B & [] & _).
  - rewrite NoDup_app_iff in Hnd. destruct Hnd as (HndB & Hndc & Hdis).
    destruct (IH Hndc) as (I1 & I2 & I3 & I4).
    rewrite map_app, map_map. simpl. rewrite map_id.
    assert (HndB' : NoDup (new :: olds)) by (eapply Permutation_NoDup; eauto).
    assert (HinB : forall x, In x B <-> x = new \/ In x olds).
    { intros x. split.
      - intros Hx. eapply Permutation_in in Hx; [|exact HP]. destruct Hx; auto.
      - intros Hx. eapply Permutation_in; [symmetry; exact HP|]. destruct Hx; [left|right]; auto. }
    inversion HndB' as [|? ? Hnew Hndo]; subst.
    split; [|split; [|split]].
    + apply NoDup_app_iff. split; auto. split; auto. intros x Hx Hx'. apply (Hdis x); [apply HinB; auto|apply I2; auto].
    + intros x Hx. apply in_app_iff in Hx as [Hx|Hx]; apply in_app_iff; [left; apply HinB; auto|right; apply I2; auto].
    + intros q r Hin. apply in_app_iff in Hin as [Hin|Hin].
      * apply in_map_iff in Hin as (o & E & Ho). injection E as -> ->. split.
        -- exists B. split; [left; auto|]. rewrite !HinB. auto.
        -- rewrite in_app_iff. intros [Hx|Hx]; [auto|]. apply (Hdis r); [apply HinB; auto|apply I2; auto].
      * destruct (I3 q r Hin) as [(C & HC & Hq & Hr) Hn]. split.
        -- exists C. split; [right; auto|auto].
        -- rewrite in_app_iff. intros [Hx|Hx]; [|auto]. apply (Hdis r); [apply HinB; auto|]. apply in_concat_iff. eauto.
    + intros p q (C & [<-|HC] & Hp & Hq) Hnp Hnq; rewrite in_app_iff in Hnp, Hnq.
      * apply HinB in Hp, Hq. intuition congruence.
      * apply I4; try tauto. exists C. auto.
Qed.

Lemma merge_mapper_spec h dbg d cs : classes_spec d cs ->
  exists pairs, merge_pairs h dbg cs = Ret pairs /\ mapper_spec d (hm_collect (concat pairs)).
Proof.
  intros Hc. destruct (merge_pairs_spec h dbg cs (cl_nonempty _ _ Hc)) as (pairs & He & HF).
  exists pairs. split; auto. destruct (merge_keys cs pairs HF (cl_nodup _ _ Hc)) as (K1 & K2 & K3 & K4).
  rewrite hm_collect_id by auto.
  assert (Hr : forall p q, same_block cs p q -> p < length (dfa_states d) /\ q < length (dfa_states d)).
  { intros p q (B & HB & Hp & Hq). split; apply (cl_cover _ _ Hc), in_concat_iff; eauto. }
  constructor; auto.
  - intros q r Hg. apply hm_get_In in Hg. destruct (K3 q r Hg) as [Hsb Hn]. destruct (Hr _ _ Hsb) as [Hq Hr'].
    split; auto. split; auto. split; [apply (cl_indist _ _ Hc); auto|]. apply hm_get_None; auto.
  - intros p q Hp Hq Hgp Hgq Hi. rewrite hm_get_None in Hgp, Hgq. apply K4; auto. apply (cl_indist _ _ Hc); auto.
Qed.

(** ** The merged automaton *)
Definition rep (mapper : list (nat * nat)) (q : nat) : nat := match hm_get q mapper with Some r => r | None => q end.

Lemma rep_spec d mapper q : mapper_spec d mapper -> q < length (dfa_states d) ->
  rep mapper q < length (dfa_states d) /\ dfa_indist d q (rep mapper q) /\ hm_get (rep mapper q) mapper = None.
Proof.
  intros Hm Hq. unfold rep. destruct (hm_get q mapper) as [r|] eqn:E.
  - destruct (mp_get _ _ Hm _ _ E) as (_ & H2 & H3 & H4). auto.
  - split; auto. split; auto. intros w; tauto.
Qed.

Definition remapped (mapper : list (nat * nat)) (s : dfa_state) : dfa_state :=
  mk_dfa_state (ds_name s) (ds_initial s) (ds_accepting s) (map (rep mapper) (ds_transitions s)).

Lemma dfa_remap_pure mapper states :
  dfa_remap_transitions (fun t => Ret (hm_get t mapper)) states = Ret (map (remapped mapper) states).
Proof.
  unfold dfa_remap_transitions. apply mapR_pure. intros s _.
  rewrite (mapR_pure _ (rep mapper)); [reflexivity|]. intros t _. reflexivity.
Qed.

(** What merging achieves: [d'] has one state for every class of indistinguishable states *)
Record dfa_merged (d d' : dfa) (k : list nat) : Prop := {
  mg_alphabet : dfa_alphabet d' = dfa_alphabet d;
  mg_sorted : StronglySorted lt k;
  mg_nodup : NoDup k;
  mg_length : length (dfa_states d') = length k;
  mg_range : forall q, In q k -> q < length (dfa_states d);
  mg_rep : forall q, q < length (dfa_states d) -> exists r, In r k /\ dfa_indist d q r;
  mg_distinct : forall p q, In p k -> In q k -> dfa_indist d p q -> p = q;
  mg_state : forall j q s', nth_error k j = Some q -> nth_error (dfa_states d') j = Some s' ->
               exists s, nth_error (dfa_states d) q = Some s /\ ds_name s' = ds_name s /\ ds_accepting s' = ds_accepting s /\
                 Forall2 (fun t t' => exists r, nth_error k t' = Some r /\ dfa_indist d t r) (ds_transitions s) (ds_transitions s');
  mg_lang : forall j q w, nth_error k j = Some q -> (dfa_state_lang d' j w <-> dfa_state_lang d q w);
  mg_initial : exists q, nth_error k (dfa_initial d') = Some q /\ dfa_indist d q (dfa_initial d)
}.

Lemma dfa_merge_correct h dbg d : dfa_valid d ->
  exists d' k, dfa_merge_nondistinguishable_states h dbg d = Ret d' /\ dfa_valid d' /\ dfa_merged d d' k.
Proof.
  intros V. unfold dfa_merge_nondistinguishable_states.
  destruct (dfa_state_equivalence_classes_idx_correct d V) as (cs & Hcs & Hc). rewrite Hcs. simpl.
  fold (merge_pairs h dbg cs).
  destruct (merge_mapper_spec h dbg d cs Hc) as (pairs & Hp & Hm). rewrite Hp. simpl.
  set (mapper := hm_collect (concat pairs)) in *. rewrite dfa_remap_pure. simpl.
  set (n := length (dfa_states d)) in *.
  pose proof (dv_initial _ V) as Hini. fold n in Hini.
  destruct (rep_spec d mapper (dfa_initial d) Hm Hini) as (Hri & Hdi & Hgi).
  (* the automaton before the removal *)
  match goal with |- context[bind ?m ?f] => assert (Hmid : exists states1, m = Ret (states1, rep mapper (dfa_initial d)) /\
      length states1 = n /\
      forall q s, nth_error (dfa_states d) q = Some s -> exists s1, nth_error states1 q = Some s1 /\
        ds_name s1 = ds_name s /\ ds_accepting s1 = ds_accepting s /\
        ds_transitions s1 = map (rep mapper) (ds_transitions s) /\
        (ds_initial s1 = true <-> q = rep mapper (dfa_initial d) \/ q = dfa_initial d)) end.
  { unfold rep at 1 3. destruct (hm_get (dfa_initial d) mapper) as [r|] eqn:Eg.
    - destruct (mp_get _ _ Hm _ _ Eg) as (_ & Hrr & _ & _). destruct (nth_error_lt _ _ Hrr) as [sr Hsr].
      unfold index. rewrite nth_error_map, Hsr. simpl. eexists; split; [reflexivity|].
      split; [rewrite set_nth_length, map_length; auto|].
      intros q s Hs. rewrite set_nth_nth by (rewrite map_length; auto). destruct (Nat.eqb_spec q r) as [->|Hne].
      + rewrite Hs in Hsr. injection Hsr as ->. eexists; split; [reflexivity|]. simpl. intuition.
      + rewrite nth_error_map, Hs. eexists; split; [reflexivity|]. simpl. split; auto. split; auto. split; auto.
        rewrite (dv_flag _ V _ _ Hs). intuition.
    - eexists; split; [reflexivity|]. split; [rewrite map_length; auto|].
      intros q s Hs. rewrite nth_error_map, Hs. eexists; split; [reflexivity|]. simpl. split; auto. split; auto. split; auto.
      rewrite (dv_flag _ V _ _ Hs). intuition. }
  destruct Hmid as (states1 & Hmid & Hlen1 & Hst1). rewrite Hmid. simpl.
  set (d1 := {| dfa_alphabet := dfa_alphabet d; dfa_states := states1; dfa_initial := rep mapper (dfa_initial d) |}).
  assert (Hst1' : forall q s1, nth_error states1 q = Some s1 -> exists s, nth_error (dfa_states d) q = Some s /\
        ds_name s1 = ds_name s /\ ds_accepting s1 = ds_accepting s /\
        ds_transitions s1 = map (rep mapper) (ds_transitions s) /\
        (ds_initial s1 = true <-> q = rep mapper (dfa_initial d) \/ q = dfa_initial d)).
  { intros q s1 Hs1. assert (Hq := nth_error_length _ _ _ Hs1). rewrite Hlen1 in Hq.
    destruct (nth_error_lt _ _ Hq) as [s Hs]. destruct (Hst1 q s Hs) as (s1' & Hs1' & rest).
    rewrite Hs1 in Hs1'. injection Hs1' as <-. exists s. auto. }
  assert (Hkeys : forall q, In q (ho h [17] (map fst mapper)) <-> hm_get q mapper <> None).
  { intros q. rewrite ho_In. rewrite hm_get_None. split; [tauto|]. intros Hn. destruct (In_dec q (map fst mapper)); tauto. }
  destruct (dfa_remove_states_correct dbg (ho h [17] (map fst mapper)) d1) as (d' & Hd' & Hres).
  - apply ho_NoDup, (mp_nodup _ _ Hm).
  - intros q Hq. rewrite Hkeys in Hq. simpl. rewrite Hlen1. destruct (hm_get q mapper) eqn:E; [|congruence].
    apply (mp_get _ _ Hm _ _ E).
  - simpl. rewrite Hlen1. auto.
  - simpl. rewrite Hkeys. auto.
  - simpl. intros q s1 t Hq Hs1 Ht. destruct (Hst1' _ _ Hs1) as (s & Hs & _ & _ & Etr & _). rewrite Etr in Ht.
    apply in_map_iff in Ht as (t0 & <- & Ht0). assert (Ht0r : t0 < n) by (eapply (dv_range _ V); eauto).
    destruct (rep_spec d mapper t0 Hm Ht0r) as (H1 & _ & H3). rewrite Hlen1. split; auto. rewrite Hkeys. auto.
  - rewrite Hd'. simpl in Hres. rewrite Hlen1 in Hres.
    set (k := kept (ho h [17] (map fst mapper)) n) in *.
    assert (Hk : forall q, In q k <-> q < n /\ hm_get q mapper = None).
    { intros q. unfold k. rewrite kept_In, Hkeys. destruct (hm_get q mapper); intuition congruence. }
    assert (Hndk : NoDup k) by apply kept_NoDup.
    assert (Hlang1 : forall w q, q < n -> (dfa_state_lang d1 q w <-> dfa_state_lang d q w)).
    { assert (Hedge : forall q a t1, dfa_edge d1 q a t1 <-> exists t, dfa_edge d q a t /\ t1 = rep mapper t).
      { intros q a t1. split.
        - intros (i & s1 & Hi & Hs1 & Ht). simpl in *. destruct (Hst1' _ _ Hs1) as (s & Hs & _ & _ & Etr & _).
          rewrite Etr, nth_error_map in Ht. destruct (nth_error (ds_transitions s) i) as [t|] eqn:Et; [|discriminate].
          injection Ht as <-. exists t. split; auto. exists i, s; auto.
        - intros (t & (i & s & Hi & Hs & Ht) & ->). destruct (Hst1 _ _ Hs) as (s1 & Hs1 & _ & _ & Etr & _).
          exists i, s1. simpl. split; auto. split; auto. rewrite Etr, nth_error_map, Ht. auto. }
      assert (Hacc1 : forall q, dfa_accepting d1 q <-> dfa_accepting d q).
      { intros q. unfold dfa_accepting. simpl. split.
        - intros (s1 & Hs1 & Ha). destruct (Hst1' _ _ Hs1) as (s & Hs & _ & Ea & _). exists s. split; auto; congruence.
        - intros (s & Hs & Ha). destruct (Hst1 _ _ Hs) as (s1 & Hs1 & _ & Ea & _). exists s1. split; auto; congruence. }
      induction w as [|a w IH]; intros q Hq.
      - rewrite !dfa_state_lang_nil. auto.
      - destruct (In_dec a (dfa_alphabet d)) as [Ha|Ha].
        + destruct (dfa_edge_total d q a V Hq Ha) as (t & He & Ht).
          rewrite (dfa_state_lang_cons d q a w t (dv_alphabet _ V) He).
          rewrite (dfa_state_lang_cons d1 q a w (rep mapper t)); [|apply (dv_alphabet _ V)|apply Hedge; eauto].
          destruct (rep_spec d mapper t Hm Ht) as (H1 & H2 & _). rewrite IH by auto. symmetry. apply H2.
        + split; intros Hl; apply dfa_state_lang_over in Hl; inv Hl; tauto. }
    exists d', k. split; auto. split.
    + eapply dfa_restriction_valid; [exact Hres|auto| | | |].
      * apply (dv_alphabet _ V).
      * simpl. replace (map ds_name states1) with (map ds_name (dfa_states d)); [apply (dv_names _ V)|].
        apply nth_error_ext. intros i. rewrite !nth_error_map. destruct (nth_error (dfa_states d) i) as [s|] eqn:Es.
        -- destruct (Hst1 _ _ Es) as (s1 & -> & En & _). simpl. congruence.
        -- destruct (nth_error states1 i) as [s1|] eqn:Es1; auto. destruct (Hst1' _ _ Es1) as (s & Hs & _). congruence.
      * simpl. intros q s1 Hq Hs1. destruct (Hst1' _ _ Hs1) as (s & _ & _ & _ & _ & Hflag). rewrite Hflag. split; auto. intros [-> | ->]; auto.
        apply Hk in Hq as [_ Hq]. unfold rep. rewrite Hq. auto.
      * simpl. intros q s1 Hq Hs1. destruct (Hst1' _ _ Hs1) as (s & Hs & _ & _ & -> & _). rewrite map_length.
        eapply (dv_width _ V); eauto.
    + constructor.
      * apply Hres.
      * apply kept_sorted.
      * auto.
      * eapply dfa_restriction_length; eauto.
      * intros q Hq. apply Hk in Hq. tauto.
      * intros q Hq. destruct (rep_spec d mapper q Hm Hq) as (H1 & H2 & H3). exists (rep mapper q). split; auto. apply Hk; auto.
      * intros p q Hpk Hqk Hi. apply Hk in Hpk, Hqk. apply (mp_none _ _ Hm); tauto.
      * intros j q s' Hj Hs'. destruct (dfa_restriction_nth _ _ _ _ _ Hres Hj) as (s1 & s'' & Hs1 & Hs'' & En & _ & Ea & Ht).
        rewrite Hs' in Hs''. injection Hs'' as <-. simpl in Hs1. destruct (Hst1' _ _ Hs1) as (s & Hs & En1 & Ea1 & Et1 & _).
        exists s. split; auto. split; [congruence|]. split; [congruence|]. rewrite Et1 in Ht.
        assert (Rg : forall t, In t (ds_transitions s) -> t < n) by (intros t It; eapply (dv_range _ V); eauto). clear - Ht Hm Rg.
        revert Ht Rg. generalize (ds_transitions s) as l, (ds_transitions s') as l'.
        induction l as [|t l IH]; intros [|t' l'] Ht Rg; inversion Ht; subst; constructor; [|apply IH; auto; intros; apply Rg; right; auto].
        exists (rep mapper t). split; auto. apply (rep_spec d mapper t Hm). apply Rg. left. auto.
      * intros j q w Hj. rewrite <- (dfa_restriction_state_lang k d1 d' j q w Hres Hndk Hj). apply Hlang1.
        apply nth_error_In in Hj. apply Hk in Hj. tauto.
      * exists (rep mapper (dfa_initial d)). split; [apply Hres|]. apply indist_sym; auto.
Qed.

Lemma dfa_merged_lang d d' k w : dfa_merged d d' k -> (dfa_lang d' w <-> dfa_lang d w).
Proof.
  intros Hm. destruct (mg_initial _ _ _ Hm) as (q & Hq & Hi). unfold dfa_lang.
  rewrite (mg_lang _ _ _ Hm _ _ w Hq). apply Hi.
Qed.

(** ** Minimality *)
Record dfa_trim (d : dfa) : Prop := {
  tr_reach : forall q, q < length (dfa_states d) -> dfa_reachable d q;
  tr_distinct : forall p q, p < length (dfa_states d) -> q < length (dfa_states d) -> dfa_indist d p q -> p = q
}.

Lemma dfa_merged_distinct d d' k : dfa_merged d d' k ->
  forall i j, i < length (dfa_states d') -> j < length (dfa_states d') -> dfa_indist d' i j -> i = j.
Proof.
  intros Hm i j Hi Hj Hd. rewrite (mg_length _ _ _ Hm) in *.
  destruct (nth_error_lt _ _ Hi) as [p Hp]. destruct (nth_error_lt _ _ Hj) as [q Hq].
  assert (p = q).
  { apply (mg_distinct _ _ _ Hm); try (eapply nth_error_In; eauto). intros w.
    rewrite <- (mg_lang _ _ _ Hm i p w Hp), <- (mg_lang _ _ _ Hm j q w Hq). apply Hd. }
  subst. exact (NoDup_nth_error_inj k i j q (mg_nodup _ _ _ Hm) Hp Hq).
Qed.

(** the language left after a prefix *)
Lemma dfa_lang_residual d u q w : dfa_valid d -> dfa_path d (dfa_initial d) u q ->
  (dfa_state_lang d q w <-> dfa_lang d (u ++ w)).
Proof.
  intros V Hp. unfold dfa_lang, dfa_state_lang. split.
  - intros (r & Hr & Ha). exists r. split; auto. eapply dfa_path_app; eauto.
  - intros (r & Hr & Ha). exists r. split; auto. apply dfa_path_app_inv in Hr as (q' & H1 & H2).
    rewrite (dfa_path_fun d _ _ _ _ (dv_alphabet _ V) Hp H1). auto.
Qed.

Lemma dfa_merged_reach d d' k : dfa_valid d -> dfa_valid d' -> dfa_merged d d' k ->
  (forall q, q < length (dfa_states d) -> dfa_reachable d q) ->
  forall j, j < length (dfa_states d') -> dfa_reachable d' j.
Proof.
  intros V V' Hm Hreach j Hj. assert (Hj' := Hj). rewrite (mg_length _ _ _ Hm) in Hj'.
  destruct (nth_error_lt _ _ Hj') as [q Hq]. destruct (Hreach q) as [u Hu].
  { apply (mg_range _ _ _ Hm). eapply nth_error_In; eauto. }
  destruct (dfa_path_total d' (dfa_initial d') u V' (dv_initial _ V')) as (j2 & Hp2 & Hr2).
  { rewrite (mg_alphabet _ _ _ Hm). eapply dfa_path_over; eauto. }
  exists u. replace j with j2; auto. apply (dfa_merged_distinct d d' k Hm); auto. intros w.
  rewrite (mg_lang _ _ _ Hm j q w Hq), (dfa_lang_residual d u q w V Hu), (dfa_lang_residual d' u j2 w V' Hp2).
  eapply dfa_merged_lang; eauto.
Qed.

Lemma dfa_restriction_reach k d d' : dfa_restriction k d d' -> NoDup k -> (forall q, In q k -> dfa_reachable d q) ->
  forall j, j < length (dfa_states d') -> dfa_reachable d' j.
Proof.
  intros Hr Hnd Hk j Hj. rewrite (dfa_restriction_length _ _ _ Hr) in Hj. destruct (nth_error_lt _ _ Hj) as [q Hq].
  destruct (Hk q) as [w Hw]; [eapply nth_error_In; eauto|].
  destruct Hr as (H1 & H2 & H3).
  destruct (dfa_restriction_path k d d' w (dfa_initial d') (dfa_initial d)) as [P1 _]; [repeat split; auto|auto|auto|].
  destruct (P1 q Hw) as (r' & Hp' & Hr'). exists w.
  rewrite (NoDup_nth_error_inj k j r' q Hnd Hq Hr'). auto.
Qed.

Lemma lt_sorted_NoDup (k : list nat) : StronglySorted lt k -> NoDup k.
Proof.
  induction 1 as [|x l Hs IH Hall]; constructor; auto. intros Hin. rewrite Forall_forall in Hall. specialize (Hall x Hin). lia.
Qed.

(** the states of the minimized automaton among those of the given one *)
Lemma dfa_minimize_states h dbg d d' : dfa_valid d -> dfa_minimize h dbg d = Ret d' ->
  exists k, StronglySorted lt k /\ length (dfa_states d') = length k /\ (forall q, In q k -> dfa_reachable d q) /\
    (forall q, dfa_reachable d q -> exists r, In r k /\ dfa_indist d q r) /\
    (forall i q, nth_error k i = Some q ->
       exists s s', nth_error (dfa_states d) q = Some s /\ nth_error (dfa_states d') i = Some s' /\
                    ds_name s' = ds_name s /\ ds_accepting s' = ds_accepting s /\
                    forall w, dfa_state_lang d' i w <-> dfa_state_lang d q w).
Proof.
  intros V E. destruct (dfa_remove_unreachable_states_correct h dbg d V) as (d1 & H1 & V1 & k1 & Hs1 & Hk1 & Hr1).
  destruct (dfa_merge_correct h dbg d1 V1) as (d2 & k & H2 & V2 & Hm). unfold dfa_minimize in E. rewrite H1 in E. simpl in E.
  rewrite H2 in E. injection E as ->. assert (Hnd1 := lt_sorted_NoDup _ Hs1). assert (L := dfa_restriction_length _ _ _ Hr1).
  assert (N : forall q, In q k -> nth_error k1 q = Some (nth q k1 0)).
  { intros q Hq. apply nth_error_nth'. rewrite <- L. apply (mg_range _ _ _ Hm). auto. }
  assert (Hst : forall j q w, nth_error k1 j = Some q -> (dfa_state_lang d1 j w <-> dfa_state_lang d q w)).
  { intros j q w Hj. symmetry. exact (dfa_restriction_state_lang k1 d d1 j q w Hr1 Hnd1 Hj). }
  exists (map (fun j => nth j k1 0) k). split; [|split; [|split; [|split]]].
  - clear - Hs1 Hm N. assert (R : forall q, In q k -> q < length k1) by (intros q Hq; apply N in Hq; eapply nth_error_length; eauto).
    pose proof (mg_sorted _ _ _ Hm) as S. clear N Hm.
    assert (M : forall i j, i < j -> j < length k1 -> nth i k1 0 < nth j k1 0).
    { clear - Hs1. induction Hs1 as [|x l Hs IH Hall]; simpl; intros i j Hij Hj; [lia|]. destruct j as [|j]; [lia|]. destruct i as [|i].
      - rewrite Forall_forall in Hall. apply Hall. apply nth_In. lia.
      - apply IH; lia. }
    induction S as [|x l S IH Hall]; simpl; constructor.
    + apply IH. intros q Hq. apply R. right. auto.
    + apply Forall_forall. intros y Hy. apply in_map_iff in Hy as (z & <- & Hz). rewrite Forall_forall in Hall. apply M; auto. apply R. right. auto.
  - rewrite map_length. apply Hm.
  - intros q Hq. apply in_map_iff in Hq as (j & <- & Hj). apply Hk1. eapply nth_error_In. apply N. auto.
  - intros q Hq. apply Hk1 in Hq. apply In_nth_error in Hq as [j Hj]. destruct (mg_rep _ _ _ Hm j) as (r & Hr & Hi).
    { rewrite L. eapply nth_error_length; eauto. }
    exists (nth r k1 0). split; [apply in_map_iff; eauto|]. intros w. rewrite <- (Hst j q w Hj), <- (Hst r _ w (N r Hr)). apply Hi.
  - intros i q Hi. rewrite nth_error_map in Hi. destruct (nth_error k i) as [j|] eqn:Ej; [|discriminate]. injection Hi as <-.
    assert (Hj := N j (nth_error_In _ _ Ej)). destruct (dfa_restriction_nth _ _ _ _ _ Hr1 Hj) as (s & s1 & Hs & Hs1' & En & _ & Ea & _).
    destruct (nth_error_lt (dfa_states d') i) as [s' Hs']. { rewrite (mg_length _ _ _ Hm). eapply nth_error_length; eauto. }
    destruct (mg_state _ _ _ Hm _ _ _ Ej Hs') as (s1' & Hs1'' & En' & Ea' & _). rewrite Hs1' in Hs1''. injection Hs1'' as <-.
    exists s, s'. split; auto. split; auto. split; [congruence|]. split; [congruence|]. intros w.
    rewrite (mg_lang _ _ _ Hm i j w Ej). apply Hst; auto.
Qed.

Lemma dfa_minimize_correct h dbg d : dfa_valid d ->
  exists d', dfa_minimize h dbg d = Ret d' /\ dfa_valid d' /\ dfa_trim d' /\
             dfa_alphabet d' = dfa_alphabet d /\ forall w, dfa_lang d' w <-> dfa_lang d w.
Proof.
  intros V. destruct (dfa_remove_unreachable_states_correct h dbg d V) as (d1 & H1 & V1 & k1 & Hs1 & Hk1 & Hr1).
  destruct (dfa_merge_correct h dbg d1 V1) as (d' & k & H2 & V2 & Hm). unfold dfa_minimize. rewrite H1. simpl.
  assert (Hnd1 := lt_sorted_NoDup _ Hs1).
  exists d'. split; auto. split; auto. split; [|split].
  - constructor.
    + apply (dfa_merged_reach d1 d' k V1 V2 Hm). apply (dfa_restriction_reach k1 d d1 Hr1 Hnd1). intros q. apply Hk1.
    + exact (dfa_merged_distinct d1 d' k Hm).
  - rewrite (mg_alphabet _ _ _ Hm). apply Hr1.
  - intros w. rewrite (dfa_merged_lang _ _ _ w Hm). symmetry. exact (dfa_restriction_lang k1 d d1 w Hr1 Hnd1).
Qed.

(** ** Comparing with other automata for the same language *)
Definition corresponds (d1 d2 : dfa) (q1 q2 : nat) : Prop :=
  exists w, dfa_path d1 (dfa_initial d1) w q1 /\ dfa_path d2 (dfa_initial d2) w q2.

Lemma corresponds_lang d1 d2 q1 q2 : dfa_valid d1 -> dfa_valid d2 -> (forall w, dfa_lang d1 w <-> dfa_lang d2 w) ->
  corresponds d1 d2 q1 q2 -> forall w, dfa_state_lang d1 q1 w <-> dfa_state_lang d2 q2 w.
Proof.
  intros V1 V2 Hl (u & P1 & P2) w. rewrite (dfa_lang_residual d1 u q1 w V1 P1), (dfa_lang_residual d2 u q2 w V2 P2). apply Hl.
Qed.

Lemma corresponds_map d1 d2 : dfa_valid d1 -> dfa_valid d2 -> same_set (dfa_alphabet d1) (dfa_alphabet d2) ->
  dfa_trim d1 -> exists l, Forall2 (corresponds d1 d2) (seq 0 (length (dfa_states d1))) l.
Proof.
  intros V1 V2 Hs Ht.
  assert (H : forall qs, (forall q, In q qs -> q < length (dfa_states d1)) -> exists l, Forall2 (corresponds d1 d2) qs l).
  { induction qs as [|q qs IH]; intros Hq.
    - exists []; constructor.
    - destruct IH as [l Hl]; [intros; apply Hq; right; auto|]. destruct (tr_reach _ Ht q) as [w Hw]; [apply Hq; left; auto|].
      destruct (dfa_path_total d2 (dfa_initial d2) w V2 (dv_initial _ V2)) as (r & Hr & _).
      { eapply over_ext; [exact Hs|]. eapply dfa_path_over; eauto. }
      exists (r :: l). constructor; auto. exists w; auto. }
  apply H. intros q Hq. apply in_seq in Hq. lia.
Qed.

Lemma corresponds_inj d1 d2 p q r : dfa_valid d1 -> dfa_valid d2 -> (forall w, dfa_lang d1 w <-> dfa_lang d2 w) ->
  dfa_trim d1 -> corresponds d1 d2 p r -> corresponds d1 d2 q r -> p = q.
Proof.
  intros V1 V2 Hl Ht Hp Hq.
  assert (forall p, corresponds d1 d2 p r -> p < length (dfa_states d1)).
  { intros p' (w & P & _). eapply dfa_path_range; eauto. apply dv_initial; auto. }
  apply (tr_distinct _ Ht); auto. intros w.
  rewrite (corresponds_lang d1 d2 p r V1 V2 Hl Hp w), (corresponds_lang d1 d2 q r V1 V2 Hl Hq w). tauto.
Qed.

Theorem dfa_trim_minimal d1 d2 : dfa_valid d1 -> dfa_valid d2 -> same_set (dfa_alphabet d1) (dfa_alphabet d2) ->
  (forall w, dfa_lang d1 w <-> dfa_lang d2 w) -> dfa_trim d1 -> length (dfa_states d1) <= length (dfa_states d2).
Proof.
  intros V1 V2 Hs Hl Ht. destruct (corresponds_map d1 d2 V1 V2 Hs Ht) as [l HF].
  rewrite <- (seq_length (length (dfa_states d1)) 0), (Forall2_len _ _ _ HF), <- (seq_length (length (dfa_states d2)) 0).
  apply NoDup_incl_length.
  - apply NoDup_nth_error. intros i j Hi Hij. destruct (nth_error_lt _ _ Hi) as [r Hr]. rewrite Hr in Hij. symmetry in Hij.
    destruct (Forall2_nth_r _ _ _ HF _ _ Hr) as (p & Hp & Cp). destruct (Forall2_nth_r _ _ _ HF _ _ Hij) as (q & Hq & Cq).
    assert (p = q) by exact (corresponds_inj d1 d2 p q r V1 V2 Hl Ht Cp Cq). subst.
    exact (NoDup_nth_error_inj _ i j q (seq_NoDup _ _) Hp Hq).
  - intros r Hr. destruct (Forall2_In_r _ _ _ _ HF Hr) as (p & _ & w & _ & P2). apply in_seq.
    assert (r < length (dfa_states d2)) by (eapply dfa_path_range; eauto; apply dv_initial; auto). lia.
Qed.

Lemma corresponds_fun d1 d2 p r r' : dfa_valid d1 -> dfa_valid d2 -> (forall w, dfa_lang d1 w <-> dfa_lang d2 w) ->
  dfa_trim d2 -> corresponds d1 d2 p r -> corresponds d1 d2 p r' -> r = r'.
Proof.
  intros V1 V2 Hl Ht (w & P & Q) (w' & P' & Q').
  assert (Hl' : forall w, dfa_lang d2 w <-> dfa_lang d1 w) by (intros; symmetry; auto).
  apply (corresponds_inj d2 d1 r r' p V2 V1 Hl' Ht); [exists w|exists w']; auto.
Qed.

Theorem dfa_trim_unique d1 d2 : dfa_valid d1 -> dfa_valid d2 -> same_set (dfa_alphabet d1) (dfa_alphabet d2) ->
  (forall w, dfa_lang d1 w <-> dfa_lang d2 w) -> dfa_trim d1 -> dfa_trim d2 -> exists f, dfa_iso d1 d2 f.
Proof.
  intros V1 V2 Hs Hl T1 T2. destruct (corresponds_map d1 d2 V1 V2 Hs T1) as [l HF].
  exists (fun q => nth q l 0).
  assert (Hf : forall q, q < length (dfa_states d1) -> corresponds d1 d2 q (nth q l 0)).
  { intros q Hq. destruct (nth_error_lt (seq 0 (length (dfa_states d1))) q) as [q' Hq']; [rewrite seq_length; auto|].
    destruct (Forall2_nth _ _ _ HF _ _ Hq') as (r & Hr & Hc). rewrite (nth_error_nth _ _ _ Hr).
    apply nth_error_nth with (d := 0) in Hq'. rewrite seq_nth in Hq' by auto. simpl in Hq'. subst. auto. }
  assert (Hrange : forall q, q < length (dfa_states d1) -> nth q l 0 < length (dfa_states d2)).
  { intros q Hq. destruct (Hf q Hq) as (w & _ & P2). eapply dfa_path_range; eauto. apply dv_initial; auto. }
  constructor.
  - auto.
  - intros p q Hp Hq Heq. assert (C1 := Hf p Hp). assert (C2 := Hf q Hq). rewrite Heq in C1. exact (corresponds_inj d1 d2 _ _ _ V1 V2 Hl T1 C1 C2).
  - intros r Hr. destruct (tr_reach _ T2 r Hr) as [w Hw].
    destruct (dfa_path_total d1 (dfa_initial d1) w V1 (dv_initial _ V1)) as (p & Hp & Hpr).
    { eapply over_ext; [apply same_set_sym; exact Hs|]. eapply dfa_path_over; eauto. }
    exists p. split; auto. apply (corresponds_fun d1 d2 p); auto. exists w; auto.
  - apply (corresponds_fun d1 d2 (dfa_initial d1)); auto; [apply Hf, dv_initial; auto|]. exists []. split; constructor.
  - intros q Hq. rewrite <- !dfa_state_lang_nil. apply corresponds_lang; auto.
  - intros p a q Hp Hq. destruct (Hf p Hp) as (w & P1 & P2). split.
    + intros He. destruct (dfa_edge_total d2 (nth p l 0) a V2) as (t & Ht & _); [auto| |].
      { apply Hs. eapply dfa_edge_elem; eauto. }
      replace (nth q l 0) with t; auto. apply (corresponds_fun d1 d2 q); auto.
      exists (w ++ [a]). split; eapply dfa_path_snoc; eauto.
    + intros He. destruct (dfa_edge_total d1 p a V1 Hp) as (t & Ht & _).
      { apply Hs. eapply dfa_edge_elem; eauto. }
      replace q with t; auto. apply (corresponds_inj d1 d2 t q (nth q l 0)); auto.
      exists (w ++ [a]). split; eapply dfa_path_snoc; eauto.
Qed.
