(** * Union of NFAs *)
From Coq Require Import List NArith Arith Bool Lia Permutation Sorted.
From Verif Require Import Base BaseLemmas Spec Search DfaModel DfaBasics DfaReach DfaEquiv NfaModel NfaBasics NfaToDfa.
Import ListNotations.

(** ** Fresh names *)
(** the wanted name if it is free, else the smallest free number *)
Definition chosen_name (names : list str) (wanted nm : str) : Prop :=
  ~ In nm names /\ (nm = wanted \/ In wanted names /\ exists i, nm = dec i /\ forall j, j < i -> In (dec j) names).

Lemma find_map_seq (f : nat -> str) (p : str -> bool) x : forall n k, find p (map f (seq k n)) = Some x ->
  exists i, x = f i /\ k <= i /\ p x = true /\ forall j, k <= j < i -> p (f j) = false.
Proof.
  induction n as [|n IH]; intros k; simpl; [discriminate|]. destruct (p (f k)) eqn:E.
  - intros [= <-]. exists k. repeat split; auto. intros; lia.
  - intros H. apply IH in H as (i & H1 & H2 & H3 & H4). exists i. repeat split; auto; [lia|]. intros j Hj.
    destruct (Nat.eq_dec j k) as [->|]; auto. apply H4. lia.
Qed.

Lemma fresh_name_spec names wanted :
  exists nm, fresh_name names wanted = Ret nm /\ ~ In nm names /\ chosen_name names wanted nm.
Proof.
  unfold fresh_name. destruct (mem_spec wanted names) as [Hm|Hm]; simpl negb; cbv iota.
  2:{ exists wanted. unfold chosen_name. auto. }
  destruct (find _ _) as [nm|] eqn:Ef.
  - apply find_map_seq in Ef as (i & Hi & _ & Hn & Hj). apply negb_true_iff, mem_nIn in Hn. exists nm. split; auto. split; auto.
    split; auto. right. split; auto. exists i. split; auto. intros j Hlt. apply mem_In, negb_false_iff. apply Hj. lia.
  - exfalso. assert (Hincl : incl (map dec (seq 0 (S (length names)))) names).
    { intros x Hx. pose proof (find_none _ _ Ef x Hx) as Hn. simpl in Hn. apply negb_false_iff, mem_In in Hn. auto. }
    apply NoDup_incl_length in Hincl; [|apply map_dec_NoDup, seq_NoDup]. rewrite map_length, seq_length in Hincl. lia.
Qed.

(** ** Reordering columns *)
Lemma alphabet_translation_spec elems alphabet : incl elems alphabet ->
  exists tr, alphabet_translation elems alphabet = Ret tr /\ Forall2 (fun a i => nth_error alphabet i = Some a) elems tr.
Proof.
  intros Hincl. apply mapR_total. intros a Ha. destruct (position_eqb_In a alphabet (Hincl a Ha)) as (i & -> & Hi).
  simpl. eauto.
Qed.

Lemma translation_perm (l l' : list str) tr : NoDup l -> NoDup l' -> same_set l l' ->
  Forall2 (fun a i => nth_error l' i = Some a) l tr -> Permutation tr (seq 0 (length l')).
Proof.
  intros N1 N2 Hs HF. apply NoDup_Permutation; [|apply seq_NoDup|].
  - apply NoDup_nth_error. intros i j Hi Hij. destruct (nth_error_lt _ _ Hi) as [x Hx]. rewrite Hx in Hij. symmetry in Hij.
    destruct (Forall2_nth_r _ _ _ HF _ _ Hx) as (a & Ha & Hax). destruct (Forall2_nth_r _ _ _ HF _ _ Hij) as (b & Hb & Hbx).
    assert (a = b) by congruence. subst b. exact (NoDup_nth_error_inj l i j a N1 Ha Hb).
  - intros x. rewrite in_seq. split.
    + intros Hx. destruct (Forall2_In_r _ _ _ _ HF Hx) as (a & _ & Ha). apply nth_error_length in Ha. lia.
    + intros Hx. destruct (nth_error_lt l' x) as [a Ha]; [lia|]. assert (Hin : In a l) by (apply Hs; eapply nth_error_In; eauto).
      destruct (Forall2_In_l _ _ _ _ HF Hin) as (y & Hy & Hay). rewrite (NoDup_nth_error_inj l' x y a N2 Ha Hay). auto.
Qed.

Lemma increasing_sorted l : increasing l = true <-> StronglySorted lt l.
Proof.
  induction l as [|x l IH]; [split; [constructor|auto]|]. destruct l as [|y l].
  - split; [repeat constructor|auto].
  - change (increasing (x :: y :: l)) with ((x <? y) && increasing (y :: l)). rewrite andb_true_iff, IH, Nat.ltb_lt. split.
    + intros [Hxy Hs]. constructor; auto. inversion Hs as [|? ? Hs' Hy]; subst. constructor; auto.
      rewrite Forall_forall in *. intros z Hz. specialize (Hy z Hz). lia.
    + intros Hs. inversion Hs as [|? ? Hs' Hx]; subst. split; auto. inversion Hx; auto.
Qed.

Lemma seq_lt_sorted k len : StronglySorted lt (seq k len).
Proof.
  revert k; induction len; intros k; simpl; constructor; auto. apply Forall_forall. intros x Hx. apply in_seq in Hx. lia.
Qed.

(** column [i] of the reordered row is the column [j] with [tr[j] = i] of the row *)
Lemma reorder_cols {A} (ts : list A) tr : Permutation tr (seq 0 (length ts)) ->
  let cols := if negb (increasing tr) then map fst (sort_by_snd (combine ts tr)) else ts in
  length cols = length ts /\
  forall i j, nth_error tr j = Some i -> nth_error cols i = nth_error ts j.
Proof.
  intros Hp cols. assert (Hlen : length tr = length ts) by (rewrite (Permutation_length Hp), seq_length; auto).
  unfold cols. destruct (increasing tr) eqn:Ei; simpl negb; cbv iota.
  - apply increasing_sorted in Ei. assert (E : tr = seq 0 (length ts)).
    { apply lt_sorted_eq; [auto|apply seq_lt_sorted|]. intros x. split; apply Permutation_in; [|symmetry]; auto. }
    split; auto. intros i j Hj. assert (Hl : j < length ts) by (rewrite <- Hlen; eapply nth_error_length; eauto).
    rewrite E in Hj. rewrite nth_error_nth' with (d := 0) in Hj by (rewrite seq_length; auto).
    rewrite seq_nth in Hj by auto. injection Hj as <-. auto.
  - split.
    { rewrite map_length, (Permutation_length (sort_by_snd_perm _)), combine_length. lia. }
    intros i j Hj.
    set (srt := sort_by_snd (combine ts tr)).
    assert (Hsnd : map snd srt = seq 0 (length srt)).
    { unfold srt. rewrite sort_by_snd_snd, (Permutation_length (sort_by_snd_perm _)), combine_length, Hlen, Nat.min_id.
      assert (Hc : map snd (combine ts tr) = tr) by (clear - Hlen; revert ts Hlen; induction tr; intros [|t ts]; simpl; intros; try discriminate; f_equal; auto).
      rewrite Hc. rewrite (perm_sort_eq _ _ Hp). apply sorted_perm_eq; [apply sort_sorted| |apply sort_perm].
      generalize 0. generalize (length ts). intros k. induction k; intros z; simpl; constructor; auto.
      apply Forall_forall. intros y Hy. apply in_seq in Hy. lia. }
    destruct (nth_error ts j) as [x|] eqn:Ex.
    2:{ apply nth_error_None in Ex. apply nth_error_length in Hj. lia. }
    assert (Hin : In (x, i) srt).
    { unfold srt. eapply Permutation_in; [symmetry; apply sort_by_snd_perm|].
      clear - Hj Ex. revert ts j Hj Ex. induction tr as [|t tr IH]; intros [|y ts] [|j]; simpl; intros; try discriminate.
      - injection Hj as ->. injection Ex as ->. left; auto.
      - right. eapply IH; eauto. }
    rewrite numbered_In in Hin by auto. rewrite nth_error_map, Hin. reflexivity.
Qed.

(** ** The union *)
Record nfa_is_union (a b n : nfa) : Prop := {
  un_alphabet : nfa_alphabet n = nfa_alphabet a;
  un_length : length (nfa_states n) = S (length (nfa_states a) + length (nfa_states b));
  un_initial : nfa_initial n = length (nfa_states a) + length (nfa_states b);
  un_left : forall i s, nth_error (nfa_states a) i = Some s ->
     exists s', nth_error (nfa_states n) i = Some s' /\ ns_accepting s' = ns_accepting s /\ ns_initial s' = false /\
                ns_eps s' = ns_eps s /\ ns_transitions s' = ns_transitions s;
  un_right : forall i s, nth_error (nfa_states b) i = Some s ->
     exists s', nth_error (nfa_states n) (i + length (nfa_states a)) = Some s' /\ ns_accepting s' = ns_accepting s /\
                ns_initial s' = false /\ ns_eps s' = map (fun q => q + length (nfa_states a)) (ns_eps s) /\
                length (ns_transitions s') = length (nfa_alphabet a) /\
                forall e ia ib, nth_error (nfa_alphabet a) ia = Some e -> nth_error (nfa_alphabet b) ib = Some e ->
                  nth_error (ns_transitions s') ia =
                  option_map (map (fun q => q + length (nfa_states a))) (nth_error (ns_transitions s) ib);
  un_new : exists s', nth_error (nfa_states n) (nfa_initial n) = Some s' /\ ns_accepting s' = false /\ ns_initial s' = true /\
                      ns_eps s' = [nfa_initial a; nfa_initial b + length (nfa_states a)] /\
                      ns_transitions s' = repeat [] (length (nfa_alphabet a));
  un_names : exists nm, map ns_name (nfa_states n) =
                        (if length (hs_collect (map ns_name (nfa_states a ++ nfa_states b))) =?
                            length (nfa_states a ++ nfa_states b)
                         then map ns_name (nfa_states a ++ nfa_states b)
                         else map dec (seq 1 (length (nfa_states a) + length (nfa_states b)))) ++ [nm] /\
                        chosen_name (if length (hs_collect (map ns_name (nfa_states a ++ nfa_states b))) =?
                            length (nfa_states a ++ nfa_states b)
                         then map ns_name (nfa_states a ++ nfa_states b)
                         else map dec (seq 1 (length (nfa_states a) + length (nfa_states b)))) s_new nm;
  un_names_nodup : NoDup (map ns_name (nfa_states n))
}.

Lemma set_initial_spec i b states : i < length states ->
  exists states', set_initial i b states = Ret states' /\ length states' = length states /\
    map ns_name states' = map ns_name states /\
    forall j s, nth_error states j = Some s ->
      nth_error states' j = Some (if j =? i then mk_nfa_state (ns_name s) b (ns_accepting s) (ns_eps s) (ns_transitions s) else s).
Proof.
  intros Hi. unfold set_initial. destruct (nth_error_lt _ _ Hi) as [s Hs]. rewrite (index_Some _ _ _ Hs). simpl.
  eexists; split; [reflexivity|]. split; [apply set_nth_length|]. split.
  - rewrite set_nth_map. simpl. apply set_nth_same. rewrite nth_error_map, Hs. auto.
  - intros j s' Hj. rewrite set_nth_nth by auto. destruct (Nat.eqb_spec j i) as [->|Hne]; simpl.
    + rewrite Hs in Hj. injection Hj as <-. auto.
    + auto.
Qed.

Lemma remap_total f states :
  nfa_remap_transitions (fun q => Ret (Some (f q))) states =
  Ret (map (fun s => mk_nfa_state (ns_name s) (ns_initial s) (ns_accepting s) (map f (ns_eps s)) (map (map f) (ns_transitions s)))
           states).
Proof.
  unfold nfa_remap_transitions. apply mapR_pure. intros s _. simpl.
  rewrite (mapR_pure _ (map f)) by (intros l _; apply mapR_pure; auto). simpl.
  rewrite (mapR_pure _ f) by auto. reflexivity.
Qed.

Lemma nfa_union_struct a b : nfa_valid a -> nfa_valid b -> same_set (nfa_alphabet a) (nfa_alphabet b) ->
  exists n, nfa_union a b = Ret (inl n) /\ nfa_is_union a b n.
Proof.
  intros Va Vb Hs. unfold nfa_union.
  destruct (alphabet_equal_spec _ _ (nv_alphabet _ Va) (nv_alphabet _ Vb)) as [_|Hn]; [simpl|tauto].
  destruct (alphabet_translation_spec (nfa_alphabet b) (nfa_alphabet a)) as (tr & Htr & HF); [intros x Hx; apply Hs; auto|].
  rewrite Htr. cbn [bind].
  assert (Hperm : Permutation tr (seq 0 (length (nfa_alphabet a)))).
  { apply (translation_perm (nfa_alphabet b)); auto; try apply nv_alphabet; auto. apply same_set_sym; auto. }
  assert (Hlen_ab : length (nfa_alphabet b) = length (nfa_alphabet a)).
  { apply Permutation_length. apply NoDup_Permutation; try apply nv_alphabet; auto. intros x. symmetry. apply Hs. }
  set (na := length (nfa_states a)). set (nb := length (nfa_states b)).
  (* the reordered rows of b *)
  set (cols := fun ts : list (list nat) => if negb (increasing tr) then map fst (sort_by_snd (combine ts tr)) else ts).
  match goal with |- context[nfa_remap_transitions _ ?l] => set (bs := l) end.
  assert (Hbs : bs = map (fun s => mk_nfa_state (ns_name s) (ns_initial s) (ns_accepting s) (ns_eps s) (cols (ns_transitions s)))
                         (nfa_states b)).
  { unfold bs, cols. destruct (increasing tr); simpl; auto. symmetry. rewrite map_ext with (g := fun s => s); [apply map_id|].
    intros []; auto. }
  rewrite Hbs. rewrite remap_total. cbn [bind]. rewrite map_map. simpl.
  clear bs Hbs.
  match goal with |- context[nfa_states a ++ ?l] => set (bs := l) end.
  assert (Hbn : map ns_name bs = map ns_name (nfa_states b)) by (unfold bs; rewrite map_map; auto).
  assert (Hbl : length bs = nb) by (unfold bs; rewrite map_length; auto).
  match goal with |- context[fresh_name (map ns_name ?l) s_new] => set (st1 := l) end.
  assert (Hl1 : length st1 = na + nb).
  { unfold st1. destruct (negb (_ =? _)); [rewrite map_length, enumerate_length|]; rewrite app_length, Hbl; auto. }
  assert (Hname1 : map ns_name st1 = if length (hs_collect (map ns_name (nfa_states a ++ nfa_states b))) =?
                            length (nfa_states a ++ nfa_states b)
                         then map ns_name (nfa_states a ++ nfa_states b) else map dec (seq 1 (na + nb))).
  { assert (E : map ns_name (nfa_states a ++ bs) = map ns_name (nfa_states a ++ nfa_states b)) by (rewrite !map_app, Hbn; auto).
    unfold st1. rewrite E, !app_length, Hbl. fold nb. match goal with |- context[negb ?x] => destruct x end; simpl negb; cbv iota; auto.
    rewrite map_map. replace (na + nb) with (length (nfa_states a ++ bs)) by (rewrite app_length, Hbl; auto).
    rewrite <- seq_shift, map_map.
    rewrite <- enumerate_fst, map_map. apply map_ext. intros []; auto. }
  assert (Hnd1 : NoDup (map ns_name st1)).
  { rewrite Hname1. destruct (Nat.eqb_spec (length (hs_collect (map ns_name (nfa_states a ++ nfa_states b)))) (length (nfa_states a ++ nfa_states b))) as [E|E].
    - apply hs_collect_length_NoDup. rewrite map_length. auto.
    - apply map_dec_NoDup, seq_NoDup. }
  assert (Hst1 : forall i s, nth_error (nfa_states a ++ bs) i = Some s -> exists s', nth_error st1 i = Some s' /\
            ns_initial s' = ns_initial s /\ ns_accepting s' = ns_accepting s /\ ns_eps s' = ns_eps s /\ ns_transitions s' = ns_transitions s).
  { intros i s Hi. unfold st1. destruct (negb (_ =? _)); [|exists s; auto]. eexists. rewrite nth_error_map.
    assert (E : nth_error (enumerate (nfa_states a ++ bs)) i = Some (i, s)) by (apply enumerate_nth; auto).
    rewrite E. simpl. split; [reflexivity|]. simpl. auto. }
  destruct (fresh_name_spec (map ns_name st1) s_new) as (nm & Hnm & Hfresh & Hch). rewrite Hnm. cbn [bind].
  assert (Ia := nv_initial _ Va). assert (Ib := nv_initial _ Vb). fold na in Ia. fold nb in Ib.
  destruct (set_initial_spec (nfa_initial a) false st1) as (st2 & -> & Hl2 & Hn2 & Hg2); [lia|]. cbn [bind].
  destruct (set_initial_spec (nfa_initial b + na) false st2) as (st3 & -> & Hl3 & Hn3 & Hg3); [lia|]. cbn [bind].
  eexists; split; [reflexivity|].
  assert (Hget : forall i s, nth_error (nfa_states a ++ bs) i = Some s -> exists s', nth_error st3 i = Some s' /\
            ns_initial s' = (if (i =? nfa_initial a) || (i =? nfa_initial b + na) then false else ns_initial s) /\
            ns_accepting s' = ns_accepting s /\ ns_eps s' = ns_eps s /\ ns_transitions s' = ns_transitions s).
  { intros i s Hi. destruct (Hst1 i s Hi) as (s1 & H1 & E1 & E2 & E3 & E4). specialize (Hg2 _ _ H1). specialize (Hg3 _ _ Hg2).
    eexists; split; [exact Hg3|]. destruct (i =? nfa_initial b + na), (i =? nfa_initial a); simpl; auto. }
  assert (Hnames : map ns_name st3 = map ns_name st1) by congruence.
  constructor; cbn [nfa_alphabet nfa_states nfa_initial].
  - reflexivity.
  - rewrite app_length. simpl. fold na nb. lia.
  - fold na nb. lia.
  - intros i s Hi. assert (Hlt : i < na) by (eapply nth_error_length; eauto).
    destruct (Hget i s) as (s' & H1 & H2 & H3 & H4 & H5); [rewrite nth_error_app1; auto|].
    exists s'. rewrite nth_error_app1 by lia. split; auto. split; auto. split; auto. rewrite H2.
    destruct (Nat.eqb_spec i (nfa_initial a)) as [|Hne]; simpl; auto. destruct (i =? nfa_initial b + na); auto.
    destruct (ns_initial s) eqn:E; auto. apply (nv_flag _ Va) in Hi. tauto.
  - intros i s Hi. assert (Hlt : i < nb) by (eapply nth_error_length; eauto).
    destruct (Hget (i + na) (mk_nfa_state (ns_name s) (ns_initial s) (ns_accepting s) (map (fun q => q + na) (ns_eps s))
                              (map (map (fun q => q + na)) (cols (ns_transitions s))))) as (s' & H1 & H2 & H3 & H4 & H5).
    { rewrite nth_error_app2 by (fold na; lia). replace (i + na - length (nfa_states a)) with i by (fold na; lia).
      unfold bs. rewrite nth_error_map, Hi. reflexivity. }
    simpl in *. assert (Hw := nv_width _ Vb _ _ Hi).
    destruct (reorder_cols (ns_transitions s) tr) as [Hc1 Hc2]; [rewrite Hw, Hlen_ab; auto|]. fold (cols (ns_transitions s)) in *.
    exists s'. fold na. rewrite nth_error_app1 by lia. split; auto. split; auto. split; [|split; [auto|split]].
    + rewrite H2. destruct (Nat.eqb_spec (i + na) (nfa_initial a)) as [|Hne]; simpl; auto.
      destruct (Nat.eqb_spec (i + na) (nfa_initial b + na)) as [|Hne']; auto.
      destruct (ns_initial s) eqn:E; auto. apply (nv_flag _ Vb) in Hi. assert (i = nfa_initial b) by tauto. lia.
    + rewrite H5, map_length, Hc1, Hw. auto.
    + intros e ia ib Hia Hib. destruct (Forall2_nth _ _ _ HF _ _ Hib) as (x & Hx & Hxe).
      assert (x = ia) by exact (NoDup_nth_error_inj _ x ia e (nv_alphabet _ Va) Hxe Hia). subst x.
      rewrite H5, nth_error_map, (Hc2 _ _ Hx). reflexivity.
  - eexists. rewrite nth_error_app2 by lia. rewrite Nat.sub_diag. simpl. split; [reflexivity|]. simpl. auto.
  - exists nm. rewrite map_app. simpl. rewrite Hnames. rewrite Hname1 in *. split; [reflexivity|exact Hch].
  - rewrite map_app. simpl. apply NoDup_snoc; rewrite Hnames; auto.
Qed.

Section Union.
  Variables a b n : nfa.
  Hypothesis Va : nfa_valid a.
  Hypothesis Vb : nfa_valid b.
  Hypothesis Hs : same_set (nfa_alphabet a) (nfa_alphabet b).
  Hypothesis U : nfa_is_union a b n.
  Let na := length (nfa_states a).

  Lemma union_cases i s' : nth_error (nfa_states n) i = Some s' ->
    (exists s, nth_error (nfa_states a) i = Some s) \/ (exists j s, i = j + na /\ nth_error (nfa_states b) j = Some s) \/
    i = nfa_initial n.
  Proof.
    intros Hi. apply nth_error_length in Hi. rewrite (un_length _ _ _ U) in Hi. rewrite (un_initial _ _ _ U).
    destruct (Nat.lt_ge_cases i na) as [H1|H1].
    - left. apply nth_error_lt; auto.
    - destruct (Nat.lt_ge_cases (i - na) (length (nfa_states b))) as [H2|H2].
      + right; left. destruct (nth_error_lt _ _ H2) as [s Hsx]. exists (i - na), s. split; [lia|auto].
      + right; right. fold na in Hi |- *. lia.
  Qed.

  Lemma union_left_nth i s' : i < na -> nth_error (nfa_states n) i = Some s' -> exists s, nth_error (nfa_states a) i = Some s /\
    ns_accepting s' = ns_accepting s /\ ns_initial s' = false /\ ns_eps s' = ns_eps s /\ ns_transitions s' = ns_transitions s.
  Proof.
    intros Hl Hi. destruct (nth_error_lt _ _ Hl) as [s Hsx]. exists s. split; auto.
    destruct (un_left _ _ _ U _ _ Hsx) as (s2 & H2 & H). rewrite Hi in H2. injection H2 as <-. auto.
  Qed.

  Lemma union_left_edge p e q : p < na -> (nfa_edge n p e q <-> nfa_edge a p e q).
  Proof.
    intros Hp. split.
    - intros (i & s & ts & Hi & Hsx & Hts & Hq). destruct (union_left_nth p s Hp Hsx) as (s0 & H0 & _ & _ & _ & Et).
      exists i, s0, ts. rewrite <- (un_alphabet _ _ _ U), <- Et. auto.
    - intros (i & s & ts & Hi & Hsx & Hts & Hq). destruct (un_left _ _ _ U _ _ Hsx) as (s' & H1 & _ & _ & _ & Et).
      exists i, s', ts. rewrite (un_alphabet _ _ _ U), Et. auto.
  Qed.
  Lemma union_left_eps p q : p < na -> (nfa_eps_edge n p q <-> nfa_eps_edge a p q).
  Proof.
    intros Hp. split.
    - intros (s & Hsx & Hq). destruct (union_left_nth p s Hp Hsx) as (s0 & H0 & _ & _ & Ee & _). exists s0. rewrite <- Ee. auto.
    - intros (s & Hsx & Hq). destruct (un_left _ _ _ U _ _ Hsx) as (s' & H1 & _ & _ & Ee & _). exists s'. rewrite Ee. auto.
  Qed.
  Lemma union_left_path p w q : p < na -> (nfa_path n p w q <-> nfa_path a p w q).
  Proof.
    intros Hp. split.
    - intros H. induction H as [p|p q w r He H IH|p e q w r He H IH]; [constructor| |].
      + apply union_left_eps in He; auto. eapply nfa_path_eps; eauto. apply IH. eapply nfa_eps_dst; eauto.
      + apply union_left_edge in He; auto. eapply nfa_path_cons; eauto. apply IH. eapply nfa_edge_dst; eauto.
    - intros H. induction H as [p|p q w r He H IH|p e q w r He H IH]; [constructor| |].
      + eapply nfa_path_eps; [apply union_left_eps; eauto|]. apply IH. eapply nfa_eps_dst; eauto.
      + eapply nfa_path_cons; [apply union_left_edge; eauto|]. apply IH. eapply nfa_edge_dst; eauto.
  Qed.
  Lemma union_left_accepting p : p < na -> (nfa_accepting n p <-> nfa_accepting a p).
  Proof.
    intros Hp. destruct (nth_error_lt _ _ Hp) as [s Hsx]. destruct (un_left _ _ _ U _ _ Hsx) as (s' & H1 & Ha & _).
    unfold nfa_accepting. rewrite Hsx, H1. split; intros (x & [= <-] & Hx); eexists; split; eauto; congruence.
  Qed.

  Lemma union_right_edge p e q : nfa_edge b p e q -> nfa_edge n (p + na) e (q + na).
  Proof.
    intros (i & s & ts & Hi & Hsx & Hts & Hq). destruct (un_right _ _ _ U _ _ Hsx) as (s' & H1 & _ & _ & _ & _ & Ht).
    assert (Hin : In e (nfa_alphabet a)) by (apply Hs; eapply nth_error_In; eauto). apply In_nth_error in Hin as [ia Hia].
    specialize (Ht _ _ _ Hia Hi). rewrite Hts in Ht. simpl in Ht. do 3 eexists. rewrite (un_alphabet _ _ _ U).
    split; [eauto|]. split; [eauto|]. split; [eauto|]. apply in_map_iff. eauto.
  Qed.
  Lemma union_right_edge_inv p e r : p < length (nfa_states b) -> nfa_edge n (p + na) e r -> exists q, r = q + na /\ nfa_edge b p e q.
  Proof.
    intros Hp (i & s' & ts & Hi & Hsx & Hts & Hq). destruct (nth_error_lt _ _ Hp) as [s Hs0].
    destruct (un_right _ _ _ U _ _ Hs0) as (s2 & H1 & _ & _ & _ & _ & Ht). fold na in H1. rewrite Hsx in H1. injection H1 as <-.
    rewrite (un_alphabet _ _ _ U) in Hi. assert (Hin : In e (nfa_alphabet b)) by (apply Hs; eapply nth_error_In; eauto).
    apply In_nth_error in Hin as [ib Hib]. specialize (Ht _ _ _ Hi Hib). rewrite Hts in Ht.
    destruct (nth_error (ns_transitions s) ib) as [ts0|] eqn:E; [|discriminate]. simpl in Ht. injection Ht as ->.
    apply in_map_iff in Hq as (q & <- & Hq). exists q. split; auto. exists ib, s, ts0. auto.
  Qed.
  Lemma union_right_eps p q : nfa_eps_edge b p q -> nfa_eps_edge n (p + na) (q + na).
  Proof.
    intros (s & Hsx & Hq). destruct (un_right _ _ _ U _ _ Hsx) as (s' & H1 & _ & _ & He & _). exists s'. split; auto.
    rewrite He. apply in_map_iff. eauto.
  Qed.
  Lemma union_right_eps_inv p r : p < length (nfa_states b) -> nfa_eps_edge n (p + na) r -> exists q, r = q + na /\ nfa_eps_edge b p q.
  Proof.
    intros Hp (s' & Hsx & Hq). destruct (nth_error_lt _ _ Hp) as [s Hs0].
    destruct (un_right _ _ _ U _ _ Hs0) as (s2 & H1 & _ & _ & He & _). fold na in H1. rewrite Hsx in H1. injection H1 as <-.
    rewrite He in Hq. apply in_map_iff in Hq as (q & <- & Hq). exists q. split; auto. exists s. auto.
  Qed.
  Lemma union_right_path p w q : nfa_path b p w q -> nfa_path n (p + na) w (q + na).
  Proof.
    induction 1 as [p|p q w r He H IH|p e q w r He H IH]; [constructor| |].
    - eapply nfa_path_eps; eauto. apply union_right_eps; auto.
    - eapply nfa_path_cons; eauto. apply union_right_edge; auto.
  Qed.
  Lemma union_right_path_inv p w r : p < length (nfa_states b) -> nfa_path n (p + na) w r -> exists q, r = q + na /\ nfa_path b p w q.
  Proof.
    intros Hp H. remember (p + na) as x eqn:Ex. revert p Hp Ex. induction H as [x|x y w r He H IH|x e y w r He H IH]; intros p Hp ->.
    - exists p. split; auto. constructor.
    - destruct (union_right_eps_inv p y Hp He) as (q & -> & He'). destruct (IH q) as (t & -> & Ht); auto.
      { eapply nfa_eps_dst; eauto. }
      exists t. split; auto. eapply nfa_path_eps; eauto.
    - destruct (union_right_edge_inv p e y Hp He) as (q & -> & He'). destruct (IH q) as (t & -> & Ht); auto.
      { eapply nfa_edge_dst; eauto. }
      exists t. split; auto. eapply nfa_path_cons; eauto.
  Qed.
  Lemma union_right_accepting p : p < length (nfa_states b) -> (nfa_accepting n (p + na) <-> nfa_accepting b p).
  Proof.
    intros Hp. destruct (nth_error_lt _ _ Hp) as [s Hsx]. destruct (un_right _ _ _ U _ _ Hsx) as (s' & H1 & Ha & _).
    fold na in H1. unfold nfa_accepting. rewrite Hsx, H1. split; intros (x & [= <-] & Hx); eexists; split; eauto; congruence.
  Qed.

  Lemma union_lang w : nfa_lang n w <-> nfa_lang a w \/ nfa_lang b w.
  Proof.
    destruct (un_new _ _ _ U) as (s0 & Hs0 & Hacc & _ & Heps & Htr). split.
    - intros (r & Hp & Ha). inversion Hp as [x|x y w' r' He Hp'|x e y w' r' He Hp']; subst.
      + destruct Ha as (s & Hsx & Ha). rewrite Hs0 in Hsx. injection Hsx as <-. congruence.
      + destruct He as (s & Hsx & Hy). rewrite Hs0 in Hsx. injection Hsx as <-. rewrite Heps in Hy.
        destruct Hy as [<-|[<-|[]]].
        * left. exists r. apply union_left_path in Hp'; [|apply nv_initial; auto]. split; auto.
          apply union_left_accepting; auto. eapply nfa_path_range; eauto. apply nv_initial; auto.
        * right. apply union_right_path_inv in Hp' as (q & -> & Hq); [|apply nv_initial; auto]. exists q. split; auto.
          apply union_right_accepting; auto. eapply nfa_path_range; eauto. apply nv_initial; auto.
      + destruct He as (i & s & ts & Hi & Hsx & Hts & Hy). rewrite Hs0 in Hsx. injection Hsx as <-. rewrite Htr in Hts.
        apply nth_error_In, repeat_spec in Hts. subst ts. destruct Hy.
    - intros [(q & Hp & Ha)|(q & Hp & Ha)].
      + exists q. assert (q < na) by (eapply nfa_path_range; eauto; apply nv_initial; auto). split.
        * eapply nfa_path_eps; [exists s0; split; [eauto|rewrite Heps; left; eauto]|]. apply union_left_path; auto. apply nv_initial; auto.
        * apply union_left_accepting; auto.
      + exists (q + na). assert (q < length (nfa_states b)) by (eapply nfa_path_range; eauto; apply nv_initial; auto). split.
        * eapply nfa_path_eps; [exists s0; split; [eauto|rewrite Heps; right; left; eauto]|]. apply union_right_path; auto.
        * apply union_right_accepting; auto.
  Qed.

  Lemma union_edges p e q : nfa_edge n p e q <-> nfa_edge a p e q \/ exists p' q', p = p' + na /\ q = q' + na /\ nfa_edge b p' e q'.
  Proof.
    split.
    - intros He. pose proof He as (i & s' & ts & _ & Hi & Hts & Hq). destruct (union_cases _ _ Hi) as [(s & H1)|[(j & s & -> & H1)| ->]].
      + left. apply union_left_edge; auto. eapply nth_error_length; eauto.
      + right. apply union_right_edge_inv in He as (q' & -> & He); [|eapply nth_error_length; eauto]. eauto.
      + destruct (un_new _ _ _ U) as (s0 & Hs0 & _ & _ & _ & Ht). rewrite Hs0 in Hi. injection Hi as <-. rewrite Ht in Hts.
        apply nth_error_In, repeat_spec in Hts. subst ts. destruct Hq.
    - intros [He|(p' & q' & -> & -> & He)]; [|apply union_right_edge; auto]. apply union_left_edge; auto.
      destruct He as (i & s & ts & _ & Hi & _). eapply nth_error_length; eauto.
  Qed.
  Lemma union_epss p q : nfa_eps_edge n p q <-> nfa_eps_edge a p q \/ (exists p' q', p = p' + na /\ q = q' + na /\ nfa_eps_edge b p' q') \/
    (p = nfa_initial n /\ (q = nfa_initial a \/ q = nfa_initial b + na)).
  Proof.
    destruct (un_new _ _ _ U) as (s0 & Hs0 & _ & _ & Hn & _). split.
    - intros He. pose proof He as (s' & Hi & Hq). destruct (union_cases _ _ Hi) as [(s & H1)|[(j & s & -> & H1)| ->]].
      + left. apply union_left_eps; auto. eapply nth_error_length; eauto.
      + right. left. apply union_right_eps_inv in He as (q' & -> & He); [|eapply nth_error_length; eauto]. eauto.
      + right. right. rewrite Hs0 in Hi. injection Hi as <-. rewrite Hn in Hq. destruct Hq as [<-|[<-|[]]]; auto.
    - intros [He|[(p' & q' & -> & -> & He)|(-> & Hq)]].
      + apply union_left_eps; auto. destruct He as (s & Hi & _). eapply nth_error_length; eauto.
      + apply union_right_eps; auto.
      + exists s0. split; auto. rewrite Hn. destruct Hq as [-> | ->]; simpl; auto.
  Qed.

  Lemma union_valid : nfa_valid n.
  Proof.
    destruct (un_new _ _ _ U) as (s0 & Hs0 & Hacc & Hini & Heps & Htr).
    constructor.
    - rewrite (un_alphabet _ _ _ U). apply nv_alphabet; auto.
    - apply U.
    - rewrite (un_length _ _ _ U), (un_initial _ _ _ U). lia.
    - intros i s Hi. destruct (union_cases i s Hi) as [[s1 H1]|[(j & s1 & -> & H1)| ->]].
      + assert (Hl : i < na) by (eapply nth_error_length; eauto).
        destruct (un_left _ _ _ U _ _ H1) as (s2 & H2 & _ & Hf & _). rewrite Hi in H2. injection H2 as <-. rewrite Hf, (un_initial _ _ _ U).
        fold na. split; [discriminate|lia].
      + assert (Hl : j < length (nfa_states b)) by (eapply nth_error_length; eauto).
        destruct (un_right _ _ _ U _ _ H1) as (s2 & H2 & _ & Hf & _). fold na in H2. rewrite Hi in H2. injection H2 as <-.
        rewrite Hf, (un_initial _ _ _ U). fold na. split; [discriminate|lia].
      + rewrite Hs0 in Hi. injection Hi as <-. tauto.
    - intros i s Hi. rewrite (un_alphabet _ _ _ U). destruct (union_cases i s Hi) as [[s1 H1]|[(j & s1 & -> & H1)| ->]].
      + destruct (un_left _ _ _ U _ _ H1) as (s2 & H2 & _ & _ & _ & Ht). rewrite Hi in H2. injection H2 as <-. rewrite Ht.
        eapply nv_width; eauto.
      + destruct (un_right _ _ _ U _ _ H1) as (s2 & H2 & _ & _ & _ & Ht & _). fold na in H2. rewrite Hi in H2. injection H2 as <-. auto.
      + rewrite Hs0 in Hi. injection Hi as <-. rewrite Htr. apply repeat_length.
    - intros i s ts t Hi Hts Ht. rewrite (un_length _ _ _ U). apply In_nth_error in Hts as [c Hc].
      destruct (union_cases i s Hi) as [[s1 H1]|[(j & s1 & -> & H1)| ->]].
      + destruct (un_left _ _ _ U _ _ H1) as (s2 & H2 & _ & _ & _ & Htr'). rewrite Hi in H2. injection H2 as <-. rewrite Htr' in Hc.
        pose proof (nv_range _ Va _ _ _ _ H1 (nth_error_In _ _ Hc) Ht). lia.
      + destruct (un_right _ _ _ U _ _ H1) as (s2 & H2 & _ & _ & _ & Hlen & Htr'). fold na in H2. rewrite Hi in H2. injection H2 as <-.
        destruct (nth_error_lt (nfa_alphabet a) c) as [e He]; [rewrite <- Hlen; eapply nth_error_length; eauto|].
        assert (Hin : In e (nfa_alphabet b)) by (apply Hs; eapply nth_error_In; eauto). apply In_nth_error in Hin as [ib Hib].
        rewrite (Htr' _ _ _ He Hib) in Hc. destruct (nth_error (ns_transitions s1) ib) as [ts0|] eqn:E; [|discriminate].
        simpl in Hc. injection Hc as <-. apply in_map_iff in Ht as (q & <- & Hq).
        pose proof (nv_range _ Vb _ _ _ _ H1 (nth_error_In _ _ E) Hq). lia.
      + rewrite Hs0 in Hi. injection Hi as <-. rewrite Htr in Hc. apply nth_error_In, repeat_spec in Hc. subst ts. destruct Ht.
    - intros i s t Hi Ht. rewrite (un_length _ _ _ U). destruct (union_cases i s Hi) as [[s1 H1]|[(j & s1 & -> & H1)| ->]].
      + destruct (un_left _ _ _ U _ _ H1) as (s2 & H2 & _ & _ & He & _). rewrite Hi in H2. injection H2 as <-. rewrite He in Ht.
        pose proof (nv_eps_range _ Va _ _ _ H1 Ht). lia.
      + destruct (un_right _ _ _ U _ _ H1) as (s2 & H2 & _ & _ & He & _). fold na in H2. rewrite Hi in H2. injection H2 as <-. rewrite He in Ht.
        apply in_map_iff in Ht as (q & <- & Hq). pose proof (nv_eps_range _ Vb _ _ _ H1 Hq). lia.
      + rewrite Hs0 in Hi. injection Hi as <-. rewrite Heps in Ht. pose proof (nv_initial _ Va). pose proof (nv_initial _ Vb).
        destruct Ht as [<-|[<-|[]]]; lia.
  Qed.
End Union.

Lemma nfa_union_none a b : nfa_valid a -> nfa_valid b -> ~ same_set (nfa_alphabet a) (nfa_alphabet b) ->
  nfa_union a b = Ret (inr (a, b)).
Proof.
  intros Va Vb Hs. unfold nfa_union.
  destruct (alphabet_equal_spec _ _ (nv_alphabet _ Va) (nv_alphabet _ Vb)); [tauto|reflexivity].
Qed.
