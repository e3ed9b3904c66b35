(** * ValidateProofs: validation of parsed tables *)
From Coq Require Import List NArith Arith Bool Lia.
From Verif Require Import Base BaseLemmas Spec TableSpec ValidateModel.
Import ListNotations.

(** ** Repetitions *)
Lemma not_repeated_NoDup {A} (l : list A) : (forall a, ~ repeated a l) <-> NoDup l.
Proof.
  split.
  - intros H. apply NoDup_nth_error. intros i j Hi E. destruct (Nat.eq_dec i j) as [|N]; auto. exfalso.
    destruct (nth_error l i) as [x|] eqn:Ei.
    + apply (H x). exists i, j. auto.
    + apply nth_error_None in Ei. lia.
  - intros N a (i & j & Hn & Hi & Hj). apply Hn. exact (NoDup_nth_error_inj _ _ _ _ N Hi Hj).
Qed.

Lemma repeated_intro {A} (x : A) l1 l2 : In x l1 -> repeated x (l1 ++ x :: l2).
Proof.
  intros Hx. apply In_nth_error in Hx as (i & Hi). exists i, (length l1).
  assert (i < length l1) by (apply nth_error_Some; congruence). split; [lia|]. split.
  - rewrite nth_error_app1; auto.
  - rewrite nth_error_app2 by lia. rewrite Nat.sub_diag. reflexivity.
Qed.

Lemma first_repeated_spec {A} `{Eqb A} (l : list A) : forall seen, NoDup seen ->
  match first_repeated seen l with
  | None => NoDup (seen ++ l)
  | Some x => repeated x (seen ++ l)
  end.
Proof.
  induction l as [|x l IH]; intros seen Hs; cbn [first_repeated].
  - rewrite app_nil_r. auto.
  - unfold hs_insert. destruct (mem_spec x seen) as [Hx|Hx].
    + apply repeated_intro. auto.
    + specialize (IH (seen ++ [x]) (NoDup_snoc _ _ Hs Hx)).
      rewrite <- app_assoc in IH. exact IH.
Qed.

(** ** The map from names to rows *)
Lemma hm_insert_keys {K V} `{Eqb K} (k : K) (v : V) m : map fst (hm_insert k v m) = fst (hs_insert k (map fst m)).
Proof.
  rewrite hs_insert_fst. induction m as [|[k' v'] m IH]; cbn [hm_insert map fst mem]; auto.
  destruct (eqb_spec k k') as [->|Hn]; simpl.
  - reflexivity.
  - rewrite IH. destruct (mem k (map fst m)); reflexivity.
Qed.

Lemma hm_collect_keys {K V} `{Eqb K} (l : list (K * V)) : map fst (hm_collect l) = hs_collect (map fst l).
Proof.
  unfold hm_collect, hs_collect. change (@nil K) with (map fst (@nil (K * V))). generalize (@nil (K * V)) as r.
  induction l as [|[k v] l IH]; intros r; cbn [fold_left map fst snd]; auto.
  rewrite IH, hm_insert_keys. reflexivity.
Qed.

Lemma name_map_keys names : map fst (map (fun '(i, s) => (s, i)) (enumerate names)) = (names : list str).
Proof. rewrite map_map. etransitivity; [|apply enumerate_snd]. apply map_ext. intros [i s]. reflexivity. Qed.

Lemma name_map_length names : length (name_map names) = length names <-> NoDup names.
Proof.
  unfold name_map. split.
  - intros E. rewrite <- (map_length fst), hm_collect_keys, name_map_keys in E.
    apply (@NoDup_incl_NoDup _ (hs_collect names)).
    + apply hs_collect_NoDup.
    + lia.
    + intros x. rewrite hs_collect_In. auto.
  - intros N. rewrite hm_collect_id; [|rewrite name_map_keys; auto]. rewrite map_length. apply enumerate_length.
Qed.

Lemma name_map_get names (N : NoDup names) t q : hm_get t (name_map names) = Some q <-> nth_error names q = Some t.
Proof.
  unfold name_map. rewrite hm_collect_id by (rewrite name_map_keys; auto). split.
  - intros E. apply hm_get_In in E. apply in_map_iff in E as ([i s] & [= -> ->] & E). apply enumerate_In in E. auto.
  - intros E. apply hm_In_get; [rewrite name_map_keys; auto|]. apply in_map_iff. exists (q, t). split; auto.
    apply enumerate_In. auto.
Qed.

Lemma name_map_none names (N : NoDup names) t : hm_get t (name_map names) = None <-> ~ In t names.
Proof.
  unfold name_map. rewrite hm_collect_id by (rewrite name_map_keys; auto).
  rewrite hm_get_None, name_map_keys. reflexivity.
Qed.

Lemma lookup_targets_spec m name ts :
  match lookup_targets m name ts with
  | Ok l => Forall2 (fun t q => hm_get t m = Some q) ts l
  | Err e => exists t, In t ts /\ hm_get t m = None /\ e = TransitionDoesNotExist name t
  end.
Proof.
  induction ts as [|t ts IH]; cbn [lookup_targets].
  - constructor.
  - destruct (hm_get t m) as [q|] eqn:E.
    + destruct (lookup_targets m name ts) as [l|e].
      * constructor; auto.
      * destruct IH as (t' & H1 & H2 & H3). exists t'. simpl. auto.
    + exists t. simpl. auto.
Qed.

(** ** Initial rows *)
Fixpoint initials (idx : nat) (l : list bool) : list nat :=
  match l with
  | [] => []
  | b :: r => (if b then [idx] else []) ++ initials (S idx) r
  end.
Definition olist {A} (o : option A) : list A := match o with Some x => [x] | None => [] end.

Lemma initials_In l : forall idx k, In k (initials idx l) <-> exists j, k = idx + j /\ nth_error l j = Some true.
Proof.
  induction l as [|b l IH]; intros idx k; simpl.
  - split; [tauto|]. intros (j & _ & E). destruct j; discriminate.
  - rewrite in_app_iff, IH. split.
    + intros [H|(j & -> & E)].
      * destruct b; [|destruct H]. destruct H as [->|[]]. exists 0. split; [lia|reflexivity].
      * exists (S j). split; [lia|auto].
    + intros ([|j] & -> & E); simpl in E.
      * injection E as ->. left. left. lia.
      * right. exists j. split; [lia|auto].
Qed.

Lemma initials_NoDup l : forall idx, NoDup (initials idx l).
Proof.
  induction l as [|b l IH]; intros idx; simpl; [constructor|].
  destruct b; simpl; auto. constructor; auto. rewrite initials_In. intros (j & E & _). lia.
Qed.

Lemma initials_two l : 2 <= length (initials 0 l) ->
  exists i j, i <> j /\ nth_error l i = Some true /\ nth_error l j = Some true.
Proof.
  pose proof (initials_NoDup l 0) as N. pose proof (initials_In l 0) as HI.
  destruct (initials 0 l) as [|i [|j r]] eqn:E; simpl; try lia. intros _.
  exists i, j. split; [|split].
  - intros ->. inversion N; subst. apply H1. left; auto.
  - destruct (proj1 (HI i)) as (k & -> & ?); simpl; auto.
  - destruct (proj1 (HI j)) as (k & -> & ?); simpl; auto.
Qed.

Lemma initials_one l i : initials 0 l = [i] -> i < length l /\ forall j b, nth_error l j = Some b -> (b = true <-> j = i).
Proof.
  intros E. pose proof (initials_In l 0) as HI. rewrite E in HI. split.
  - destruct (proj1 (HI i)) as (k & -> & H); [left; auto|]. simpl. apply nth_error_Some. congruence.
  - intros j b Hj. split.
    + intros ->. destruct (proj2 (HI j)) as [->|[]]; auto. exists j. auto.
    + intros ->. destruct (proj1 (HI i)) as (k & -> & H); [left; auto|]. simpl in Hj. congruence.
Qed.

Lemma initials_none l : initials 0 l = [] -> forall b, In b l -> b = false.
Proof.
  intros E b Hb. apply In_nth_error in Hb as (j & Hj). destruct b; auto. exfalso.
  assert (In j (initials 0 l)) as H by (apply initials_In; exists j; auto). rewrite E in H. destruct H.
Qed.

(** ** DFA tables *)
Lemma dfa_rows_ok m head : forall states idx init new i,
  dfa_rows m head idx init states = Ok (new, i) ->
  Forall (fun s => length (pds_transitions s) = length head) states /\
  Forall2 (fun ps s => ds_name s = pds_name ps /\ ds_initial s = pds_initial ps /\ ds_accepting s = pds_accepting ps /\
                       Forall2 (fun t q => hm_get t m = Some q) (pds_transitions ps) (ds_transitions s)) states new /\
  olist init ++ initials idx (map pds_initial states) = olist i.
Proof.
  induction states as [|s states IH]; intros idx init new i; cbn [dfa_rows].
  - intros [= <- <-]. simpl. rewrite app_nil_r. auto.
  - destruct (Nat.eqb_spec (length (pds_transitions s)) (length head)) as [Hl|]; [|discriminate]. cbn [negb].
    pose proof (lookup_targets_spec m (pds_name s) (pds_transitions s)) as Ht.
    destruct (lookup_targets m (pds_name s) (pds_transitions s)) as [ts|e]; [|discriminate].
    destruct (if pds_initial s then match init with None => Some (Some idx) | Some _ => None end else Some init)
      as [init'|] eqn:Ei; [|discriminate].
    destruct (dfa_rows m head (S idx) init' states) as [[new' i']|e] eqn:Er; [|discriminate].
    intros [= <- <-]. apply IH in Er as (H1 & H2 & H3). split; [|split].
    + constructor; auto.
    + constructor; auto.
    + rewrite <- H3. cbn [map initials]. destruct (pds_initial s).
      * destruct init; [discriminate|]. injection Ei as <-. reflexivity.
      * injection Ei as <-. reflexivity.
Qed.

Lemma dfa_rows_err m head : forall states idx init e,
  dfa_rows m head idx init states = Err e ->
  match e with
  | WrongNumberOfTransitions name has expected =>
      exists s, In s states /\ pds_name s = name /\ length (pds_transitions s) = has /\
                length head = expected /\ has <> expected
  | TransitionDoesNotExist name t =>
      exists s, In s states /\ pds_name s = name /\ In t (pds_transitions s) /\ hm_get t m = None
  | MultipleInitialStates => 2 <= length (olist init ++ initials idx (map pds_initial states))
  | _ => False
  end.
Proof.
  induction states as [|s states IH]; intros idx init e; cbn [dfa_rows]; [discriminate|].
  destruct (Nat.eqb_spec (length (pds_transitions s)) (length head)) as [Hl|Hl]; cbn [negb].
  2:{ intros [= <-]. exists s. simpl. auto. }
  pose proof (lookup_targets_spec m (pds_name s) (pds_transitions s)) as Ht.
  destruct (lookup_targets m (pds_name s) (pds_transitions s)) as [ts|e'].
  2:{ destruct Ht as (t & H1 & H2 & ->). intros [= <-]. exists s. simpl. auto. }
  destruct (if pds_initial s then match init with None => Some (Some idx) | Some _ => None end else Some init)
    as [init'|] eqn:Ei.
  2:{ intros [= <-]. cbn [map initials]. destruct (pds_initial s); [|discriminate]. destruct init; [|discriminate].
      simpl. lia. }
  destruct (dfa_rows m head (S idx) init' states) as [[new' i']|e'] eqn:Er; [discriminate|].
  intros [= <-]. apply IH in Er. destruct e'; auto.
  - destruct Er as (s' & H). exists s'. simpl. tauto.
  - destruct Er as (s' & H). exists s'. simpl. tauto.
  - cbn [map initials]. destruct (pds_initial s).
    + destruct init; [discriminate|]. injection Ei as <-. exact Er.
    + injection Ei as <-. exact Er.
Qed.

Theorem dfa_try_from_err p e : dfa_try_from p = Err e -> dfa_defect p e.
Proof.
  unfold dfa_try_from. pose proof (first_repeated_spec (pd_head p) [] (NoDup_nil _)) as Hh.
  destruct (first_repeated [] (pd_head p)) as [d|]; [intros [= <-]; exact Hh|].
  destruct (Nat.eqb_spec (length (name_map (map pds_name (pd_states p)))) (length (pd_states p))) as [El|El]; cbn [negb].
  - rewrite <- (map_length pds_name (pd_states p)) in El. apply (proj1 (name_map_length _)) in El.
    destruct (dfa_rows (name_map (map pds_name (pd_states p))) (pd_head p) 0 None (pd_states p)) as [[new [i|]]|e'] eqn:Er;
      [discriminate| |].
    + intros [= <-]. simpl. apply dfa_rows_ok in Er as (_ & _ & H). simpl in H.
      intros s Hs. apply (initials_none _ H). apply in_map. auto.
    + intros [= <-]. apply dfa_rows_err in Er. destruct e'; simpl in *; auto; try contradiction.
      * destruct Er as (s & H1 & H2 & H3 & H4). exists s. rewrite <- name_map_none; auto.
      * apply initials_two in Er as (i & j & Hn & Hi & Hj).
        rewrite nth_error_map in Hi, Hj. destruct (nth_error (pd_states p) i) as [s1|] eqn:E1; [|discriminate].
        destruct (nth_error (pd_states p) j) as [s2|] eqn:E2; [|discriminate]. simpl in Hi, Hj.
        exists i, j, s1, s2. repeat split; auto; congruence.
  - intros [= <-]. simpl. pose proof (first_repeated_spec (map pds_name (pd_states p)) [] (NoDup_nil _)) as Hn.
    destruct (first_repeated [] (map pds_name (pd_states p))) as [s|]; [exact Hn|].
    exfalso. apply El. rewrite <- (map_length pds_name (pd_states p)). apply name_map_length. exact Hn.
Qed.

Lemma dfa_well_formed_no_defect p e : dfa_well_formed p -> ~ dfa_defect p e.
Proof.
  intros [W1 W2 W3 W4 (i & Hi & W5)]. destruct e; simpl.
  - intros (s & Hs & _ & <- & <- & Hn). apply Hn. auto.
  - intros (s & Hs & _ & Ht & Hn). apply Hn. eauto.
  - intros H. apply nth_error_Some in Hi. destruct (nth_error (pd_states p) i) as [s|] eqn:E; [|congruence].
    apply (W5 i s) in E as E'. rewrite (H s) in E'; [|eapply nth_error_In; eauto]. destruct E' as [_ E'].
    specialize (E' eq_refl). discriminate.
  - intros (j & k & s1 & s2 & Hn & H1 & H2 & H3 & H4). apply Hn. apply W5 in H1, H2. rewrite (proj1 H1 H3), (proj1 H2 H4). auto.
  - apply W1.
  - apply W2.
Qed.

Theorem dfa_try_from_ok p d : dfa_try_from p = Ok d -> dfa_well_formed p /\ dfa_denotes p d /\ dfa_valid d.
Proof.
  unfold dfa_try_from. pose proof (first_repeated_spec (pd_head p) [] (NoDup_nil _)) as Hh.
  destruct (first_repeated [] (pd_head p)) as [?|]; [discriminate|].
  destruct (Nat.eqb_spec (length (name_map (map pds_name (pd_states p)))) (length (pd_states p))) as [El|El]; cbn [negb];
    [|discriminate].
  rewrite <- (map_length pds_name (pd_states p)) in El. apply (proj1 (name_map_length _)) in El.
  destruct (dfa_rows (name_map (map pds_name (pd_states p))) (pd_head p) 0 None (pd_states p)) as [[new [i|]]|e'] eqn:Er;
    [|discriminate|discriminate].
  intros [= <-]. apply dfa_rows_ok in Er as (H1 & H2 & H3). simpl in H3. apply initials_one in H3 as (Hi & Ho).
  rewrite map_length in Hi. rewrite Forall_forall in H1.
  assert (Hflag : forall j s, nth_error (pd_states p) j = Some s -> (pds_initial s = true <-> j = i)).
  { intros j s Hj. apply Ho. rewrite nth_error_map, Hj. reflexivity. }
  assert (Hlen : length new = length (pd_states p)) by (symmetry; eapply Forall2_len; eauto).
  assert (Hget : forall t q, hm_get t (name_map (map pds_name (pd_states p))) = Some q -> dfa_named p t q).
  { intros t q Hq. apply name_map_get in Hq; auto. rewrite nth_error_map in Hq.
    destruct (nth_error (pd_states p) q) as [s|] eqn:E; [|discriminate]. injection Hq as <-. exists s. auto. }
  split; [|split].
  - constructor.
    + apply not_repeated_NoDup. exact Hh.
    + apply not_repeated_NoDup. exact El.
    + auto.
    + intros s t Hs Ht. destruct (Forall2_In_l _ _ _ s H2 Hs) as (s' & _ & _ & _ & _ & HF).
      destruct (Forall2_In_l _ _ _ t HF Ht) as (q & _ & Hq). apply name_map_get in Hq; auto. eapply nth_error_In; eauto.
    + exists i. split; auto.
  - split; [reflexivity|]. split.
    + revert H2. apply Forall2_impl. intros ps s (E1 & E2 & E3 & HF). repeat split; auto.
      revert HF. apply Forall2_impl. auto.
    + cbn [dfa_initial]. apply nth_error_Some in Hi. destruct (nth_error (pd_states p) i) as [s|] eqn:E; [|congruence].
      exists s. split; auto. apply (Hflag i s); auto.
  - constructor; cbn [dfa_alphabet dfa_states dfa_initial].
    + exact Hh.
    + assert (map ds_name new = map pds_name (pd_states p)) as ->; auto.
      clear -H2. induction H2 as [|? ? ? ? [E _]]; simpl; congruence.
    + lia.
    + intros q s Hq. destruct (Forall2_nth_r _ _ _ H2 q s Hq) as (ps & Hps & _ & E & _). rewrite E. auto.
    + intros q s Hq. destruct (Forall2_nth_r _ _ _ H2 q s Hq) as (ps & Hps & _ & _ & _ & HF).
      apply Forall2_len in HF. rewrite <- HF. apply H1. eapply nth_error_In; eauto.
    + intros q s t Hq Ht. destruct (Forall2_nth_r _ _ _ H2 q s Hq) as (ps & Hps & _ & _ & _ & HF).
      destruct (Forall2_In_r _ _ _ t HF Ht) as (nm & _ & Hg). apply Hget in Hg as (s' & Hs' & _).
      rewrite Hlen. apply nth_error_Some. congruence.
Qed.

Lemma Forall2_named_inj (names : list str) (N : NoDup names) (P : str -> nat -> Prop)
  (HP : forall t q, P t q -> nth_error names q = Some t) :
  forall ts l l', Forall2 P ts l -> Forall2 P ts l' -> l = l'.
Proof.
  intros ts l l' H. revert l'. induction H as [|t q ts l Hq HF IH]; intros l' H'; inversion H'; subst; auto.
  f_equal; auto. match goal with H : P t ?q' |- _ => apply HP in H, Hq; exact (NoDup_nth_error_inj _ _ _ _ N Hq H) end.
Qed.

Theorem dfa_denotes_unique p d d' : dfa_well_formed p -> dfa_denotes p d -> dfa_denotes p d' -> d = d'.
Proof.
  intros [_ W2 _ _ (i & _ & Hi)] (A1 & S1 & s1 & I1 & F1) (A2 & S2 & s2 & I2 & F2).
  apply not_repeated_NoDup in W2.
  assert (HP : forall t q, dfa_named p t q -> nth_error (map pds_name (pd_states p)) q = Some t).
  { intros t q (s & E & <-). rewrite nth_error_map, E. reflexivity. }
  destruct d as [a st ini], d' as [a' st' ini']; simpl in *. f_equal.
  - congruence.
  - clear -S1 S2 W2 HP. revert S1 S2. generalize (pd_states p) as l. intros l S1. revert st'.
    induction S1 as [|ps s l st (E1 & E2 & E3 & HF) S1 IH]; intros st' S2; inversion S2; subst; auto.
    match goal with H : _ /\ _ |- _ => destruct H as (G1 & G2 & G3 & GF) end. f_equal; auto.
    destruct s as [n1 i1 b1 t1], y as [n2 i2 b2 t2]; simpl in *.
    rewrite (Forall2_named_inj _ W2 _ HP _ _ _ HF GF). congruence.
  - apply Hi in I1, I2. rewrite (proj1 I1 F1), (proj1 I2 F2). reflexivity.
Qed.

Theorem dfa_try_from_complete p : dfa_well_formed p -> exists d, dfa_try_from p = Ok d.
Proof.
  intros W. destruct (dfa_try_from p) as [d|e] eqn:E; [eauto|].
  exfalso. exact (dfa_well_formed_no_defect p e W (dfa_try_from_err p e E)).
Qed.

(** ** NFA tables *)
Definition is_eps (e : nfa_entry) : bool := match e with Eps => true | Element _ => false end.

Lemma elements_app h1 h2 : elements (h1 ++ h2) = elements h1 ++ elements h2.
Proof. apply flat_map_app. Qed.
Lemma elements_In a h : In a (elements h) <-> In (Element a) h.
Proof.
  unfold elements. rewrite in_flat_map. split.
  - intros ([b|] & Hin & Hb); simpl in Hb; [|tauto]. destruct Hb as [->|[]]. auto.
  - intros Hin. exists (Element a). simpl; auto.
Qed.

Lemma elements_NoDup h : NoDup (elements h) <-> forall a, ~ repeated (Element a) h.
Proof.
  induction h as [|[b|] h IH]; simpl.
  - split; [|constructor]. intros _ a ([|i] & j & _ & E & _); discriminate.
  - rewrite NoDup_cons_iff, IH, elements_In. split.
    + intros (Hb & Hr) a (i & j & Hn & Hi & Hj). destruct i as [|i], j as [|j]; simpl in *.
      * lia.
      * injection Hi as ->. apply Hb. eapply nth_error_In; eauto.
      * injection Hj as ->. apply Hb. eapply nth_error_In; eauto.
      * apply (Hr a). exists i, j. auto.
    + intros H. split.
      * intros Hb. apply (H b). apply In_nth_error in Hb as (j & Hj). exists 0, (S j). auto.
      * intros a (i & j & Hn & Hi & Hj). apply (H a). exists (S i), (S j). auto.
  - rewrite IH. split.
    + intros Hr a (i & j & Hn & Hi & Hj). destruct i as [|i], j as [|j]; simpl in *; try discriminate.
      apply (Hr a). exists i, j. auto.
    + intros H a (i & j & Hn & Hi & Hj). apply (H a). exists (S i), (S j). auto.
Qed.

Lemma nfa_head_check_spec head : forall pre alph eps,
  alph = elements pre -> NoDup alph -> (match eps with Some _ => In Eps pre | None => True end) ->
  match nfa_head_check (length pre) alph eps head with
  | Ok e => NoDup (elements (pre ++ head)) /\ olist eps ++ initials (length pre) (map is_eps head) = olist e
  | Err d => repeated (Element d) (pre ++ head) \/ (d = epsilon_str /\ repeated Eps (pre ++ head))
  end.
Proof.
  induction head as [|[c|] head IH]; intros pre alph eps Ea Hn He; cbn [nfa_head_check].
  - rewrite !app_nil_r. subst; auto.
  - unfold hs_insert. destruct (mem_spec c alph) as [Hc|Hc].
    + left. apply repeated_intro. subst. apply elements_In. auto.
    + specialize (IH (pre ++ [Element c]) (alph ++ [c]) eps).
      rewrite app_length in IH. simpl in IH. rewrite Nat.add_1_r in IH. rewrite <- app_assoc in IH. simpl in IH.
      apply IH.
      * rewrite elements_app. subst. reflexivity.
      * apply NoDup_snoc; auto.
      * destruct eps; auto. apply in_or_app. auto.
  - destruct eps as [i|].
    + right. split; auto. apply repeated_intro. auto.
    + specialize (IH (pre ++ [Eps]) alph (Some (length pre))).
      rewrite app_length in IH. simpl in IH. rewrite Nat.add_1_r in IH. rewrite <- app_assoc in IH. simpl in IH.
      apply IH.
      * rewrite elements_app. subst. simpl. rewrite app_nil_r. reflexivity.
      * auto.
      * apply in_or_app. simpl. auto.
Qed.

Lemma nfa_columns_ok m name eps_idx : forall ts idx e0 l e,
  nfa_columns m name eps_idx idx e0 ts = Ok (l, e) ->
  Forall (fun c => exists c', Forall2 (fun t q => hm_get t m = Some q) c c') ts /\
  forall h, length h = length ts -> (forall j, nth_error h j = Some Eps <-> Some (idx + j) = eps_idx) ->
  Forall2 (Forall2 (fun t q => hm_get t m = Some q)) (element_columns h ts) l /\
  match eps_column h ts with
  | Some c => exists c', e = Some c' /\ Forall2 (fun t q => hm_get t m = Some q) c c'
  | None => e = e0
  end.
Proof.
  induction ts as [|t ts IH]; intros idx e0 l e; cbn [nfa_columns].
  - intros [= <- <-]. split; [constructor|]. intros [|x h] Hl; [|discriminate]. intros _. simpl. auto.
  - pose proof (lookup_targets_spec m name t) as Ht.
    destruct (lookup_targets m name t) as [tr|er]; [|discriminate].
    destruct (eqb_spec (Some idx) eps_idx) as [He|He].
    + intros E. apply IH in E as (HA & E). split; [constructor; eauto|]. intros h Hl Hp.
      destruct h as [|x h]; [discriminate|].
      assert (x = Eps) as ->.
      { specialize (Hp 0). rewrite Nat.add_0_r in Hp. apply Hp in He. simpl in He. congruence. }
      assert (Hno : forall j, nth_error h j <> Some Eps).
      { intros j Hj. specialize (Hp (S j)). simpl in Hp. apply Hp in Hj. rewrite <- He in Hj. injection Hj. lia. }
      destruct (E h) as (E1 & E2).
      * simpl in Hl. lia.
      * intros j. split; [intros Hj; destruct (Hno j Hj)|]. intros Hj. exfalso. rewrite <- He in Hj. injection Hj. lia.
      * cbn [element_columns eps_column]. split; auto.
        assert (Hec : eps_column h ts = None).
        { clear -Hno. revert ts. induction h as [|[a|] h IHh]; intros [|t ts]; simpl; auto.
          - apply IHh. intros j. apply (Hno (S j)).
          - destruct (Hno 0). reflexivity. }
        rewrite Hec in E2. exists tr. auto.
    + destruct (nfa_columns m name eps_idx (S idx) e0 ts) as [[l' e']|er] eqn:E; [|discriminate].
      intros [= <- <-]. apply IH in E as (HA & E). split; [constructor; eauto|]. intros h Hl Hp.
      destruct h as [|x h]; [discriminate|].
      destruct x as [a|].
      2:{ exfalso. apply He. specialize (Hp 0). rewrite Nat.add_0_r in Hp. apply Hp. reflexivity. }
      destruct (E h) as (E1 & E2).
      * simpl in Hl. lia.
      * intros j. specialize (Hp (S j)). simpl in Hp. rewrite Hp, Nat.add_succ_r. reflexivity.
      * cbn [element_columns eps_column]. split; auto.
Qed.

Lemma nfa_columns_err m name eps_idx : forall ts idx e0 e,
  nfa_columns m name eps_idx idx e0 ts = Err e ->
  exists c t, In c ts /\ In t c /\ hm_get t m = None /\ e = TransitionDoesNotExist name t.
Proof.
  induction ts as [|t ts IH]; intros idx e0 e; cbn [nfa_columns]; [discriminate|].
  pose proof (lookup_targets_spec m name t) as Ht.
  destruct (lookup_targets m name t) as [tr|er].
  - destruct (eqb (Some idx) eps_idx).
    + intros E. apply IH in E as (c & t' & H1 & H2). exists c, t'. simpl. tauto.
    + destruct (nfa_columns m name eps_idx (S idx) e0 ts) as [[l' e']|er] eqn:E; [discriminate|].
      intros [= <-]. apply IH in E as (c & t' & H1 & H2). exists c, t'. simpl. tauto.
  - destruct Ht as (t' & H1 & H2 & ->). intros [= <-]. exists t, t'. simpl. auto.
Qed.

Definition get_rel (m : list (str * nat)) (t : str) (q : nat) : Prop := hm_get t m = Some q.

Definition nfa_row_ok (m : list (str * nat)) (head : list nfa_entry) (ps : parsed_nfa_state) (s : nfa_state) : Prop :=
  ns_name s = pns_name ps /\ ns_initial s = pns_initial ps /\ ns_accepting s = pns_accepting ps /\
  Forall2 (Forall2 (get_rel m)) (element_columns head (pns_transitions ps)) (ns_transitions s) /\
  match eps_column head (pns_transitions ps) with
  | Some c => Forall2 (get_rel m) c (ns_eps s)
  | None => ns_eps s = []
  end.

Lemma nfa_rows_ok m head eps_idx (Hp : forall j, nth_error head j = Some Eps <-> Some j = eps_idx) :
  forall states idx init new i,
  nfa_rows m (length head) eps_idx idx init states = Ok (new, i) ->
  Forall (fun s => length (pns_transitions s) = length head /\
                   Forall (fun c => exists c', Forall2 (get_rel m) c c') (pns_transitions s)) states /\
  Forall2 (nfa_row_ok m head) states new /\
  olist init ++ initials idx (map pns_initial states) = olist i.
Proof.
  induction states as [|s states IH]; intros idx init new i; cbn [nfa_rows].
  - intros [= <- <-]. simpl. rewrite app_nil_r. auto.
  - destruct (Nat.eqb_spec (length (pns_transitions s)) (length head)) as [Hl|]; [|discriminate]. cbn [negb].
    destruct (nfa_columns m (pns_name s) eps_idx 0 None (pns_transitions s)) as [[l eps]|e] eqn:Et; [|discriminate].
    apply nfa_columns_ok in Et as (HA & Et). specialize (Et head (eq_sym Hl) Hp) as (E1 & E2).
    destruct (if pns_initial s then match init with None => Some (Some idx) | Some _ => None end else Some init)
      as [init'|] eqn:Ei; [|discriminate].
    destruct (nfa_rows m (length head) eps_idx (S idx) init' states) as [[new' i']|e] eqn:Er; [|discriminate].
    intros [= <- <-]. apply IH in Er as (H1 & H2 & H3). split; [|split].
    + constructor; auto.
    + constructor; auto. repeat split; auto. cbn [ns_eps].
      destruct (eps_column head (pns_transitions s)) as [c|].
      * destruct E2 as (c' & -> & E2). exact E2.
      * subst eps. reflexivity.
    + rewrite <- H3. cbn [map initials]. destruct (pns_initial s).
      * destruct init; [discriminate|]. injection Ei as <-. reflexivity.
      * injection Ei as <-. reflexivity.
Qed.

Lemma nfa_rows_err m hl eps_idx : forall states idx init e,
  nfa_rows m hl eps_idx idx init states = Err e ->
  match e with
  | WrongNumberOfTransitions name has expected =>
      exists s, In s states /\ pns_name s = name /\ length (pns_transitions s) = has /\
                hl = expected /\ has <> expected
  | TransitionDoesNotExist name t =>
      exists s ts, In s states /\ pns_name s = name /\ In ts (pns_transitions s) /\ In t ts /\ hm_get t m = None
  | MultipleInitialStates => 2 <= length (olist init ++ initials idx (map pns_initial states))
  | _ => False
  end.
Proof.
  induction states as [|s states IH]; intros idx init e; cbn [nfa_rows]; [discriminate|].
  destruct (Nat.eqb_spec (length (pns_transitions s)) hl) as [Hl|Hl]; cbn [negb].
  2:{ intros [= <-]. exists s. simpl. auto. }
  destruct (nfa_columns m (pns_name s) eps_idx 0 None (pns_transitions s)) as [[l eps]|e'] eqn:Et.
  2:{ apply nfa_columns_err in Et as (c & t & H1 & H2 & H3 & ->). intros [= <-]. exists s, c. simpl. auto. }
  destruct (if pns_initial s then match init with None => Some (Some idx) | Some _ => None end else Some init)
    as [init'|] eqn:Ei.
  2:{ intros [= <-]. cbn [map initials]. destruct (pns_initial s); [|discriminate]. destruct init; [|discriminate].
      simpl. lia. }
  destruct (nfa_rows m hl eps_idx (S idx) init' states) as [[new' i']|e'] eqn:Er; [discriminate|].
  intros [= <-]. apply IH in Er. destruct e'; auto.
  - destruct Er as (s' & H). exists s'. simpl. tauto.
  - destruct Er as (s' & ts & H). exists s', ts. simpl. tauto.
  - cbn [map initials]. destruct (pns_initial s).
    + destruct init; [discriminate|]. injection Ei as <-. exact Er.
    + injection Ei as <-. exact Er.
Qed.

Theorem nfa_try_from_err p e : nfa_try_from p = Err e -> nfa_defect p e.
Proof.
  unfold nfa_try_from. pose proof (nfa_head_check_spec (pn_head p) [] [] None eq_refl (NoDup_nil _) I) as Hh.
  simpl length in Hh. destruct (nfa_head_check 0 [] None (pn_head p)) as [eps|d]; [|intros [= <-]; exact Hh].
  destruct Hh as (Hh & Hp). simpl in Hp.
  assert (Hp' : forall j, nth_error (pn_head p) j = Some Eps <-> Some j = eps).
  { intros j. transitivity (In j (olist eps)).
    - rewrite <- Hp, initials_In. split.
      + intros E. exists j. split; auto. rewrite nth_error_map, E. reflexivity.
      + intros (k & -> & E). simpl. rewrite nth_error_map in E. destruct (nth_error (pn_head p) k) as [[|]|]; try discriminate. reflexivity.
    - destruct eps; simpl; [|split; [tauto|discriminate]]. split; [intros [->|[]]; auto|intros [= ->]; auto]. }
  destruct (Nat.eqb_spec (length (name_map (map pns_name (pn_states p)))) (length (pn_states p))) as [El|El]; cbn [negb].
  - rewrite <- (map_length pns_name (pn_states p)) in El. apply (proj1 (name_map_length _)) in El.
    destruct (nfa_rows (name_map (map pns_name (pn_states p))) (length (pn_head p)) eps 0 None (pn_states p))
      as [[new [i|]]|e'] eqn:Er; [discriminate| |].
    + intros [= <-]. simpl. apply (nfa_rows_ok _ _ _ Hp') in Er as (_ & _ & H). simpl in H.
      intros s Hs. apply (initials_none _ H). apply in_map. auto.
    + intros [= <-]. apply nfa_rows_err in Er. destruct e'; simpl in *; auto; try contradiction.
      * destruct Er as (s & ts & H1 & H2 & H3 & H4 & H5). exists s, ts. rewrite <- name_map_none; auto.
      * apply initials_two in Er as (i & j & Hn & Hi & Hj).
        rewrite nth_error_map in Hi, Hj. destruct (nth_error (pn_states p) i) as [s1|] eqn:E1; [|discriminate].
        destruct (nth_error (pn_states p) j) as [s2|] eqn:E2; [|discriminate]. simpl in Hi, Hj.
        exists i, j, s1, s2. repeat split; auto; congruence.
  - intros [= <-]. simpl. pose proof (first_repeated_spec (map pns_name (pn_states p)) [] (NoDup_nil _)) as Hn.
    destruct (first_repeated [] (map pns_name (pn_states p))) as [s|]; [exact Hn|].
    exfalso. apply El. rewrite <- (map_length pns_name (pn_states p)). apply name_map_length. exact Hn.
Qed.

Lemma nfa_well_formed_no_defect p e : nfa_well_formed p -> ~ nfa_defect p e.
Proof.
  intros [W1 W1' W2 W3 W4 (i & Hi & W5)]. destruct e; simpl.
  - intros (s & Hs & _ & <- & <- & Hn). apply Hn. auto.
  - intros (s & ts & Hs & _ & Hts & Ht & Hn). apply Hn. eauto.
  - intros H. apply nth_error_Some in Hi. destruct (nth_error (pn_states p) i) as [s|] eqn:E; [|congruence].
    apply (W5 i s) in E as E'. rewrite (H s) in E'; [|eapply nth_error_In; eauto]. destruct E' as [_ E'].
    specialize (E' eq_refl). discriminate.
  - intros (j & k & s1 & s2 & Hn & H1 & H2 & H3 & H4). apply Hn. apply W5 in H1, H2. rewrite (proj1 H1 H3), (proj1 H2 H4). auto.
  - intros [H|[_ H]]; [exact (W1 _ H)|exact (W1' H)].
  - apply W2.
Qed.

Lemma element_columns_length {A} h : forall row : list A, length row = length h -> length (element_columns h row) = length (elements h).
Proof. induction h as [|[a|] h IH]; intros [|c row]; simpl; try discriminate; auto. Qed.

Lemma element_columns_In {A} h : forall (row : list A) c, In c (element_columns h row) -> In c row.
Proof.
  induction h as [|[a|] h IH]; intros [|c' row] c; simpl; try tauto.
  - intros [->|H]; auto.
  - intros H; auto.
Qed.

Theorem nfa_try_from_ok p n : nfa_try_from p = Ok n -> nfa_well_formed p /\ nfa_denotes p n /\ nfa_valid n.
Proof.
  unfold nfa_try_from. pose proof (nfa_head_check_spec (pn_head p) [] [] None eq_refl (NoDup_nil _) I) as Hh.
  simpl length in Hh. destruct (nfa_head_check 0 [] None (pn_head p)) as [eps|d]; [|discriminate].
  destruct Hh as (Hh & Hp). simpl in Hp, Hh.
  assert (Hp' : forall j, nth_error (pn_head p) j = Some Eps <-> Some j = eps).
  { intros j. transitivity (In j (olist eps)).
    - rewrite <- Hp, initials_In. split.
      + intros E. exists j. split; auto. rewrite nth_error_map, E. reflexivity.
      + intros (k & -> & E). simpl. rewrite nth_error_map in E. destruct (nth_error (pn_head p) k) as [[|]|]; try discriminate. reflexivity.
    - destruct eps; simpl; [|split; [tauto|discriminate]]. split; [intros [->|[]]; auto|intros [= ->]; auto]. }
  destruct (Nat.eqb_spec (length (name_map (map pns_name (pn_states p)))) (length (pn_states p))) as [El|El]; cbn [negb];
    [|discriminate].
  rewrite <- (map_length pns_name (pn_states p)) in El. apply (proj1 (name_map_length _)) in El.
  destruct (nfa_rows (name_map (map pns_name (pn_states p))) (length (pn_head p)) eps 0 None (pn_states p))
    as [[new [i|]]|e'] eqn:Er; [|discriminate|discriminate].
  intros [= <-]. apply (nfa_rows_ok _ _ _ Hp') in Er as (H1 & H2 & H3). simpl in H3. apply initials_one in H3 as (Hi & Ho).
  rewrite map_length in Hi. rewrite Forall_forall in H1.
  assert (Hflag : forall j s, nth_error (pn_states p) j = Some s -> (pns_initial s = true <-> j = i)).
  { intros j s Hj. apply Ho. rewrite nth_error_map, Hj. reflexivity. }
  assert (Hlen : length new = length (pn_states p)) by (symmetry; eapply Forall2_len; eauto).
  assert (Hget : forall t q, get_rel (name_map (map pns_name (pn_states p))) t q -> nfa_named p t q).
  { intros t q Hq. apply name_map_get in Hq; auto. rewrite nth_error_map in Hq.
    destruct (nth_error (pn_states p) q) as [s|] eqn:E; [|discriminate]. injection Hq as <-. exists s. auto. }
  assert (Hrange : forall t q, nfa_named p t q -> q < length new).
  { intros t q (s & E & _). rewrite Hlen. apply nth_error_Some. congruence. }
  split; [|split].
  - constructor.
    + apply elements_NoDup. exact Hh.
    + intros (j & k & Hn & Hj & Hk). apply Hp' in Hj, Hk. congruence.
    + apply not_repeated_NoDup. exact El.
    + intros s Hs. apply H1. auto.
    + intros s ts t Hs Hts Ht. destruct (H1 s Hs) as [_ HF]. rewrite Forall_forall in HF.
      destruct (HF ts Hts) as (l & HF'). destruct (Forall2_In_l _ _ _ t HF' Ht) as (q & _ & Hq).
      apply name_map_get in Hq; auto. eapply nth_error_In; eauto.
    + exists i. split; auto.
  - split; [reflexivity|]. split.
    + revert H2. apply Forall2_impl. intros ps s (E1 & E2 & E3 & HF & HE). repeat split; auto.
      * revert HF. apply Forall2_impl. intros ? ?. apply Forall2_impl. auto.
      * destruct (eps_column (pn_head p) (pns_transitions ps)); auto. revert HE. apply Forall2_impl. auto.
    + cbn [nfa_initial]. apply nth_error_Some in Hi. destruct (nth_error (pn_states p) i) as [s|] eqn:E; [|congruence].
      exists s. split; auto. apply (Hflag i s); auto.
  - constructor; cbn [nfa_alphabet nfa_states nfa_initial].
    + exact Hh.
    + assert (map ns_name new = map pns_name (pn_states p)) as ->; auto.
      clear -H2. induction H2 as [|? ? ? ? [E _]]; simpl; congruence.
    + lia.
    + intros q s Hq. destruct (Forall2_nth_r _ _ _ H2 q s Hq) as (ps & Hps & _ & E & _). rewrite E. auto.
    + intros q s Hq. destruct (Forall2_nth_r _ _ _ H2 q s Hq) as (ps & Hps & _ & _ & _ & HF & _).
      apply Forall2_len in HF. rewrite <- HF. rewrite element_columns_length; [reflexivity|]. apply H1. eapply nth_error_In; eauto.
    + intros q s ts t Hq Hts Ht. destruct (Forall2_nth_r _ _ _ H2 q s Hq) as (ps & Hps & _ & _ & _ & HF & _).
      destruct (Forall2_In_r _ _ _ ts HF Hts) as (c & _ & Hc). destruct (Forall2_In_r _ _ _ t Hc Ht) as (nm & _ & Hg).
      eauto.
    + intros q s t Hq Ht. destruct (Forall2_nth_r _ _ _ H2 q s Hq) as (ps & Hps & _ & _ & _ & _ & HE).
      destruct (eps_column (pn_head p) (pns_transitions ps)) as [c|].
      * destruct (Forall2_In_r _ _ _ t HE Ht) as (nm & _ & Hg). eauto.
      * rewrite HE in Ht. destruct Ht.
Qed.

Theorem nfa_try_from_complete p : nfa_well_formed p -> exists n, nfa_try_from p = Ok n.
Proof.
  intros W. destruct (nfa_try_from p) as [d|e] eqn:E; [eauto|].
  exfalso. exact (nfa_well_formed_no_defect p e W (nfa_try_from_err p e E)).
Qed.

Theorem nfa_denotes_unique p n n' : nfa_well_formed p -> nfa_denotes p n -> nfa_denotes p n' -> n = n'.
Proof.
  intros [_ _ W2 _ _ (i & _ & Hi)] (A1 & S1 & s1 & I1 & F1) (A2 & S2 & s2 & I2 & F2).
  apply not_repeated_NoDup in W2.
  assert (HP : forall t q, nfa_named p t q -> nth_error (map pns_name (pn_states p)) q = Some t).
  { intros t q (s & E & <-). rewrite nth_error_map, E. reflexivity. }
  destruct n as [a st ini], n' as [a' st' ini']; simpl in *. f_equal.
  - congruence.
  - clear -S1 S2 W2 HP. revert S1 S2. generalize (pn_states p) as l. intros l S1. revert st'.
    induction S1 as [|ps s l st (E1 & E2 & E3 & HF & HE) S1 IH]; intros st' S2; inversion S2; subst; auto.
    match goal with H : _ /\ _ |- _ => destruct H as (G1 & G2 & G3 & GF & GE) end. f_equal; auto.
    destruct s as [n1 i1 b1 e1 t1], y as [n2 i2 b2 e2 t2]; simpl in *.
    assert (t1 = t2) as ->.
    { clear -HF GF HP W2. revert t2 GF. induction HF as [|c r cs rs Hc HF IH]; intros t2 GF; inversion GF; subst; auto.
      f_equal; auto. eapply (Forall2_named_inj _ W2 _ HP); eauto. }
    assert (e1 = e2) as ->.
    { destruct (eps_column (pn_head p) (pns_transitions ps)).
      - eapply (Forall2_named_inj _ W2 _ HP); eauto.
      - congruence. }
    congruence.
  - apply Hi in I1, I2. rewrite (proj1 I1 F1), (proj1 I2 F2). reflexivity.
Qed.
