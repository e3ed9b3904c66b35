(** * Proofs about sessions with handles *)
From Coq Require Import List NArith Arith Bool Lia.
From Verif Require Import Base BaseLemmas Spec TableSpec LayoutSpec DfaModel NfaModel RegexModel ValidateModel ParserModel TableModel
  RegexParserModel Messages MessageSpec WasmModel WasmSpec ParserBasics FaParserProofs ValidateProofs TableAlign RegexParserProofs ApiProofs
  Prop_Dfa Prop_Nfa Prop_Regex Prop_Validate.
Import ListNotations.

Lemma hm_get_remove {V} k k' (m : list (nat * V)) :
  hm_get k (hm_remove k' m) = if k =? k' then None else hm_get k m.
Proof.
  unfold hm_remove. induction m as [|[a v] m IH]; simpl; [destruct (k =? k'); auto|].
  destruct (Nat.eqb_spec k' a) as [<- |Ha]; simpl.
  - rewrite IH. destruct (Nat.eqb_spec k k') as [<- |Hk]; auto.
  - rewrite IH. destruct (Nat.eqb_spec k k') as [<- |Hk].
    + destruct (Nat.eqb_spec k a); [congruence|auto].
    + auto.
Qed.
Lemma hm_remove_unknown {V} k (m : list (nat * V)) : hm_get k m = None -> hm_remove k m = m.
Proof.
  unfold hm_remove. induction m as [|[a v] m IH]; simpl; auto. destruct (Nat.eqb_spec k a) as [<- |Ha]; [discriminate|].
  intros E. simpl. rewrite IH; auto.
Qed.
Lemma hm_get_insert_nat {V} k k' (v : V) m : hm_get k (hm_insert k' v m) = if k =? k' then Some v else hm_get k m.
Proof. rewrite hm_get_insert. reflexivity. Qed.

Lemma issued_cons e tr k : issued (e :: tr) k <-> handle_of (snd e) = Some k \/ issued tr k.
Proof.
  unfold issued, handles. simpl. rewrite in_app_iff. destruct (handle_of (snd e)) as [k'|]; simpl; [|intuition discriminate].
  split; [intros [[-> |[]]|H]; auto|intros [[= ->]|H]; auto].
Qed.

Section Proofs.
Context (seg : str -> list str) (cap : nat) (checks : bool).
Notation step := (wasm_step seg cap checks).
Notation run := (wasm_run seg cap checks).
Notation live_dfa := (live_dfa seg).
Notation live_nfa := (live_nfa seg).
Notation live_regex := (live_regex seg).

Lemma live_issued tr : (forall k d, live_dfa tr k d -> issued tr k) /\ (forall k n, live_nfa tr k n -> issued tr k) /\
  (forall k t, live_regex tr k t -> issued tr k).
Proof.
  induction tr as [|[c r] tr (I1 & I2 & I3)]; [simpl; tauto|].
  repeat split; intros k x H; apply issued_cons; simpl snd; destruct c; simpl in H;
    repeat match goal with
           | H : _ \/ _ |- _ => destruct H
           | H : _ /\ _ |- _ => destruct H
           | H : exists _, _ |- _ => destruct H
           end; subst; simpl; eauto.
Qed.

Record winv (st : wasm_state) (tr : history) : Prop := {
  wi_dfa : forall k d, hm_get k (ws_dfas st) = Some d <-> live_dfa tr k d;
  wi_nfa : forall k n, hm_get k (ws_nfas st) = Some n <-> live_nfa tr k n;
  wi_regex : forall k t, hm_get k (ws_regexes st) = Some t <-> live_regex tr k t;
  wi_dvalid : forall k d, live_dfa tr k d -> dfa_valid d;
  wi_nvalid : forall k n, live_nfa tr k n -> nfa_valid n;
  wi_next : forall k, issued tr k -> k < ws_next st;
  wi_pos : 1 <= ws_next st
}.

Lemma winv_init : winv wasm_init [].
Proof. constructor; simpl; try (intuition discriminate); try tauto; try lia. unfold issued; simpl; tauto. Qed.

Lemma gen_key_eq st : S (ws_next st) < cap ->
  gen_key cap checks st = Ret (ws_next st, {| ws_dfas := ws_dfas st; ws_nfas := ws_nfas st; ws_regexes := ws_regexes st;
                                              ws_next := S (ws_next st) |}).
Proof. intros H. unfold gen_key. apply Nat.ltb_lt in H. rewrite H. reflexivity. Qed.

Lemma fresh_next st tr : winv st tr -> fresh_handle tr (ws_next st).
Proof. intros W. split; [pose proof (wi_pos _ _ W); lia|]. intros H. apply (wi_next _ _ W) in H. lia. Qed.
Lemma not_live_next st tr : winv st tr -> (forall d, ~ live_dfa tr (ws_next st) d) /\ (forall n, ~ live_nfa tr (ws_next st) n) /\
  (forall t, ~ live_regex tr (ws_next st) t).
Proof.
  intros W. pose proof (fresh_next _ _ W) as [_ F]. destruct (live_issued tr) as (I1 & I2 & I3).
  repeat split; intros x Hx; apply F; eauto.
Qed.

(** Looking up a handle decides whether it is known *)
Lemma dfa_lookup st tr k : winv st tr ->
  (exists d, hm_get k (ws_dfas st) = Some d /\ live_dfa tr k d /\ dfa_valid d /\ known_dfa seg tr k) \/
  (hm_get k (ws_dfas st) = None /\ ~ known_dfa seg tr k).
Proof.
  intros W. destruct (hm_get k (ws_dfas st)) as [d|] eqn:E; [left|right; split; auto].
  - assert (L : live_dfa tr k d) by (apply (wi_dfa _ _ W); auto). exists d. split; [auto|]. split; [auto|]. split; [|exists d; auto].
    eapply wi_dvalid; eauto.
  - intros (d & L). apply (wi_dfa _ _ W) in L. congruence.
Qed.
Lemma nfa_lookup st tr k : winv st tr ->
  (exists n, hm_get k (ws_nfas st) = Some n /\ live_nfa tr k n /\ nfa_valid n /\ known_nfa seg tr k) \/
  (hm_get k (ws_nfas st) = None /\ ~ known_nfa seg tr k).
Proof.
  intros W. destruct (hm_get k (ws_nfas st)) as [d|] eqn:E; [left|right; split; auto].
  - assert (L : live_nfa tr k d) by (apply (wi_nfa _ _ W); auto). exists d. split; [auto|]. split; [auto|]. split; [|exists d; auto].
    eapply wi_nvalid; eauto.
  - intros (d & L). apply (wi_nfa _ _ W) in L. congruence.
Qed.
Lemma regex_lookup st tr k : winv st tr ->
  (exists t, hm_get k (ws_regexes st) = Some t /\ live_regex tr k t /\ known_regex seg tr k) \/
  (hm_get k (ws_regexes st) = None /\ ~ known_regex seg tr k).
Proof.
  intros W. destruct (hm_get k (ws_regexes st)) as [d|] eqn:E; [left|right; split; auto].
  - assert (L : live_regex tr k d) by (apply (wi_regex _ _ W); auto). exists d. split; [auto|]. split; [auto|]. exists d; auto.
  - intros (d & L). apply (wi_regex _ _ W) in L. congruence.
Qed.

Lemma loads_dfa_valid u d : loads_dfa u d -> dfa_valid d.
Proof. intros (t & _ & W & D). apply (C06_dfa_valid t). apply C06_dfa_faithful; auto. Qed.
Lemma loads_nfa_valid u n : loads_nfa u n -> nfa_valid n.
Proof. intros (t & _ & W & D). apply (C07_nfa_valid t). apply C07_nfa_faithful; auto. Qed.
Lemma loads_dfa_unique u d d' : loads_dfa u d -> loads_dfa u d' -> d = d'.
Proof.
  intros (t & T & W & D) (t' & T' & W' & D'). assert (t' = t) as -> by (eapply dfa_text_unique; eauto).
  apply C06_dfa_faithful in D; auto. apply C06_dfa_faithful in D'; auto. congruence.
Qed.
Lemma loads_nfa_unique u d d' : loads_nfa u d -> loads_nfa u d' -> d = d'.
Proof.
  intros (t & T & W & D) (t' & T' & W' & D'). assert (t' = t) as -> by (eapply nfa_text_unique; eauto).
  apply C07_nfa_faithful in D; auto. apply C07_nfa_faithful in D'; auto. congruence.
Qed.

(** The invariant after a call that changes nothing and hands out nothing *)
Lemma winv_same st tr c r : winv st tr -> handle_of r = None ->
  (forall k d, live_dfa ((c, r) :: tr) k d <-> live_dfa tr k d) ->
  (forall k d, live_nfa ((c, r) :: tr) k d <-> live_nfa tr k d) ->
  (forall k d, live_regex ((c, r) :: tr) k d <-> live_regex tr k d) -> winv st ((c, r) :: tr).
Proof.
  intros W Hr H1 H2 H3. constructor.
  - intros k d. rewrite H1. apply W.
  - intros k d. rewrite H2. apply W.
  - intros k d. rewrite H3. apply W.
  - intros k d. rewrite H1. apply (wi_dvalid _ _ W k).
  - intros k d. rewrite H2. apply (wi_nvalid _ _ W k).
  - intros k H. apply issued_cons in H as [H|H]; [simpl in H; congruence|apply (wi_next _ _ W); auto].
  - apply (wi_pos _ _ W).
Qed.
(** ... that hands out a DFA, an NFA, a regex *)
Lemma winv_push_dfa st tr c r d : winv st tr -> handle_of r = Some (ws_next st) -> dfa_valid d ->
  (forall k d', live_dfa ((c, r) :: tr) k d' <-> (k = ws_next st /\ d' = d) \/ (k <> ws_next st /\ live_dfa tr k d')) ->
  (forall k d, live_nfa ((c, r) :: tr) k d <-> live_nfa tr k d) ->
  (forall k d, live_regex ((c, r) :: tr) k d <-> live_regex tr k d) ->
  winv {| ws_dfas := hm_insert (ws_next st) d (ws_dfas st); ws_nfas := ws_nfas st; ws_regexes := ws_regexes st;
          ws_next := S (ws_next st) |} ((c, r) :: tr).
Proof.
  intros W Hr Hv H1 H2 H3. constructor; cbn [ws_dfas ws_nfas ws_regexes ws_next].
  - intros k d'. rewrite H1, hm_get_insert_nat, <- (wi_dfa _ _ W). destruct (Nat.eqb_spec k (ws_next st)); intuition congruence.
  - intros k d'. rewrite H2. apply W.
  - intros k d'. rewrite H3. apply W.
  - intros k d'. rewrite H1. intros [[_ -> ]|[_ L]]; auto. eapply wi_dvalid; eauto.
  - intros k d'. rewrite H2. apply (wi_nvalid _ _ W k).
  - intros k H. apply issued_cons in H as [H|H]; [simpl in H; assert (k = ws_next st) by congruence; lia|].
    apply (wi_next _ _ W) in H; lia.
  - lia.
Qed.
Lemma winv_push_nfa st tr c r d : winv st tr -> handle_of r = Some (ws_next st) -> nfa_valid d ->
  (forall k d', live_nfa ((c, r) :: tr) k d' <-> (k = ws_next st /\ d' = d) \/ (k <> ws_next st /\ live_nfa tr k d')) ->
  (forall k d, live_dfa ((c, r) :: tr) k d <-> live_dfa tr k d) ->
  forall regexes,
  (forall k t, hm_get k regexes = Some t <-> live_regex ((c, r) :: tr) k t) ->
  winv {| ws_dfas := ws_dfas st; ws_nfas := hm_insert (ws_next st) d (ws_nfas st); ws_regexes := regexes;
          ws_next := S (ws_next st) |} ((c, r) :: tr).
Proof.
  intros W Hr Hv H1 H2 rg H3. constructor; cbn [ws_dfas ws_nfas ws_regexes ws_next].
  - intros k d'. rewrite H2. apply W.
  - intros k d'. rewrite H1, hm_get_insert_nat, <- (wi_nfa _ _ W). destruct (Nat.eqb_spec k (ws_next st)); intuition congruence.
  - exact H3.
  - intros k d'. rewrite H2. apply (wi_dvalid _ _ W k).
  - intros k d'. rewrite H1. intros [[_ -> ]|[_ L]]; auto. eapply wi_nvalid; eauto.
  - intros k H. apply issued_cons in H as [H|H]; [simpl in H; assert (k = ws_next st) by congruence; lia|].
    apply (wi_next _ _ W) in H; lia.
  - lia.
Qed.
Lemma winv_push_regex st tr c r d : winv st tr -> handle_of r = Some (ws_next st) ->
  (forall k d', live_regex ((c, r) :: tr) k d' <-> (k = ws_next st /\ d' = d) \/ (k <> ws_next st /\ live_regex tr k d')) ->
  (forall k d, live_dfa ((c, r) :: tr) k d <-> live_dfa tr k d) ->
  (forall k d, live_nfa ((c, r) :: tr) k d <-> live_nfa tr k d) ->
  winv {| ws_dfas := ws_dfas st; ws_nfas := ws_nfas st; ws_regexes := hm_insert (ws_next st) d (ws_regexes st);
          ws_next := S (ws_next st) |} ((c, r) :: tr).
Proof.
  intros W Hr H1 H2 H3. constructor; cbn [ws_dfas ws_nfas ws_regexes ws_next].
  - intros k d'. rewrite H2. apply W.
  - intros k d'. rewrite H3. apply W.
  - intros k d'. rewrite H1, hm_get_insert_nat, <- (wi_regex _ _ W). destruct (Nat.eqb_spec k (ws_next st)); intuition congruence.
  - intros k d'. rewrite H2. apply (wi_dvalid _ _ W k).
  - intros k d'. rewrite H3. apply (wi_nvalid _ _ W k).
  - intros k H. apply issued_cons in H as [H|H]; [simpl in H; assert (k = ws_next st) by congruence; lia|].
    apply (wi_next _ _ W) in H; lia.
  - lia.
Qed.

Definition step_ok (st : wasm_state) (tr : history) (c : wasm_call) : Prop :=
  exists st' r, step st c = Ret (st', r) /\ winv st' ((c, r) :: tr) /\ expected seg tr c r /\
                ws_next st' <= ws_next st + (if creates c then 1 else 0).

Ltac winv_fields W :=
  try solve [exact (wi_dfa _ _ W)|exact (wi_nfa _ _ W)|exact (wi_regex _ _ W)|exact (wi_dvalid _ _ W)|exact (wi_nvalid _ _ W)
            |exact (wi_pos _ _ W)].

(** deleting *)
Lemma step_delete_dfa st tr k : winv st tr -> step_ok st tr (CDeleteDfa k).
Proof.
  intros W. eexists. eexists. split; [reflexivity|]. split; [|split; [|simpl; lia]].
  - constructor; simpl ws_dfas; simpl ws_nfas; simpl ws_regexes; simpl ws_next; winv_fields W.
    + intros k' d. rewrite hm_get_remove. simpl. rewrite <- (wi_dfa _ _ W). destruct (Nat.eqb_spec k' k); intuition congruence.
    + intros k' d [_ H]. eapply wi_dvalid; eauto.
    + intros k' H. apply issued_cons in H as [H|H]; [discriminate|apply (wi_next _ _ W); auto].
  - simpl. destruct (dfa_lookup st tr k W) as [(d & E & L & V & K)|(E & K)]; rewrite E; [left|right]; auto.
Qed.
Lemma step_delete_nfa st tr k : winv st tr -> step_ok st tr (CDeleteNfa k).
Proof.
  intros W. eexists. eexists. split; [reflexivity|]. split; [|split; [|simpl; lia]].
  - constructor; simpl ws_dfas; simpl ws_nfas; simpl ws_regexes; simpl ws_next; winv_fields W.
    + intros k' d. rewrite hm_get_remove. simpl. rewrite <- (wi_nfa _ _ W). destruct (Nat.eqb_spec k' k); intuition congruence.
    + intros k' d [_ H]. eapply wi_nvalid; eauto.
    + intros k' H. apply issued_cons in H as [H|H]; [discriminate|apply (wi_next _ _ W); auto].
  - simpl. destruct (nfa_lookup st tr k W) as [(d & E & L & V & K)|(E & K)]; rewrite E; [left|right]; auto.
Qed.
Lemma step_delete_regex st tr k : winv st tr -> step_ok st tr (CDeleteRegex k).
Proof.
  intros W. eexists. eexists. split; [reflexivity|]. split; [|split; [|simpl; lia]].
  - constructor; simpl ws_dfas; simpl ws_nfas; simpl ws_regexes; simpl ws_next; winv_fields W.
    + intros k' d. rewrite hm_get_remove. simpl. rewrite <- (wi_regex _ _ W). destruct (Nat.eqb_spec k' k); intuition congruence.
    + intros k' H. apply issued_cons in H as [H|H]; [discriminate|apply (wi_next _ _ W); auto].
  - simpl. destruct (regex_lookup st tr k W) as [(d & E & L & K)|(E & K)]; rewrite E; [left|right]; auto.
Qed.

Lemma step_minimize st tr h dbg k : winv st tr -> step_ok st tr (CMinimizeDfa h dbg k).
Proof.
  intros W. unfold step_ok. simpl wasm_step.
  destruct (dfa_lookup st tr k W) as [(d & E & L & V & K)|(E & K)]; rewrite E.
  - destruct (C21_minimize h dbg d V) as (d' & Ed & V' & _). rewrite Ed. simpl.
    eexists. eexists. split; [reflexivity|]. split; [|split; [left; auto|simpl; lia]].
    assert (HL : forall k' d'', live_dfa ((CMinimizeDfa h dbg k, WBool true) :: tr) k' d'' <->
                 (k' = k /\ d'' = d') \/ (k' <> k /\ live_dfa tr k' d'')).
    { intros k' d''. simpl. split; intros [[-> H]|H]; auto.
      - destruct H as (d0 & L0 & M). left. split; auto.
        assert (d0 = d) as -> by (apply (wi_dfa _ _ W) in L0; congruence). congruence.
      - left. subst. split; auto. exists d; auto. }
    constructor; simpl ws_dfas; simpl ws_nfas; simpl ws_regexes; simpl ws_next; winv_fields W.
    + intros k' d''. rewrite hm_get_insert_nat. rewrite HL, <- (wi_dfa _ _ W). destruct (Nat.eqb_spec k' k); intuition congruence.
    + intros k' d''. rewrite HL. intros [[_ -> ]|[_ H]]; auto. eapply wi_dvalid; eauto.
    + intros k' H. apply issued_cons in H as [H|H]; [discriminate|apply (wi_next _ _ W); auto].
  - eexists. eexists. split; [reflexivity|]. split; [|split; [right; auto|simpl; lia]].
    apply winv_same; auto; try reflexivity. intros k' d. simpl. split.
    + intros [[-> (d0 & L & _)]|[_ H]]; auto. exfalso. apply K. exists d0; auto.
    + intros L. right. split; auto. intros ->. apply K. exists d; auto.
Qed.

Lemma step_load_dfa st tr u : winv st tr -> S (ws_next st) < cap -> step_ok st tr (CLoadDfa u).
Proof.
  intros W Hc. unfold step_ok. simpl wasm_step. destruct (parse_dfa_total u) as (o & Eo). rewrite Eo. simpl.
  destruct o as [t|].
  - assert (T : dfa_text t u) by (apply parse_dfa_iff; auto). destruct (dfa_try_from t) as [d|e] eqn:Ed.
    + assert (LD : loads_dfa u d).
      { assert (WF : dfa_well_formed t) by (apply C06_dfa_accepted_iff_well_formed; eauto).
        exists t. split; auto. split; auto. apply C06_dfa_faithful; auto. }
      unfold push_dfa. rewrite gen_key_eq by auto. simpl. eexists. eexists. split; [reflexivity|].
      split; [|split; [|simpl; lia]].
      * apply winv_push_dfa; auto; try reflexivity; [eapply loads_dfa_valid; eauto|].
        intros k d'. simpl. split; intros [[E H]|[E H]].
        -- left. injection E as E. split; auto. eapply loads_dfa_unique; eauto.
        -- right. split; auto. congruence.
        -- left. subst. auto.
        -- right. split; auto. congruence.
      * left. exists d, (ws_next st). split; auto. split; auto. apply fresh_next; auto.
    + eexists. eexists. split; [reflexivity|]. split; [|split; [|simpl; lia]].
      * apply winv_same; auto; try reflexivity. intros k d. simpl. split; [intros [[E _]|[_ H]]; [discriminate|auto]|].
        intros H. right. split; auto. discriminate.
      * right. right. exists t, e, (error_text e). split; auto. split; [apply C08_dfa_error_is_real; auto|]. split; [apply error_text_describes|reflexivity].
  - eexists. eexists. split; [reflexivity|]. split; [|split; [|simpl; lia]].
    + apply winv_same; auto; try reflexivity. intros k d. simpl. split; [intros [[E _]|[_ H]]; [discriminate|auto]|].
      intros H. right. split; auto. discriminate.
    + right. left. split; auto. intros (t & T). apply parse_dfa_iff in T. congruence.
Qed.
Lemma step_load_nfa st tr u : winv st tr -> S (ws_next st) < cap -> step_ok st tr (CLoadNfa u).
Proof.
  intros W Hc. unfold step_ok. simpl wasm_step. destruct (parse_nfa_total u) as (o & Eo). rewrite Eo. simpl.
  destruct o as [t|].
  - assert (T : nfa_text t u) by (apply parse_nfa_iff; auto). destruct (nfa_try_from t) as [d|e] eqn:Ed.
    + assert (LD : loads_nfa u d).
      { assert (WF : nfa_well_formed t) by (apply C07_nfa_accepted_iff_well_formed; eauto).
        exists t. split; auto. split; auto. apply C07_nfa_faithful; auto. }
      unfold push_nfa. rewrite gen_key_eq by auto. simpl. eexists. eexists. split; [reflexivity|].
      split; [|split; [|simpl; lia]].
      * apply winv_push_nfa; auto; try reflexivity; [eapply loads_nfa_valid; eauto| |apply W].
        intros k d'. simpl. split; intros [[E H]|[E H]].
        -- left. injection E as E. split; auto. eapply loads_nfa_unique; eauto.
        -- right. split; auto. congruence.
        -- left. subst. auto.
        -- right. split; auto. congruence.
      * left. exists d, (ws_next st). split; auto. split; auto. apply fresh_next; auto.
    + eexists. eexists. split; [reflexivity|]. split; [|split; [|simpl; lia]].
      * apply winv_same; auto; try reflexivity. intros k d. simpl. split; [intros [[E _]|[_ H]]; [discriminate|auto]|].
        intros H. right. split; auto. discriminate.
      * right. right. exists t, e, (error_text e). split; auto. split; [apply C08_nfa_error_is_real; auto|]. split; [apply error_text_describes|reflexivity].
  - eexists. eexists. split; [reflexivity|]. split; [|split; [|simpl; lia]].
    + apply winv_same; auto; try reflexivity. intros k d. simpl. split; [intros [[E _]|[_ H]]; [discriminate|auto]|].
      intros H. right. split; auto. discriminate.
    + right. left. split; auto. intros (t & T). apply parse_nfa_iff in T. congruence.
Qed.
Lemma step_load_regex st tr u : winv st tr -> S (ws_next st) < cap -> step_ok st tr (CLoadRegex u).
Proof.
  intros W Hc. unfold step_ok. simpl wasm_step. destruct (parse_regex_total seg u) as (o & Eo). rewrite Eo. simpl.
  destruct o as [t|].
  - unfold push_regex. rewrite gen_key_eq by auto. simpl. eexists. eexists. split; [reflexivity|].
    split; [|split; [|simpl; lia]].
    + apply winv_push_regex; auto; try reflexivity. intros k d'. simpl. split; intros [[E H]|[E H]].
      * left. injection E as E. split; auto. congruence.
      * right. split; auto. congruence.
      * left. subst. auto.
      * right. split; auto. congruence.
    + left. exists t, (ws_next st). split; auto. split; auto. apply fresh_next; auto.
  - eexists. eexists. split; [reflexivity|]. split; [|split; [right; auto|simpl; lia]].
    apply winv_same; auto; try reflexivity. intros k d. simpl. split; [intros [[E _]|[_ H]]; [discriminate|auto]|].
    intros H. right. split; auto. discriminate.
Qed.

Lemma step_dfa_to_nfa st tr k : winv st tr -> S (ws_next st) < cap -> step_ok st tr (CDfaToNfa k).
Proof.
  intros W Hc. unfold step_ok. simpl wasm_step.
  destruct (dfa_lookup st tr k W) as [(d & E & L & V & K)|(E & K)]; rewrite E.
  - unfold push_nfa. rewrite gen_key_eq by auto. simpl. eexists. eexists. split; [reflexivity|].
    split; [|split; [|simpl; lia]].
    + apply winv_push_nfa; auto; try reflexivity; [apply C14_dfa_to_nfa; auto| |apply W].
      intros k' n'. simpl. split; intros [[E1 H]|[E1 H]].
      * left. injection E1 as E1. split; auto. destruct H as (d0 & L0 & ->).
        apply (wi_dfa _ _ W) in L0. congruence.
      * right. split; auto. congruence.
      * left. subst. split; auto. exists d; auto.
      * right. split; auto. congruence.
    + left. split; auto. exists (ws_next st). split; auto. apply fresh_next; auto.
  - eexists. eexists. split; [reflexivity|]. split; [|split; [right; auto|simpl; lia]].
    apply winv_same; auto; try reflexivity. intros k' d. simpl. split; [intros [[E1 _]|[_ H]]; [discriminate|auto]|].
    intros H. right. split; auto. discriminate.
Qed.
Lemma step_nfa_to_dfa st tr h k : winv st tr -> S (ws_next st) < cap -> step_ok st tr (CNfaToDfa h k).
Proof.
  intros W Hc. unfold step_ok. simpl wasm_step.
  destruct (nfa_lookup st tr k W) as [(n & E & L & V & K)|(E & K)]; rewrite E.
  - destruct (C15_nfa_to_dfa h n V) as (d & Ed & Vd & _). rewrite Ed. simpl.
    unfold push_dfa. rewrite gen_key_eq by auto. simpl. eexists. eexists. split; [reflexivity|].
    split; [|split; [|simpl; lia]].
    + apply winv_push_dfa; auto; try reflexivity.
      intros k' n'. simpl. split; intros [[E1 H]|[E1 H]].
      * left. injection E1 as E1. split; auto. destruct H as (d0 & L0 & Ed').
        apply (wi_nfa _ _ W) in L0. congruence.
      * right. split; auto. congruence.
      * left. subst. split; auto. exists n; auto.
      * right. split; auto. congruence.
    + left. split; auto. exists (ws_next st). split; auto. apply fresh_next; auto.
  - eexists. eexists. split; [reflexivity|]. split; [|split; [right; auto|simpl; lia]].
    apply winv_same; auto; try reflexivity. intros k' d. simpl. split; [intros [[E1 _]|[_ H]]; [discriminate|auto]|].
    intros H. right. split; auto. discriminate.
Qed.
Lemma step_regex_to_nfa st tr h k : winv st tr -> S (ws_next st) < cap -> step_ok st tr (CRegexToNfa h k).
Proof.
  intros W Hc. unfold step_ok. simpl wasm_step.
  destruct (regex_lookup st tr k W) as [(t & E & L & K)|(E & K)]; rewrite E.
  - unfold push_nfa. rewrite gen_key_eq by auto. simpl. eexists. eexists. split; [reflexivity|].
    split; [|split; [|simpl; lia]].
    + apply (winv_push_nfa st); auto; try reflexivity; [apply C36_valid| |].
      * intros k' n'. simpl. split; intros [[E1 H]|[E1 H]].
        -- left. injection E1 as E1. split; auto. destruct H as (t0 & L0 & ->).
           apply (wi_regex _ _ W) in L0. congruence.
        -- right. split; auto. congruence.
        -- left. subst. split; auto. exists t; auto.
        -- right. split; auto. congruence.
      * intros k' t'. rewrite hm_get_remove. simpl. rewrite <- (wi_regex _ _ W). destruct (Nat.eqb_spec k' k); intuition congruence.
    + left. split; auto. exists (ws_next st). split; auto. apply fresh_next; auto.
  - eexists. eexists. split; [reflexivity|]. split; [|split; [right; auto|simpl; lia]].
    rewrite hm_remove_unknown by auto. destruct st as [ds ns rs nx]; simpl in *.
    apply winv_same; auto; try reflexivity.
    + intros k' d. simpl. split; [intros [[E1 _]|[_ H]]; [discriminate|auto]|].
      intros H. right. split; auto. discriminate.
    + intros k' t. simpl. split; [tauto|]. intros L. split; auto. intros ->. apply K. exists t; auto.
Qed.

Lemma step_correct st tr c : winv st tr -> (creates c = true -> S (ws_next st) < cap) -> step_ok st tr c.
Proof.
  intros W Hc. destruct c.
  - apply step_regex_to_nfa; auto.
  - apply step_minimize; auto.
  - eexists. eexists. split; [reflexivity|]. split; [apply winv_same; auto; reflexivity|]. split; [|simpl; lia]. simpl.
    destruct (dfa_lookup st tr dfa W) as [(d & E & L & V & K)|(E & K)]; rewrite E; destruct canvas; simpl; [left| | |]; auto;
      right; intuition discriminate.
  - eexists. eexists. split; [reflexivity|]. split; [apply winv_same; auto; reflexivity|]. split; [|simpl; lia]. simpl.
    destruct (nfa_lookup st tr nfa W) as [(d & E & L & V & K)|(E & K)]; rewrite E; destruct canvas; simpl; [left| | |]; auto;
      right; intuition discriminate.
  - unfold step_ok. simpl wasm_step.
    destruct (dfa_lookup st tr dfa1 W) as [(d1 & E1 & L1 & V1 & K1)|(E1 & K1)]; rewrite E1.
    destruct (dfa_lookup st tr dfa2 W) as [(d2 & E2 & L2 & V2 & K2)|(E2 & K2)]; rewrite E2.
    + destruct (C12_dfa_equivalent_to d1 d2 V1 V2) as (b & Eb & Hb). rewrite Eb. simpl.
      eexists. eexists. split; [reflexivity|]. split; [apply winv_same; auto; reflexivity|]. split; [|simpl; lia].
      left. exists d1, d2, b. auto.
    + eexists. eexists. split; [reflexivity|]. split; [apply winv_same; auto; reflexivity|]. split; [|simpl; lia].
      right. tauto.
    + eexists. eexists. split; [reflexivity|]. split; [apply winv_same; auto; reflexivity|]. split; [|simpl; lia].
      right. tauto.
  - unfold step_ok. simpl wasm_step.
    destruct (nfa_lookup st tr nfa1 W) as [(d1 & E1 & L1 & V1 & K1)|(E1 & K1)]; rewrite E1.
    destruct (nfa_lookup st tr nfa2 W) as [(d2 & E2 & L2 & V2 & K2)|(E2 & K2)]; rewrite E2.
    + destruct (C13_nfa_equivalent_to d1 d2 V1 V2) as (b & Eb & Hb). rewrite Eb. simpl.
      eexists. eexists. split; [reflexivity|]. split; [apply winv_same; auto; reflexivity|]. split; [|simpl; lia].
      left. exists d1, d2, b. auto.
    + eexists. eexists. split; [reflexivity|]. split; [apply winv_same; auto; reflexivity|]. split; [|simpl; lia].
      right. tauto.
    + eexists. eexists. split; [reflexivity|]. split; [apply winv_same; auto; reflexivity|]. split; [|simpl; lia].
      right. tauto.
  - apply step_dfa_to_nfa; auto.
  - apply step_nfa_to_dfa; auto.
  - unfold step_ok. simpl wasm_step.
    destruct (dfa_lookup st tr dfa W) as [(d1 & E1 & L1 & V1 & K1)|(E1 & K1)]; rewrite E1.
    + destruct (dfa_table_aligned d1 arrow_str V1) as (u & _ & Hu & _). change (dfa_to_table d1 = Ret u) in Hu. rewrite Hu. simpl.
      eexists. eexists. split; [reflexivity|]. split; [apply winv_same; auto; reflexivity|]. split; [|simpl; lia].
      left. exists d1, u. auto.
    + eexists. eexists. split; [reflexivity|]. split; [apply winv_same; auto; reflexivity|]. split; [|simpl; lia].
      right. auto.
  - unfold step_ok. simpl wasm_step.
    destruct (nfa_lookup st tr nfa W) as [(d1 & E1 & L1 & V1 & K1)|(E1 & K1)]; rewrite E1.
    + destruct (nfa_table_aligned d1 eps_str arrow_str V1) as (u & _ & Hu & _). change (nfa_to_table d1 = Ret u) in Hu. rewrite Hu. simpl.
      eexists. eexists. split; [reflexivity|]. split; [apply winv_same; auto; reflexivity|]. split; [|simpl; lia].
      left. exists d1, u. auto.
    + eexists. eexists. split; [reflexivity|]. split; [apply winv_same; auto; reflexivity|]. split; [|simpl; lia].
      right. auto.
  - apply step_delete_regex; auto.
  - apply step_load_regex; auto.
  - apply step_delete_dfa; auto.
  - apply step_load_dfa; auto.
  - apply step_delete_nfa; auto.
  - apply step_load_nfa; auto.
Qed.

Definition count_creates (cs : list wasm_call) : nat := length (filter creates cs).

Lemma run_correct cs : forall st tr, winv st tr -> explained seg tr -> ws_next st + count_creates cs < cap ->
  exists st' rs, run st cs = Ret (st', rs) /\ length rs = length cs /\
    winv st' (session cs rs ++ tr) /\ explained seg (session cs rs ++ tr).
Proof.
  induction cs as [|c cs IH]; intros st tr W Ex Hc.
  - exists st, []. auto.
  - destruct (step_correct st tr c W) as (st1 & r & E & W1 & Ex1 & Hn).
    { intros Hcr. unfold count_creates in Hc. simpl in Hc. rewrite Hcr in Hc. simpl in Hc. lia. }
    destruct (IH st1 ((c, r) :: tr) W1) as (st2 & rs & E2 & Hl & W2 & Ex2).
    { simpl. auto. }
    { unfold count_creates in *. simpl in Hc. destruct (creates c); simpl in Hc; lia. }
    exists st2, (r :: rs). simpl. rewrite E. simpl. rewrite E2. simpl. split; auto. split; [auto|].
    unfold session in *. simpl. rewrite <- app_assoc. simpl. auto.
Qed.

(** ** Consequences about histories alone *)
Lemma expected_fresh tr c r k : expected seg tr c r -> handle_of r = Some k -> fresh_handle tr k.
Proof.
  intros H E. destruct c; simpl in H; unfold answers in H;
    repeat match goal with
           | H : _ \/ _ |- _ => destruct H
           | H : _ /\ _ |- _ => destruct H
           | H : exists _, _ |- _ => destruct H
           end; subst; simpl in E; try discriminate; injection E as <-; auto.
Qed.
Lemma explained_handles tr : explained seg tr -> NoDup (handles (map snd tr)) /\ ~ In 0 (handles (map snd tr)).
Proof.
  induction tr as [|[c r] tr IH]; simpl; [intros _; split; [constructor|auto]|]. intros [H Ex]. specialize (IH Ex) as [N Z].
  destruct (handle_of r) as [k|] eqn:E; simpl; auto. destruct (expected_fresh _ _ _ _ H E) as [K F]. split.
  - constructor; auto.
  - intros [-> |Hin]; auto.
Qed.

Lemma not_reissued tr c r k : expected seg tr c r -> issued tr k -> handle_of r <> Some k.
Proof. intros H I E. apply (expected_fresh _ _ _ _ H E). auto. Qed.

Lemma dfa_frame tr' : forall tr k d, explained seg (tr' ++ tr) -> issued tr k ->
  (forall e, In e tr' -> leaves_dfa k (fst e)) -> (live_dfa (tr' ++ tr) k d <-> live_dfa tr k d).
Proof.
  induction tr' as [|[c r] tr' IH]; intros tr k d Ex I Hl; [simpl; tauto|].
  simpl in Ex. destruct Ex as [H Ex]. rewrite <- (IH tr k d Ex I) by (intros; apply Hl; simpl; auto).
  assert (N : handle_of r <> Some k).
  { apply (not_reissued _ _ _ _ H). unfold issued, handles. rewrite map_app, flat_map_app. apply in_app_iff. right. exact I. }
  specialize (Hl (c, r) (or_introl eq_refl)). simpl in Hl. simpl app.
  destruct c; simpl in *; try tauto.
  - assert (k <> dfa) by congruence. tauto.
  - assert (r <> WHandle (Some k)) by (intros ->; simpl in N; congruence). tauto.
  - assert (k <> dfa) by congruence. tauto.
  - assert (r <> WLoad (Ok k)) by (intros ->; simpl in N; congruence). tauto.
Qed.
Lemma nfa_frame tr' : forall tr k d, explained seg (tr' ++ tr) -> issued tr k ->
  (forall e, In e tr' -> leaves_nfa k (fst e)) -> (live_nfa (tr' ++ tr) k d <-> live_nfa tr k d).
Proof.
  induction tr' as [|[c r] tr' IH]; intros tr k d Ex I Hl; [simpl; tauto|].
  simpl in Ex. destruct Ex as [H Ex]. rewrite <- (IH tr k d Ex I) by (intros; apply Hl; simpl; auto).
  assert (N : handle_of r <> Some k).
  { apply (not_reissued _ _ _ _ H). unfold issued, handles. rewrite map_app, flat_map_app. apply in_app_iff. right. exact I. }
  specialize (Hl (c, r) (or_introl eq_refl)). simpl in Hl. simpl app.
  destruct c; simpl in *; try tauto.
  - assert (r <> WHandle (Some k)) by (intros ->; simpl in N; congruence). tauto.
  - assert (r <> WHandle (Some k)) by (intros ->; simpl in N; congruence). tauto.
  - assert (k <> nfa) by congruence. tauto.
  - assert (r <> WLoad (Ok k)) by (intros ->; simpl in N; congruence). tauto.
Qed.
Lemma regex_frame tr' : forall tr k d, explained seg (tr' ++ tr) -> issued tr k ->
  (forall e, In e tr' -> leaves_regex k (fst e)) -> (live_regex (tr' ++ tr) k d <-> live_regex tr k d).
Proof.
  induction tr' as [|[c r] tr' IH]; intros tr k d Ex I Hl; [simpl; tauto|].
  simpl in Ex. destruct Ex as [H Ex]. rewrite <- (IH tr k d Ex I) by (intros; apply Hl; simpl; auto).
  assert (N : handle_of r <> Some k).
  { apply (not_reissued _ _ _ _ H). unfold issued, handles. rewrite map_app, flat_map_app. apply in_app_iff. right. exact I. }
  specialize (Hl (c, r) (or_introl eq_refl)). simpl in Hl. simpl app.
  destruct c; simpl in *; try tauto.
  - assert (k <> regex) by congruence. tauto.
  - assert (k <> regex) by congruence. tauto.
  - assert (r <> WLoad (Ok k)) by (intros ->; simpl in N; congruence). tauto.
Qed.

Lemma live_valid tr : (forall k d, live_dfa tr k d -> dfa_valid d) /\ (forall k n, live_nfa tr k n -> nfa_valid n).
Proof.
  induction tr as [|[c r] tr [I1 I2]]; [simpl; tauto|].
  split; intros k x H; destruct c; simpl in H; eauto.
  - destruct H as [[_ (d0 & L & M)]|[_ H]]; eauto. destruct (C21_minimize h dbg d0 (I1 _ _ L)) as (d1 & M1 & V1 & _). congruence.
  - destruct H as [[_ (n & L & M)]|[_ H]]; eauto. destruct (C15_nfa_to_dfa h n (I2 _ _ L)) as (d1 & M1 & V1 & _). congruence.
  - destruct H as [_ H]; eauto.
  - destruct H as [[_ H]|[_ H]]; eauto. eapply loads_dfa_valid; eauto.
  - destruct H as [[_ (t & L & ->)]|[_ H]]; eauto. apply C36_valid.
  - destruct H as [[_ (d & L & ->)]|[_ H]]; eauto. apply C14_dfa_to_nfa; eauto.
  - destruct H as [_ H]; eauto.
  - destruct H as [[_ H]|[_ H]]; eauto. eapply loads_nfa_valid; eauto.
Qed.
Lemma live_unique tr : (forall k d d', live_dfa tr k d -> live_dfa tr k d' -> d = d') /\
  (forall k n n', live_nfa tr k n -> live_nfa tr k n' -> n = n') /\
  (forall k t t', live_regex tr k t -> live_regex tr k t' -> t = t').
Proof.
  induction tr as [|[c r] tr (I1 & I2 & I3)]; [simpl; tauto|].
  repeat split; intros k x y H H'; destruct c; simpl in H, H';
    repeat match goal with
           | H : _ \/ _ |- _ => destruct H
           | H : _ /\ _ |- _ => destruct H
           | H : exists _, _ |- _ => destruct H
           end; subst; try congruence; eauto using loads_dfa_unique, loads_nfa_unique;
    match goal with
    | L : live_dfa tr ?k ?a, L' : live_dfa tr ?k ?b |- _ => pose proof (I1 _ _ _ L L'); congruence
    | L : live_nfa tr ?k ?a, L' : live_nfa tr ?k ?b |- _ => pose proof (I2 _ _ _ L L'); congruence
    | L : live_regex tr ?k ?a, L' : live_regex tr ?k ?b |- _ => pose proof (I3 _ _ _ L L'); congruence
    end.
Qed.

(** Minimizing changes neither the symbols nor the language: these are fixed for the whole life of a handle *)
Lemma dfa_language_fixed tr' : forall tr k d', explained seg (tr' ++ tr) -> issued tr k ->
  live_dfa (tr' ++ tr) k d' ->
  exists d, live_dfa tr k d /\ dfa_valid d' /\ dfa_alphabet d' = dfa_alphabet d /\ forall w, dfa_lang d' w <-> dfa_lang d w.
Proof.
  induction tr' as [|[c r] tr' IH]; intros tr k d' Ex I L.
  - exists d'. simpl in L. split; auto. split; [eapply live_valid; eauto|]. tauto.
  - simpl in Ex. destruct Ex as [H Ex].
    assert (N : handle_of r <> Some k).
    { apply (not_reissued _ _ _ _ H). unfold issued, handles. rewrite map_app, flat_map_app. apply in_app_iff. right. exact I. }
    simpl app in L. destruct c; simpl in L; try (apply IH; auto; tauto).
    + destruct L as [[-> (d0 & L & M)]|[_ L]]; [|apply IH; auto].
      destruct (IH tr dfa d0 Ex I L) as (d & Ld & V0 & A & HL).
      destruct (C21_minimize h dbg d0 V0) as (d1 & M1 & V1 & A1 & L1 & _). assert (d1 = d') as -> by congruence.
      exists d. split; auto. split; auto. split; [congruence|]. intros w. rewrite L1. auto.
    + destruct L as [[-> _]|[_ L]]; [exfalso; apply N; reflexivity|]. apply IH; auto.
    + destruct L as [[-> _]|[_ L]]; [exfalso; apply N; reflexivity|]. apply IH; auto.
Qed.

Lemma explained_app tr' : forall tr, explained seg (tr' ++ tr) -> explained seg tr.
Proof. induction tr' as [|[c r] tr' IH]; simpl; [auto|intros tr [_ H]; auto]. Qed.
End Proofs.

(** ** Running out of keys *)
Lemma run_app seg cap checks c1 : forall st c2,
  wasm_run seg cap checks st (c1 ++ c2) =
  ('(st, r1) <- wasm_run seg cap checks st c1 ;; '(st, r2) <- wasm_run seg cap checks st c2 ;; Ret (st, r1 ++ r2)).
Proof.
  induction c1 as [|c c1 IH]; intros st c2; simpl.
  - destruct (wasm_run seg cap checks st c2) as [[s r]| |]; reflexivity.
  - destruct (wasm_step seg cap checks st c) as [[s r]| |]; simpl; auto. rewrite IH.
    destruct (wasm_run seg cap checks s c1) as [[s1 r1]| |]; simpl; auto.
    destruct (wasm_run seg cap checks s1 c2) as [[s2 r2]| |]; reflexivity.
Qed.

Lemma load_step seg cap checks u t d st : parse_dfa u = Ret (Some t) -> dfa_try_from t = Ok d ->
  wasm_step seg cap checks st (CLoadDfa u) =
  ('(k, st) <- push_dfa cap checks d st ;; Ret (st, WLoad (Ok k))).
Proof. intros E1 E2. simpl. rewrite E1. simpl. rewrite E2. reflexivity. Qed.
Lemma load_repeat seg cap checks u t d m : parse_dfa u = Ret (Some t) -> dfa_try_from t = Ok d ->
  forall st, ws_next st + m < cap ->
  exists st' rs, wasm_run seg cap checks st (repeat (CLoadDfa u) m) = Ret (st', rs) /\ ws_next st' = ws_next st + m.
Proof.
  intros E1 E2. induction m as [|m IH]; intros st H; [exists st, []; simpl; split; auto; lia|].
  simpl repeat. cbn [wasm_run]. rewrite (load_step seg cap checks u t d st E1 E2). unfold push_dfa. rewrite gen_key_eq by lia. simpl.
  match goal with |- context [wasm_run _ _ _ ?s _] => destruct (IH s) as (st' & rs & E & Hn); [simpl; lia|] end.
  rewrite E. simpl. eexists. eexists. split; [reflexivity|]. simpl in Hn. lia.
Qed.
Lemma load_three seg cap u t d : parse_dfa u = Ret (Some t) -> dfa_try_from t = Ok d -> 3 <= cap -> forall st, S (ws_next st) = cap ->
  exists st', wasm_run seg cap false st [CLoadDfa u; CLoadDfa u; CLoadDfa u]
              = Ret (st', [WLoad (Ok (ws_next st)); WLoad (Ok 0); WLoad (Ok 1)]).
Proof.
  intros E1 E2 H st Hs. unfold wasm_run.
  rewrite (load_step seg cap false u t d st E1 E2). unfold push_dfa at 1, gen_key.
  replace (S (ws_next st) <? cap) with false by (symmetry; apply Nat.ltb_ge; lia). cbn [bind].
  rewrite (load_step seg cap false u t d _ E1 E2). unfold push_dfa at 1. rewrite gen_key_eq by (cbn [ws_next]; lia). cbn [bind].
  rewrite (load_step seg cap false u t d _ E1 E2). unfold push_dfa at 1. rewrite gen_key_eq by (cbn [ws_next]; lia). cbn [bind].
  eexists. reflexivity.
Qed.
(** without overflow checks the handle 1 is handed out twice, with them the session panics *)
Lemma wraparound seg cap u t d : parse_dfa u = Ret (Some t) -> dfa_try_from t = Ok d -> 3 <= cap ->
  exists st rs, wasm_run seg cap false wasm_init (repeat (CLoadDfa u) (S cap)) = Ret (st, rs) /\ ~ NoDup (handles rs).
Proof.
  intros E1 E2 H. replace (S cap) with (S ((cap - 3) + 3)) by lia. cbn [repeat wasm_run].
  rewrite (load_step seg cap false u t d wasm_init E1 E2). unfold push_dfa at 1. rewrite gen_key_eq by (simpl; lia). simpl bind.
  rewrite repeat_app.
  rewrite run_app.
  match goal with |- context [wasm_run _ _ _ ?s _] => destruct (load_repeat seg cap false u t d (cap - 3) E1 E2 s) as (st2 & r2 & R2 & N2); [simpl; lia|] end.
  destruct (load_three seg cap u t d E1 E2 H st2) as (st3 & R3); [simpl in N2; lia|].
  rewrite R2. cbn [bind]. change (repeat (CLoadDfa u) 3) with [CLoadDfa u; CLoadDfa u; CLoadDfa u]. rewrite R3. cbn [bind].
  eexists. eexists. split; [reflexivity|]. simpl. intros HN. inversion HN as [|? ? HN1 HN2]; subst. apply HN1.
  unfold handles. rewrite flat_map_app. apply in_app_iff. right. simpl. auto.
Qed.
Lemma overflow_panics seg cap u t d : parse_dfa u = Ret (Some t) -> dfa_try_from t = Ok d -> 2 <= cap ->
  wasm_run seg cap true wasm_init (repeat (CLoadDfa u) (cap - 1)) = Panic.
Proof.
  intros E1 E2 H. replace (cap - 1) with ((cap - 2) + 1) by lia. rewrite repeat_app, run_app.
  destruct (load_repeat seg cap true u t d (cap - 2) E1 E2 wasm_init) as (st1 & r1 & R1 & N1); [simpl; lia|].
  rewrite R1. cbn [bind repeat]. unfold wasm_run. rewrite (load_step seg cap true u t d _ E1 E2). unfold push_dfa, gen_key. simpl in N1.
  replace (S (ws_next st1) <? cap) with false by (symmetry; apply Nat.ltb_ge; lia). reflexivity.
Qed.
