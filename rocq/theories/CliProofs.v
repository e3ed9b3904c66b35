(** * CliProofs: the commands of dandy-cli report what CliSpec asks for *)
From Coq Require Import Ascii String List NArith Arith Bool Lia Sorted.
From Verif Require Import Base BaseLemmas Spec TableSpec LayoutSpec DfaModel NfaModel WordsModel RegexModel ValidateModel ParserModel
  TableModel RegexParserModel ApiModel Messages MessageSpec WasmModel WasmSpec CliModel CliSpec ParserBasics FaParserProofs ValidateProofs TableAlign
  RegexParserProofs ApiProofs WordsProofs WasmProofs DfaBasics Prop_Dfa Prop_Nfa Prop_Regex Prop_Validate Prop_Words Prop_RegexParser
  Prop_Table.
Import ListNotations.
Close Scope string_scope.
Open Scope list_scope.

(** ** Texts *)
Definition a_valid (a : automata) : Prop :=
  match a with ADfa d => dfa_valid d | ANfa n => nfa_valid n | ARegex _ => True end.

Lemma reads_valid seg ty u a : reads seg ty u a -> a_valid a.
Proof.
  destruct ty, a; simpl; try tauto; [apply loads_dfa_valid|apply loads_nfa_valid].
Qed.
Lemma reads_unique seg ty u a b : reads seg ty u a -> reads seg ty u b -> a = b.
Proof.
  destruct ty, a, b; simpl; try tauto; intros H1 H2.
  - f_equal. eapply loads_dfa_unique; eauto.
  - f_equal. eapply loads_nfa_unique; eauto.
  - congruence.
Qed.
Lemma reads_parses seg ty u a : reads seg ty u a -> text_parses seg ty u.
Proof.
  destruct ty, a; simpl; try tauto; [intros (t & H & _); eauto|intros (t & H & _); eauto|eauto].
Qed.
Lemma reads_no_defect seg ty u a e : reads seg ty u a -> ~ text_defect ty u e.
Proof.
  destruct ty, a; simpl; try tauto.
  - intros (t & T & W & D) (t' & T' & X). rewrite (dfa_text_unique _ _ _ T' T) in X.
    destruct (C08_dfa_defect_rejected _ _ X) as (e' & E). destruct (proj2 (C06_dfa_accepted_iff_well_formed t) W) as (d' & E'). congruence.
  - intros (t & T & W & D) (t' & T' & X). rewrite (nfa_text_unique _ _ _ T' T) in X.
    destruct (C08_nfa_defect_rejected _ _ X) as (e' & E). destruct (proj2 (C07_nfa_accepted_iff_well_formed t) W) as (d' & E'). congruence.
Qed.

(** What the three parsers do with a text *)
Lemma dfa_cases seg u :
  (parse_dfa u = Ret None /\ ~ text_parses seg TDfa u) \/
  (exists t e, parse_dfa u = Ret (Some t) /\ dfa_try_from t = Err e /\ text_defect TDfa u e) \/
  (exists t d, parse_dfa u = Ret (Some t) /\ dfa_try_from t = Ok d /\ reads seg TDfa u (ADfa d)).
Proof.
  destruct (parse_dfa_total u) as (o & Eo). destruct o as [t|].
  - right. pose proof Eo as T. apply parse_dfa_iff in T. destruct (dfa_try_from t) as [d|e] eqn:Ed.
    + right. exists t, d. split; auto. split; auto. exists t. split; auto.
      assert (WF : dfa_well_formed t) by (apply C06_dfa_accepted_iff_well_formed; eauto).
      split; auto. apply C06_dfa_faithful; auto.
    + left. exists t, e. split; auto. split; auto. exists t. split; auto. apply C08_dfa_error_is_real; auto.
  - left. split; auto. intros (t & T). apply parse_dfa_iff in T. congruence.
Qed.
Lemma nfa_cases seg u :
  (parse_nfa u = Ret None /\ ~ text_parses seg TNfa u) \/
  (exists t e, parse_nfa u = Ret (Some t) /\ nfa_try_from t = Err e /\ text_defect TNfa u e) \/
  (exists t n, parse_nfa u = Ret (Some t) /\ nfa_try_from t = Ok n /\ reads seg TNfa u (ANfa n)).
Proof.
  destruct (parse_nfa_total u) as (o & Eo). destruct o as [t|].
  - right. pose proof Eo as T. apply parse_nfa_iff in T. destruct (nfa_try_from t) as [d|e] eqn:Ed.
    + right. exists t, d. split; auto. split; auto. exists t. split; auto.
      assert (WF : nfa_well_formed t) by (apply C07_nfa_accepted_iff_well_formed; eauto).
      split; auto. apply C07_nfa_faithful; auto.
    + left. exists t, e. split; auto. split; auto. exists t. split; auto. apply C08_nfa_error_is_real; auto.
  - left. split; auto. intros (t & T). apply parse_nfa_iff in T. congruence.
Qed.
Lemma regex_cases seg u :
  (parse_regex seg u = Ret None /\ ~ text_parses seg TRegex u) \/
  (exists t, parse_regex seg u = Ret (Some t) /\ reads seg TRegex u (ARegex t)).
Proof.
  destruct (parse_regex_total seg u) as (o & Eo). destruct o as [t|].
  - right. exists t. auto.
  - left. split; auto. intros (t & T). congruence.
Qed.

#[local] Hint Resolve error_text_describes : core.
Lemma load_file_spec env path ty :
  (exists a, load_file env path ty = Ret (Ok a) /\ loads env path ty a) \/
  (exists m, load_file env path ty = Ret (Err m) /\ load_error env path ty m).
Proof.
  unfold load_file, loads, load_error. destruct (ce_read env path) as [u|e] eqn:Er; [|right; eauto].
  destruct ty; simpl cli_load.
  - destruct (dfa_cases (ce_seg env) u) as [[E H]|[(t & e & E & E' & H)|(t & d & E & E' & H)]]; rewrite E; cbn [bind].
    + right. eexists. split; [reflexivity|]. left. auto.
    + rewrite E'. right. eexists. split; [reflexivity|]. right. exists e, (error_text e). auto.
    + rewrite E'. left. exists (ADfa d). split; auto. exists u. auto.
  - destruct (nfa_cases (ce_seg env) u) as [[E H]|[(t & e & E & E' & H)|(t & d & E & E' & H)]]; rewrite E; cbn [bind].
    + right. eexists. split; [reflexivity|]. left. auto.
    + rewrite E'. right. eexists. split; [reflexivity|]. right. exists e, (error_text e). auto.
    + rewrite E'. left. exists (ANfa d). split; auto. exists u. auto.
  - destruct (regex_cases (ce_seg env) u) as [[E H]|(t & E & H)]; rewrite E; cbn [bind].
    + right. eexists. split; [reflexivity|]. left. auto.
    + left. exists (ARegex t). split; auto. exists u. auto.
Qed.

Lemma loads_valid env path ty a : loads env path ty a -> a_valid a.
Proof. intros (u & _ & H). eapply reads_valid; eauto. Qed.

(** names of states in tables can be printed in tables *)
Definition a_names (a : automata) : Prop := match a with ADfa d => dnames_legal d | _ => True end.
Lemma loads_names env path ty a : loads env path ty a -> a_names a.
Proof.
  intros (u & _ & H). destruct ty, a; simpl in *; auto; try contradiction. destruct H as (t & H1 & _ & H2).
  eapply dfa_text_legal; eauto.
Qed.
Lemma loads_alphabet_legal env path ty a : loads env path ty a -> ty <> TRegex -> Forall legal_token (a_alphabet a).
Proof.
  intros (u & _ & H) Ht. destruct ty, a; simpl in *; try contradiction; destruct H as (t & H1 & _ & H2).
  - eapply dfa_text_legal; eauto.
  - eapply nfa_text_legal; eauto.
Qed.
Lemma table_loads d table : dfa_valid d -> dfa_to_table d = Ret table -> dnames_legal d -> dfa_alphabet d <> [] ->
  Forall legal_token (dfa_alphabet d) -> loads_dfa table d.
Proof.
  intros V E N A L. destruct (C09_dfa_to_table_roundtrip d V A L N) as (u & p & E1 & E2 & E3). rewrite E in E1. injection E1 as <-.
  exists p. apply parse_dfa_iff in E2. split; auto.
  assert (WF : dfa_well_formed p) by (apply C06_dfa_accepted_iff_well_formed; eauto). split; auto. apply C06_dfa_faithful; auto.
Qed.

(** ** Running commands *)
Definition prep {A} (ev : list event) (m : Cmd A) : Cmd A := '(ev', r') <- m ;; Ret (ev ++ ev', r').
Lemma cbind_Ok {A B} ev (a : A) (f : A -> Cmd B) : cbind (Ret (ev, Ok a)) f = prep ev (f a). Proof. reflexivity. Qed.
Lemma cbind_Err {A B} ev e (f : A -> Cmd B) : cbind (Ret (ev, Err e)) f = Ret (ev, Err e). Proof. reflexivity. Qed.
Lemma prep_Ret {A} ev ev' (r : result A str) : prep ev (Ret (ev', r)) = Ret (ev ++ ev', r). Proof. reflexivity. Qed.
Lemma lift_Ret {A} (a : A) : lift (Ret a) = Ret ([], Ok a). Proof. reflexivity. Qed.
Lemma lift_result_Ret {A} (r : result A str) : lift_result (Ret r) = Ret ([], r). Proof. reflexivity. Qed.
Lemma tell_eq ev : tell ev = Ret (ev, Ok tt). Proof. reflexivity. Qed.
Lemma cret_eq {A} (a : A) : cret a = Ret ([], Ok a). Proof. reflexivity. Qed.
Lemma cfail_eq {A} e : @cfail A e = Ret ([], Err e). Proof. reflexivity. Qed.
Lemma map_err_Ok {A} f (a : A) : map_err f (Ret (Ok a)) = Ret (Ok a). Proof. reflexivity. Qed.
Lemma map_err_Err {A} f e : @map_err A f (Ret (Err e)) = Ret (Err (f e)). Proof. reflexivity. Qed.
Ltac cmd := repeat (rewrite ?tell_eq, ?cret_eq, ?cfail_eq, ?lift_Ret, ?map_err_Ok, ?map_err_Err, ?lift_result_Ret, ?cbind_Ok, ?cbind_Err, ?prep_Ret;
                    cbn beta iota).

(** ** Conversions *)
Lemma into_dfa_spec hs a : a_valid a ->
  exists d c, into_dfa hs a = Ret (d, c) /\ dfa_valid d /\ dfa_alphabet d = a_alphabet a /\
              (forall w, dfa_lang d w <-> a_lang a w) /\ (c = false -> a = ADfa d) /\ (a_names a -> dnames_legal d).
Proof.
  destruct a as [d|n|t]; simpl; intros V.
  - exists d, false. split; auto. split; auto. split; auto. split; [reflexivity|auto].
  - destruct (C15_nfa_to_dfa (hs [0]) n V) as (d & E & V' & A & _ & _ & _ & L). rewrite E. exists d, true. cbn [bind].
    split; auto. split; auto. split; auto. split; auto. split; [discriminate|]. intros _. eapply nfa_to_dfa_legal; [|exact E]. auto.
  - destruct (C15_nfa_to_dfa (hs [0]) _ (C36_valid (hs [1]) t)) as (d & E & V' & A & _ & _ & _ & L). rewrite E. exists d, true. cbn [bind].
    split; auto. split; auto. split; [rewrite A; apply C36_alphabet|]. split; [|split; [discriminate|]].
    + intros w. rewrite L. apply C36_regex_to_nfa.
    + intros _. eapply nfa_to_dfa_legal; [|exact E]. apply C36_valid.
Qed.
Lemma into_nfa_spec hs a : a_valid a ->
  exists n c, into_nfa hs a = (n, c) /\ nfa_valid n /\ nfa_alphabet n = a_alphabet a /\ (forall w, nfa_lang n w <-> a_lang a w).
Proof.
  destruct a as [d|n|t]; simpl; intros V.
  - destruct (C14_dfa_to_nfa d V) as (V' & _ & A & _ & _ & _ & _ & _ & L). do 2 eexists. split; [reflexivity|]. auto.
  - do 2 eexists. split; [reflexivity|]. split; auto. split; auto. reflexivity.
  - do 2 eexists. split; [reflexivity|]. split; [apply C36_valid|]. split; [apply C36_alphabet|]. intros w. apply C36_regex_to_nfa.
Qed.

Lemma minimize_spec h dbg d : dfa_valid d ->
  exists d', dfa_minimize h dbg d = Ret d' /\ dfa_valid d' /\ dfa_alphabet d' = dfa_alphabet d /\
    (forall w, dfa_lang d' w <-> dfa_lang d w) /\ minimal d' /\ (dnames_legal d -> dnames_legal d').
Proof.
  intros V. destruct (C21_minimize h dbg d V) as (d' & E & V' & A & L & _ & M). exists d'. split; auto. split; auto. split; auto.
  split; auto. split; [|eapply dfa_minimize_legal; eauto]. intros d2 V2 A2 L2. apply M; auto.
  - rewrite <- A. auto.
  - intros w. rewrite L2. auto.
Qed.

Lemma same_meaning_refl a : same_meaning a a.
Proof. split; [intros x|intros w]; reflexivity. Qed.
Lemma same_meaning_sym a b : same_meaning a b -> same_meaning b a.
Proof. intros [H1 H2]. split; [intros x; symmetry; apply H1|intros w; symmetry; apply H2]. Qed.
Lemma same_meaning_trans a b c : same_meaning a b -> same_meaning b c -> same_meaning a c.
Proof. intros [H1 H2] [H3 H4]. split; [intros x; rewrite (H1 x); apply H3|intros w; rewrite H2; apply H4]. Qed.
Lemma same_meaning_eq a b : a_alphabet a = a_alphabet b -> (forall w, a_lang a w <-> a_lang b w) -> same_meaning a b.
Proof. intros E H. split; auto. intros x. rewrite E. reflexivity. Qed.

Lemma minimal_same d d' : dfa_valid d -> dfa_valid d' -> same_meaning (ADfa d) (ADfa d') -> minimal d ->
  (minimal d' <-> length (dfa_states d) = length (dfa_states d')).
Proof.
  intros V V' [HA HL] M. simpl in HA, HL. split; intros H.
  - apply Nat.le_antisymm.
    + apply M; auto; [intros x; symmetry; apply HA|intros w; symmetry; apply HL].
    + apply H; auto.
  - intros d2 V2 A2 L2. rewrite <- H. apply M; auto.
    + intros x. rewrite (A2 x). symmetry. apply HA.
    + intros w. rewrite L2. symmetry. apply HL.
Qed.

(** ** Comparing *)
Lemma test_dfa_spec hs d a m : dfa_valid d -> a_valid a -> (m = true -> exists d', a = ADfa d') ->
  exists v, test_equivalence hs (ADfa d) a m = Ret ([], v) /\
    match v with
    | Equivalent => same_meaning (ADfa d) a /\
                    (m = true -> exists d', a = ADfa d' /\ length (dfa_states d) = length (dfa_states d'))
    | NotMinimized => m = true /\ same_meaning (ADfa d) a /\ exists d', a = ADfa d' /\ length (dfa_states d) <> length (dfa_states d')
    | NotEquivalent => ~ same_meaning (ADfa d) a
    | _ => False
    end.
Proof.
  intros V Va Hm. destruct a as [d'|n|t].
  - unfold test_equivalence. simpl. destruct (C12_dfa_equivalent_to d d' V Va) as (b & -> & Hb). cbn [bind].
    eexists. split; [reflexivity|]. destruct b.
    + assert (S : same_meaning (ADfa d) (ADfa d')) by (apply Hb; auto).
      destruct m; simpl.
      * destruct (Nat.eqb_spec (length (dfa_states d)) (length (dfa_states d'))) as [E|E]; simpl.
        -- split; auto. intros _. exists d'. auto.
        -- split; auto. split; auto. exists d'. auto.
      * split; auto. discriminate.
    + intros H. apply Hb in H. discriminate.
  - unfold test_equivalence. cbn [get_type borrow_dfa unwrap bind].
    destruct (into_dfa_spec (fork hs 0) (ANfa n) Va) as (d' & c & -> & V' & A & L & _). cbn [bind].
    destruct (C12_dfa_equivalent_to d d' V V') as (b & -> & Hb). cbn [bind].
    assert (m = false) as -> by (destruct m; auto; destruct (Hm eq_refl); discriminate).
    assert (S : same_meaning (ADfa d') (ANfa n)) by (apply same_meaning_eq; auto).
    eexists. split; [reflexivity|]. destruct b.
    + split; [|discriminate]. eapply same_meaning_trans; eauto. apply Hb; auto.
    + intros H. assert (false = true); [|discriminate]. apply Hb. apply (same_meaning_trans _ _ _ H (same_meaning_sym _ _ S)).
  - unfold test_equivalence. cbn [get_type borrow_dfa unwrap bind].
    destruct (into_dfa_spec (fork hs 0) (ARegex t) Va) as (d' & c & -> & V' & A & L & _). cbn [bind].
    destruct (C12_dfa_equivalent_to d d' V V') as (b & -> & Hb). cbn [bind].
    assert (m = false) as -> by (destruct m; auto; destruct (Hm eq_refl); discriminate).
    assert (S : same_meaning (ADfa d') (ARegex t)) by (apply same_meaning_eq; auto).
    eexists. split; [reflexivity|]. destruct b.
    + split; [|discriminate]. eapply same_meaning_trans; eauto. apply Hb; auto.
    + intros H. assert (false = true); [|discriminate]. apply Hb. apply (same_meaning_trans _ _ _ H (same_meaning_sym _ _ S)).
Qed.

Lemma test_nfa_spec hs n a : nfa_valid n -> a_valid a ->
  exists b : bool, test_equivalence hs (ANfa n) a false = Ret ([], if b then Equivalent else NotEquivalent) /\
                   (b = true <-> same_meaning (ANfa n) a).
Proof.
  intros V Va. assert (E : test_equivalence hs (ANfa n) a false =
     (let '(nfa2, _) := into_nfa (fork hs 0) a in
      b <- nfa_equivalent_to n nfa2 ;; Ret (warn_minimized_check_type false a, if b then Equivalent else NotEquivalent)))
    by (destruct a; reflexivity).
  rewrite E. clear E.
  destruct (into_nfa_spec (fork hs 0) a Va) as (n2 & c & -> & V2 & A & L).
  destruct (C13_nfa_equivalent_to n n2 V V2) as (b & -> & Hb). cbn [bind].
  exists b. split.
  - f_equal. f_equal. destruct a; reflexivity.
  - rewrite Hb, A. split; intros [H1 H2]; (split; [exact H1|]); intros w; rewrite (H2 w); rewrite L; reflexivity.
Qed.

(** ** dandy equivalence *)
Lemma tester_load_spec env hs u ty :
  (exists a a0, tester_load env hs u ty = Ret (Ok a) /\ a_valid a /\ reads (ce_seg env) ty u a0 /\ same_meaning a0 a) \/
  (exists m, tester_load env hs u ty = Ret (Err m) /\ input_error env ty u m).
Proof.
  unfold input_error. destruct ty; simpl tester_load.
  - destruct (dfa_cases (ce_seg env) u) as [[E H]|[(t & e & E & E' & H)|(t & d & E & E' & H)]]; rewrite E; cbn [bind].
    + right. eexists. split; [reflexivity|]. left. auto.
    + rewrite E'. right. eexists. split; [reflexivity|]. right. exists e, (error_text e). auto.
    + rewrite E'. left. exists (ADfa d), (ADfa d). split; auto. split; [eapply reads_valid; eauto|]. split; auto. apply same_meaning_refl.
  - destruct (nfa_cases (ce_seg env) u) as [[E H]|[(t & e & E & E' & H)|(t & d & E & E' & H)]]; rewrite E; cbn [bind].
    + right. eexists. split; [reflexivity|]. left. auto.
    + rewrite E'. right. eexists. split; [reflexivity|]. right. exists e, (error_text e). auto.
    + rewrite E'. left. exists (ANfa d), (ANfa d). split; auto. split; [eapply reads_valid; eauto|]. split; auto. apply same_meaning_refl.
  - destruct (regex_cases (ce_seg env) u) as [[E H]|(t & E & H)]; rewrite E; cbn [bind].
    + right. eexists. split; [reflexivity|]. left. auto.
    + left. destruct (into_dfa_spec hs (ARegex t) I) as (d & c & Ed & V & A & L & _). simpl in Ed.
      destruct (nfa_to_dfa (hs [0]) (regex_to_nfa (hs [1]) t)) as [d'| |]; try discriminate. injection Ed as -> _. cbn [bind].
      exists (ADfa d), (ARegex t). split; auto. split; auto. split; auto. apply same_meaning_sym, same_meaning_eq; auto.
Qed.

(** The tester: an automaton of the right type that means the same as the input, minimal if this matters *)
Record tester_ok (args : equivalence_args) (a0 : automata) (t : dandy_tester) : Prop := {
  to_type : dt_test_type t = ea_type args;
  to_min : dt_minimized t = ea_minimized args;
  to_valid : a_valid (dt_input t);
  to_same : same_meaning a0 (dt_input t);
  to_dfa : ea_type args = TDfa -> exists d, dt_input t = ADfa d /\ (ea_minimized args = true -> minimal d);
  to_nfa : ea_type args <> TDfa -> exists n, dt_input t = ANfa n
}.

Definition in_type (args : equivalence_args) : automata_type := match ea_in_type args with Some t => t | None => ea_type args end.

Lemma tester_new_spec env hs u args :
  (exists m, tester_new env hs u args = Ret ([], Err m) /\ input_error env (in_type args) u m) \/
  (exists a0, reads (ce_seg env) (in_type args) u a0 /\ ea_minimized args = true /\ ea_type args <> TDfa /\
     tester_new env hs u args = Ret ([], Err (of_string "--minimized option can only be used when testing DFAs"))) \/
  (exists a0 t, reads (ce_seg env) (in_type args) u a0 /\ (ea_minimized args = true -> ea_type args = TDfa) /\
     tester_new env hs u args = Ret ([], Ok t) /\ tester_ok args a0 t).
Proof.
  unfold tester_new. fold (in_type args).
  destruct (tester_load_spec env (fork hs 0) u (in_type args)) as [(a & a0 & E & V & Rd & S)|(m & E & H)];
    unfold lift_result; rewrite E; cbn [bind cbind].
  2: { left. eexists. split; [reflexivity|auto]. }
  right. destruct (ea_minimized args) eqn:Em.
  - destruct (ea_type args) eqn:Et; cbn [type_eqb].
    2,3: left; exists a0; split; [auto|]; split; [auto|]; split; [discriminate|reflexivity].
    right. exists a0. unfold into_minimized_dfa_automata, into_minimized_dfa.
    destruct (into_dfa_spec (fork (fork hs 1) 0) a V) as (d & c & -> & Vd & A & L & _). cbn [bind].
    destruct (minimize_spec (fork hs 1 [1]) (ce_dbg env) d Vd) as (d' & E' & V' & A' & L' & M & _). unfold fork at 1 in E'.
    change (fork hs 1 [1]) with (hs [1; 1]) in *. rewrite E'. cbn [bind lift cbind cret].
    eexists. split; [auto|]. split; [auto|]. split; [reflexivity|]. constructor; simpl; auto.
    + apply (same_meaning_trans _ _ _ S), same_meaning_sym, same_meaning_eq; simpl; [congruence|].
      intros w. rewrite L'. auto.
    + intros _. exists d'. auto.
    + congruence.
  - right. exists a0. cbn [cret cbind bind].
    destruct (ea_type args) eqn:Et; unfold prepare_to_compare_with.
    + unfold into_dfa_automata. destruct (into_dfa_spec (fork hs 2) a V) as (d & c & -> & Vd & A & L & _).
      cbn [bind lift cbind cret]. eexists. split; [auto|]. split; [discriminate|]. split; [reflexivity|]. constructor; simpl; auto.
      * apply (same_meaning_trans _ _ _ S), same_meaning_sym, same_meaning_eq; simpl; auto.
      * intros _. exists d. split; auto. congruence.
      * congruence.
    + unfold into_to_nfa_automata. destruct (into_nfa_spec (fork hs 2) a V) as (n & c & -> & Vn & A & L).
      cbn [bind lift cbind cret]. eexists. split; [auto|]. split; [discriminate|]. split; [reflexivity|]. constructor; simpl; auto.
      * apply (same_meaning_trans _ _ _ S), same_meaning_sym, same_meaning_eq; simpl; auto.
      * congruence.
      * intros _. exists n. auto.
    + unfold into_to_nfa_automata. destruct (into_nfa_spec (fork hs 2) a V) as (n & c & -> & Vn & A & L).
      cbn [bind lift cbind cret]. eexists. split; [auto|]. split; [discriminate|]. split; [reflexivity|]. constructor; simpl; auto.
      * apply (same_meaning_trans _ _ _ S), same_meaning_sym, same_meaning_eq; simpl; auto.
      * congruence.
      * intros _. exists n. auto.
Qed.

Lemma load_test_spec env hs u ty :
  (exists a0 a, load_test env hs u ty = Ret (Ok a) /\ reads (ce_seg env) ty u a0 /\ a_valid a /\ same_meaning a0 a /\
                (ty = TDfa -> a = a0 /\ exists d, a = ADfa d) /\ (ty <> TDfa -> exists n, a = ANfa n)) \/
  (~ text_parses (ce_seg env) ty u /\ load_test env hs u ty = Ret (Err (FailedToParse (ce_nom_display env ty u)))) \/
  (exists e, text_defect ty u e /\ load_test env hs u ty = Ret (Err (FailedToValidate (error_text e)))).
Proof.
  destruct ty; simpl load_test.
  - destruct (dfa_cases (ce_seg env) u) as [[E H]|[(t & e & E & E' & H)|(t & d & E & E' & H)]]; rewrite E; cbn [bind].
    + right. left. auto.
    + rewrite E'. right. right. exists e. auto.
    + rewrite E'. left. exists (ADfa d), (ADfa d). split; auto. split; auto. split; [eapply reads_valid; eauto|].
      split; [apply same_meaning_refl|]. split; [eauto|congruence].
  - destruct (nfa_cases (ce_seg env) u) as [[E H]|[(t & e & E & E' & H)|(t & d & E & E' & H)]]; rewrite E; cbn [bind].
    + right. left. auto.
    + rewrite E'. right. right. exists e. auto.
    + rewrite E'. left. exists (ANfa d), (ANfa d). split; auto. split; auto. split; [eapply reads_valid; eauto|].
      split; [apply same_meaning_refl|]. split; [congruence|eauto].
  - destruct (regex_cases (ce_seg env) u) as [[E H]|(t & E & H)]; rewrite E; cbn [bind].
    + right. left. auto.
    + left. exists (ARegex t), (ANfa (regex_to_nfa (hs [0]) t)). split; auto. split; auto. split; [apply C36_valid|].
      split; [|split; [congruence|eauto]]. apply same_meaning_eq; simpl; [symmetry; apply C36_alphabet|].
      intros w. symmetry. apply C36_regex_to_nfa.
Qed.

Lemma tester_test_spec env hs args a0 t file : (ea_minimized args = true -> ea_type args = TDfa) -> tester_ok args a0 t ->
  exists v, tester_test env hs t file = Ret ([], v) /\ verdict env args a0 file v.
Proof.
  intros Hm T. unfold tester_test, verdict. destruct (ce_read env file) as [u|e]; [|eauto].
  rewrite (to_type _ _ _ T).
  destruct (load_test_spec env (fork hs 0) u (ea_type args)) as [(b0 & b & E & Rd & V & S & Hd & Hn)|[[H E]|(e & H & E)]];
    rewrite E; cbn [bind].
  2: { eexists. split; [reflexivity|split; auto]. }
  2: { eexists. split; [reflexivity|]. exists e. auto. }
  rewrite (to_min _ _ _ T).
  pose proof (to_same _ _ _ T) as S0. pose proof (to_valid _ _ _ T) as V0.
  assert (SS : same_meaning (dt_input t) b <-> same_meaning a0 b0).
  { split; intros X.
    - apply (same_meaning_trans _ _ _ S0). apply (same_meaning_trans _ _ _ X). apply same_meaning_sym; auto.
    - apply (same_meaning_trans _ _ _ (same_meaning_sym _ _ S0)). apply (same_meaning_trans _ _ _ X). auto. }
  assert (Ht : ea_type args = TDfa \/ ea_type args <> TDfa) by (destruct (ea_type args); auto; right; discriminate).
  destruct Ht as [Et|Et].
  - destruct (Hd Et) as (-> & d' & ->). clear Hd Hn. destruct (to_dfa _ _ _ T Et) as (d & Ed & Md). rewrite Ed in *.
    destruct (test_dfa_spec (fork hs 1) d (ADfa d') (ea_minimized args) V0 V) as (v & -> & Hv); [eauto|].
    exists v. split; auto. simpl in V0, V. destruct v; try contradiction.
    + exists (ADfa d'). split; auto. rewrite <- SS. auto.
    + destruct Hv as (Em & Hs & d2 & [= <-] & Hl). split; auto. exists d'. split; auto. split; [apply SS; auto|].
      intros Hmin. apply Hl. apply (minimal_same d d'); auto.
    + destruct Hv as (Hs & Hl). exists (ADfa d'). split; auto. split; [apply SS; auto|]. intros Em.
      destruct (Hl Em) as (d2 & [= <-] & Hl'). exists d'. split; auto. apply (minimal_same d d'); auto.
  - destruct (to_nfa _ _ _ T Et) as (n & En). rewrite En in *.
    assert (Em : ea_minimized args = false) by (destruct (ea_minimized args); auto; exfalso; auto). rewrite Em.
    destruct (test_nfa_spec (fork hs 1) n b V0 V) as (x & -> & Hx). eexists. split; [reflexivity|]. destruct x.
    + exists b0. split; auto. split; [apply SS, Hx; auto|discriminate].
    + exists b0. split; auto. rewrite <- SS. rewrite <- Hx. discriminate.
Qed.

Lemma test_all_spec env args a0 t : (ea_minimized args = true -> ea_type args = TDfa) -> tester_ok args a0 t ->
  forall files hs, exists vs, test_all env hs t files = Ret ([], combine files vs) /\ Forall2 (verdict env args a0) files vs.
Proof.
  intros Hm T. induction files as [|f fs IH]; intros hs; simpl.
  - exists []. split; auto.
  - destruct (tester_test_spec env (fork hs 0) args a0 t f Hm T) as (v & -> & Hv). cbn [bind].
    destruct (IH (fork hs 1)) as (vs & -> & Hvs). cbn [bind]. exists (v :: vs). split; auto.
Qed.

Lemma automata_table_total a : a_valid a -> exists u, automata_table a = Ret u.
Proof.
  destruct a as [d|n|t]; simpl; intros V; [| |eauto].
  - destruct (C49_dfa_tables_aligned d V) as ((u & _ & E & _) & _). eauto.
  - destruct (C49_nfa_tables_aligned n V) as ((u & _ & E & _) & _). eauto.
Qed.

Lemma outs_app a b : outs (a ++ b) = outs a ++ outs b. Proof. apply flat_map_app. Qed.
Lemma warns_app a b : warns (a ++ b) = warns a ++ warns b. Proof. apply flat_map_app. Qed.
Lemma log_lines_app a b : log_lines (a ++ b) = log_lines a ++ log_lines b. Proof. apply flat_map_app. Qed.
Lemma outs_logs env s : outs (logs env s) = []. Proof. unfold logs. destruct (ce_log env); reflexivity. Qed.
Lemma warns_logs env s : warns (logs env s) = []. Proof. unfold logs. destruct (ce_log env); reflexivity. Qed.
Lemma outs_map {A} (f : A -> str) l : outs (map (fun x => Out (f x)) l) = map f l.
Proof. induction l; simpl; [auto|f_equal; auto]. Qed.
Lemma warns_map {A} (f : A -> str) l : warns (map (fun x => Out (f x)) l) = [].
Proof. induction l; simpl; auto. Qed.

Lemma passes_count {A} (l : list A) : forall vs, length l = length vs ->
  passes vs (length (filter (fun '(_, r) => is_equivalent r) (combine l vs))).
Proof.
  induction l as [|x l IH]; intros [|v vs] H; try discriminate; simpl; [constructor|].
  injection H as H. destruct v; simpl; constructor; auto; discriminate.
Qed.

Lemma verdict_line_eq args f v : equivalence_line args f v = verdict_line args f v.
Proof.
  unfold equivalence_line, verdict_line. destruct (last_n_components f (ea_path_length args)).
  - rewrite <- app_assoc. f_equal. f_equal. destruct (ea_bool args), v; reflexivity.
  - destruct (ea_bool args), v; reflexivity.
Qed.

Theorem equivalence_spec env hs args :
  exists ev r, equivalence env hs args = Ret (ev, r) /\ equivalence_outcome env args (outs ev) (log_lines ev) r /\ warns ev = [].
Proof.
  unfold equivalence, equivalence_outcome. fold (in_type args). destruct (ce_read env (ea_automata args)) as [u|e] eqn:Er.
  2: { cbn. do 2 eexists. split; [reflexivity|]. split; auto. left. exists e. auto. }
  cmd. destruct (tester_new_spec env (fork hs 0) u args) as [(m & E & H)|[(a0 & Rd & Em & Et & E)|(a0 & t & Rd & Hm & E & T)]];
    rewrite E; cmd.
  - do 2 eexists. split; [reflexivity|]. split; auto. right. left. exists u, m. auto.
  - do 2 eexists. split; [reflexivity|]. split; auto. right. right. left. exists a0. split; [exists u; auto|]. auto.
  - destruct (automata_table_total _ (to_valid _ _ _ T)) as (tb & Etb). rewrite Etb. cmd.
    destruct (test_all_spec env args a0 t Hm T (ea_files args) (fork hs 1)) as (vs & -> & Hvs). cbn [bind]. cmd.
    do 2 eexists. split; [reflexivity|]. split.
    + right. right. right. pose proof (Forall2_len _ _ _ Hvs) as HL.
      exists a0, vs. eexists. split; [exists u; auto|]. split; [auto|]. split; [exact Hvs|].
      split; [apply (passes_count (ea_files args)); exact HL|]. split; [|split; [reflexivity|]].
      * repeat rewrite ?outs_app, ?outs_logs. cbn [app]. rewrite app_nil_r.
        induction (combine (ea_files args) vs) as [|[f v] l IH]; simpl; [auto|]. rewrite verdict_line_eq. f_equal. auto.
      * intros El. unfold logs. rewrite El. repeat rewrite ?log_lines_app. cbn [log_lines flat_map app].
        repeat (rewrite ?app_comm_cons, ?app_assoc, ?app_nil_r). rewrite <- !dec_decimal. eexists. reflexivity.
    + repeat rewrite ?warns_app, ?warns_logs. cbn [app warns]. rewrite app_nil_r.
      induction (combine (ea_files args) vs) as [|[f v] l IH]; simpl; auto.
Qed.

(** ** Enumerations *)
Lemma take_words_calls : forall k wi ws j,
  iter_calls words_next wi k = Ret (map Some ws ++ repeat None j) -> take_words wi k = Ret ws.
Proof.
  induction k as [|k IH]; simpl; intros wi ws j E.
  - injection E as E. destruct ws; [auto|discriminate].
  - destruct (words_next wi) as [[wi' o]| |]; try discriminate. cbn [bind] in *.
    destruct (iter_calls words_next wi' k) as [os| |] eqn:Eo; try discriminate. cbn [bind] in E. injection E as E.
    destruct o as [w|].
    + destruct ws as [|w' ws]; simpl in E; [destruct j; discriminate|]. injection E as -> ->.
      rewrite (IH _ _ _ Eo). reflexivity.
    + destruct ws as [|w' ws]; [auto|discriminate].
Qed.

Lemma first_words_ext al L L' k ws : (forall w, L w <-> L' w) -> first_words al L k ws -> first_words al L' k ws.
Proof.
  intros H (Hl & Hs & l & H1 & H2 & H3). split; auto. split; [intros w Hw; apply H; auto|].
  exists l. split; auto. split; auto. intros idx w Hi Hw. apply (H3 idx w Hi). apply H; auto.
Qed.

Lemma nfa_take_words_spec n k : nfa_valid n -> eps_free n ->
  exists ws, nfa_take_words n k = Ret (map (@concat N) ws) /\ first_words (nfa_alphabet n) (nfa_lang n) k ws.
Proof.
  intros V Hef. destruct (word_components_correct n k V Hef) as (l & ws & E & Hl & Hs & HF & Hw & Hc).
  destruct (words_correct n k V Hef) as (ws' & E' & E2). rewrite E in E'. injection E' as E'.
  assert (ws' = ws) as ->.
  { clear - E'. revert ws' E'. generalize (k - length ws) as i. intros i ws'. generalize (k - length ws') as j. revert i ws'.
    induction ws as [|w ws IH]; intros i [|w' ws'] j E; simpl in *; auto.
    - destruct i; discriminate.
    - destruct j; discriminate.
    - injection E as -> E. f_equal. eapply IH; eauto. }
  clear E'. exists ws. split.
  - unfold nfa_take_words. unfold words_calls in E2. destruct (words_new n) as [wi| |]; try discriminate. cbn [bind] in *.
    apply (take_words_calls k wi (map (@concat N) ws) (k - length ws)). rewrite E2. rewrite map_map. reflexivity.
  - pose proof (Forall2_len _ _ _ HF) as HL. split; [unfold word in *; lia|]. split; auto. exists l. auto.
Qed.

Lemma word_line_eq w : word_line (concat w) = Out (word_text w).
Proof. unfold word_line, word_text. destruct (concat w); reflexivity. Qed.

(** the first words are determined *)
Lemma spells_inj al w idx idx' : NoDup al -> spells al idx w -> spells al idx' w -> idx = idx'.
Proof.
  intros N H. revert idx'. induction H as [|i a idx w Hi H IH]; intros idx' H'; inversion H'; subst; auto.
  f_equal; auto. eapply NoDup_nth_error_inj; eauto.
Qed.
Lemma first_words_unique al L k ws ws' : NoDup al -> first_words al L k ws -> first_words al L k ws' -> ws = ws'.
Proof.
  intros N (Hl & Hs & l & S & F & C) (Hl' & Hs' & l' & S' & F' & C').
  assert (X : l = l').
  { pose proof (Forall2_len _ _ _ F) as HL. pose proof (Forall2_len _ _ _ F') as HL'. unfold word in *.
    assert (T : forall l ws, Forall2 (spells al) l ws -> (forall w, In w ws -> L w) ->
              forall x, In x l -> exists w, spells al x w /\ L w).
    { clear. intros l ws F. induction F as [|x w l ws Hx F IH]; intros H y [].
      - subst. exists w. split; auto. apply H. left; auto.
      - apply IH; auto. intros v Hv. apply H. right; auto. }
    assert (T2 : forall l ws idx w, Forall2 (spells al) l ws -> spells al idx w -> In w ws -> In idx l).
    { clear - N. intros l ws idx w F Hi. induction F as [|x v l ws Hx F IH]; intros []; [left|right; auto].
      subst. eapply spells_inj; eauto. }
    apply (shortlex_prefix_unique (fun x => exists w, spells al x w /\ L w) k); auto; try lia.
    - apply (T l ws); auto.
    - intros x (w & Hx & Hw). destruct (C x w Hx Hw) as [H|[H1 H2]]; [left; eapply T2; eauto|right; split; auto; lia].
    - apply (T l' ws'); auto.
    - intros x (w & Hx & Hw). destruct (C' x w Hx Hw) as [H|[H1 H2]]; [left; eapply T2; eauto|right; split; auto; lia]. }
  subst l'. clear - F F'. revert ws' F'. induction F; intros ws' F'; inversion F'; subst; auto.
  f_equal; auto. eapply spells_fun; eauto.
Qed.

Theorem enumerate_nfa_spec env hs n k : nfa_valid n ->
  exists ev ws, enumerate_nfa env hs n k = Ret (ev, Ok tt) /\ first_words (nfa_alphabet n) (nfa_lang n) k ws /\
    outs ev = map word_text ws /\ warns ev = [].
Proof.
  intros V. unfold enumerate_nfa. destruct (C30_remove_epsilon_moves (hs [0]) (ce_dbg env) n V) as (n' & E & V' & Ef & _ & A & L & _).
  rewrite E. cmd. destruct (nfa_take_words_spec n' k V' Ef) as (ws & -> & H). cmd. rewrite A in H.
  assert (O : outs (map word_line (map (@concat N) ws)) = map word_text ws).
  { clear. induction ws; simpl; [auto|]. unfold word_text at 1. destruct (concat a); simpl; f_equal; auto. }
  assert (W : warns (map word_line (map (@concat N) ws)) = []).
  { clear. induction ws; simpl; auto. }
  match goal with |- context [?x =? k] => destruct (x =? k) end; cmd; (do 2 eexists; split; [reflexivity|]; split; [eapply first_words_ext; [|exact H]; exact L|]);
    split; repeat rewrite ?outs_app, ?outs_logs, ?warns_app, ?warns_logs, ?O, ?W, ?app_nil_r; auto.
Qed.

(** ** The set operations *)
Lemma into_minimized_spec env hs a : a_valid a ->
  exists d c, into_minimized_dfa_if_not_dfa env hs a = Ret (d, c) /\ dfa_valid d /\ dfa_alphabet d = a_alphabet a /\
              (forall w, dfa_lang d w <-> a_lang a w) /\ (c = false -> a = ADfa d) /\ (a_names a -> dnames_legal d).
Proof.
  intros V. unfold into_minimized_dfa_if_not_dfa. destruct (into_dfa_spec (fork hs 0) a V) as (d & c & -> & Vd & A & L & C & N). cbn [bind].
  destruct c; simpl.
  - destruct (minimize_spec (hs [1]) (ce_dbg env) d Vd) as (d' & -> & V' & A' & L' & _ & N'). cbn [bind]. exists d', true.
    split; auto. split; auto. split; [congruence|]. split; [|split; [discriminate|auto]]. intros w. rewrite L'. auto.
  - exists d, false. auto 6.
Qed.

(** minimizing, or not, between the conversion and the product *)
Lemma prepare_spec env h args k c d : dfa_valid d ->
  exists d' ev, prepare_input env h args k d c = Ret (ev, Ok d') /\
    dfa_valid d' /\ dfa_alphabet d' = dfa_alphabet d /\ (forall w, dfa_lang d' w <-> dfa_lang d w) /\
    (dnames_legal d -> dnames_legal d') /\ outs ev = [] /\ warns ev = [].
Proof.
  intros V. unfold prepare_input. destruct c; [|destruct (ba_minimized args)].
  - cmd. do 2 eexists. split; [reflexivity|]. split; auto. split; auto. split; [reflexivity|]. split; auto.
    rewrite outs_app, warns_app, outs_logs, warns_logs. auto.
  - destruct (minimize_spec h (ce_dbg env) d V) as (d' & -> & V' & A' & L' & _ & N'). cmd.
    do 2 eexists. split; [reflexivity|]. split; auto. split; auto. split; auto. split; auto.
    repeat rewrite ?outs_app, ?warns_app, ?outs_logs, ?warns_logs. auto.
  - cmd. do 2 eexists. split; [reflexivity|]. split; auto. split; auto. split; [reflexivity|]. auto.
Qed.

Lemma table_total d : dfa_valid d -> exists u, dfa_to_table d = Ret u.
Proof. intros V. destruct (C49_dfa_tables_aligned d V) as ((u & _ & E & _) & _). eauto. Qed.

Lemma op_text_eq o : op_text o = op_name o. Proof. destruct o; reflexivity. Qed.
Lemma op_text_lower_eq o : op_text_lower o = op_name_lower o. Proof. destruct o; reflexivity. Qed.

Lemma map_length_concat (ws : list word) : length (map (@concat N) ws) = length ws. Proof. apply map_length. Qed.

Lemma enumeration_spec args o d : dfa_valid d ->
  exists ev, enumerate_combined args o d = Ret (ev, Ok tt) /\ enumeration o d (ba_enumerate args) (outs ev) /\ warns ev = [].
Proof.
  intros V. unfold enumerate_combined. destruct (ba_enumerate args) as [k|]; [|cmd; eexists; split; [reflexivity|]; simpl; auto].
  destruct (C14_dfa_to_nfa d V) as (V' & Ef & A & _ & _ & _ & _ & _ & L).
  destruct (nfa_take_words_spec (dfa_to_nfa d) k V' Ef) as (ws & -> & H). cmd. rewrite A in H.
  assert (O : outs (map word_line (map (@concat N) ws)) = map word_text ws).
  { clear. induction ws; simpl; [auto|]. unfold word_text at 1. destruct (concat a); simpl; f_equal; auto. }
  assert (W : warns (map word_line (map (@concat N) ws)) = []).
  { clear. induction ws; simpl; auto. }
  assert (H' : first_words (dfa_alphabet d) (dfa_lang d) k ws) by (eapply first_words_ext; [|exact H]; exact L).
  rewrite op_text_lower_eq. 
  match goal with |- context [@length ?T (map ?f ws)] => replace (@length T (map f ws)) with (length ws) by (symmetry; apply map_length) end.
  match goal with |- context [?x =? k] => destruct (Nat.eqb_spec x k) as [E|E] end; cmd; (eexists; split; [reflexivity|]; split).
  - exists ws. split; [exact H'|]. rewrite !outs_app, O. simpl. match goal with |- context [?x =? k] => replace (x =? k) with true by (symmetry; apply Nat.eqb_eq; exact E) end. rewrite <- ?dec_decimal. reflexivity.
  - rewrite !warns_app, W. reflexivity.
  - exists ws. split; [exact H'|]. rewrite !outs_app, O. simpl. match goal with |- context [?x =? k] => replace (x =? k) with false by (symmetry; apply Nat.eqb_neq; exact E) end. rewrite <- ?dec_decimal. reflexivity.
  - rewrite !warns_app, W. reflexivity.
Qed.

Lemma type_text_eq ty : type_text ty true = type_names ty /\ type_text ty false = type_name ty.
Proof. destruct ty; split; reflexivity. Qed.
Lemma comparison_spec env hs args o d : dfa_valid d ->
  exists ev r, compare_combined env hs args o d = Ret (ev, r) /\ comparison env args o d (outs ev) r /\ warns ev = [].
Proof.
  intros V. unfold comparison, compare_combined. destruct (ba_compare_against args) as [path|]; [|cmd; do 2 eexists; split; [reflexivity|]; simpl; auto].
  destruct (load_file_spec env path (ba_compared_type args)) as [(a & -> & H)|(m & -> & H)]; cmd.
  2: { do 2 eexists. split; [reflexivity|]. split; auto. left. exists m. auto. }
  destruct (test_dfa_spec hs d a false V (loads_valid _ _ _ _ H)) as (v & -> & Hv); [discriminate|]. cbn [bind]. cmd.
  do 2 eexists. split; [reflexivity|]. split; auto. right. exists a, (is_equivalent v). split; auto. split; [|split; auto].
  - destruct v; simpl; try contradiction; [split; [discriminate|intros X; contradiction]|destruct Hv; discriminate|split; auto; intros _; apply Hv].
  - cbn [outs flat_map app]. rewrite op_text_eq, (proj1 (type_text_eq _)), (proj2 (type_text_eq _)). destruct (is_equivalent v); reflexivity.
Qed.

Lemma print_spec env h args o d : dfa_valid d ->
  exists d' ev table, print_combined env h args o d = Ret (ev, Ok d') /\ dfa_valid d' /\ dfa_alphabet d' = dfa_alphabet d /\
    (forall w, dfa_lang d' w <-> dfa_lang d w) /\ (ba_minimized args = true -> minimal d') /\ dfa_to_table d' = Ret table /\
    (dnames_legal d -> dnames_legal d') /\ outs ev = [table] /\ warns ev = [].
Proof.
  intros V. unfold print_combined. destruct (ba_minimized args).
  - destruct (minimize_spec h (ce_dbg env) d V) as (d' & -> & V' & A' & L' & M & N'). cmd.
    destruct (table_total d' V') as (tb & Et). rewrite Et. cmd. do 3 eexists. split; [reflexivity|]. split; [exact V'|].
    split; [exact A'|]. split; [exact L'|]. split; [auto|]. split; [exact Et|]. split; [exact N'|].
    repeat rewrite ?outs_app, ?warns_app, ?outs_logs, ?warns_logs. auto.
  - cmd. destruct (table_total d V) as (tb & Et). rewrite Et. cmd. do 3 eexists. split; [reflexivity|]. split; [exact V|].
    split; [auto|]. split; [reflexivity|]. split; [discriminate|]. split; [exact Et|]. split; [auto|].
    repeat rewrite ?outs_app, ?warns_app, ?outs_logs, ?warns_logs. auto.
Qed.

Lemma same_set_dec (l l' : list str) : same_set l l' \/ ~ same_set l l'.
Proof.
  destruct (forallb (fun x => mem x l') l && forallb (fun x => mem x l) l') eqn:Eb.
  - left. apply andb_prop in Eb as [Ea Eb]. rewrite forallb_forall in Ea, Eb. intros x. split; intros Hx.
    + specialize (Ea x Hx). apply mem_In in Ea. auto.
    + specialize (Eb x Hx). apply mem_In in Eb. auto.
  - right. intros Hs. apply andb_false_iff in Eb as [Eb|Eb]; apply not_true_iff_false in Eb; apply Eb; apply forallb_forall; intros x Hx;
      apply mem_In; apply Hs; auto.
Qed.

(** The commands, unfolded *)
Lemma cbind_ext {A B} (m : Cmd A) (f g : A -> Cmd B) : (forall a, f a = g a) -> cbind m f = cbind m g.
Proof. intros H. destruct m as [[ev [a|e]]| |]; cbn; rewrite ?H; reflexivity. Qed.
Lemma cbind_assoc {A B C} (m : Cmd A) (f : A -> Cmd B) (g : B -> Cmd C) : cbind (cbind m f) g = cbind m (fun a => cbind (f a) g).
Proof.
  destruct m as [[ev [a|e]]| |]; cbn; try reflexivity. destruct (f a) as [[ev' [b|e]]| |]; cbn; try reflexivity.
  destruct (g b) as [[ev'' r]| |]; cbn; rewrite ?app_assoc; reflexivity.
Qed.
Lemma cret_bind {A B} (a : A) (f : A -> Cmd B) : cbind (cret a) f = f a.
Proof. cbn. destruct (f a) as [[ev r]| |]; reflexivity. Qed.
Lemma binary_op_flat env hs args op : binary_op env hs args op =
  cbind (lift_result (map_err (fun e => of_string "Error reading 1: " ++ e) (load_file env (ba_first args) (ba_type args)))) (fun a1 =>
  cbind (lift (into_minimized_dfa_if_not_dfa env (fork hs 0) a1)) (fun '(dfa1, converted1) =>
  cbind (lift_result (map_err (fun e => of_string "Error reading 2: " ++ e)
          (load_file env (ba_second args) (match ba_second_type args with Some t => t | None => ba_type args end)))) (fun a2 =>
  cbind (lift (into_minimized_dfa_if_not_dfa env (fork hs 1) a2)) (fun '(dfa2, converted2) =>
  cbind (prepare_input env (hs [2]) args (of_string "1") dfa1 converted1) (fun dfa1 =>
  cbind (prepare_input env (hs [3]) args (of_string "2") dfa2 converted2) (fun dfa2 =>
  cbind (lift (dfa_set_op op (hs [4]) dfa1 dfa2)) (fun combined =>
  cbind (match combined with
         | None => cfail (of_string "Different alphabets in input DFAs, can't do product construction")
         | Some d => cret d
         end) (fun combined =>
  cbind (print_combined env (hs [5]) args op combined) (fun combined =>
  cbind (enumerate_combined args op combined) (fun _ => compare_combined env (fork hs 6) args op combined)))))))))).
Proof.
  unfold binary_op, binary_combined.
  rewrite cbind_assoc; apply cbind_ext; intros a1. rewrite cbind_assoc; apply cbind_ext; intros [d1 c1].
  rewrite cbind_assoc; apply cbind_ext; intros a2. rewrite cbind_assoc; apply cbind_ext; intros [d2 c2].
  do 6 (rewrite cbind_assoc; apply cbind_ext; intros ?). apply cret_bind.
Qed.
Lemma test_files_flat env hs ty t automata files : test_files env hs ty t automata files =
  cbind (lift_result (load_file env automata ty)) (fun a =>
  cbind (lift (nfa_to_table (fst (into_nfa (fork hs 0) a)))) (fun table =>
  cbind (tell (logs env (of_string "Loaded NFA:" ++ [10%N] ++ table))) (fun _ =>
  test_each env (fst (into_nfa (fork hs 0) a)) t files))).
Proof.
  unfold test_files, test_load. rewrite cbind_assoc; apply cbind_ext; intros a. do 2 (rewrite cbind_assoc; apply cbind_ext; intros ?). exact (cret_bind _ (fun nf => test_each env nf t files)).
Qed.

Theorem binary_op_spec env hs args o :
  exists ev r, binary_op env hs args o = Ret (ev, r) /\ binary_outcome env args o (outs ev) r /\ warns ev = [].
Proof.
  rewrite binary_op_flat. unfold binary_outcome.
  destruct (load_file_spec env (ba_first args) (ba_type args)) as [(a1 & -> & H1)|(m & -> & H1)]; cmd.
  2: { do 2 eexists. split; [reflexivity|]. split; auto. left. exists m. auto. }
  destruct (into_minimized_spec env (fork hs 0) a1 (loads_valid _ _ _ _ H1)) as (d1 & c1 & -> & V1 & A1 & L1 & _ & N1). cmd.
  destruct (load_file_spec env (ba_second args) (match ba_second_type args with Some t => t | None => ba_type args end))
    as [(a2 & -> & H2)|(m & -> & H2)]; cmd.
  2: { do 2 eexists. split; [reflexivity|]. split; auto. right. left. exists a1, m. auto. }
  destruct (into_minimized_spec env (fork hs 1) a2 (loads_valid _ _ _ _ H2)) as (d2 & c2 & -> & V2 & A2 & L2 & _ & N2). cmd.
  destruct (prepare_spec env (hs [2]) args (of_string "1") c1 d1 V1) as (d1' & ev1 & E1 & V1' & A1' & L1' & N1' & O1 & W1).
  rewrite E1. clear E1. cmd.
  destruct (prepare_spec env (hs [3]) args (of_string "2") c2 d2 V2) as (d2' & ev2 & E2 & V2' & A2' & L2' & N2' & O2 & W2).
  rewrite E2. clear E2. cmd.
  destruct (set_op_correct o (hs [4]) d1' d2' V1' V2') as (r & -> & Hn & Hr). cmd.
  rewrite A1', A2', A1, A2 in Hn. destruct r as [d|]; cmd.
  2: { do 2 eexists. split; [reflexivity|]. split.
       - right. right. left. exists a1, a2. split; auto. split; auto. split; [apply Hn; auto|]. split; auto. rewrite !outs_app, O1, O2. reflexivity.
       - rewrite !warns_app, W1, W2. reflexivity. }
  destruct (Hr d eq_refl) as (V & A & L & N).
  assert (HA : same_set (a_alphabet a1) (a_alphabet a2)).
  { destruct (same_set_dec (a_alphabet a1) (a_alphabet a2)) as [X|X]; auto. apply Hn in X. discriminate. }
  destruct (print_spec env (hs [5]) args o d V) as (d' & ev3 & table & E3 & V' & A' & L' & M & Et & N' & O3 & W3). rewrite E3. clear E3. cmd.
  destruct (enumeration_spec args o d' V') as (ev4 & E4 & H4 & W4). rewrite E4. clear E4. cmd.
  destruct (comparison_spec env (fork hs 6) args o d' V') as (ev5 & r & E5 & H5 & W5). rewrite E5. clear E5. cmd.
  do 2 eexists. split; [reflexivity|]. split.
  - right. right. right. exists a1, a2, d', table, (outs ev4), (outs ev5). split; auto. split; auto. split; auto. split; auto.
    split; [congruence|]. split.
    + intros w. rewrite L', L. apply set_op_spec_iff; [rewrite L1'|rewrite L2']; auto.
    + split; auto. split; auto. split; [|split; auto; repeat rewrite ?outs_app; rewrite O1, O2, O3; reflexivity].
      intros Hne Hl. apply table_loads; auto.
      * apply N', N; [apply N1', N1|apply N2', N2]; eapply loads_names; eauto.
      * congruence.
      * rewrite A', A, A1', A1. auto.
  - repeat rewrite ?warns_app. rewrite W1, W2, W3, W4, W5. reflexivity.
Qed.

Theorem enumerate_regex_spec env hs u k :
  (exists t ev ws, parse_regex (ce_seg env) u = Ret (Some t) /\ enumerate_regex env hs u k = Ret (ev, Ok tt) /\
     first_words (first_occurrences (regex_graphemes t)) (matches t) k ws /\ outs ev = map word_text ws /\ warns ev = []) \/
  (~ text_parses (ce_seg env) TRegex u /\ enumerate_regex env hs u k = Ret ([], Err (ce_nom_display env TRegex u))).
Proof.
  unfold enumerate_regex. destruct (regex_cases (ce_seg env) u) as [[E H]|(t & E & H)]; rewrite E; cmd.
  - right. auto.
  - left. destruct (enumerate_nfa_spec env (fork hs 0) (regex_to_nfa (hs [1]) t) k (C36_valid _ t)) as (ev & ws & -> & F & O & W). cmd.
    exists t. eexists. exists ws. split; auto. split; [reflexivity|]. split; [|split; auto].
    rewrite C36_alphabet in F. eapply first_words_ext; [|exact F]. apply C36_regex_to_nfa.
Qed.

Theorem enumerate_file_spec env hs ty path k :
  (exists a ev ws, loads env path ty a /\ enumerate_file env hs ty path k = Ret (ev, Ok tt) /\
     first_words (a_alphabet a) (a_lang a) k ws /\ outs ev = map word_text ws /\ warns ev = []) \/
  (exists m, load_error env path ty m /\ enumerate_file env hs ty path k = Ret ([], Err m)).
Proof.
  unfold enumerate_file. destruct (load_file_spec env path ty) as [(a & -> & H)|(m & -> & H)]; cmd.
  - left. destruct (into_nfa_spec (fork hs 1) a (loads_valid _ _ _ _ H)) as (n & c & -> & V & A & L). cbn [fst].
    destruct (enumerate_nfa_spec env (fork hs 0) n k V) as (ev & ws & -> & F & O & W). cmd.
    exists a. eexists. exists ws. split; auto. split; [reflexivity|]. split; [|split; auto].
    rewrite A in F. eapply first_words_ext; [|exact F]. auto.
  - right. exists m. auto.
Qed.

(** ** dandy test-file *)
Lemma lines_from_spec : forall u cur, ~ In 10%N cur -> text_lines (cur ++ u) (lines_from cur u).
Proof.
  induction u as [|c u IH]; intros cur Hc; cbn [lines_from].
  - rewrite app_nil_r. destruct cur; constructor; auto. discriminate.
  - destruct (N.eqb_spec c 10) as [->|Hn].
    + assert (C : (exists l, rev cur = 13%N :: l) \/ ~ exists l, rev cur = 13%N :: l).
      { destruct (rev cur) as [|x l]; [right; intros (l & E); discriminate|].
        destruct (N.eq_dec x 13) as [->|Hx]; [left; eauto|right; intros (l' & [= ? _]); auto]. }
      destruct C as [(l & E)|C].
      * rewrite E. assert (Ec : cur = rev l ++ [13%N]) by (rewrite <- (rev_involutive cur), E; reflexivity).
        subst cur. rewrite <- app_assoc. change ([13%N] ++ 10%N :: u) with ([13; 10]%N ++ u). apply tl_crlf.
        -- intros Hi. apply Hc. apply in_or_app. left; auto.
        -- apply (IH []). auto.
      * assert (E : (match rev cur with 13%N :: l => rev l | _ => cur end) = cur).
        { destruct (rev cur) as [|x l] eqn:Er; auto. destruct (N.eq_dec x 13) as [->|Hx]; [exfalso; eauto|].
          destruct x as [|p]; auto. repeat (destruct p as [p|p|]; auto). congruence. }
        match goal with |- text_lines _ (?m :: _) => change m with (match rev cur with 13%N :: l => rev l | _ => cur end) end.
        rewrite E. change (10%N :: u) with ([10%N] ++ u). apply tl_lf; auto.
        -- intros l' ->. apply C. exists (rev l'). rewrite rev_app_distr. reflexivity.
        -- apply (IH []). auto.
    + replace (cur ++ c :: u) with ((cur ++ [c]) ++ u) by (rewrite <- app_assoc; reflexivity).
      apply IH. intros Hi. apply in_app_or in Hi as [Hi|[Hi|[]]]; auto.
Qed.
Lemma str_lines_spec u : text_lines u (str_lines u).
Proof. apply (lines_from_spec u []). auto. Qed.

Lemma accepts_line env n a line : nfa_valid n -> (forall w, nfa_lang n w <-> a_lang a w) ->
  exists b, nfa_accepts_graphemes (ce_seg env) n line = Ret b /\ (b = true <-> a_lang a (ce_seg env line)).
Proof.
  intros V L. destruct (C03_nfa_accepts_graphemes (ce_seg env) n line V) as (b & E & H). exists b. split; auto. rewrite H. apply L.
Qed.

Lemma test_lines_spec env nf a : nfa_valid nf -> (forall w, nfa_lang nf w <-> a_lang a w) -> forall lines n k,
  exists ev oks, test_lines env nf n k lines = Ret (ev, (n + length lines, k + count_occ Bool.bool_dec oks true)) /\
    Forall2 (fun line ok => ok = true <-> a_lang a (ce_seg env line)) lines oks /\
    outs ev = map (fun '(line, ok) => of_string (if ok : bool then "[ OK ] " else "[FAIL] ") ++ line) (combine lines oks) /\ warns ev = [].
Proof.
  intros V L. induction lines as [|line lines IH]; intros n k; simpl.
  - exists [], []. split; [rewrite !Nat.add_0_r; auto|]. auto.
  - destruct (accepts_line env nf a line V L) as (b & -> & Hb). cbn [bind].
    destruct (IH (S n) (if b then S k else k)) as (ev & oks & -> & F & O & W). cbn [bind].
    eexists. exists (b :: oks). split; [|split; [auto|]].
    + f_equal. f_equal. f_equal; [lia|]. destruct b; simpl; lia.
    + simpl. rewrite O. split; auto. f_equal. destruct b; reflexivity.
Qed.

Lemma find_rejected_spec env nf a : nfa_valid nf -> (forall w, nfa_lang nf w <-> a_lang a w) -> forall lines,
  (find_rejected env nf lines = Ret None /\ forall line, In line lines -> a_lang a (ce_seg env line)) \/
  (exists before line after, lines = before ++ line :: after /\ (forall l, In l before -> a_lang a (ce_seg env l)) /\
     ~ a_lang a (ce_seg env line) /\ find_rejected env nf lines = Ret (Some line)).
Proof.
  intros V L. induction lines as [|line lines IH]; simpl.
  - left. split; auto. intros _ [].
  - destruct (accepts_line env nf a line V L) as (b & -> & Hb). cbn [bind]. destruct b.
    + destruct IH as [[E H]|(bf & l & af & -> & H1 & H2 & E)].
      * left. split; auto. intros l [<-|Hl]; auto. apply Hb; auto.
      * right. exists (line :: bf), l, af. split; auto. split; [|auto]. intros l' [<-|Hl]; auto. apply Hb; auto.
    + right. exists [], line, lines. split; auto. split; [intros _ []|]. split; auto. rewrite <- Hb. discriminate.
Qed.

Definition test_one (env : cli_env) (nf : nfa) (tt_ : test_type) (file loaded : str) : Cmd unit :=
  match tt_ with
  | TLines =>
      _ <~ tell [Out (of_string "Testing file " ++ file ++ of_string ":")] ;;
      '(n, a) <~ ('(ev, r) <- test_lines env nf 0 0 (str_lines loaded) ;; Ret (ev, Ok r)) ;;
      tell [Out (dec a ++ of_string "/" ++ dec n ++ of_string " lines passed in file " ++ file ++ of_string ":")]
  | TFiles =>
      c <~ lift (find_rejected env nf (str_lines loaded)) ;;
      tell [Out (match c with
                 | None => of_string "[ OK ] " ++ file
                 | Some c => of_string "[FAIL] " ++ file ++ of_string " failed on " ++ c
                 end)]
  end.
Lemma test_one_spec env nf a t file u : nfa_valid nf -> (forall w, nfa_lang nf w <-> a_lang a w) ->
  exists ev, test_one env nf t file u = Ret (ev, Ok tt) /\ file_report (ce_seg env) a t file (str_lines u) (outs ev) /\ warns ev = [].
Proof.
  intros V L. destruct t; simpl.
  - destruct (test_lines_spec env nf a V L (str_lines u) 0 0) as (ev & oks & -> & F & O & W). cbn [bind]. cmd.
    eexists. split; [reflexivity|]. split; [|repeat rewrite ?warns_app; simpl; rewrite ?warns_app, ?W; auto]. exists oks. split; auto.
    match goal with |- outs (?x :: ev ++ ?y) = _ => change (x :: ev ++ y) with ([x] ++ (ev ++ y)) end. rewrite !outs_app, O, <- !dec_decimal. reflexivity.
  - destruct (find_rejected_spec env nf a V L (str_lines u)) as [[-> H]|(bf & l & af & E & H1 & H2 & ->)]; cmd.
    + eexists. split; [reflexivity|]. split; auto.
    + eexists. split; [reflexivity|]. split; auto. right. exists bf, l, af. auto.
Qed.

Lemma test_each_cons env nf t f fs : test_each env nf t (f :: fs) =
  cbind (match ce_read env f with Err e => cfail e | Ok f => cret f end)
        (fun loaded => cbind (test_one env nf t f loaded) (fun _ => test_each env nf t fs)).
Proof. reflexivity. Qed.

Lemma test_each_spec env nf a t : nfa_valid nf -> (forall w, nfa_lang nf w <-> a_lang a w) -> forall files,
  exists ev r, test_each env nf t files = Ret (ev, r) /\ test_report env a t files (outs ev) r /\ warns ev = [].
Proof.
  intros V L. induction files as [|f fs IH].
  - do 2 eexists. split; [reflexivity|]. split; [constructor|auto].
  - rewrite test_each_cons. destruct (ce_read env f) as [u|e] eqn:Er; cmd.
    2: { do 2 eexists. split; [reflexivity|]. split; [|auto]. apply tr_unreadable; auto. }
    destruct (test_one_spec env nf a t f u V L) as (ev & -> & H & W). cmd.
    destruct IH as (ev' & r & -> & H' & W'). cmd. do 2 eexists. split; [reflexivity|].
    rewrite !outs_app, !warns_app. split; [|rewrite W, W'; auto]. simpl. eapply tr_file; eauto. apply str_lines_spec.
Qed.

Theorem test_files_spec env hs ty t automata files :
  (exists a ev r, loads env automata ty a /\ test_files env hs ty t automata files = Ret (ev, r) /\
     test_report env a t files (outs ev) r /\ warns ev = []) \/
  (exists m, load_error env automata ty m /\ test_files env hs ty t automata files = Ret ([], Err m)).
Proof.
  rewrite test_files_flat. destruct (load_file_spec env automata ty) as [(a & -> & H)|(m & -> & H)]; cmd.
  - left. destruct (into_nfa_spec (fork hs 0) a (loads_valid _ _ _ _ H)) as (n & c & -> & V & A & L). cbn [fst].
    destruct (C49_nfa_tables_aligned n V) as ((u & _ & -> & _) & _). cmd.
    destruct (test_each_spec env n a t V L files) as (ev & r & -> & HR & W). cmd.
    exists a. do 2 eexists. split; auto. split; [reflexivity|]. repeat rewrite ?outs_app, ?outs_logs, ?warns_app, ?warns_logs. auto.
  - right. exists m. auto.
Qed.

(** ** Paths *)
Lemma split_slash_app c r : ~ In 47%N c -> forall cur, split_slash cur (c ++ r) = split_slash (cur ++ c) r.
Proof.
  induction c as [|x c IH]; intros H cur; simpl; [rewrite app_nil_r; auto|].
  destruct (N.eqb_spec x 47) as [->|_]; [exfalso; apply H; left; auto|].
  rewrite IH; [rewrite <- app_assoc; auto|]. intros Hi. apply H. right; auto.
Qed.
Lemma split_slashed : forall cs, Forall component cs -> cs <> [] -> split_slash [] (slashed cs) = cs.
Proof.
  induction cs as [|c cs IH]; intros F H; [congruence|]. inversion F as [|? ? (H1 & H2 & H3) F']; subst.
  destruct cs as [|c' cs].
  - simpl. rewrite <- (app_nil_r c) at 1. rewrite split_slash_app by auto. reflexivity.
  - change (slashed (c :: c' :: cs)) with (c ++ [47%N] ++ slashed (c' :: cs)). rewrite split_slash_app by auto. simpl split_slash at 1.
    cbn [app]. f_equal. apply IH; auto. discriminate.
Qed.
Definition keep : list str -> list str := filter (fun s => negb (eqb s []) && negb (eqb s cur_dir)).
Lemma neqb_true (c d : str) : c <> d -> eqb c d = false.
Proof. intros H. destruct (@eqb_spec str _ c d); congruence. Qed.
Lemma keep_components cs : Forall component cs -> keep cs = cs.
Proof.
  intros F. induction F as [|c cs (H1 & H2 & H3) F IH]; auto. unfold keep. cbn [filter].
  fold (str) in *. rewrite (neqb_true c [] H1), (neqb_true c cur_dir H2). cbn [negb andb]. f_equal. exact IH.
Qed.
Lemma slashed_head c cs : component c -> exists x p, slashed (c :: cs) = x :: p /\ x <> 47%N.
Proof.
  intros (H1 & _ & H3). destruct c as [|x c]; [congruence|]. exists x. assert (x <> 47%N) by (intros ->; apply H3; left; auto).
  destruct cs; simpl; eauto.
Qed.
Lemma not_slash_match {A} x (p : str) (a b : A) : x <> 47%N -> match x :: p with 47%N :: _ => a | _ => b end = b.
Proof. intros H. destruct x as [|q]; auto. repeat (destruct q as [q|q|]; auto). congruence. Qed.
Lemma components_relative cs : Forall component cs -> path_components (slashed cs) = cs.
Proof.
  intros F. destruct cs as [|c cs]; [reflexivity|]. inversion F as [|? ? Hc F']; subst.
  destruct (slashed_head c cs Hc) as (x & p & E & Hx). unfold path_components. fold keep.
  rewrite split_slashed by (auto; discriminate). rewrite E. rewrite not_slash_match by auto.
  destruct Hc as (_ & Hc & _). rewrite (neqb_true c cur_dir Hc).
  rewrite <- (keep_components (c :: cs)) at 2 by auto. reflexivity.
Qed.
Lemma components_absolute cs : Forall component cs -> path_components (47%N :: slashed cs) = root_dir :: cs.
Proof.
  intros F. unfold path_components. fold keep. simpl split_slash. f_equal. unfold keep at 1. simpl.
  destruct cs as [|c cs]; [reflexivity|]. change (keep (split_slash [] (slashed (c :: cs))) = c :: cs).
  rewrite split_slashed by (auto; discriminate). apply keep_components; auto.
Qed.

Lemma path_push_component p c : component c -> (p = [] -> path_push p c = c) /\ (p <> [] -> last p 0%N <> 47%N -> path_push p c = p ++ [47%N] ++ c).
Proof.
  intros (H1 & _ & H3). destruct c as [|x c]; [congruence|]. assert (Hx : x <> 47%N) by (intros ->; apply H3; left; auto).
  unfold path_push. rewrite not_slash_match by auto. split.
  - intros ->. reflexivity.
  - intros Hp Hl. rewrite (neqb_true p [] Hp). destruct (N.eqb_spec (last p 0%N) 47); [contradiction|]. reflexivity.
Qed.
Lemma slashed_snoc cs c : cs <> [] -> slashed (cs ++ [c]) = slashed cs ++ [47%N] ++ c.
Proof.
  induction cs as [|a cs IH]; intros H; [congruence|]. destruct cs as [|b cs]; [reflexivity|].
  change (slashed ((a :: b :: cs) ++ [c])) with (a ++ [47%N] ++ slashed ((b :: cs) ++ [c])). rewrite IH by discriminate.
  change (slashed (a :: b :: cs)) with (a ++ [47%N] ++ slashed (b :: cs)). rewrite <- !app_assoc. reflexivity.
Qed.
Lemma last_component cs : Forall component cs -> cs <> [] -> slashed cs <> [] /\ last (slashed cs) 0%N <> 47%N.
Proof.
  intros F H. destruct cs as [|c0 cs0] eqn:E; [congruence|]. rewrite <- E in *.
  destruct (@exists_last _ cs ltac:(rewrite E; discriminate)) as (l & c & El).
  assert (Hc : component c).
  { rewrite El in F. rewrite Forall_app in F. destruct F as [_ F]. inversion F; auto. }
  destruct Hc as (H1 & _ & H3).
  assert (X : exists p, slashed cs = p ++ c).
  { rewrite El. destruct l as [|a l]; [exists []; reflexivity|]. rewrite slashed_snoc by discriminate. exists (slashed (a :: l) ++ [47%N]).
    rewrite <- app_assoc. reflexivity. }
  destruct X as (p & ->). destruct (exists_last H1) as (c' & x & ->). rewrite app_assoc. split.
  - intros X. apply app_eq_nil in X as [_ X]. discriminate.
  - rewrite last_last. intros ->. apply H3. apply in_or_app. right; left; auto.
Qed.
Lemma collect_from : forall cs l, Forall component (l ++ cs) -> l <> [] -> fold_left path_push cs (slashed l) = slashed (l ++ cs).
Proof.
  induction cs as [|c cs IH]; intros l F H; simpl; [rewrite app_nil_r; auto|].
  assert (F' := F). rewrite Forall_app in F'. destruct F' as [Fl Fc]. inversion Fc as [|? ? Hc Fcs]; subst.
  destruct (last_component l Fl H) as [H1 H2]. rewrite (proj2 (path_push_component (slashed l) c Hc) H1 H2).
  rewrite <- slashed_snoc by auto. rewrite IH.
  - rewrite <- app_assoc. reflexivity.
  - rewrite <- app_assoc. auto.
  - destruct l; discriminate.
Qed.
Lemma collect_components cs : Forall component cs -> path_collect cs = slashed cs.
Proof.
  intros F. destruct cs as [|c cs]; [reflexivity|]. unfold path_collect. simpl fold_left. inversion F as [|? ? Hc F']; subst.
  rewrite (proj1 (path_push_component [] c Hc) eq_refl). change c with (slashed [c]) at 1. apply (collect_from cs [c]); auto. discriminate.
Qed.

Lemma Forall_rev' {A} (P : A -> Prop) l : Forall P l -> Forall P (rev l).
Proof. intros F. apply Forall_forall. intros x Hx. rewrite <- in_rev in Hx. rewrite Forall_forall in F. auto. Qed.
Lemma Forall_firstn' {A} (P : A -> Prop) n l : Forall P l -> Forall P (firstn n l).
Proof. intros F. apply Forall_forall. intros x Hx. rewrite Forall_forall in F. apply F. eapply in_firstn; eauto. Qed.
Lemma firstn_rev_last {A} n (l : list A) : rev (firstn n (rev l)) = last_n n l.
Proof. unfold last_n. rewrite firstn_rev, rev_involutive. reflexivity. Qed.

Lemma last_n_relative cs n : Forall component cs -> n <> 0 -> last_n_components (slashed cs) (Some n) = Some (slashed (last_n n cs)).
Proof.
  intros F Hn. destruct n as [|n]; [congruence|]. unfold last_n_components. rewrite components_relative by auto.
  assert (F1 : Forall component (firstn (S n) (rev cs))) by (apply Forall_firstn', Forall_rev'; auto).
  rewrite (collect_components (firstn (S n) (rev cs))) by auto. rewrite components_relative by auto. f_equal.
  rewrite <- firstn_rev_last. apply collect_components. apply Forall_rev'. auto.
Qed.
Lemma last_n_absolute cs n : Forall component cs -> n <> 0 -> n <= length cs ->
  last_n_components (47%N :: slashed cs) (Some n) = Some (slashed (last_n n cs)).
Proof.
  intros F Hn Hl. destruct n as [|n]; [congruence|]. unfold last_n_components. rewrite components_absolute by auto.
  cbn [rev]. rewrite firstn_app. rewrite rev_length. replace (S n - length cs) with 0 by lia. rewrite firstn_O, app_nil_r.
  assert (F1 : Forall component (firstn (S n) (rev cs))) by (apply Forall_firstn', Forall_rev'; auto).
  rewrite (collect_components (firstn (S n) (rev cs))) by auto. rewrite components_relative by auto. f_equal.
  rewrite <- firstn_rev_last. apply collect_components. apply Forall_rev'. auto.
Qed.
Lemma last_n_absolute_all cs n : Forall component cs -> length cs < n ->
  last_n_components (47%N :: slashed cs) (Some n) = Some [47%N].
Proof.
  intros F Hl. destruct n as [|n]; [lia|]. unfold last_n_components. rewrite components_absolute by auto.
  cbn [rev]. rewrite firstn_app. rewrite rev_length. destruct (S n - length cs) as [|k] eqn:Ek; [lia|].
  rewrite firstn_all2 by (rewrite rev_length; lia). simpl firstn. unfold path_collect. rewrite fold_left_app. simpl. rewrite firstn_nil. reflexivity.
Qed.

(** ** Logs are printed only if asked for *)
Definition quiet {A} (m : R (list event * A)) : Prop := forall ev r, m = Ret (ev, r) -> log_lines ev = [].
Lemma quiet_bind {A B} (m : Cmd A) (f : A -> Cmd B) : quiet m -> (forall a, quiet (f a)) -> quiet (cbind m f).
Proof.
  intros Hm Hf ev r. destruct m as [[ev1 [a|e]]| |] eqn:Em; simpl; try discriminate.
  - destruct (f a) as [[ev2 r2]| |] eqn:Ef; simpl; try discriminate. intros [= <- <-]. rewrite log_lines_app, (Hm _ _ eq_refl), (Hf a _ _ Ef). reflexivity.
  - intros [= <- <-]. exact (Hm _ _ eq_refl).
Qed.
Lemma quiet_ret {A} (a : A) : quiet (cret a). Proof. intros ev r [= <- <-]. reflexivity. Qed.
Lemma quiet_fail {A} e : quiet (@cfail A e). Proof. intros ev r [= <- <-]. reflexivity. Qed.
Lemma quiet_lift {A} (m : R A) : quiet (lift m).
Proof. intros ev r. unfold lift. destruct m; simpl; try discriminate. intros [= <- <-]. reflexivity. Qed.
Lemma quiet_lift_result {A} (m : R (result A str)) : quiet (lift_result m).
Proof. intros ev r. unfold lift_result. destruct m; simpl; try discriminate. intros [= <- <-]. reflexivity. Qed.
Lemma quiet_tell l : log_lines l = [] -> quiet (tell l). Proof. intros H ev r [= <- <-]. exact H. Qed.
Lemma quiet_out s : quiet (tell [Out s]). Proof. apply quiet_tell. reflexivity. Qed.
Lemma quiet_outs {A} (f : A -> str) l : quiet (tell (map (fun x => Out (f x)) l)).
Proof. apply quiet_tell. induction l; simpl; auto. Qed.
Lemma quiet_words ws : quiet (tell (map word_line ws)). Proof. apply quiet_tell. induction ws; simpl; auto. Qed.
Lemma quiet_wrap {A} (m : R (list event * A)) : quiet m -> quiet ('(ev, r) <- m ;; Ret (ev, @Ok A str r)).
Proof. intros H ev r. destruct m as [[ev1 r1]| |]; simpl; try discriminate. intros [= <- <-]. exact (H _ _ eq_refl). Qed.

Section Quiet.
Context (env : cli_env) (Hlog : ce_log env = false).
Lemma quiet_logs s : quiet (tell (logs env s)). Proof. apply quiet_tell. unfold logs. rewrite Hlog. reflexivity. Qed.
Lemma quiet_logs2 s s' : quiet (tell (logs env s ++ logs env s')). Proof. apply quiet_tell. unfold logs. rewrite Hlog. reflexivity. Qed.

Lemma quiet_warnings : forall l, (forall e, In e l -> exists s, e = Warn s) -> log_lines l = [].
Proof. induction l as [|e l IH]; intros H; auto. destruct (H e (or_introl eq_refl)) as (s & ->). simpl. apply IH. intros x Hx. apply H. right; auto. Qed.
Lemma quiet_wm m : log_lines (warn_minimized m) = []. Proof. destruct m; reflexivity. Qed.
Lemma quiet_wmc m a : log_lines (warn_minimized_check_type m a) = [].
Proof. unfold warn_minimized_check_type. destruct (type_eqb (get_type a) TDfa && m); [reflexivity|apply quiet_wm]. Qed.

Lemma quiet_test_equivalence hs a b m : quiet (test_equivalence hs a b m).
Proof.
  intros ev r H. unfold test_equivalence in H.
  repeat (match type of H with
          | context [bind ?x _] => destruct x as [?| |] eqn:?; cbn [bind] in H; try discriminate
          | context [match ?x with _ => _ end] => destruct x eqn:?; cbn [bind] in H; try discriminate
          end); injection H as <- <-; rewrite ?log_lines_app, ?quiet_wm, ?quiet_wmc; try reflexivity; exact (quiet_wm m).
Qed.
Lemma quiet_tester_test hs t f : quiet (tester_test env hs t f).
Proof.
  unfold tester_test. destruct (ce_read env f) as [u|e]; [|intros ev r [= <- <-]; reflexivity].
  destruct (load_test env (fork hs 0) u (dt_test_type t)) as [[a|v]| |]; cbn [bind]; try (intros ev r; discriminate).
  - apply quiet_test_equivalence.
  - intros ev r [= <- <-]. reflexivity.
Qed.
Lemma quiet_test_all t : forall files hs, quiet (test_all env hs t files).
Proof.
  induction files as [|f fs IH]; intros hs ev r; simpl; [intros [= <- <-]; reflexivity|].
  destruct (tester_test env (fork hs 0) t f) as [[ev1 v]| |] eqn:E1; simpl; try discriminate.
  destruct (test_all env (fork hs 1) t fs) as [[ev2 vs]| |] eqn:E2; simpl; try discriminate.
  intros [= <- <-]. rewrite log_lines_app, (quiet_tester_test _ _ _ _ _ E1), (IH _ _ _ E2). reflexivity.
Qed.
Lemma quiet_test_lines nf : forall lines n k, quiet (test_lines env nf n k lines).
Proof.
  induction lines as [|l ls IH]; intros n k ev r; simpl; [intros [= <- <-]; reflexivity|].
  destruct (nfa_accepts_graphemes (ce_seg env) nf l) as [b| |]; simpl; try discriminate.
  destruct (test_lines env nf (S n) (if b then S k else k) ls) as [[ev1 v]| |] eqn:E1; simpl; try discriminate.
  intros [= <- <-]. simpl. exact (IH _ _ _ _ E1).
Qed.

Ltac qt := repeat first
  [ apply quiet_bind; [|intros ?] | apply quiet_ret | apply quiet_fail | apply quiet_lift | apply quiet_lift_result | apply quiet_logs
  | apply quiet_logs2 | apply quiet_out | apply quiet_words
  | apply (quiet_wrap (test_all env _ _ _)), quiet_test_all
  | apply (quiet_wrap (test_equivalence _ _ _ _)), quiet_test_equivalence
  | apply (quiet_wrap (test_lines env _ _ _ _)), quiet_test_lines
  | match goal with |- quiet (match ?x with _ => _ end) => destruct x end ].

Lemma quiet_test_each nf t : forall fs, quiet (test_each env nf t fs).
Proof. induction fs as [|f fs IH]; cbn [test_each]; qt; auto. Qed.
Lemma quiet_test_files hs ty t a fs : quiet (test_files env hs ty t a fs).
Proof. rewrite test_files_flat. qt. apply quiet_test_each. Qed.
Lemma quiet_enumerate_nfa hs n k : quiet (enumerate_nfa env hs n k).
Proof. unfold enumerate_nfa. qt. Qed.
Lemma quiet_equivalence hs args : quiet (equivalence env hs args).
Proof.
  unfold equivalence, tester_new. qt.
  apply quiet_tell. match goal with |- log_lines (map _ ?l) = _ => induction l as [|[f v] l' IHl]; simpl; auto end.
Qed.
Lemma quiet_binary hs args o : quiet (binary_op env hs args o).
Proof. rewrite binary_op_flat. unfold prepare_input, print_combined, enumerate_combined, compare_combined. qt. Qed.
Lemma quiet_combined hs args o : quiet (binary_combined env hs args o).
Proof. unfold binary_combined, prepare_input, print_combined, enumerate_combined. qt. Qed.
Lemma quiet_compare hs args o d : quiet (compare_combined env hs args o d).
Proof. unfold compare_combined. qt. Qed.
Lemma quiet_test_load hs ty a : quiet (test_load env hs ty a).
Proof. unfold test_load. qt. Qed.
Lemma quiet_with_error {A} pre (m : Cmd A) : quiet m -> quiet (with_error pre m).
Proof. intros H ev r. unfold with_error. destruct m as [[ev1 r1]| |]; simpl; try discriminate. intros [= <- <-]. exact (H _ _ eq_refl). Qed.

Lemma quiet_run hs op : quiet (run_operation env hs op).
Proof.
  destruct op; simpl; apply quiet_with_error.
  - apply quiet_equivalence.
  - apply quiet_binary.
  - unfold enumerate_regex. qt; apply quiet_enumerate_nfa.
  - unfold enumerate_file. qt; apply quiet_enumerate_nfa.
  - apply quiet_test_files.
Qed.
End Quiet.

(** ** Whole runs *)
Lemma stdout_interleaved ev : warns ev = [] ->
  exists lines, interleaved (outs ev) (log_lines ev) lines /\ stdout_of ev = with_lf lines.
Proof.
  induction ev as [|[s|s|s] ev IH]; simpl; intros H; try discriminate.
  - exists []. split; [constructor|reflexivity].
  - destruct (IH H) as (l & I & E). exists (s :: l). split; [constructor; auto|]. unfold with_lf in *. simpl. rewrite E. reflexivity.
  - destruct (IH H) as (l & I & E). exists (s :: l). split; [constructor; auto|]. unfold with_lf in *. simpl. rewrite E. reflexivity.
Qed.
Lemma stderr_nil ev : warns ev = [] -> stderr_of ev = [].
Proof. induction ev as [|[s|s|s] ev IH]; simpl; intros H; auto. discriminate. Qed.
Lemma sink_outs ev : sink_of ev = concat (outs ev).
Proof. induction ev as [|[s|s|s] ev IH]; simpl; auto. rewrite IH. reflexivity. Qed.

Lemma op_spec env hs op : exists ev r, run_operation env hs op =
    Ret (ev, match r with Ok a => Ok a | Err e => Err (error_prefix op ++ e) end) /\
    op_outcome env op (outs ev) (log_lines ev) r /\ warns ev = [].
Proof.
  destruct op as [args|o args|n u|ty n f|ty t a fs]; cbn [run_operation op_outcome error_prefix].
  - destruct (equivalence_spec env hs args) as (ev & r & -> & H & W). exists ev, r. auto.
  - destruct (binary_op_spec env hs args o) as (ev & r & -> & H & W). exists ev, r. rewrite op_text_eq. auto.
  - destruct (enumerate_regex_spec env hs u n) as [(t & ev & ws & E & -> & F & O & W)|(H & ->)].
    + exists ev, (Ok tt). split; auto. split; auto. right. exists (ARegex t), ws. auto.
    + exists [], (Err (ce_nom_display env TRegex u)). split; auto 7.
  - destruct (enumerate_file_spec env hs ty f n) as [(a & ev & ws & H & -> & F & O & W)|(m & H & ->)].
    + exists ev, (Ok tt). split; auto. split; auto. right. exists a, ws. auto.
    + exists [], (Err m). split; auto. split; auto. left. exists m. auto.
  - destruct (test_files_spec env hs ty t a fs) as [(a0 & ev & r & H & -> & R & W)|(m & H & ->)].
    + exists ev, r. split; auto. split; auto. right. exists a0. auto.
    + exists [], (Err m). split; auto. split; auto. left. exists m. auto.
Qed.

Theorem cli_main_spec env hs create op :
  exists m out lg r, cli_main env hs create op = Ret m /\ op_outcome env op out lg r /\
    (exists lines, interleaved out lg lines /\ mr_stdout m = with_lf lines) /\
    (ce_log env = false -> lg = []) /\
    mr_stderr m = with_lf (match create with
                           | Some (Err e) => [of_string "Error creating output file " ++ e;
                                              of_string "Execution will continue but no data will be written to file"]
                           | _ => []
                           end ++ match r with Err e => [error_prefix op ++ e] | Ok _ => [] end) /\
    mr_file m = match create with Some (Ok _) => Some (concat out) | _ => None end.
Proof.
  destruct (op_spec env hs op) as (ev & r & E & H & W). unfold cli_main, finish. rewrite E. cbn [bind].
  eexists. exists (outs ev), (log_lines ev), r. split; [reflexivity|]. split; auto. cbn [mr_stdout mr_stderr mr_file].
  split; [apply stdout_interleaved; auto|]. split.
  - intros Hl. eapply quiet_run; eauto.
  - rewrite stderr_nil, sink_outs by auto. split; auto.
    unfold with_lf, println. destruct create as [[|ec]|], r as [[]|er]; simpl; rewrite ?app_nil_r, <- ?app_assoc; auto.
Qed.

(** A text has only one list of lines. *)
Lemma lf_split : forall (l l' u u' : str), ~ In 10%N l -> ~ In 10%N l' -> l ++ 10%N :: u = l' ++ 10%N :: u' -> l = l' /\ u = u'.
Proof.
  induction l as [|c l IH]; intros [|c' l'] u u' H H' E; cbn [app] in *.
  - split; congruence.
  - exfalso. apply H'. left. congruence.
  - exfalso. apply H. left. congruence.
  - assert (c = c') by congruence. subst c'. destruct (IH l' u u') as [-> ->]; auto; try congruence; intros Hi; [apply H|apply H']; right; auto.
Qed.
Lemma text_lines_unique u ls ls' : text_lines u ls -> text_lines u ls' -> ls = ls'.
Proof.
  intros H. revert ls'. induction H as [|l Hn Hl|l u ls Hl Hr H IH|l u ls Hl H IH]; intros ls' H'.
  - inversion H' as [|l' Hn' Hl'|l' u' ls0 Hl' Hr' H0|l' u' ls0 Hl' H0]; subst; auto; try congruence; destruct l'; discriminate.
  - inversion H' as [|l' Hn' Hl'|l' u' ls0 Hl' Hr' H0|l' u' ls0 Hl' H0]; subst; auto; try congruence; exfalso; apply Hl; apply in_or_app; right;
      simpl; auto.
  - inversion H' as [E|l' Hn' Hl' E|l' u' ls0 Hl' Hr' H0 E|l' u' ls0 Hl' H0 E]; subst.
    + destruct l; discriminate.
    + exfalso. apply Hl'. apply in_or_app. right. simpl. auto.
    + simpl in E. apply lf_split in E as [-> ->]; auto. f_equal. auto.
    + simpl in E. replace (l' ++ 13%N :: 10%N :: u') with ((l' ++ [13%N]) ++ 10%N :: u') in E by (rewrite <- app_assoc; reflexivity).
      apply lf_split in E as [<- _]; auto; [exfalso; eapply Hr; reflexivity|]. intros Hi. apply in_app_or in Hi as [Hi|[Hi|[]]]; [auto|discriminate].
  - replace (l ++ [13%N; 10%N] ++ u) with ((l ++ [13%N]) ++ 10%N :: u) in H' by (rewrite <- app_assoc; reflexivity).
    assert (Hl2 : ~ In 10%N (l ++ [13%N])) by (intros Hi; apply in_app_or in Hi as [Hi|[Hi|[]]]; [auto|discriminate]).
    inversion H' as [E|l' Hn' Hl' E|l' u' ls0 Hl' Hr' H0 E|l' u' ls0 Hl' H0 E]; subst.
    + destruct l; discriminate.
    + exfalso. apply Hl'. apply in_or_app. right. simpl. auto.
    + simpl in E. apply lf_split in E as [-> ->]; auto. exfalso. eapply Hr'; reflexivity.
    + simpl in E. replace (l' ++ 13%N :: 10%N :: u') with ((l' ++ [13%N]) ++ 10%N :: u') in E by (rewrite <- app_assoc; reflexivity).
      apply lf_split in E as [E ->]; auto; [apply app_inj_tail in E as [-> _]; f_equal; auto|].
      intros Hi; apply in_app_or in Hi as [Hi|[Hi|[]]]; [auto|discriminate].
Qed.

(** ** Lengths of what is printed *)
Lemma interleaved_length a b c : interleaved a b c -> length (concat a) <= length (@concat N c).
Proof. induction 1; cbn [concat]; rewrite ?app_length; lia. Qed.
Lemma with_lf_length lines : length (with_lf lines) = length lines + length (concat lines).
Proof. unfold with_lf. induction lines as [|l lines IH]; auto. cbn [map concat length]. rewrite !app_length, IH. cbn [length]. lia. Qed.
