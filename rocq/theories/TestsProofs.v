(** * TestsProofs: the property tests of the repository pass *)
From Coq Require Import List NArith Arith Lia Bool.
From Verif Require Import Base BaseLemmas Spec TableSpec LayoutSpec RegexSpec DfaModel NfaModel RegexModel ValidateModel ParserModel TableModel
  RegexParserModel WordsModel DfaBasics NfaBasics WordsProofs RegexProofs RegexParserProofs RegexPrintProofs RegexSymbols TestsModel CounterProofs
  Prop_Dfa Prop_Nfa Prop_Table Prop_Words Prop_Regex Prop_Validate.
Import ListNotations.

(** ** Assertions *)
Lemma assert_call_ok c : c = Ret true -> assert_call c = Ret tt.
Proof. intros ->. reflexivity. Qed.
Lemma assert_same_refl b : assert_same b b = Ret tt.
Proof. destruct b; reflexivity. Qed.
Lemma for_each_ok {A} (f : A -> R unit) l : (forall x, In x l -> f x = Ret tt) -> for_each f l = Ret tt.
Proof.
  unfold for_each. induction l as [|x l IH]; intros H; cbn [foldR]; auto. rewrite H by (left; auto). cbn [bind]. apply IH. intros; apply H; right; auto.
Qed.

(** ** Equality *)
Lemma vec_eq_spec {A} (eq : A -> A -> bool) : (forall x y, reflect (x = y) (eq x y)) -> forall l l', reflect (l = l') (vec_eq eq l l').
Proof.
  intros H. induction l as [|x l IH]; intros [|y l']; cbn [vec_eq]; try (constructor; congruence).
  destruct (H x y); cbn [andb]; [|constructor; congruence]. destruct (IH l'); constructor; congruence.
Qed.
Ltac eq_fields := repeat match goal with |- context [eqb ?a ?b] => destruct (eqb_spec a b); cbn [andb]; [|constructor; congruence] end;
  constructor; match goal with |- ?x = ?y => destruct x, y; simpl in *; congruence end.
Lemma dfa_state_eq_spec s t : reflect (s = t) (dfa_state_eq s t).
Proof. unfold dfa_state_eq. eq_fields. Qed.
Lemma nfa_state_eq_spec s t : reflect (s = t) (nfa_state_eq s t).
Proof. unfold nfa_state_eq. eq_fields. Qed.
Lemma dfa_eq_spec d e : reflect (d = e) (dfa_eq d e).
Proof.
  unfold dfa_eq. destruct d as [a s i], e as [a' s' i']. cbn [dfa_alphabet dfa_states dfa_initial].
  destruct (eqb_spec a a'); cbn [andb]; [|constructor; congruence].
  destruct (vec_eq_spec dfa_state_eq dfa_state_eq_spec s s'); cbn [andb]; [|constructor; congruence].
  destruct (eqb_spec i i'); constructor; congruence.
Qed.
Lemma nfa_eq_spec n m : reflect (n = m) (nfa_eq n m).
Proof.
  unfold nfa_eq. destruct n as [a s i], m as [a' s' i']. cbn [nfa_alphabet nfa_states nfa_initial].
  destruct (eqb_spec a a'); cbn [andb]; [|constructor; congruence].
  destruct (vec_eq_spec nfa_state_eq nfa_state_eq_spec s s'); cbn [andb]; [|constructor; congruence].
  destruct (eqb_spec i i'); constructor; congruence.
Qed.
Lemma dfa_eq_refl d : dfa_eq d d = true.
Proof. destruct (dfa_eq_spec d d); congruence. Qed.
Lemma nfa_eq_refl n : nfa_eq n n = true.
Proof. destruct (nfa_eq_spec n n); congruence. Qed.

(** ** Equivalence *)
Lemma dfa_equivalent_true d1 d2 : dfa_valid d1 -> dfa_valid d2 -> same_set (dfa_alphabet d1) (dfa_alphabet d2) ->
  (forall w, dfa_lang d1 w <-> dfa_lang d2 w) -> assert_call (dfa_equivalent_to d1 d2) = Ret tt.
Proof. intros V1 V2 Hs Hl. destruct (C12_dfa_equivalent_to d1 d2 V1 V2) as (b & -> & Hb). apply assert_call_ok. f_equal. apply Hb. auto. Qed.
Lemma nfa_equivalent_true n1 n2 : nfa_valid n1 -> nfa_valid n2 -> same_set (nfa_alphabet n1) (nfa_alphabet n2) ->
  (forall w, nfa_lang n1 w <-> nfa_lang n2 w) -> assert_call (nfa_equivalent_to n1 n2) = Ret tt.
Proof. intros V1 V2 Hs Hl. destruct (C13_nfa_equivalent_to n1 n2 V1 V2) as (b & -> & Hb). apply assert_call_ok. f_equal. apply Hb. auto. Qed.
Lemma same_set_eq {A} (l l' : list A) : l = l' -> same_set l l'.
Proof. intros ->. intros x. reflexivity. Qed.

(** ** The tests on automata *)
Lemma dfa_table_reparse_ok d : dfa_valid d -> dfa_alphabet d <> [] ->
  Forall legal_token (dfa_alphabet d) -> Forall (fun s => legal_token (ds_name s)) (dfa_states d) -> dfa_table_reparse d = Ret tt.
Proof.
  intros V Hn Ha Hs. destruct (C09_dfa_to_table_roundtrip d V Hn Ha Hs) as (u & p & E1 & E2 & E3).
  unfold dfa_table_reparse. rewrite E1. cbn [bind]. rewrite E2. cbn [bind unwrap]. rewrite E3. cbn [bind unwrap_result]. rewrite dfa_eq_refl. reflexivity.
Qed.
Lemma nfa_table_reparse_ok n : nfa_valid n ->
  Forall legal_token (nfa_alphabet n) -> Forall (fun s => legal_token (ns_name s)) (nfa_states n) -> nfa_table_reparse n = Ret tt.
Proof.
  intros V Ha Hs. destruct (C10_nfa_to_table_roundtrip n V Ha Hs) as (u & p & E1 & E2 & E3).
  unfold nfa_table_reparse. rewrite E1. cbn [bind]. rewrite E2. cbn [bind unwrap]. rewrite E3. cbn [bind unwrap_result]. rewrite nfa_eq_refl. reflexivity.
Qed.
Lemma dfa_minimize_eq_ok h dbg d : dfa_valid d -> dfa_minimize_eq h dbg d = Ret tt.
Proof.
  intros V. unfold dfa_minimize_eq. destruct (C21_minimize h dbg d V) as (m & -> & Vm & Ea & Hl & _). cbn [bind].
  rewrite dfa_equivalent_true; auto; [|apply same_set_eq; auto]. cbn [bind]. apply dfa_equivalent_true; auto; [apply same_set_eq; auto|].
  intros w. rewrite (Hl w). reflexivity.
Qed.
Lemma dfa_to_nfa_to_dfa_ok h d : dfa_valid d -> dfa_to_nfa_to_dfa h d = Ret tt.
Proof.
  intros V. destruct (C14_dfa_to_nfa d V) as (Vn & _ & Ea & _ & _ & _ & _ & _ & Hl). unfold dfa_to_nfa_to_dfa.
  destruct (C15_nfa_to_dfa h _ Vn) as (c & -> & Vc & Ec & _ & _ & _ & Hc). cbn [bind].
  assert (H : forall w, dfa_lang d w <-> dfa_lang c w) by (intros w; rewrite (Hc w), (Hl w); reflexivity).
  rewrite dfa_equivalent_true; auto; [|apply same_set_eq; congruence]. cbn [bind]. apply dfa_equivalent_true; auto; [apply same_set_eq; congruence|].
  intros w. rewrite (H w). reflexivity.
Qed.
Lemma nfa_to_dfa_to_nfa_ok h n : nfa_valid n -> nfa_to_dfa_to_nfa h n = Ret tt.
Proof.
  intros V. unfold nfa_to_dfa_to_nfa. destruct (C15_nfa_to_dfa h n V) as (c & -> & Vc & Ec & _ & _ & _ & Hc). cbn [bind].
  destruct (C14_dfa_to_nfa c Vc) as (Vn & _ & Ea & _ & _ & _ & _ & _ & Hl).
  assert (H : forall w, nfa_lang n w <-> nfa_lang (dfa_to_nfa c) w) by (intros w; rewrite (Hl w), (Hc w); reflexivity).
  cbv zeta. rewrite nfa_equivalent_true; auto; [|apply same_set_eq; congruence]. cbn [bind].
  apply nfa_equivalent_true; auto; [apply same_set_eq; congruence|]. intros w. rewrite (H w). reflexivity.
Qed.

Lemma product_bind {A B} (c : R (option A)) (P : Prop) (Q : A -> Prop) (k : A -> R B) res :
  (exists r, c = Ret r /\ (r = None <-> ~ P) /\ forall d, r = Some d -> Q d) -> P ->
  (forall d, Q d -> k d = res) -> (o <- c ;; d <- unwrap o ;; k d) = res.
Proof.
  intros (r & -> & Hn & H) HP Hk. cbn [bind]. destruct r as [d|]; cbn [unwrap bind]; auto. exfalso. apply Hn; auto.
Qed.
Lemma bool_iff b c : (b = true <-> c = true) -> b = c.
Proof. destruct b, c; intuition congruence. Qed.

Lemma dfa_binary_ops_ok graphemes h1 h2 h3 h4 d1 d2 tests : dfa_valid d1 -> dfa_valid d2 -> same_set (dfa_alphabet d1) (dfa_alphabet d2) ->
  dfa_binary_ops graphemes h1 h2 h3 h4 d1 d2 tests = Ret tt.
Proof.
  intros V1 V2 Hs. unfold dfa_binary_ops.
  apply (product_bind _ _ _ _ _ (C25_intersection h1 d1 d2 V1 V2) Hs). intros i (Vi & _ & Li).
  apply (product_bind _ _ _ _ _ (C25_union h2 d1 d2 V1 V2) Hs). intros u (Vu & _ & Lu).
  apply (product_bind _ _ _ _ _ (C25_difference h3 d1 d2 V1 V2) Hs). intros e (Ve & _ & Le).
  apply (product_bind _ _ _ _ _ (C25_symmetric_difference h4 d1 d2 V1 V2) Hs). intros s (Vs & _ & Ls).
  apply for_each_ok. intros test _.
  destruct (C01_dfa_accepts_graphemes graphemes d1 test V1) as (r1 & -> & B1). destruct (C01_dfa_accepts_graphemes graphemes d2 test V2) as (r2 & -> & B2).
  destruct (C01_dfa_accepts_graphemes graphemes i test Vi) as (bi & -> & Bi). destruct (C01_dfa_accepts_graphemes graphemes u test Vu) as (bu & -> & Bu).
  destruct (C01_dfa_accepts_graphemes graphemes e test Ve) as (be & -> & Be). destruct (C01_dfa_accepts_graphemes graphemes s test Vs) as (bs & -> & Bs).
  rewrite Li in Bi. rewrite Lu in Bu. rewrite Le in Be. rewrite Ls in Bs. rewrite <- B1, <- B2 in *. cbn [bind].
  assert (bi = r1 && r2) as -> by (destruct bi, r1, r2; cbn; intuition congruence). rewrite assert_same_refl. cbn [bind].
  assert (bu = r1 || r2) as -> by (destruct bu, r1, r2; cbn; intuition congruence). rewrite assert_same_refl. cbn [bind].
  assert (be = r1 && negb r2) as -> by (destruct be, r1, r2; cbn; intuition congruence). rewrite assert_same_refl. cbn [bind].
  assert (bs = negb (Bool.eqb r1 r2)) as -> by (destruct bs, r1, r2; cbn; intuition congruence). apply assert_same_refl.
Qed.
Lemma nfa_binary_ops_ok graphemes h n1 n2 tests : nfa_valid n1 -> nfa_valid n2 -> same_set (nfa_alphabet n1) (nfa_alphabet n2) ->
  nfa_binary_ops graphemes h n1 n2 tests = Ret tt.
Proof.
  intros V1 V2 Hs. unfold nfa_binary_ops.
  apply (product_bind _ _ _ _ _ (C28_nfa_intersection h n1 n2 V1 V2) Hs). intros i (Vi & _ & Li).
  destruct (C27_nfa_union n1 n2 V1 V2) as (r & -> & _ & H). destruct (H Hs) as (u & -> & Vu & _ & Lu). cbn [bind].
  apply for_each_ok. intros test _.
  destruct (C03_nfa_accepts_graphemes graphemes n1 test V1) as (r1 & -> & B1). destruct (C03_nfa_accepts_graphemes graphemes n2 test V2) as (r2 & -> & B2).
  destruct (C03_nfa_accepts_graphemes graphemes i test Vi) as (bi & -> & Bi). destruct (C03_nfa_accepts_graphemes graphemes u test Vu) as (bu & -> & Bu).
  rewrite Li in Bi. rewrite Lu in Bu. rewrite <- B1, <- B2 in *. cbn [bind].
  assert (bi = r1 && r2) as -> by (destruct bi, r1, r2; cbn; intuition congruence). rewrite assert_same_refl. cbn [bind].
  assert (bu = r1 || r2) as -> by (destruct bu, r1, r2; cbn; intuition congruence). apply assert_same_refl.
Qed.
Lemma dfa_self_union_ok h d : dfa_valid d -> dfa_self_union h d = Ret tt.
Proof.
  intros V. unfold dfa_self_union. apply (product_bind _ _ _ _ _ (C25_union h d d V V) (same_set_eq _ _ eq_refl)). intros u (Vu & A & L).
  apply dfa_equivalent_true; auto; [apply same_set_eq; auto|]. intros w. rewrite (L w). tauto.
Qed.
Lemma dfa_self_intersection_ok h d : dfa_valid d -> dfa_self_intersection h d = Ret tt.
Proof.
  intros V. unfold dfa_self_intersection. apply (product_bind _ _ _ _ _ (C25_intersection h d d V V) (same_set_eq _ _ eq_refl)). intros u (Vu & A & L).
  apply dfa_equivalent_true; auto; [apply same_set_eq; auto|]. intros w. rewrite (L w). tauto.
Qed.
Lemma dfa_lang_dec d w : dfa_valid d -> dfa_lang d w \/ ~ dfa_lang d w.
Proof.
  intros V. destruct (C01_dfa_accepts_graphemes (fun _ => w) d [] V) as ([|] & _ & H); [left; apply H; auto|right].
  intros L. apply H in L. discriminate.
Qed.
Lemma dfa_inversion_tautologies_ok graphemes h1 h2 h3 h4 d tests : dfa_valid d ->
  (forall test, In test tests -> over (dfa_alphabet d) (graphemes test)) -> dfa_inversion_tautologies graphemes h1 h2 h3 h4 d tests = Ret tt.
Proof.
  intros V Ht. destruct (C23_invert d V) as (Vi & Ai & _ & _ & _ & _ & Li). unfold dfa_inversion_tautologies. cbv zeta.
  assert (Hs : same_set (dfa_alphabet d) (dfa_alphabet (dfa_invert d))) by (apply same_set_eq; auto).
  apply (product_bind _ _ _ _ _ (C25_union h1 d _ V Vi) Hs). intros u (Vu & Au & Lu).
  apply (product_bind _ _ _ _ _ (C25_intersection h2 d _ V Vi) Hs). intros i (Vx & Ax & Lx).
  assert (Hu : forall w, over (dfa_alphabet d) w -> dfa_lang u w).
  { intros w Hw. apply Lu. rewrite Li. destruct (dfa_lang_dec d w V); auto. }
  assert (Hi : forall w, ~ dfa_lang i w) by (intros w Hw; apply Lx in Hw as [H1 H2]; apply Li in H2; tauto).
  destruct (C18_dfa_has_reachable_accepting_state h3 u Vu) as (b & -> & Hb). rewrite assert_call_ok.
  2:{ f_equal. apply Hb. exists []. apply Hu. constructor. }
  cbn [bind]. destruct (C18_dfa_has_reachable_accepting_state h4 i Vx) as ([|] & -> & Hb').
  { exfalso. destruct (proj1 Hb' eq_refl) as (w & Hw). exact (Hi w Hw). }
  cbn [bind negb assert_that]. apply for_each_ok. intros test Hin.
  destruct (C01_dfa_accepts_graphemes graphemes u test Vu) as (bu & -> & Bu). rewrite assert_call_ok.
  2:{ f_equal. apply Bu, Hu, Ht; auto. }
  cbn [bind]. destruct (C01_dfa_accepts_graphemes graphemes i test Vx) as ([|] & -> & Bi); auto.
  exfalso. exact (Hi _ (proj1 Bi eq_refl)).
Qed.
Lemma nfa_remove_epsilon_transitions_ok h dbg n : nfa_valid n -> nfa_remove_epsilon_transitions h dbg n = Ret tt.
Proof.
  intros V. unfold nfa_remove_epsilon_transitions. destruct (C30_remove_epsilon_moves h dbg n V) as (m & -> & Vm & Em & Hm & Am & Lm & _). cbn [bind].
  rewrite nfa_equivalent_true; auto; [|apply same_set_eq; auto|intros w; rewrite (Lm w); reflexivity]. cbn [bind].
  assert (E : forallb (fun s => length (ns_eps s) =? 0) (nfa_states m) = true).
  { unfold nfa_has_epsilon_moves in Hm. apply forallb_forall. intros s Hs. destruct (length (ns_eps s) =? 0) eqn:El; auto.
    assert (H : existsb (fun s => negb (length (ns_eps s) =? 0)) (nfa_states m) = true); [|congruence].
    apply existsb_exists. exists s. rewrite El. auto. }
  rewrite E, Hm. reflexivity.
Qed.
Lemma nfa_remove_unreachable_ok h dbg n : nfa_valid n -> nfa_remove_unreachable h dbg n = Ret tt.
Proof.
  intros V. unfold nfa_remove_unreachable. destruct (C17_nfa_remove_unreachable h dbg n V) as (m & -> & Vm & (k & _ & _ & Hr) & Lm). cbn [bind].
  apply nfa_equivalent_true; auto; [apply same_set_eq; symmetry; apply Hr|intros w; rewrite (Lm w); reflexivity].
Qed.

(** ** Words *)
Lemma take_each_ok {A} (next : words_iter -> R (words_iter * option A)) f k : forall wi outs, iter_calls next wi k = Ret outs ->
  (forall a, In (Some a) outs -> f a = Ret tt) -> take_each next f wi k = Ret tt.
Proof.
  induction k as [|k IH]; intros wi outs H Hf; cbn [iter_calls take_each] in *; auto.
  destruct (next wi) as [[wi' o]| |]; cbn [bind] in *; try discriminate.
  destruct (iter_calls next wi' k) as [os| |] eqn:E; cbn [bind] in *; try discriminate. injection H as <-.
  destruct o as [a|]; auto. rewrite Hf by (left; auto). cbn [bind]. apply (IH wi' os E). intros; apply Hf; right; auto.
Qed.
Lemma spells_digits al max idx w : length al = S max -> spells al idx w -> digits max idx.
Proof.
  intros Hl H. induction H as [|i a idx w Hi Hw IH]; constructor; auto.
  assert (i < length al) by (apply nth_error_Some; congruence). lia.
Qed.
Lemma digits_spell al max idx : length al = S max -> digits max idx -> exists w, spells al idx w.
Proof.
  intros Hl H. induction H as [|i idx Hi Hw (w & IH)]; [exists []; constructor|].
  destruct (nth_error al i) as [a|] eqn:E; [exists (a :: w); constructor; auto|]. apply nth_error_None in E. lia.
Qed.
Lemma spells_over al idx w : spells al idx w -> over al w.
Proof. intros H. induction H; constructor; auto. eapply nth_error_In; eauto. Qed.

Lemma nfa_words_ok graphemes h1 h2 h3 h4 dbg take len d : dfa_valid d -> dfa_alphabet d <> [] ->
  (forall w, over (dfa_alphabet d) w -> graphemes (concat w) = w) -> nfa_words graphemes h1 h2 h3 h4 dbg take len d = Ret tt.
Proof.
  intros V Hne Hg. unfold nfa_words. cbv zeta. destruct (C14_dfa_to_nfa d V) as (Vn & En & An & _ & _ & _ & _ & _ & Ln).
  destruct (C30_remove_epsilon_moves h1 dbg _ Vn) as (n1 & -> & V1 & E1 & _ & A1 & L1 & Hsame). cbn [bind].
  destruct (C15_nfa_to_dfa h2 _ Vn) as (e & -> & Ve & Ae & _ & _ & _ & Le). cbn [bind].
  destruct (C21_minimize h3 dbg e Ve) as (m & -> & Vm & Am & Lm & _). cbn [bind].
  destruct (C23_invert m Vm) as (Vi & Ai & _ & _ & _ & _ & Li).
  destruct (C14_dfa_to_nfa _ Vi) as (Vin & Ein & Ain & _ & _ & _ & _ & _ & Lin).
  destruct (C30_remove_epsilon_moves h4 dbg _ Vin) as (n2 & -> & V2 & E2 & _ & A2 & L2 & _). cbn [bind].
  assert (Alph : nfa_alphabet n2 = dfa_alphabet d) by congruence.
  assert (Lang : forall w, nfa_lang n2 w <-> over (dfa_alphabet d) w /\ ~ dfa_lang d w).
  { intros w. rewrite (L2 w), (Lin w), (Li w), (Lm w), (Le w), (Ln w). rewrite Am, Ae, An. reflexivity. }
  set (n := dfa_to_nfa d) in *.
  (* the two lists of words *)
  destruct (C33_words_sound n1 take V1 E1) as (o1 & W1 & _ & S1). destruct (C33_words_sound n2 take V2 E2) as (o2 & W2 & _ & S2).
  unfold words_calls in W1, W2. destruct (words_new n1) as [i1| |]; cbn [bind] in *; try discriminate.
  rewrite (take_each_ok _ _ _ _ _ W1).
  2:{ intros word Hin. destruct (S1 word Hin) as (w & Hw & ->). apply L1, Ln in Hw. pose proof (dfa_lang_over _ _ Hw) as Ho.
      destruct (C03_nfa_accepts_graphemes graphemes n (concat w) Vn) as (b & -> & Hb). rewrite (Hg w Ho) in Hb.
      rewrite assert_call_ok by (f_equal; apply Hb, Ln; auto). cbn [bind].
      destruct (C03_nfa_accepts_graphemes graphemes n2 (concat w) V2) as ([|] & -> & Hb'); auto. rewrite (Hg w Ho) in Hb'.
      exfalso. destruct (proj1 (Lang w) (proj1 Hb' eq_refl)). auto. }
  cbn [bind]. destruct (words_new n2) as [i2| |] eqn:N2; cbn [bind] in *; try discriminate.
  rewrite (take_each_ok _ _ _ _ _ W2).
  2:{ intros word Hin. destruct (S2 word Hin) as (w & Hw & ->). pose proof Hw as Hw2. apply Lang in Hw as [Ho Hw].
      destruct (C03_nfa_accepts_graphemes graphemes n (concat w) Vn) as ([|] & -> & Hb); rewrite (Hg w Ho) in Hb.
      { exfalso. apply Hw, Ln, Hb. reflexivity. }
      cbn [bind negb assert_that]. destruct (C03_nfa_accepts_graphemes graphemes n2 (concat w) V2) as (b & -> & Hb'). rewrite (Hg w Ho) in Hb'.
      apply assert_call_ok. f_equal. apply Hb'. auto. }
  cbn [bind]. rewrite An. destruct (length (dfa_alphabet d)) as [|max] eqn:Hl; [destruct (dfa_alphabet d); [congruence|discriminate]|].
  destruct (first_awaits n Vn En) as (wi & p & -> & Hp & Ha). cbn [bind]. rewrite Hp. cbn [bind].
  destruct (first_awaits n2 V2 E2) as (wi2 & p2 & Hn2 & Hp2 & Ha2). rewrite N2 in Hn2. injection Hn2 as <-. rewrite Hp2. cbn [bind].
  assert (Acc1 : forall x, acc n x <-> exists w, spells (dfa_alphabet d) x w /\ dfa_lang d w).
  { intros x. rewrite (acc_lang n Vn En x). rewrite An. split; intros (w & H1 & H2); exists w; split; auto; apply Ln; auto. }
  assert (Acc2 : forall x, acc n2 x <-> exists w, spells (dfa_alphabet d) x w /\ ~ dfa_lang d w).
  { intros x. rewrite (acc_lang n2 V2 E2 x). rewrite Alph. split.
    - intros (w & H1 & H2). exists w. split; auto. apply Lang; auto.
    - intros (w & H1 & H2). exists w. split; auto. apply Lang. split; auto. eapply spells_over; eauto. }
  apply (merge_ok max len n n2); auto.
  - intros x Hx. apply Acc1 in Hx as (w & H & _). eapply spells_digits; eauto.
  - intros x Hx. apply Acc2 in Hx as (w & H & _). eapply spells_digits; eauto.
  - intros x Hx. destruct (digits_spell _ _ _ Hl Hx) as (w & Hw). rewrite (Acc1 x), (Acc2 x). destruct (dfa_lang_dec d w V); eauto.
  - intros x Hx Hx2. apply Acc1 in Hx as (w & H1 & H2). apply Acc2 in Hx2 as (w' & H3 & H4). rewrite (spells_fun _ _ _ _ H1 H3) in H2. auto.
Qed.

(** ** Regular expressions *)
Section RandomRegex.
  Variable base : N -> Prop.
  Variable P : str -> Prop.
  Hypotheses (Hbase : forall c, base c -> P [c])
    (Hgroup : forall l, l <> [] -> Forall (random_regex base) l -> Forall P l -> P (40%N :: join [] l ++ [41%N]))
    (Halt : forall l, l <> [] -> Forall (random_regex base) l -> Forall P l -> P (join [124%N] l))
    (Hstar : forall r, random_regex base r -> P r -> P (40%N :: r ++ [41; 42]%N))
    (Hplus : forall r, random_regex base r -> P r -> P (40%N :: r ++ [41; 43]%N)).
  Fixpoint random_regex_ind' (u : str) (H : random_regex base u) : P u :=
    let all := fix all (l : list str) (HF : Forall (random_regex base) l) : Forall P l :=
      match HF with
      | Forall_nil _ => Forall_nil P
      | Forall_cons x Hx HF' => Forall_cons x (random_regex_ind' x Hx) (all _ HF')
      end in
    match H with
    | rr_base _ c Hc => Hbase c Hc
    | rr_group _ l Hn HF => Hgroup l Hn HF (all l HF)
    | rr_alt _ l Hn HF => Halt l Hn HF (all l HF)
    | rr_star _ r Hr => Hstar r Hr (random_regex_ind' r Hr)
    | rr_plus _ r Hr => Hplus r Hr (random_regex_ind' r Hr)
    end.
End RandomRegex.

Definition chars (u : str) : list str := map (fun c => [c]) u.
Lemma chars_app u v : chars (u ++ v) = chars u ++ chars v.
Proof. apply map_app. Qed.
Lemma chars_concat u : concat (chars u) = u.
Proof. induction u as [|c u IH]; simpl; f_equal; auto. Qed.

Lemma alts_atoms l u : alts l u -> forall l' v, atoms l' v -> exists l2, alts l2 (v ++ u).
Proof.
  intros H l' v Hv. destruct H as [l u Ha|l u ls w Ha Hs].
  - eexists. apply alts_one. apply (atoms_app _ _ Hv _ _ Ha).
  - eexists. rewrite app_assoc. apply alts_more; [apply (atoms_app _ _ Hv _ _ Ha)|exact Hs].
Qed.
Lemma alts_concat l u : alts l u -> forall l' v, alts l' v -> exists l2, alts l2 (u ++ v).
Proof.
  induction 1 as [l u Ha|l u ls w Ha Hs IH]; intros l' v Hv.
  - apply (alts_atoms _ _ Hv _ _ Ha).
  - destruct (IH _ _ Hv) as (l2 & H2). exists (wrap RSequence l :: l2). rewrite <- app_assoc. cbn [app]. apply alts_more; auto.
Qed.
Lemma alts_kleene l u k : alts l u -> exists l2, alts l2 ([40%N] :: u ++ [41%N] :: ktoks k).
Proof.
  intros H. eexists. apply alts_one.
  replace ([40%N] :: u ++ [41%N] :: ktoks k) with (([40%N] :: u ++ [[41%N]]) ++ ktoks k) by (cbn [app]; rewrite <- app_assoc; reflexivity).
  apply atoms_one. apply prim_group. eauto.
Qed.

Section Random.
  Variable base : N -> Prop.
  Hypothesis Hb : forall c, base c -> (c = 949%N \/ c = 8709%N \/ ~ syntax_char c) /\ ~ whitespace c.

  Lemma random_alts u : random_regex base u -> exists l, alts l (chars u).
  Proof.
    intros H. induction H as [c Hc|l Hn HF IH|l Hn HF IH|r Hr (l & Hl)|r Hr (l & Hl)] using random_regex_ind'.
    - cbn [chars map]. assert (Hp : exists t, prim t [[c]]).
      { destruct (Hb c Hc) as [[->|[->|Hs]] _]; eexists; apply prim_char; [apply ct_eps|apply ct_empty|apply ct_sym].
        intros (c' & g & [= <- <-] & Hc'). auto. }
      destruct Hp as (t & Hp). eexists. apply alts_one. rewrite <- (app_nil_r [[c]]). apply (atoms_one t _ KNone Hp).
    - assert (Hj : exists l2, alts l2 (chars (join [] l))).
      { destruct l as [|x l]; [congruence|]. cbn [join app]. inversion IH as [|? ? (l1 & Hx) IH']; subst. clear Hn HF IH.
        revert x l1 Hx. induction IH' as [|y l (ly & Hy) IH' IHl]; intros x l1 Hx; cbn [flat_map].
        - rewrite app_nil_r. eauto.
        - rewrite app_assoc. destruct (alts_concat _ _ Hx _ _ Hy) as (l2 & H2). rewrite <- chars_app in H2. exact (IHl _ _ H2). }
      destruct Hj as (l2 & Hj). destruct (alts_kleene l2 _ KNone Hj) as (l3 & H3). exists l3.
      cbn [chars map]. fold (chars (join [] l ++ [41%N])). rewrite chars_app. exact H3.
    - destruct l as [|x l]; [congruence|]. cbn [join app]. inversion IH as [|? ? (l1 & Hx) IH']; subst. clear Hn HF IH.
      revert x l1 Hx. induction IH' as [|y l (ly & Hy) IH' IHl]; intros x l1 Hx; cbn [flat_map].
      + rewrite app_nil_r. eauto.
      + destruct (IHl y ly Hy) as (l2 & H2). exists (l1 ++ l2). rewrite chars_app. cbn [app chars map]. fold (chars (y ++ flat_map (fun z => 124%N :: z) l)).
        apply alts_app; auto.
    - destruct (alts_kleene l _ KStar Hl) as (l3 & H3). exists l3. cbn [chars map]. fold (chars (r ++ [41; 42]%N)). rewrite chars_app. exact H3.
    - destruct (alts_kleene l _ KPlus Hl) as (l3 & H3). exists l3. cbn [chars map]. fold (chars (r ++ [41; 43]%N)). rewrite chars_app. exact H3.
  Qed.
  Lemma join_In sep l c : In c (join sep l) -> In c sep \/ exists x, In x l /\ In c x.
  Proof.
    destruct l as [|x l]; cbn [join]; [intros []|]. intros H. apply in_app_iff in H as [H|H]; [right; exists x; split; auto; left; auto|].
    apply in_flat_map in H as (y & Hy & H). apply in_app_iff in H as [H|H]; auto. right. exists y. split; auto. right; auto.
  Qed.
  Lemma random_chars u : random_regex base u -> forall c, In c u -> base c \/ In c [40; 41; 124; 42; 43]%N.
  Proof.
    intros H. induction H as [c Hc|l Hn HF IH|l Hn HF IH|r Hr IH|r Hr IH] using random_regex_ind'; intros c'.
    - intros [<- |[]]. auto.
    - intros [<- |H]; [right; simpl; tauto|]. apply in_app_iff in H as [H|[<- |[]]]; [|right; simpl; tauto].
      apply join_In in H as [[]|(x & Hx & H)]. rewrite Forall_forall in IH. eauto.
    - intros H. apply join_In in H as [[<- |[]]|(x & Hx & H)]; [right; simpl; tauto|]. rewrite Forall_forall in IH. eauto.
    - intros [<- |H]; [right; simpl; tauto|]. apply in_app_iff in H as [H|[<- |[<- |[]]]]; auto; right; simpl; tauto.
    - intros [<- |H]; [right; simpl; tauto|]. apply in_app_iff in H as [H|[<- |[<- |[]]]]; auto; right; simpl; tauto.
  Qed.

  Variable seg : str -> list str.
  Hypothesis Hseg : forall s, (forall c, In c s -> base c \/ syntax_char c) -> seg s = chars s.
  Hypothesis Hdiv : divides seg.
  Lemma chars_segmented s : (forall c, In c s -> base c \/ syntax_char c) -> segmented seg (chars s).
  Proof.
    induction s as [|c s IH]; intros H; cbn [chars map].
    - apply seg_nil. apply (Hseg []). intros c [].
    - apply seg_cons; [|apply IH; intros; apply H; right; auto]. change ([c] :: map (fun c => [c]) s) with (chars (c :: s)).
      rewrite chars_concat. apply Hseg. auto.
  Qed.
  Lemma chars_tokens s : (forall c, In c s -> base c \/ syntax_char c) -> ~ In 92%N s -> tokens seg (chars s).
  Proof.
    induction s as [|c s IH]; intros H Hn; [constructor|]. cbn [chars map]. change (map (fun c => [c]) s) with (chars s).
    assert (Hs : tokens seg (chars s)) by (apply IH; [intros; apply H; right; auto|intros C; apply Hn; right; auto]).
    destruct (syntax_dec c) as [Hc|Hc].
    - apply tk_reserved; auto. intros ->. apply Hn. left; auto.
    - apply (tk_symbol seg [c] (chars s)); auto.
      + intros (c' & g & E & Hc'). injection E as <- _. auto.
      + rewrite chars_concat. cbn [app]. apply (Hseg (c :: s)). auto.
  Qed.
  Lemma in_syntax c : In c [40; 41; 124; 42; 43]%N -> syntax_char c.
  Proof. unfold syntax_char. simpl. tauto. Qed.
  Lemma random_tokens u : random_regex base u -> tokens seg (chars u) /\ trims_to u (concat (chars u)).
  Proof.
    intros H. pose proof (random_chars u H) as Hc. split.
    - apply chars_tokens.
      + intros c Hi. destruct (Hc c Hi); auto. right. apply in_syntax; auto.
      + intros C. destruct (Hc _ C) as [B|B].
        * destruct (Hb _ B) as [[E|[E|E]] _]; try discriminate. apply E. unfold syntax_char. simpl. tauto.
        * simpl in B. intuition discriminate.
    - rewrite chars_concat. apply trims_self. intros c Hi. destruct (Hc c Hi) as [B|B]; [apply Hb; auto|]. apply syntax_not_ws, in_syntax; auto.
  Qed.
  Lemma random_parses u : random_regex base u -> exists t e, parse_regex seg u = Ret (Some t) /\ shows 0 e (chars u) /\ same_lang t e.
  Proof.
    intros H. destruct (random_tokens u H) as (H2 & H3). destruct (random_alts u H) as (l & Hl).
    destruct (proj2 (proj2 toks_shows) _ _ Hl) as (e & He & _). destruct (parse_regex_complete seg e _ u He Hdiv H2 H3) as (t & Ht & Hs).
    exists t, e. auto.
  Qed.

  Lemma scan_chars u g : ~ In 92%N u -> In g (scan (chars u)) -> exists c, g = [c] /\ In c u /\ ~ syntax_char c.
  Proof.
    unfold scan. intros Hn H. apply in_flat_map in H as (x & Hx & H). apply in_map_iff in Hx as (c & <- & Hc).
    cbn [tok_symbols] in H. destruct (N.eqb_spec c 92) as [->|_]; [contradiction|]. destruct (is_reserved_char c) eqn:E; [destruct H|].
    destruct H as [<- |[]]. exists c. split; auto. split; auto. intros C. apply is_reserved_spec in C. congruence.
  Qed.
  Lemma random_symbols u t : random_regex base u -> parse_regex seg u = Ret (Some t) -> forall g, In g (regex_graphemes t) ->
    exists c, g = [c] /\ base c /\ ~ syntax_char c.
  Proof.
    intros H Ht g Hg. destruct (random_tokens u H) as (H2 & H3). apply (parse_regex_symbols seg t _ u Hdiv H2 H3 Ht) in Hg.
    apply scan_chars in Hg as (c & -> & Hc & Hs).
    - exists c. split; auto. split; auto. destruct (random_chars u H c Hc) as [B|B]; auto. destruct Hs. apply in_syntax; auto.
    - intros C. destruct (random_chars u H _ C) as [B|B].
      + destruct (Hb _ B) as [[E|[E|E]] _]; try discriminate. apply E. unfold syntax_char. simpl. tauto.
      + simpl in B. intuition discriminate.
  Qed.

  Lemma first_occurrences_In l (x : str) : In x (first_occurrences l) <-> In x l.
  Proof.
    induction l as [|y l IH]; cbn [first_occurrences]; [reflexivity|]. cbn [In]. rewrite filter_In, IH.
    destruct (eqb_spec y x) as [->|Hne]; cbn [negb]; intuition congruence.
  Qed.

  Lemma regex_parse_ok h1 h2 u : random_regex base u -> regex_parse seg h1 h2 u = Ret tt.
  Proof.
    intros H. destruct (random_parses u H) as (t & e & Ht & _). unfold regex_parse. rewrite Ht. cbn [bind unwrap].
    pose proof (random_symbols u t H Ht) as Hsym.
    assert (Hp : printable t).
    { apply parsed_printable; [exact (parse_regex_tree seg t u Hdiv Ht)|]. intros g Hg. destruct (Hsym g Hg) as (c & -> & _ & Hn).
      split; [|split]; [intros [= ->]; apply Hn; unfold syntax_char; simpl; tauto..|reflexivity]. }
    destruct (print_parse_symbols seg t) as (t' & Ht' & Hl & Hs); auto.
    - intros hs Hh.
      assert (E : hs = chars (concat hs)).
      { induction hs as [|x l IH]; auto. cbn [concat]. destruct (Hh x (or_introl eq_refl)) as [Hx|(c & _ & ->)];
          [destruct (Hsym x Hx) as (c & -> & _)|]; cbn [app chars map]; f_equal; apply IH; intros; apply Hh; right; auto. }
      rewrite E. apply chars_segmented. intros c Hc. apply in_concat in Hc as (x & Hx & Hc).
      destruct (Hh x Hx) as [Hi|(c' & Hc' & ->)]; [destruct (Hsym x Hi) as (c' & -> & B & _)|]; destruct Hc as [<- |[]]; auto.
    - apply trims_self, to_string_not_ws; auto. intros g c Hg Hc. destruct (Hsym g Hg) as (c' & -> & B & _). destruct Hc as [<- |[]]. apply Hb; auto.
    - cbv zeta. rewrite Ht'. cbn [bind unwrap]. apply nfa_equivalent_true; try apply C36_valid.
      + intros x. rewrite !C36_alphabet. rewrite !first_occurrences_In. symmetry. apply Hs.
      + intros w. rewrite !C36_regex_to_nfa. symmetry. apply Hl.
  Qed.

  Lemma regex_test_ok is_match h1 h2 h3 dbg u tests : random_regex base u ->
    (forall test c, In test tests -> In c test -> base c) ->
    (forall e s, shows 0 e (chars u) -> (forall c, In c s -> base c) -> (is_match s = true <-> doc_lang e (chars s))) ->
    regex_test seg is_match h1 h2 h3 dbg u tests = Ret tt.
  Proof.
    intros H Hts Hm. destruct (random_parses u H) as (t & e & Ht & He & Hl). unfold regex_test. rewrite Ht. cbn [bind unwrap].
    destruct (C15_nfa_to_dfa h2 _ (C36_valid h1 t)) as (d & -> & Vd & _ & _ & _ & _ & Ld). cbn [bind].
    destruct (C21_minimize h3 dbg d Vd) as (m & -> & Vm & _ & Lm & _). cbn [bind]. apply for_each_ok. intros test Hin. cbv zeta.
    set (s := filter _ test). assert (Hs : forall c, In c s -> base c) by (intros c Hc; apply filter_In in Hc as [Hc _]; eauto).
    destruct (C01_dfa_accepts_graphemes seg m s Vm) as (b & -> & B). cbn [bind].
    assert (E : b = is_match s); [|subst b; apply assert_same_refl].
    apply bool_iff. rewrite B, (Lm _), (Ld _), C36_regex_to_nfa. rewrite Hseg by auto. rewrite (Hl _). symmetry. apply Hm; auto.
  Qed.
  (** the test decides whether the other matcher is right about the test strings *)
  Lemma for_each_checks {A} (f : A -> R unit) (P : A -> Prop) : forall l, (forall x, In x l -> (f x = Ret tt /\ P x) \/ (f x = Panic /\ ~ P x)) ->
    (for_each f l = Ret tt /\ forall x, In x l -> P x) \/ (for_each f l = Panic /\ ~ forall x, In x l -> P x).
  Proof.
    unfold for_each. induction l as [|x l IH]; intros H; [left; split; [reflexivity|intros ? []]|]. cbn [foldR].
    destruct (H x (or_introl eq_refl)) as [(E & Px)|(E & Px)]; rewrite E; cbn [bind].
    - destruct IH as [(E' & K)|(E' & K)]; [intros; apply H; right; auto|left|right]; (split; [exact E'|]).
      + intros y [<-|Hy]; auto.
      + intros C. apply K. intros y Hy. apply C. right; auto.
    - right. split; auto. intros C. apply Px, C. left; auto.
  Qed.
  Lemma regex_test_decides is_match h1 h2 h3 dbg u tests : random_regex base u ->
    (forall test c, In test tests -> In c test -> base c) ->
    exists e, shows 0 e (chars u) /\
      let right_ := forall test, In test tests -> let s := filter (fun c => if in_dec N.eq_dec c u then true else false) test in
                                 (is_match s = true <-> doc_lang e (chars s)) in
      (regex_test seg is_match h1 h2 h3 dbg u tests = Ret tt /\ right_) \/
      (regex_test seg is_match h1 h2 h3 dbg u tests = Panic /\ ~ right_).
  Proof.
    intros H Hts. destruct (random_parses u H) as (t & e & Ht & He & Hl). exists e. split; auto. cbv zeta. unfold regex_test. rewrite Ht. cbn [bind unwrap].
    destruct (C15_nfa_to_dfa h2 _ (C36_valid h1 t)) as (d & -> & Vd & _ & _ & _ & _ & Ld). cbn [bind].
    destruct (C21_minimize h3 dbg d Vd) as (m & -> & Vm & _ & Lm & _). cbn [bind]. apply for_each_checks. intros test Hin. cbv zeta.
    assert (Ef : filter (fun c => existsb (N.eqb c) u) test = filter (fun c => if in_dec N.eq_dec c u then true else false) test).
    { apply filter_ext. intros c. destruct (in_dec N.eq_dec c u) as [Hc|Hc].
      - apply existsb_exists. exists c. split; auto. apply N.eqb_refl.
      - destruct (existsb (N.eqb c) u) eqn:X; auto. exfalso. apply existsb_exists in X as (c' & Hc' & X). apply N.eqb_eq in X. subst c'. auto. }
    rewrite Ef. set (s := filter _ test). assert (Hs : forall c, In c s -> base c) by (intros c Hc; apply filter_In in Hc as [Hc _]; eauto).
    destruct (C01_dfa_accepts_graphemes seg m s Vm) as (b & -> & B). cbn [bind].
    assert (B' : b = true <-> doc_lang e (chars s)).
    { rewrite B, (Lm _), (Ld _), C36_regex_to_nfa. rewrite Hseg by auto. apply Hl. }
    unfold assert_same. destruct b, (is_match s) eqn:M; cbn; [left|right|right|left]; (split; [reflexivity|]).
    - split; auto. intros _. apply B'. reflexivity.
    - intros C. assert (false = true) by (apply C, B'; reflexivity). discriminate.
    - intros C. assert (false = true) by (apply B', C; reflexivity). discriminate.
    - split; [discriminate|]. intros D. apply B' in D. discriminate.
  Qed.
End Random.

(** ** The example test does not depend on the hash order *)
Lemma subset_construction_any h0 h du nu : subset_construction h0 du nu = Ret tt -> subset_construction h du nu = Ret tt.
Proof.
  unfold subset_construction. intros E.
  destruct (parse_dfa du) as [[p|]| |]; cbn [bind unwrap] in *; try discriminate.
  destruct (dfa_try_from p) as [d|] eqn:Ed; cbn [bind unwrap_result] in *; try discriminate.
  destruct (parse_nfa nu) as [[q|]| |]; cbn [bind unwrap] in *; try discriminate.
  destruct (nfa_try_from q) as [n|] eqn:En; cbn [bind unwrap_result] in *; try discriminate.
  apply C06_dfa_valid in Ed. apply C07_nfa_valid in En.
  destruct (C15_nfa_to_dfa h0 n En) as (c0 & E0 & V0 & A0 & _ & _ & _ & L0). rewrite E0 in E. cbn [bind] in E.
  destruct (C15_nfa_to_dfa h n En) as (c & -> & V & A & _ & _ & _ & L). cbn [bind].
  destruct (C12_dfa_equivalent_to d c0 Ed V0) as (b & Eb & Hb). rewrite Eb in E. cbn in E. destruct b; [|discriminate].
  destruct (proj1 Hb eq_refl) as [Hs Hl]. apply dfa_equivalent_true; auto.
  - rewrite A, <- A0. exact Hs.
  - intros w. rewrite (Hl w), (L0 w), (L w). reflexivity.
Qed.
