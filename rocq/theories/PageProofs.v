(** * PageProofs: every event shows what it should *)
From Coq Require Import Ascii String List NArith Arith Bool Lia.
From Verif Require Import Base BaseLemmas Spec TableSpec LayoutSpec DfaModel NfaModel RegexModel ValidateModel ParserModel TableModel
  RegexParserModel RegexParserProofs FaParserProofs Messages MessageSpec Prop_Validate Prop_Dfa Prop_Nfa Prop_Regex Prop_Table ApiProofs
  WasmModel WasmSpec WasmProofs CliProofs DrawModel DrawSpec DrawProofs CanvasModel CanvasSpec CanvasProofs PageModel PageSpec.
Import ListNotations.
Close Scope string_scope.
Open Scope list_scope.

(** ** Line ends *)
Lemma normal_id u : ~ In 13%N u -> normal_newlines u = u.
Proof.
  induction u as [|c u IH]; intros H; auto. cbn [normal_newlines]. destruct (N.eqb_spec c 13) as [-> |_]; [exfalso; apply H; left; auto|].
  f_equal. apply IH. intros N. apply H. right; auto.
Qed.
Lemma normal_reads_as u : reads_as u (normal_newlines u).
Proof.
  remember (length u) as k eqn:E. assert (H : length u <= k) by lia. clear E. revert u H.
  induction k as [|k IH]; intros [|c u] H; cbn [length] in H; try lia; try constructor. cbn [normal_newlines].
  destruct (N.eqb_spec c 13) as [->|Hc].
  - destruct u as [|c' u]; [constructor; [discriminate|constructor]|]. destruct (N.eqb_spec c' 10) as [->|Hc'].
    + constructor. apply IH. cbn [length] in H. lia.
    + constructor; [intros X; injection X; auto|]. apply IH. lia.
  - constructor; auto. apply IH. lia.
Qed.
Lemma reads_as_once u v v' : reads_as u v -> reads_as u v' -> v = v'.
Proof.
  intros H. revert v'. induction H; intros v' H'; inversion H'; subst; auto; try congruence; try (f_equal; auto); try (exfalso; cbn in *; congruence).
Qed.
Lemma normal_crlf_once u : ~ In 13%N u -> normal_newlines (crlf_once u) = u.
Proof.
  induction u as [|c u IH]; intros H; auto. cbn [crlf_once]. destruct (N.eqb_spec c 10) as [-> |_].
  - cbn. f_equal. apply normal_id. intros N. apply H. right; auto.
  - cbn [normal_newlines]. destruct (N.eqb_spec c 13) as [-> |_]; [exfalso; apply H; left; auto|].
    f_equal. apply IH. intros N. apply H. right; auto.
Qed.
Lemma legal_no_cr a : legal_token a -> ~ In 13%N a.
Proof. intros (_ & H & _) N. destruct (H _ N) as (W & _). apply W. unfold whitespace. lia. Qed.
Lemma aligned_line_In c ws : forall row, In c (aligned_line ws row) -> c = 32%N \/ exists cell, In cell row /\ In c cell.
Proof.
  induction ws as [|w ws IH]; intros row H; [destruct H|]. destruct row as [|cell row]; [destruct ws; destruct H|].
  assert (In c (cell ++ [32%N]) \/ In c (cell ++ repeat 32%N (w - length cell) ++ [32%N] ++ aligned_line ws row)) as [K|K].
  { destruct ws; [destruct row|]; auto. }
  - apply in_app_or in K as [K|[K|[]]]; auto. right. exists cell. split; [left|]; auto.
  - apply in_app_or in K as [K|K]; [right; exists cell; split; [left|]; auto|]. apply in_app_or in K as [K|K]; [apply repeat_spec in K; auto|].
    destruct K as [K|K]; auto. destruct (IH row K) as [?|(cell' & K1 & K2)]; auto. right. exists cell'. split; [right|]; auto.
Qed.
Lemma lines_text_In c ls : In c (lines_text ls) -> c = 10%N \/ exists l, In l ls /\ In c l.
Proof.
  induction ls as [|l ls IH]; intros H; [destruct H|]. destruct ls as [|l' ls].
  - right. exists l. split; [left|]; auto.
  - change (In c (l ++ [10%N] ++ lines_text (l' :: ls))) in H. apply in_app_or in H as [H|[H|H]]; auto.
    + right. exists l. split; [left|]; auto.
    + destruct (IH H) as [?|(x & K1 & K2)]; auto. right. exists x. split; [right|]; auto.
Qed.
Lemma aligned_no_cr rows u : aligned rows u -> (forall row cell, In row rows -> In cell row -> ~ In 13%N cell) -> ~ In 13%N u.
Proof.
  intros (ws & _ & _ & ->) H N. apply lines_text_In in N as [N|(l & K & N)]; [discriminate|].
  apply in_map_iff in K as (row & <- & K). apply aligned_line_In in N as [N|(cell & K1 & K2)]; [discriminate|]. exact (H _ _ K K1 K2).
Qed.
Lemma flag_no_cr f s : ~ In 13%N s -> ~ In 13%N (flag_text f s).
Proof. destruct f; simpl; auto. Qed.
Lemma Forall2_In_r {A B} (R : A -> B -> Prop) l l' b : Forall2 R l l' -> In b l' -> exists a, In a l /\ R a b.
Proof.
  intros H. induction H as [|x y l l' HR H IH]; intros HI; [destruct HI|]. destruct HI as [<- |HI]; [exists x; split; [left|]; auto|].
  destruct (IH HI) as (a & K1 & K2). exists a. split; [right|]; auto.
Qed.
Lemma dfa_table_no_cr d u : dfa_valid d -> dfa_to_table d = Ret u -> Forall legal_token (dfa_alphabet d) -> dnames_legal d -> ~ In 13%N u.
Proof.
  intros V E A N. destruct (C49_dfa_tables_aligned d V) as ((u' & rows & E' & (body & -> & HB) & AL) & _). rewrite E in E'. injection E' as <-.
  apply (aligned_no_cr _ _ AL). intros row cell [<- |HR] HC.
  - apply in_app_or in HC as [[<- |[<- |[<- |[]]]]|HC]; simpl; auto. apply legal_no_cr. rewrite Forall_forall in A. auto.
  - assert (NN : forall i st, nth_error (dfa_states d) i = Some st -> ~ In 13%N (ds_name st)).
    { intros i st Hi. apply legal_no_cr. apply (proj1 (dnames_nth d) N i). auto. }
    destruct (Forall2_In_r _ _ _ _ HB HR) as (s & HI & names & -> & HF). apply In_nth_error in HI as (i & Hi).
    destruct HC as [<- |[<- |[<- |HC]]].
    + apply flag_no_cr. simpl. intuition discriminate.
    + apply flag_no_cr. simpl. intuition discriminate.
    + eauto.
    + clear - HF HC NN. induction HF as [|t nm ts names (st & K1 & <-) HF IH]; [destruct HC|]. destruct HC as [<- |HC]; eauto.
Qed.
Lemma nfa_loads_table n table : nfa_valid n -> nfa_to_table n = Ret table -> nnames_legal n ->
  Forall legal_token (nfa_alphabet n) -> loads_nfa table n.
Proof.
  intros V E N L. destruct (C10_nfa_to_table_roundtrip n V L N) as (u & p & E1 & E2 & E3). rewrite E in E1. injection E1 as <-.
  exists p. apply parse_nfa_iff in E2. split; auto.
  assert (WF : nfa_well_formed p) by (apply C07_nfa_accepted_iff_well_formed; eauto). split; auto. apply C07_nfa_faithful; auto.
Qed.
Lemma spaced_In c l : In c (spaced l) -> c = 32%N \/ exists x, In x l /\ In c x.
Proof.
  induction l as [|x l IH]; intros H; [destruct H|]. destruct l as [|y l].
  - right. exists x. split; [left|]; auto.
  - change (In c (x ++ [32%N] ++ spaced (y :: l))) in H. apply in_app_or in H as [H|[H|H]]; auto.
    + right. exists x. split; [left|]; auto.
    + destruct (IH H) as [?|(z & K1 & K2)]; auto. right. exists z. split; [right|]; auto.
Qed.
Lemma nfa_table_no_cr n u : nfa_valid n -> nfa_to_table n = Ret u -> Forall legal_token (nfa_alphabet n) -> nnames_legal n -> ~ In 13%N u.
Proof.
  intros V E A N. destruct (C49_nfa_tables_aligned n V) as ((u' & rows & E' & (body & -> & HB) & AL) & _). rewrite E in E'. injection E' as <-.
  apply (aligned_no_cr _ _ AL). intros row cell [<- |HR] HC.
  - apply in_app_or in HC as [[<- |[<- |[<- |[<- |[]]]]]|HC]; simpl; auto; [intuition discriminate|]. apply legal_no_cr. rewrite Forall_forall in A. auto.
  - assert (NN : forall i st, nth_error (nfa_states n) i = Some st -> ~ In 13%N (ns_name st)).
    { intros i st Hi. apply legal_no_cr. apply (proj1 (nnames_nth n) N i). auto. }
    destruct (Forall2_In_r _ _ _ _ HB HR) as (s & HI & sets & -> & HF). apply In_nth_error in HI as (i & Hi).
    destruct HC as [<- |[<- |[<- |HC]]].
    + apply flag_no_cr. simpl. intuition discriminate.
    + apply flag_no_cr. simpl. intuition discriminate.
    + eauto.
    + destruct (Forall2_In_r _ _ _ _ HF HC) as (ts & _ & names & -> & HN). intros K.
      apply in_app_or in K as [[K|[]]|K]; [discriminate|]. apply in_app_or in K as [K|[K|[]]]; [|discriminate].
      apply spaced_In in K as [K|(nm & K1 & K2)]; [discriminate|].
      destruct (Forall2_In_r _ _ _ _ HN K1) as (t & _ & st & K3 & <-). exact (NN _ _ K3 K2).
Qed.

Lemma loads_dfa_legal u d : loads_dfa u d -> Forall legal_token (dfa_alphabet d) /\ dnames_legal d.
Proof. intros (t & H1 & _ & H2). exact (dfa_text_legal t u d H1 H2). Qed.
Lemma loads_nfa_legal u n : loads_nfa u n -> Forall legal_token (nfa_alphabet n) /\ nnames_legal n.
Proof. intros (t & H1 & _ & H2). exact (nfa_text_legal t u n H1 H2). Qed.
Lemma loads_dfa_symbols u d : loads_dfa u d -> dfa_alphabet d <> [].
Proof.
  intros (t & (j0 & h & j1 & body & j2 & tr & _ & _ & (b & ts & _ & _ & HS) & _) & _ & (Ea & _)). rewrite Ea.
  inversion HS; subst; discriminate.
Qed.

(** ** Maps with fresh keys *)
Lemma hm_get_app {V} k (m m' : list (nat * V)) : hm_get k (m ++ m') = match hm_get k m with Some v => Some v | None => hm_get k m' end.
Proof. induction m as [|(k', v) m IH]; auto. cbn [hm_get app]. destruct (eqb k k'); auto. Qed.
Lemma hm_remove_app {V} k (m m' : list (nat * V)) : hm_remove k (m ++ m') = hm_remove k m ++ hm_remove k m'.
Proof. apply filter_app. Qed.
Definition no_keys {V} (next : nat) (m : list (nat * V)) : Prop := forall k, next <= k -> hm_get k m = None.
Lemma no_keys_push {V} next (v : V) m : no_keys next m -> no_keys (S next) (m ++ [(next, v)]).
Proof.
  intros H k Hk. rewrite hm_get_app, (H k) by lia. cbn [hm_get]. unfold eqb, Eqb_nat. destruct (Nat.eqb_spec k next); auto. lia.
Qed.
Lemma no_keys_le {V} next next' (m : list (nat * V)) : no_keys next m -> next <= next' -> no_keys next' m.
Proof. intros H L k Hk. apply H. lia. Qed.
Lemma insert_next {V} next (v : V) m : no_keys next m -> hm_insert next v m = m ++ [(next, v)].
Proof. intros H. apply hm_insert_new, hm_get_None, H. lia. Qed.
Lemma get_next {V} next (v : V) m : no_keys next m -> hm_get next (m ++ [(next, v)]) = Some v.
Proof. intros H. rewrite hm_get_app, (H next) by lia. cbn [hm_get]. unfold eqb, Eqb_nat. rewrite Nat.eqb_refl. auto. Qed.
Lemma remove_next {V} next (v : V) m : no_keys next m -> hm_remove next (m ++ [(next, v)]) = m.
Proof. intros H. rewrite hm_remove_app, hm_remove_unknown by (apply H; lia). cbn. rewrite Nat.eqb_refl. apply app_nil_r. Qed.
Lemma remove_two {V} next (v v' : V) m : no_keys next m -> hm_remove (S next) (hm_remove next ((m ++ [(next, v)]) ++ [(S next, v')])) = m.
Proof.
  intros H. rewrite hm_remove_app, remove_next by auto. unfold hm_remove at 2. cbn [filter fst].
  destruct (Nat.eqb_spec next (S next)) as [X|_]; [lia|]. cbn [negb]. apply remove_next. eapply no_keys_le; eauto.
Qed.
Lemma insert_again {V} next (v v' : V) m : no_keys next m -> hm_insert next v' (m ++ [(next, v)]) = m ++ [(next, v')].
Proof.
  intros H. assert (N : hm_get next m = None) by (apply H; lia). clear H. induction m as [|(k, x) m IH]; cbn [hm_insert app].
  - unfold eqb, Eqb_nat. rewrite Nat.eqb_refl. auto.
  - cbn [hm_get] in N. destruct (eqb next k); [discriminate|]. f_equal. apply IH. auto.
Qed.

Section Page.
Context {fl : floats} (db : doubles fl).
Context (seg : str -> list str) (cap : nat) (checks : bool).
Context (dfa_syntax nfa_syntax regex_syntax : str -> str) (type_error : str).

(** ** The calls *)
Lemma gen_key_next ds ns rs nx : S nx < cap -> gen_key cap checks (mk_wasm_state ds ns rs nx) = Ret (nx, mk_wasm_state ds ns rs (S nx)).
Proof. intros H. unfold gen_key. cbn [ws_next ws_dfas ws_nfas ws_regexes]. destruct (Nat.ltb_spec (S nx) cap); [reflexivity|lia]. Qed.
Lemma load_dfa_call u ds ns rs nx : no_keys nx ds -> S nx < cap ->
  (exists d, loads_dfa u d /\
     wasm_step seg cap checks (mk_wasm_state ds ns rs nx) (CLoadDfa u) = Ret (mk_wasm_state (ds ++ [(nx, d)]) ns rs (S nx), WLoad (Ok nx))) \/
  ((~ exists d, loads_dfa u d) /\ exists r m, wasm_step seg cap checks (mk_wasm_state ds ns rs nx) (CLoadDfa u) = Ret (mk_wasm_state ds ns rs nx, r) /\
     js_load (dfa_syntax u) r = Err m /\ dfa_error dfa_syntax u m).
Proof.
  intros K H. cbn [wasm_step]. destruct (parse_dfa_total u) as (o & Eo). rewrite Eo. cbn [bind]. destruct o as [t|].
  - assert (T : dfa_text t u) by (apply parse_dfa_iff; auto). destruct (dfa_try_from t) as [d|e] eqn:Ed.
    + left. exists d. split.
      * assert (WF : dfa_well_formed t) by (apply C06_dfa_accepted_iff_well_formed; eauto).
        exists t. split; auto. split; auto. apply C06_dfa_faithful; auto.
      * unfold push_dfa. rewrite gen_key_next by auto. cbn. rewrite insert_next by auto. reflexivity.
    + right. split.
      * intros (d & t' & T' & WF & _). rewrite (dfa_text_unique _ _ _ T' T) in WF. apply C06_dfa_accepted_iff_well_formed in WF as (d' & E).
        congruence.
      * eexists. exists (error_text e). split; [reflexivity|]. split; [reflexivity|]. right. exists t, e. split; auto. split; [|apply error_text_describes].
        apply C08_dfa_error_is_real; auto.
  - assert (N : ~ exists t, dfa_text t u) by (intros (t & T); apply parse_dfa_iff in T; congruence). right. split.
    + intros (d & t & T & _). apply N. exists t; auto.
    + eexists. exists (dfa_syntax u). split; [reflexivity|]. split; [reflexivity|]. left. auto.
Qed.
Lemma load_nfa_call u ds ns rs nx : no_keys nx ns -> S nx < cap ->
  (exists n, loads_nfa u n /\
     wasm_step seg cap checks (mk_wasm_state ds ns rs nx) (CLoadNfa u) = Ret (mk_wasm_state ds (ns ++ [(nx, n)]) rs (S nx), WLoad (Ok nx))) \/
  ((~ exists n, loads_nfa u n) /\ exists r m, wasm_step seg cap checks (mk_wasm_state ds ns rs nx) (CLoadNfa u) = Ret (mk_wasm_state ds ns rs nx, r) /\
     js_load (nfa_syntax u) r = Err m /\ nfa_error nfa_syntax u m).
Proof.
  intros K H. cbn [wasm_step]. destruct (parse_nfa_total u) as (o & Eo). rewrite Eo. cbn [bind]. destruct o as [t|].
  - assert (T : nfa_text t u) by (apply parse_nfa_iff; auto). destruct (nfa_try_from t) as [d|e] eqn:Ed.
    + left. exists d. split.
      * assert (WF : nfa_well_formed t) by (apply C07_nfa_accepted_iff_well_formed; eauto).
        exists t. split; auto. split; auto. apply C07_nfa_faithful; auto.
      * unfold push_nfa. rewrite gen_key_next by auto. cbn. rewrite insert_next by auto. reflexivity.
    + right. split.
      * intros (d & t' & T' & WF & _). rewrite (nfa_text_unique _ _ _ T' T) in WF. apply C07_nfa_accepted_iff_well_formed in WF as (d' & E).
        congruence.
      * eexists. exists (error_text e). split; [reflexivity|]. split; [reflexivity|]. right. exists t, e. split; auto. split; [|apply error_text_describes].
        apply C08_nfa_error_is_real; auto.
  - assert (N : ~ exists t, nfa_text t u) by (intros (t & T); apply parse_nfa_iff in T; congruence). right. split.
    + intros (d & t & T & _). apply N. exists t; auto.
    + eexists. exists (nfa_syntax u). split; [reflexivity|]. split; [reflexivity|]. left. auto.
Qed.

(** ** Events *)
Record page_inv (pg : page db) : Prop := {
  pi_dfas : no_keys (ws_next (pg_wasm db pg)) (ws_dfas (pg_wasm db pg));
  pi_nfas : no_keys (ws_next (pg_wasm db pg)) (ws_nfas (pg_wasm db pg));
  pi_regexes : no_keys (ws_next (pg_wasm db pg)) (ws_regexes (pg_wasm db pg));
  pi_canvas : exists ctx, hm_get (of_string "nfa-visualization") (pg_doc db pg) = Some (ECanvas db (Some ctx))
}.
Local Notation step := (page_step db seg cap checks dfa_syntax nfa_syntax regex_syntax type_error).
Local Notation shows := (event_shows db seg dfa_syntax nfa_syntax regex_syntax).
Local Notation leaves_ := (event_leaves db seg).
Definition event_ok (e : event) (pg : page db) : Prop :=
  exists pg', step pg e = Ret pg' /\ shows e pg pg' /\ leaves_ e pg pg' /\ page_inv pg' /\
    ws_next (pg_wasm db pg') <= 2 + ws_next (pg_wasm db pg).

Ltac labels_kept := intros l_ N_; cbn; repeat destruct (label_dec _ _); subst; auto; exfalso; apply N_; cbn; auto.
Ltac areas_kept := intros a_ N_; unfold value; cbn; repeat destruct (area_dec _ _); subst; auto; exfalso; apply N_; cbn; auto.

Ltac counted := unfold stored; cbn [set_text set_value set_wasm set_doc pg_wasm ws_dfas ws_nfas ws_regexes fst snd];
  rewrite ?app_length, ?Nat.add_0_r; reflexivity.

Lemma edit_ok a u pg : page_inv pg -> event_ok (Edit a u) pg.
Proof.
  intros I. exists (if editable a then set_value db a u pg else pg). split; [reflexivity|].
  destruct (editable a) eqn:E.
  - split; [|split; [reflexivity|split; [|cbn; lia]]].
    + split; [split; [areas_kept|labels_kept]|]. split; [reflexivity|]. split; [|congruence]. intros _ N. unfold value. cbn.
      destruct (area_dec a a); [|congruence]. apply normal_id; auto.
    + destruct I as [I1 I2 I3 I4]. constructor; auto.
  - split; [|split; [reflexivity|split; [auto|lia]]]. split; [split; auto|]. split; auto. split; [congruence|]. auto.
Qed.

Lemma check_dfas_ok h dbg pg : page_inv pg -> 2 + ws_next (pg_wasm db pg) < cap -> event_ok (Click BDfaEq h dbg) pg.
Proof.
  destruct pg as [v t doc [ds ns rs nx]]. intros [I1 I2 I3 I4] H. cbn [pg_wasm ws_next ws_dfas ws_nfas ws_regexes pg_doc] in *.
  unfold event_ok. cbn [page_step]. unfold check_dfas, js_call, value. cbn [pg_wasm pg_value].
  destruct (load_dfa_call (normal_newlines (v DfaEq1)) ds ns rs nx I1 ltac:(lia)) as [(d1 & L1 & E1)|(N1 & r1 & m1 & E1 & J1 & T1)];
    rewrite E1; cbn [bind set_wasm pg_wasm pg_value pg_text pg_doc].
  - assert (I1' : no_keys (S nx) (ds ++ [(nx, d1)])) by (apply no_keys_push; auto).
    destruct (load_dfa_call (normal_newlines (v DfaEq2)) (ds ++ [(nx, d1)]) ns rs (S nx) I1' ltac:(lia))
      as [(d2 & L2 & E2)|(N2 & r2 & m2 & E2 & J2 & T2)]; rewrite E2; cbn [bind set_wasm pg_wasm pg_value pg_text pg_doc].
    + cbn [js_load complaint handle_or_0 app]. cbn [wasm_step ws_dfas].
      rewrite (get_next (S nx)) by auto. rewrite hm_get_app, (get_next nx) by auto.
      destruct (C12_dfa_equivalent_to d1 d2 (loads_dfa_valid _ _ L1) (loads_dfa_valid _ _ L2)) as (b & Eb & Hb). rewrite Eb.
      cbn [bind set_wasm set_text pg_wasm pg_value pg_text pg_doc wasm_step ws_dfas ws_nfas ws_regexes ws_next js_truthy].
      rewrite remove_two by auto.
      eexists. split; [reflexivity|]. split; [|split; [|split; [|cbn; lia]]].
      * cbn [event_shows click_shows]. split; [split; [areas_kept|labels_kept]|]. split; [reflexivity|]. split; [|split].
        -- exists [], []. split; [left; split; [exists d1; auto|auto]|]. split; [left; split; [exists d2; auto|auto]|]. reflexivity.
        -- intros e1 e2 M1 M2. rewrite (loads_dfa_unique _ _ _ M1 L1), (loads_dfa_unique _ _ _ M2 L2). unfold verdict. cbn.
           destruct b; [left; split; [apply Hb|]; auto|right; split; [|auto]]. intros X. apply Hb in X. discriminate.
        -- intros [X|X]; exfalso; apply X; [exists d1|exists d2]; auto.
      * exists 0, 0. split; [|counted]. split; auto. left. split; auto. split; intros _; [exists d2|exists d1]; auto.
      * constructor; cbn; auto; eapply no_keys_le; try eassumption; lia.
    + rewrite J2. cbn [js_load complaint app].
      eexists. split; [reflexivity|]. split; [|split; [|split; [|cbn; lia]]].
      * cbn [event_shows click_shows]. split; [split; [areas_kept|labels_kept]|]. split; [reflexivity|]. split; [|split].
        -- exists []. eexists. split; [left; split; [exists d1; auto|auto]|]. split; [right; split; [exact N2|exists m2; split; [exact T2|reflexivity]]|]. reflexivity.
        -- intros e1 e2 M1 M2. exfalso. apply N2. exists e2; auto.
        -- reflexivity.
      * exists 1, 0. split; [|counted]. split; auto. right. split; auto. intros X. apply N2, X. exists d1; auto.
      * constructor; cbn; auto; eapply no_keys_le; try eassumption; lia.
  - destruct (load_dfa_call (normal_newlines (v DfaEq2)) ds ns rs nx I1 ltac:(lia))
      as [(d2 & L2 & E2)|(N2 & r2 & m2 & E2 & J2 & T2)]; rewrite E2; cbn [bind set_wasm pg_wasm pg_value pg_text pg_doc]; rewrite J1.
    + cbn [js_load complaint].
      eexists. split; [reflexivity|]. split; [|split; [|split; [|cbn; lia]]].
      * cbn [event_shows click_shows]. split; [split; [areas_kept|labels_kept]|]. split; [reflexivity|]. split; [|split].
        -- eexists. exists []. split; [right; split; [exact N1|exists m1; split; [exact T1|reflexivity]]|]. split; [left; split; [exists d2; auto|auto]|].
           cbn. rewrite app_nil_r. reflexivity.
        -- intros e1 e2 M1 M2. exfalso. apply N1. exists e1; auto.
        -- reflexivity.
      * exists 1, 0. split; [|counted]. split; auto. right. split; auto. intros X. apply N1, X. exists d2; auto.
      * assert (no_keys (S nx) (ds ++ [(nx, d2)])) by (apply no_keys_push; auto).
        constructor; cbn; auto; eapply no_keys_le; try eassumption; lia.
    + rewrite J2. cbn [js_load complaint].
      eexists. split; [reflexivity|]. split; [|split; [|split; [|cbn; lia]]].
      * cbn [event_shows click_shows]. split; [split; [areas_kept|labels_kept]|]. split; [reflexivity|]. split; [|split].
        -- eexists. eexists. split; [right; split; [exact N1|exists m1; split; [exact T1|reflexivity]]|].
           split; [right; split; [exact N2|exists m2; split; [exact T2|reflexivity]]|]. reflexivity.
        -- intros e1 e2 M1 M2. exfalso. apply N1. exists e1; auto.
        -- reflexivity.
      * exists 0, 0. split; [|counted]. split; auto. left. split; auto. split; intros X; exfalso; auto.
      * constructor; cbn; auto.
Qed.
Lemma check_nfas_ok h dbg pg : page_inv pg -> 2 + ws_next (pg_wasm db pg) < cap -> event_ok (Click BNfaEq h dbg) pg.
Proof.
  destruct pg as [v t doc [ds ns rs nx]]. intros [I1 I2 I3 I4] H. cbn [pg_wasm ws_next ws_dfas ws_nfas ws_regexes pg_doc] in *.
  unfold event_ok. cbn [page_step]. unfold check_nfas, js_call, value. cbn [pg_wasm pg_value].
  destruct (load_nfa_call (normal_newlines (v NfaEq1)) ds ns rs nx I2 ltac:(lia)) as [(d1 & L1 & E1)|(N1 & r1 & m1 & E1 & J1 & T1)];
    rewrite E1; cbn [bind set_wasm pg_wasm pg_value pg_text pg_doc].
  - assert (I1' : no_keys (S nx) (ns ++ [(nx, d1)])) by (apply no_keys_push; auto).
    destruct (load_nfa_call (normal_newlines (v NfaEq2)) ds (ns ++ [(nx, d1)]) rs (S nx) I1' ltac:(lia))
      as [(d2 & L2 & E2)|(N2 & r2 & m2 & E2 & J2 & T2)]; rewrite E2; cbn [bind set_wasm pg_wasm pg_value pg_text pg_doc].
    + cbn [js_load complaint handle_or_0 app]. cbn [wasm_step ws_nfas].
      rewrite (get_next (S nx)) by auto. rewrite hm_get_app, (get_next nx) by auto.
      destruct (C13_nfa_equivalent_to d1 d2 (loads_nfa_valid _ _ L1) (loads_nfa_valid _ _ L2)) as (b & Eb & Hb). rewrite Eb.
      cbn [bind set_wasm set_text pg_wasm pg_value pg_text pg_doc wasm_step ws_dfas ws_nfas ws_regexes ws_next js_truthy].
      rewrite remove_two by auto.
      eexists. split; [reflexivity|]. split; [|split; [|split; [|cbn; lia]]].
      * cbn [event_shows click_shows]. split; [split; [areas_kept|labels_kept]|]. split; [reflexivity|]. split; [|split].
        -- exists [], []. split; [left; split; [exists d1; auto|auto]|]. split; [left; split; [exists d2; auto|auto]|]. reflexivity.
        -- intros e1 e2 M1 M2. rewrite (loads_nfa_unique _ _ _ M1 L1), (loads_nfa_unique _ _ _ M2 L2). unfold verdict. cbn.
           destruct b; [left; split; [apply Hb|]; auto|right; split; [|auto]]. intros X. apply Hb in X. discriminate.
        -- intros [X|X]; exfalso; apply X; [exists d1|exists d2]; auto.
      * exists 0, 0. split; [|counted]. split; auto. left. split; auto. split; intros _; [exists d2|exists d1]; auto.
      * constructor; cbn; auto; eapply no_keys_le; try eassumption; lia.
    + rewrite J2. cbn [js_load complaint app].
      eexists. split; [reflexivity|]. split; [|split; [|split; [|cbn; lia]]].
      * cbn [event_shows click_shows]. split; [split; [areas_kept|labels_kept]|]. split; [reflexivity|]. split; [|split].
        -- exists []. eexists. split; [left; split; [exists d1; auto|auto]|]. split; [right; split; [exact N2|exists m2; split; [exact T2|reflexivity]]|]. reflexivity.
        -- intros e1 e2 M1 M2. exfalso. apply N2. exists e2; auto.
        -- reflexivity.
      * exists 0, 1. split; [|counted]. split; auto. right. split; auto. intros X. apply N2, X. exists d1; auto.
      * constructor; cbn; auto; eapply no_keys_le; try eassumption; lia.
  - destruct (load_nfa_call (normal_newlines (v NfaEq2)) ds ns rs nx I2 ltac:(lia))
      as [(d2 & L2 & E2)|(N2 & r2 & m2 & E2 & J2 & T2)]; rewrite E2; cbn [bind set_wasm pg_wasm pg_value pg_text pg_doc]; rewrite J1.
    + cbn [js_load complaint].
      eexists. split; [reflexivity|]. split; [|split; [|split; [|cbn; lia]]].
      * cbn [event_shows click_shows]. split; [split; [areas_kept|labels_kept]|]. split; [reflexivity|]. split; [|split].
        -- eexists. exists []. split; [right; split; [exact N1|exists m1; split; [exact T1|reflexivity]]|]. split; [left; split; [exists d2; auto|auto]|].
           cbn. rewrite app_nil_r. reflexivity.
        -- intros e1 e2 M1 M2. exfalso. apply N1. exists e1; auto.
        -- reflexivity.
      * exists 0, 1. split; [|counted]. split; auto. right. split; auto. intros X. apply N1, X. exists d2; auto.
      * assert (no_keys (S nx) (ns ++ [(nx, d2)])) by (apply no_keys_push; auto).
        constructor; cbn; auto; eapply no_keys_le; try eassumption; lia.
    + rewrite J2. cbn [js_load complaint].
      eexists. split; [reflexivity|]. split; [|split; [|split; [|cbn; lia]]].
      * cbn [event_shows click_shows]. split; [split; [areas_kept|labels_kept]|]. split; [reflexivity|]. split; [|split].
        -- eexists. eexists. split; [right; split; [exact N1|exists m1; split; [exact T1|reflexivity]]|].
           split; [right; split; [exact N2|exists m2; split; [exact T2|reflexivity]]|]. reflexivity.
        -- intros e1 e2 M1 M2. exfalso. apply N1. exists e1; auto.
        -- reflexivity.
      * exists 0, 0. split; [|counted]. split; auto. left. split; auto. split; intros X; exfalso; auto.
      * constructor; cbn; auto.
Qed.

Lemma nfa_to_dfa_ok h dbg pg : page_inv pg -> 2 + ws_next (pg_wasm db pg) < cap -> event_ok (Click BNfaToDfa h dbg) pg.
Proof.
  destruct pg as [v t doc [ds ns rs nx]]. intros [I1 I2 I3 I4] H. cbn [pg_wasm ws_next ws_dfas ws_nfas ws_regexes pg_doc] in *.
  unfold event_ok. cbn [page_step]. unfold nfa_to_dfa_click, js_call, value. cbn [pg_wasm pg_value].
  destruct (load_nfa_call (normal_newlines (v NfaToDfaIn)) ds ns rs nx I2 ltac:(lia)) as [(n & L & E)|(N & r & m & E & J & T)];
    rewrite E; cbn [bind set_wasm pg_wasm pg_value pg_text pg_doc].
  - pose proof (loads_nfa_valid _ _ L) as V. destruct (loads_nfa_legal _ _ L) as (LA & _).
    cbn [js_load wasm_step ws_nfas]. rewrite (get_next nx) by auto.
    destruct (C15_nfa_to_dfa h n V) as (d & Ed & Vd & Ad & _ & _ & _ & HL). rewrite Ed. cbn [bind].
    unfold push_dfa. rewrite gen_key_next by lia. cbn [bind ws_dfas ws_nfas ws_regexes ws_next set_wasm pg_wasm js_handle pg_value pg_text pg_doc wasm_step].
    assert (I1' : no_keys (S nx) ds) by (eapply no_keys_le; eauto).
    rewrite (insert_next (S nx)), (get_next (S nx)) by auto.
    destruct (C49_dfa_tables_aligned d Vd) as ((u & rows & Eu & _) & _). rewrite Eu.
    assert (DL : dnames_legal d) by (eapply nfa_to_dfa_legal; eauto).
    assert (CR : ~ In 13%N u) by (apply (dfa_table_no_cr d); auto; rewrite Ad; auto).
    cbn [bind ws_dfas ws_nfas ws_regexes ws_next set_wasm set_value pg_wasm js_text pg_value pg_text pg_doc wasm_step].
    rewrite (remove_next nx), (remove_next (S nx)) by auto.
    eexists. split; [reflexivity|]. split; [|split; [|split; [|cbn; lia]]].
    + cbn [event_shows click_shows]. split; [split; [areas_kept|labels_kept]|]. split; [reflexivity|]. left. exists n, d.
      split; [exact L|]. split; auto. split; auto. split; auto. match goal with |- context [value db ?x NfaToDfaOut] => change (value db x NfaToDfaOut) with (normal_newlines (crlf_once u)) end.
      rewrite normal_crlf_once by auto. split; auto. intros NE. apply table_loads; auto; rewrite Ad; auto.
    + exists 0, 0. split; [|counted]. split; auto.
    + constructor; cbn; auto; eapply no_keys_le; try eassumption; lia.
  - rewrite J. eexists. split; [reflexivity|]. split; [|split; [|split; [|cbn; lia]]].
    + cbn [event_shows click_shows]. split; [split; [areas_kept|labels_kept]|]. split; [reflexivity|]. right. split; [exact N|].
      exists m. split; [exact T|reflexivity].
    + exists 0, 0. split; [|counted]. split; auto.
    + constructor; cbn; auto.
Qed.

Lemma minimize_ok h dbg pg : page_inv pg -> 2 + ws_next (pg_wasm db pg) < cap -> event_ok (Click BMinimize h dbg) pg.
Proof.
  destruct pg as [v t doc [ds ns rs nx]]. intros [I1 I2 I3 I4] H. cbn [pg_wasm ws_next ws_dfas ws_nfas ws_regexes pg_doc] in *.
  unfold event_ok. cbn [page_step]. unfold minimize_click, js_call, value. cbn [pg_wasm pg_value].
  destruct (load_dfa_call (normal_newlines (v MinimizeIn)) ds ns rs nx I1 ltac:(lia)) as [(d & L & E)|(N & r & m & E & J & T)];
    rewrite E; cbn [bind set_wasm pg_wasm pg_value pg_text pg_doc].
  - pose proof (loads_dfa_valid _ _ L) as V. destruct (loads_dfa_legal _ _ L) as (LA & LN). pose proof (loads_dfa_symbols _ _ L) as NE.
    cbn [js_load set_text set_wasm wasm_step ws_dfas pg_wasm pg_value pg_text pg_doc].
    rewrite (get_next nx) by auto.
    destruct (C21_minimize h dbg d V) as (d' & Ed & Vd & Ad & HL & _ & HM). rewrite Ed.
    cbn [bind ws_dfas ws_nfas ws_regexes ws_next set_wasm pg_wasm pg_value pg_text pg_doc wasm_step].
    rewrite (insert_again nx), (get_next nx) by auto.
    destruct (C49_dfa_tables_aligned d' Vd) as ((u & rows & Eu & _) & _). rewrite Eu.
    assert (DL : dnames_legal d') by (eapply (dfa_minimize_legal h dbg d); eauto).
    assert (CR : ~ In 13%N u) by (apply (dfa_table_no_cr d'); auto; rewrite Ad; auto).
    cbn [bind ws_dfas ws_nfas ws_regexes ws_next set_wasm set_value pg_wasm js_text pg_value pg_text pg_doc wasm_step].
    eexists. split; [reflexivity|]. split; [|split; [|split; [|cbn; lia]]].
    + cbn [event_shows click_shows]. split; [split; [areas_kept|labels_kept]|]. split; [reflexivity|]. left. exists d, d'.
      split; [exact L|]. split; [reflexivity|]. split; auto. split; auto. split; auto. split; auto.
      match goal with |- context [value db ?x MinimizeOut] => change (value db x MinimizeOut) with (normal_newlines (crlf_once u)) end.
      rewrite normal_crlf_once by auto. split; auto. apply table_loads; auto; rewrite Ad; auto.
    + exists 1, 0. split; [|counted]. split; auto. left. split; auto. exists d; auto.
    + constructor; cbn; auto; try (apply no_keys_push; auto); eapply no_keys_le; try eassumption; lia.
  - rewrite J. eexists. split; [reflexivity|]. split; [|split; [|split; [|cbn; lia]]].
    + cbn [event_shows click_shows]. split; [split; [areas_kept|labels_kept]|]. split; [reflexivity|]. right. split; [exact N|].
      split; [exact T|reflexivity].
    + exists 0, 0. split; [|counted]. split; auto.
    + constructor; cbn; auto.
Qed.

Lemma regex_ok h dbg pg : page_inv pg -> 2 + ws_next (pg_wasm db pg) < cap -> event_ok (Click BRegex h dbg) pg.
Proof.
  destruct pg as [v t doc [ds ns rs nx]]. intros [I1 I2 I3 I4] H. cbn [pg_wasm ws_next ws_dfas ws_nfas ws_regexes pg_doc] in *.
  unfold event_ok. cbn [page_step]. unfold regex_click, js_call, value. cbn [pg_wasm pg_value wasm_step].
  destruct (parse_regex_total seg (normal_newlines (v RegexIn))) as (o & Eo). rewrite Eo. cbn [bind]. destruct o as [x|].
  - unfold push_regex. rewrite gen_key_next by lia. cbn [bind ws_dfas ws_nfas ws_regexes ws_next set_wasm pg_wasm pg_value pg_text pg_doc].
    rewrite insert_next by auto. cbn [js_load set_text set_wasm wasm_step ws_regexes pg_wasm pg_value pg_text pg_doc]. rewrite (get_next nx), (remove_next nx) by auto.
    unfold push_nfa. cbn [ws_dfas ws_nfas ws_regexes ws_next]. rewrite gen_key_next by lia.
    cbn [bind ws_dfas ws_nfas ws_regexes ws_next set_wasm pg_wasm js_handle pg_value pg_text pg_doc wasm_step].
    assert (I2' : no_keys (S nx) ns) by (eapply no_keys_le; eauto).
    rewrite (insert_next (S nx)), (get_next (S nx)) by auto.
    pose proof (C36_valid h x) as V. destruct (C49_nfa_tables_aligned _ V) as ((u & rows & Eu & _) & _). rewrite Eu.
    cbn [bind ws_dfas ws_nfas ws_regexes ws_next set_wasm set_value pg_wasm js_text pg_value pg_text pg_doc wasm_step].
    eexists. split; [reflexivity|]. split; [|split; [|split; [|cbn; lia]]].
    + cbn [event_shows click_shows]. split; [split; [areas_kept|labels_kept]|]. split; [reflexivity|]. left. exists x, (regex_to_nfa h x), u.
      split; [exact Eo|]. split; [reflexivity|]. split; auto. split; [apply C36_alphabet|]. split; [apply C36_regex_to_nfa|]. split; auto.
      match goal with |- context [value db ?x RegexOut] => change (value db x RegexOut) with (normal_newlines (crlf_once u)) end.
      split; [apply normal_crlf_once|]. intros LA. apply Forall_forall in LA. pose proof (regex_to_nfa_legal h x) as LN.
      rewrite normal_crlf_once by (eapply nfa_table_no_cr; eauto). apply nfa_loads_table; auto.
    + exists 0, 1. split; [|counted]. split; auto. left. split; auto. exists x; auto.
    + constructor; cbn; auto; try (apply no_keys_push; auto); eapply no_keys_le; try eassumption; lia.
  - cbn [js_load]. eexists. split; [reflexivity|]. split; [|split; [|split; [|cbn; lia]]].
    + cbn [event_shows click_shows]. split; [split; [areas_kept|labels_kept]|]. split; [reflexivity|]. right. split; [exact Eo|].
      split; reflexivity.
    + exists 0, 0. split; [|counted]. split; auto. right. split; auto. intros (x & Ex). unfold value in Ex. cbn in Ex. congruence.
    + constructor; cbn; auto.
Qed.

(** ** The canvas *)
Lemma painted_circle (calls : list (call fl)) p r t : forall c, In (DrawCircle fl p r t) calls -> exists k, In (k, Circle p r t) (painted c calls).
Proof.
  induction calls as [|x calls IH]; intros c H; [destruct H|]. destruct H as [-> |H]; [exists c; left; auto|].
  destruct x; cbn [painted].
  all: match goal with |- context [painted ?c' _] => destruct (IH c' H) as (k & K) end; exists k; auto; right; auto.
Qed.
Lemma circle_radii (opts : draw_options fl) states links levels k p r t : In (k, Circle p r t) (shapes opts states links levels) ->
  r = f_mul fl (o_circle_radius fl opts) (o_x_scale fl opts) \/ r = f_mul fl (o_accepting_circle_radius fl opts) (o_x_scale fl opts).
Proof.
  unfold shapes. intros H. apply in_app_or in H as [H|H]; [|apply in_app_or in H as [H|H]].
  - unfold entry_shapes, line_to in H. cbn [In] in H. intuition discriminate.
  - apply in_concat in H as (l & H1 & H2). apply in_map_iff in H1 as ((i, s) & <- & _). unfold state_shapes in H2.
    apply in_app_or in H2 as [[H2|[]]|H2]; [injection H2; auto|]. apply in_app_or in H2 as [H2|H2].
    + destruct (st_accepting s); [|destruct H2]. destruct H2 as [H2|[]]. injection H2; auto.
    + apply in_app_or in H2 as [H2|[H2|[]]]; [|discriminate]. destruct (st_initial s); [|destruct H2]. unfold line_to in H2. cbn [In] in H2.
      intuition discriminate.
  - apply in_flat_map in H as (l & _ & H). unfold link_shapes in H.
    repeat (apply in_app_or in H as [H|H]); unfold line_to, text_at in H; cbn [In] in H;
      repeat match type of H with In _ (if ?b then _ else _) => destruct b end; cbn [In] in H; intuition discriminate.
Qed.

Lemma visualize_ok h dbg pg : finite_angles db -> proper_radii db -> page_inv pg -> 2 + ws_next (pg_wasm db pg) < cap ->
  event_ok (Click BVisualize h dbg) pg.
Proof.
  intros FA PR. destruct pg as [v t doc [ds ns rs nx]]. intros [I1 I2 I3 (ctx & I4)] H. cbn [pg_wasm ws_next ws_dfas ws_nfas ws_regexes pg_doc] in *.
  unfold event_ok. cbn [page_step]. unfold visualize_click, js_call, value. cbn [pg_wasm pg_value].
  destruct (load_nfa_call (normal_newlines (v VisualizeIn)) ds ns rs nx I2 ltac:(lia)) as [(n & L & E)|(N & r & m & E & J & T)];
    rewrite E; cbn [bind set_wasm pg_wasm pg_value pg_text pg_doc].
  - cbn [js_load set_text set_wasm pg_wasm pg_value pg_text pg_doc]. unfold page_draw_nfa. cbn [ws_nfas]. rewrite (get_next nx) by auto.
    unfold canvas_draw. change visualize_target with (of_string "nfa-visualization"); rewrite I4. destruct (draw_nfa_eq (default_options fl) h n (loads_nfa_valid _ _ L)) as (links & levels & calls & LO & ED & P).
    rewrite ED. cbn [bind].
    destruct (canvas_panics_iff db calls FA (drawer_new db ctx)) as (_ & HC). destruct HC as (ctx' & EC).
    { intros X. apply Exists_exists in X as (x & X1 & X2). destruct x as [| |center radius thickness| | |]; try contradiction. destruct X2 as (_ & _ & X2).
      destruct P as (body & -> & _ & _ & EP). assert (X1' : In (DrawCircle fl center radius thickness) body).
      { destruct X1 as [X1|X1]; [discriminate|]. apply in_app_or in X1 as [X1|[X1|[]]]; [auto|discriminate]. }
      destruct (painted_circle body _ _ _ None X1') as (k & K). rewrite EP in K. apply circle_radii in K.
      destruct PR as (P1 & P2). destruct K as [K|K]; rewrite K in X2; cbn in X2; congruence. }
    rewrite EC. cbn [bind].
    eexists. split; [reflexivity|]. split; [|split; [|split; [|cbn; lia]]].
    + cbn [event_shows click_shows]. split; [split; [areas_kept|labels_kept]|]. left. exists n, links, levels, ctx, ctx'.
      split; [exact L|]. split; [reflexivity|]. split; [exact LO|]. split; [unfold canvas_of; cbn [pg_doc]; rewrite I4; auto|].
      split; [unfold canvas_of; cbn [pg_doc set_doc]; rewrite hm_get_insert; change visualize_target with (of_string "nfa-visualization"); rewrite eqb_refl; auto|].
      intros HD. destruct (canvas_shapes db _ _ _ _ _ P FA HD ctx) as (ctx2 & EC2 & M). rewrite EC in EC2. apply Ret_inj in EC2. subst ctx2. exact M.
    + exists 0, 1. split; [|counted]. split; auto. left. split; auto. exists n; auto.
    + constructor; cbn; auto; try (apply no_keys_push; auto); try (eapply no_keys_le; try eassumption; lia).
      exists ctx'. rewrite hm_get_insert. change visualize_target with (of_string "nfa-visualization"); rewrite eqb_refl. auto.
  - rewrite J. eexists. split; [reflexivity|]. split; [|split; [|split; [|cbn; lia]]].
    + cbn [event_shows click_shows]. split; [split; [areas_kept|labels_kept]|]. right. split; [exact N|].
      split; [exact T|reflexivity].
    + exists 0, 0. split; [|counted]. split; auto.
    + constructor; cbn; auto. exists ctx; auto.
Qed.

Lemma step_page_ok e pg : finite_angles db -> proper_radii db -> page_inv pg -> 2 + ws_next (pg_wasm db pg) < cap -> event_ok e pg.
Proof.
  intros FA PR I H. destruct e as [a u|[] h dbg]; [apply edit_ok|apply check_dfas_ok|apply check_nfas_ok|apply nfa_to_dfa_ok|apply visualize_ok
    |apply minimize_ok|apply regex_ok]; auto.
Qed.
Lemma page_init_inv : page_inv (page_init db).
Proof. constructor; cbn; try (intros k _; reflexivity). eexists. reflexivity. Qed.
Lemma page_sessions es : finite_angles db -> proper_radii db -> forall pg, page_inv pg -> 2 * length es + ws_next (pg_wasm db pg) < cap ->
  exists pgs, page_run db seg cap checks dfa_syntax nfa_syntax regex_syntax type_error pg es = Ret pgs /\
    session_shows db seg dfa_syntax nfa_syntax regex_syntax pg es pgs /\ session_leaves db seg pg es pgs.
Proof.
  intros FA PR. induction es as [|e es IH]; intros pg I H; cbn [page_run session_shows session_leaves].
  - exists []. auto.
  - cbn [length] in H. destruct (step_page_ok e pg FA PR I ltac:(lia)) as (pg' & E & S1 & S2 & I' & H'). rewrite E. cbn [bind].
    destruct (IH pg' I' ltac:(lia)) as (pgs & E' & S3 & S4). rewrite E'. cbn [bind]. exists (pg' :: pgs). auto.
Qed.
End Page.

(** ** What stays *)
Lemma last_step {A} l : forall (x d : A), last (x :: l) d = last l x.
Proof. induction l as [|y l IH]; intros x d; auto. change (last (x :: y :: l) d) with (last (y :: l) d). rewrite !IH. reflexivity. Qed.
Section Frames.
Context {fl : floats} (db : doubles fl) (seg : str -> list str) (ds ns rs : str -> str).
Lemma event_keeps_output e b a pg pg' : event_shows db seg ds ns rs e pg pg' -> output_of b = Some a -> clicks b e = false ->
  value db pg' a = value db pg a.
Proof.
  intros H O N. destruct e as [a' u|b' h dbg].
  - destruct H as ((K & _) & _ & _ & K2). destruct (area_dec a a') as [<- |D]; [|apply K; cbn; intuition congruence].
    apply K2. destruct b; try discriminate O; injection O as <-; reflexivity.
  - destruct b; try discriminate O; injection O as <-; destruct b'; try discriminate N; destruct H as ((K & _) & _); apply K; cbn; intuition discriminate.
Qed.
Lemma event_keeps_input e a pg pg' : event_shows db seg ds ns rs e pg pg' -> editable a = true -> edits a e = false ->
  value db pg' a = value db pg a.
Proof.
  intros H O N. destruct e as [a' u|b' h dbg].
  - destruct H as ((K & _) & _). cbn in N. destruct (area_dec a a'); [discriminate|]. apply K. cbn. intuition congruence.
  - destruct b'; destruct H as ((K & _) & _); apply K; cbn; intuition subst; discriminate.
Qed.
Lemma session_keeps (P : event -> bool) a : (forall e pg pg', event_shows db seg ds ns rs e pg pg' -> P e = false -> value db pg' a = value db pg a) ->
  forall es pg pgs, session_shows db seg ds ns rs pg es pgs -> forallb (fun e => negb (P e)) es = true -> value db (last pgs pg) a = value db pg a.
Proof.
  intros HP. induction es as [|e es IH]; intros pg [|pg' pgs] H N; try destruct H; auto.
  cbn in N. apply andb_prop in N as (N1 & N2). apply negb_true_iff in N1. rewrite <- (HP e pg pg') by auto. rewrite <- (IH pg' pgs) by auto.
  rewrite last_step. reflexivity.
Qed.
Lemma session_app es1 es2 : forall pg pgs, session_shows db seg ds ns rs pg (es1 ++ es2) pgs ->
  exists pgs1 pgs2, pgs = pgs1 ++ pgs2 /\ length pgs1 = length es1 /\ session_shows db seg ds ns rs pg es1 pgs1 /\
    session_shows db seg ds ns rs (last pgs1 pg) es2 pgs2.
Proof.
  induction es1 as [|e es1 IH]; intros pg pgs H.
  - exists [], pgs. repeat split; auto.
  - destruct pgs as [|pg' pgs]; [destruct H|]. destruct H as (H1 & H2). destruct (IH pg' pgs H2) as (p1 & p2 & -> & E & S1 & S2).
    exists (pg' :: p1), p2. split; auto. split; [cbn; auto|]. split; [split; auto|]. rewrite last_step. exact S2.
Qed.
End Frames.
