(** * PageReproProofs: two sessions in which the user does the same *)
From Coq Require Import Ascii String List NArith Arith Bool Lia.
From Verif Require Import Base BaseLemmas Spec TableSpec LayoutSpec DfaModel NfaModel RegexModel ValidateModel ParserModel TableModel
  RegexParserModel RegexParserProofs FaParserProofs Messages MessageSpec Prop_Validate Prop_Dfa Prop_Nfa Prop_Regex Prop_Table Prop_Repro ApiProofs
  WasmModel WasmSpec WasmProofs CliProofs DrawModel DrawSpec DrawProofs CanvasModel CanvasSpec CanvasProofs PageModel PageSpec PageProofs
  PageHistorySpec PageHistoryProofs PageReproSpec.
Import ListNotations.
Close Scope string_scope.
Open Scope list_scope.

Definition of_R (r : R str) : str := match r with Ret u => u | _ => [] end.

Section Page.
Context {fl : floats} (db : doubles fl).
Context (seg : str -> list str).
Context (dfa_syntax nfa_syntax regex_syntax : str -> str) (type_error : str).

(** ** What a click shows, as a function of the texts on the page *)
Definition dfa_outcome (u : str) : result dfa str :=
  match parse_dfa u with
  | Ret (Some t) => match dfa_try_from t with Ok d => Ok d | Err e => Err (error_text e) end
  | _ => Err (dfa_syntax u)
  end.
Definition nfa_outcome (u : str) : result nfa str :=
  match parse_nfa u with
  | Ret (Some t) => match nfa_try_from t with Ok n => Ok n | Err e => Err (error_text e) end
  | _ => Err (nfa_syntax u)
  end.
Lemma dfa_outcome_loads u d : dfa_outcome u = Ok d -> loads_dfa u d.
Proof.
  unfold dfa_outcome. destruct (parse_dfa_total u) as (o & Eo). rewrite Eo. destruct o as [t|]; [|discriminate].
  assert (T : dfa_text t u) by (apply parse_dfa_iff; auto). destruct (dfa_try_from t) as [d'|e] eqn:Ed; [|discriminate].
  intros X. injection X as ->. assert (WF : dfa_well_formed t) by (apply C06_dfa_accepted_iff_well_formed; eauto).
  exists t. split; auto. split; auto. apply C06_dfa_faithful; auto.
Qed.
Lemma nfa_outcome_loads u n : nfa_outcome u = Ok n -> loads_nfa u n.
Proof.
  unfold nfa_outcome. destruct (parse_nfa_total u) as (o & Eo). rewrite Eo. destruct o as [t|]; [|discriminate].
  assert (T : nfa_text t u) by (apply parse_nfa_iff; auto). destruct (nfa_try_from t) as [d'|e] eqn:Ed; [|discriminate].
  intros X. injection X as ->. assert (WF : nfa_well_formed t) by (apply C07_nfa_accepted_iff_well_formed; eauto).
  exists t. split; auto. split; auto. apply C07_nfa_faithful; auto.
Qed.

Definition complain {A} (prefix : String.string) (r : result A str) : str :=
  match r with Ok _ => [] | Err m => of_string prefix ++ m ++ [10%N] end.
Definition dfa_verdict (r1 r2 : result dfa str) : str :=
  match r1, r2 with
  | Ok d1, Ok d2 => of_string (match dfa_equivalent_to d1 d2 with Ret true => "Equivalent" | _ => "Not equivalent" end)
  | _, _ => of_string "Fix errors first!"
  end.
Definition nfa_verdict (r1 r2 : result nfa str) : str :=
  match r1, r2 with
  | Ok n1, Ok n2 => of_string (match nfa_equivalent_to n1 n2 with Ret true => "Equivalent" | _ => "Not equivalent" end)
  | _, _ => of_string "Fix errors first!"
  end.

Definition value_after (e : event) (v : area -> str) (a : area) : str :=
  let u x := normal_newlines (v x) in
  match e with
  | Edit a' t => if editable a' then if area_dec a a' then t else v a else v a
  | Click BNfaToDfa h _ =>
      if area_dec a NfaToDfaOut
      then match nfa_outcome (u NfaToDfaIn) with Err m => m | Ok n => crlf_once (of_R (bind (nfa_to_dfa h n) dfa_to_table)) end
      else v a
  | Click BMinimize h dbg =>
      if area_dec a MinimizeOut
      then match dfa_outcome (u MinimizeIn) with Err m => v a | Ok d => crlf_once (of_R (bind (dfa_minimize h dbg d) dfa_to_table)) end
      else v a
  | Click BRegex h _ =>
      if area_dec a RegexOut
      then match parse_regex seg (u RegexIn) with Ret (Some t) => crlf_once (of_R (nfa_to_table (regex_to_nfa h t))) | _ => v a end
      else v a
  | Click _ _ _ => v a
  end.
Definition text_after (e : event) (v : area -> str) (t : label -> str) (l : label) : str :=
  let u x := normal_newlines (v x) in
  match e with
  | Click BDfaEq _ _ =>
      let r1 := dfa_outcome (u DfaEq1) in
      let r2 := dfa_outcome (u DfaEq2) in
      if label_dec l DfaEqErrors then complain "Error parsing DFA 1: " r1 ++ complain "Error parsing DFA 2: " r2
      else if label_dec l DfaEqCheck then dfa_verdict r1 r2 else t l
  | Click BNfaEq _ _ =>
      let r1 := nfa_outcome (u NfaEq1) in
      let r2 := nfa_outcome (u NfaEq2) in
      if label_dec l NfaEqErrors then complain "Error parsing NFA 1: " r1 ++ complain "Error parsing NFA 2: " r2
      else if label_dec l NfaEqCheck then nfa_verdict r1 r2 else t l
  | Click BVisualize _ _ =>
      if label_dec l VisualizeBtn then match nfa_outcome (u VisualizeIn) with Err m => m | Ok _ => of_string "Visualize!" end else t l
  | Click BMinimize _ _ =>
      if label_dec l MinimizeBtn then match dfa_outcome (u MinimizeIn) with Err m => m | Ok _ => of_string "Minimize!" end else t l
  | Click BRegex _ _ =>
      if label_dec l RegexBtn
      then match parse_regex seg (u RegexIn) with Ret (Some _) => of_string "Convert!" | _ => regex_syntax (u RegexIn) end
      else t l
  | _ => t l
  end.

Section Run.
Context (cap : nat) (checks : bool).
Local Notation step := (page_step db seg cap checks dfa_syntax nfa_syntax regex_syntax type_error).
Definition acts (e : event) (pg : page db) : Prop :=
  exists pg', step pg e = Ret pg' /\ (forall a, pg_value db pg' a = value_after e (pg_value db pg) a) /\
    forall l, pg_text db pg' l = text_after e (pg_value db pg) (pg_text db pg) l.

Lemma load_dfa_function u ds ns rs nx : no_keys nx ds -> S nx < cap ->
  match dfa_outcome u with
  | Ok d => wasm_step seg cap checks (mk_wasm_state ds ns rs nx) (CLoadDfa u) = Ret (mk_wasm_state (ds ++ [(nx, d)]) ns rs (S nx), WLoad (Ok nx))
  | Err m => exists r, wasm_step seg cap checks (mk_wasm_state ds ns rs nx) (CLoadDfa u) = Ret (mk_wasm_state ds ns rs nx, r) /\
      js_load (dfa_syntax u) r = Err m
  end.
Proof.
  intros K H. cbn [wasm_step]. unfold dfa_outcome. destruct (parse_dfa_total u) as (o & Eo). rewrite Eo. cbn [bind]. destruct o as [t|].
  - destruct (dfa_try_from t) as [d|e] eqn:Ed.
    + unfold push_dfa. rewrite gen_key_next by auto. cbn. rewrite insert_next by auto. reflexivity.
    + eexists. split; reflexivity.
  - eexists. split; reflexivity.
Qed.
Lemma load_nfa_function u ds ns rs nx : no_keys nx ns -> S nx < cap ->
  match nfa_outcome u with
  | Ok n => wasm_step seg cap checks (mk_wasm_state ds ns rs nx) (CLoadNfa u) = Ret (mk_wasm_state ds (ns ++ [(nx, n)]) rs (S nx), WLoad (Ok nx))
  | Err m => exists r, wasm_step seg cap checks (mk_wasm_state ds ns rs nx) (CLoadNfa u) = Ret (mk_wasm_state ds ns rs nx, r) /\
      js_load (nfa_syntax u) r = Err m
  end.
Proof.
  intros K H. cbn [wasm_step]. unfold nfa_outcome. destruct (parse_nfa_total u) as (o & Eo). rewrite Eo. cbn [bind]. destruct o as [t|].
  - destruct (nfa_try_from t) as [d|e] eqn:Ed.
    + unfold push_nfa. rewrite gen_key_next by auto. cbn. rewrite insert_next by auto. reflexivity.
    + eexists. split; reflexivity.
  - eexists. split; reflexivity.
Qed.

Ltac start pg I H := destruct pg as [v t doc [ds ns rs nx]]; destruct I as [I1 I2 I3 I4]; cbn [pg_wasm ws_next ws_dfas ws_nfas ws_regexes pg_doc] in *;
  unfold acts; cbn [page_step]; unfold check_dfas, check_nfas, nfa_to_dfa_click, minimize_click, regex_click, visualize_click, js_call, value;
  cbn [pg_wasm pg_value].
Ltac tidy := cbn [bind set_wasm set_text set_value set_doc pg_wasm pg_value pg_text pg_doc js_load complaint handle_or_0 app js_handle js_text js_truthy
  wasm_step ws_dfas ws_nfas ws_regexes ws_next].
Ltac tidy0 := cbn [bind set_wasm pg_wasm pg_value pg_text pg_doc].
Ltac finish := eexists; split; [reflexivity|]; split; [intros a; cbn; try reflexivity|intros l; cbn].
Ltac finish' := eexists; split; [reflexivity|]; split; [intros a; cbn [set_wasm set_text set_value pg_value pg_text value_after]|intros l; cbn].

Lemma act_edit a u pg : acts (Edit a u) pg.
Proof.
  exists (if editable a then set_value db a u pg else pg). split; [reflexivity|]. split; [|intros l; destruct (editable a); reflexivity].
  intros b. cbn [value_after]. destruct (editable a); reflexivity.
Qed.
Lemma act_dfa_eq h dbg pg : page_inv db pg -> 2 + ws_next (pg_wasm db pg) < cap -> acts (Click BDfaEq h dbg) pg.
Proof.
  intros I H. start pg I H.
  pose proof (load_dfa_function (normal_newlines (v DfaEq1)) ds ns rs nx I1 ltac:(lia)) as L1.
  destruct (dfa_outcome (normal_newlines (v DfaEq1))) as [d1|m1] eqn:O1.
  - rewrite L1. tidy0.
    assert (I1' : no_keys (S nx) (ds ++ [(nx, d1)])) by (apply no_keys_push; auto).
    pose proof (load_dfa_function (normal_newlines (v DfaEq2)) (ds ++ [(nx, d1)]) ns rs (S nx) I1' ltac:(lia)) as L2.
    destruct (dfa_outcome (normal_newlines (v DfaEq2))) as [d2|m2] eqn:O2.
    + rewrite L2. tidy. rewrite (get_next (S nx)) by auto. rewrite hm_get_app, (get_next nx) by auto.
      apply dfa_outcome_loads in O1 as D1. apply dfa_outcome_loads in O2 as D2.
      destruct (C12_dfa_equivalent_to d1 d2 (loads_dfa_valid _ _ D1) (loads_dfa_valid _ _ D2)) as (b & Eb & _). rewrite Eb. tidy.
      finish. rewrite O1, O2. cbn [complain dfa_verdict app]. rewrite Eb.
      destruct (label_dec l DfaEqErrors) as [->|N]; [reflexivity|]. destruct (label_dec l DfaEqCheck) as [->|N']; [|reflexivity]. destruct b; reflexivity.
    + destruct L2 as (r2 & E2 & J2). rewrite E2. tidy. rewrite J2. tidy. finish. rewrite O1, O2. cbn [complain dfa_verdict app].
      destruct (label_dec l DfaEqErrors) as [->|N]; [reflexivity|]. destruct (label_dec l DfaEqCheck) as [->|N']; reflexivity.
  - destruct L1 as (r1 & E1 & J1). rewrite E1. tidy0.
    pose proof (load_dfa_function (normal_newlines (v DfaEq2)) ds ns rs nx I1 ltac:(lia)) as L2.
    destruct (dfa_outcome (normal_newlines (v DfaEq2))) as [d2|m2] eqn:O2.
    + rewrite L2. tidy. rewrite J1. tidy. finish. rewrite O1, O2. cbn [complain dfa_verdict app].
      destruct (label_dec l DfaEqErrors) as [->|N]; [reflexivity|]. destruct (label_dec l DfaEqCheck) as [->|N']; reflexivity.
    + destruct L2 as (r2 & E2 & J2). rewrite E2. tidy. rewrite J1, J2. tidy. finish. rewrite O1, O2. cbn [complain dfa_verdict app].
      destruct (label_dec l DfaEqErrors) as [->|N]; [reflexivity|]. destruct (label_dec l DfaEqCheck) as [->|N']; reflexivity.
Qed.
Lemma act_nfa_eq h dbg pg : page_inv db pg -> 2 + ws_next (pg_wasm db pg) < cap -> acts (Click BNfaEq h dbg) pg.
Proof.
  intros I H. start pg I H.
  pose proof (load_nfa_function (normal_newlines (v NfaEq1)) ds ns rs nx I2 ltac:(lia)) as L1.
  destruct (nfa_outcome (normal_newlines (v NfaEq1))) as [d1|m1] eqn:O1.
  - rewrite L1. tidy0.
    assert (I1' : no_keys (S nx) (ns ++ [(nx, d1)])) by (apply no_keys_push; auto).
    pose proof (load_nfa_function (normal_newlines (v NfaEq2)) ds (ns ++ [(nx, d1)]) rs (S nx) I1' ltac:(lia)) as L2.
    destruct (nfa_outcome (normal_newlines (v NfaEq2))) as [d2|m2] eqn:O2.
    + rewrite L2. tidy. rewrite (get_next (S nx)) by auto. rewrite hm_get_app, (get_next nx) by auto.
      apply nfa_outcome_loads in O1 as D1. apply nfa_outcome_loads in O2 as D2.
      destruct (C13_nfa_equivalent_to d1 d2 (loads_nfa_valid _ _ D1) (loads_nfa_valid _ _ D2)) as (b & Eb & _). rewrite Eb. tidy.
      finish. rewrite O1, O2. cbn [complain nfa_verdict app]. rewrite Eb.
      destruct (label_dec l NfaEqErrors) as [->|N]; [reflexivity|]. destruct (label_dec l NfaEqCheck) as [->|N']; [|reflexivity]. destruct b; reflexivity.
    + destruct L2 as (r2 & E2 & J2). rewrite E2. tidy. rewrite J2. tidy. finish. rewrite O1, O2. cbn [complain nfa_verdict app].
      destruct (label_dec l NfaEqErrors) as [->|N]; [reflexivity|]. destruct (label_dec l NfaEqCheck) as [->|N']; reflexivity.
  - destruct L1 as (r1 & E1 & J1). rewrite E1. tidy0.
    pose proof (load_nfa_function (normal_newlines (v NfaEq2)) ds ns rs nx I2 ltac:(lia)) as L2.
    destruct (nfa_outcome (normal_newlines (v NfaEq2))) as [d2|m2] eqn:O2.
    + rewrite L2. tidy. rewrite J1. tidy. finish. rewrite O1, O2. cbn [complain nfa_verdict app].
      destruct (label_dec l NfaEqErrors) as [->|N]; [reflexivity|]. destruct (label_dec l NfaEqCheck) as [->|N']; reflexivity.
    + destruct L2 as (r2 & E2 & J2). rewrite E2. tidy. rewrite J1, J2. tidy. finish. rewrite O1, O2. cbn [complain nfa_verdict app].
      destruct (label_dec l NfaEqErrors) as [->|N]; [reflexivity|]. destruct (label_dec l NfaEqCheck) as [->|N']; reflexivity.
Qed.
Lemma act_nfa_to_dfa h dbg pg : page_inv db pg -> 2 + ws_next (pg_wasm db pg) < cap -> acts (Click BNfaToDfa h dbg) pg.
Proof.
  intros I H. start pg I H.
  pose proof (load_nfa_function (normal_newlines (v NfaToDfaIn)) ds ns rs nx I2 ltac:(lia)) as L.
  destruct (nfa_outcome (normal_newlines (v NfaToDfaIn))) as [n|m] eqn:O.
  - rewrite L. tidy. apply nfa_outcome_loads in O as D. pose proof (loads_nfa_valid _ _ D) as V.
    rewrite (get_next nx) by auto. destruct (C15_nfa_to_dfa h n V) as (d & Ed & Vd & _). rewrite Ed. tidy.
    unfold push_dfa. rewrite gen_key_next by lia. tidy. assert (I1' : no_keys (S nx) ds) by (eapply no_keys_le; eauto).
    rewrite (insert_next (S nx)), (get_next (S nx)) by auto.
    destruct (C49_dfa_tables_aligned d Vd) as ((u & rows & Eu & _) & _). rewrite Eu. tidy.
    finish; [|reflexivity]. rewrite O, Ed. cbn [bind]. rewrite Eu. cbn [of_R]. reflexivity.
  - destruct L as (r & E & J). rewrite E. tidy. rewrite J. tidy. finish; [|reflexivity]. rewrite O. reflexivity.
Qed.
Lemma act_minimize h dbg pg : page_inv db pg -> 2 + ws_next (pg_wasm db pg) < cap -> acts (Click BMinimize h dbg) pg.
Proof.
  intros I H. start pg I H.
  pose proof (load_dfa_function (normal_newlines (v MinimizeIn)) ds ns rs nx I1 ltac:(lia)) as L.
  destruct (dfa_outcome (normal_newlines (v MinimizeIn))) as [d|m] eqn:O.
  - rewrite L. tidy. apply dfa_outcome_loads in O as D. pose proof (loads_dfa_valid _ _ D) as V.
    rewrite (get_next nx) by auto. destruct (C21_minimize h dbg d V) as (d' & Ed & Vd & _). rewrite Ed. tidy.
    rewrite (insert_again nx), (get_next nx) by auto.
    destruct (C49_dfa_tables_aligned d' Vd) as ((u & rows & Eu & _) & _). rewrite Eu. tidy.
    finish; rewrite O; [|reflexivity]. rewrite Ed. cbn [bind]. rewrite Eu. cbn [of_R]. reflexivity.
  - destruct L as (r & E & J). rewrite E. tidy. rewrite J. tidy. finish; rewrite O; [|reflexivity]. destruct (area_dec a MinimizeOut); reflexivity.
Qed.
Lemma act_regex h dbg pg : page_inv db pg -> 2 + ws_next (pg_wasm db pg) < cap -> acts (Click BRegex h dbg) pg.
Proof.
  intros I H. start pg I H. tidy.
  destruct (parse_regex_total seg (normal_newlines (v RegexIn))) as (o & Eo). rewrite Eo. tidy. destruct o as [x|].
  - unfold push_regex. rewrite gen_key_next by lia. tidy. rewrite insert_next by auto. rewrite (get_next nx), (remove_next nx) by auto.
    unfold push_nfa. tidy. rewrite gen_key_next by lia. tidy.
    assert (I2' : no_keys (S nx) ns) by (eapply no_keys_le; eauto).
    rewrite (insert_next (S nx)), (get_next (S nx)) by auto.
    pose proof (C36_valid h x) as V. destruct (C49_nfa_tables_aligned _ V) as ((u & rows & Eu & _) & _). rewrite Eu. tidy.
    finish'; rewrite Eo; [|reflexivity]. rewrite Eu. cbn [of_R]. reflexivity.
  - finish; rewrite Eo; [|reflexivity]. destruct (area_dec a RegexOut); reflexivity.
Qed.
Lemma act_visualize h dbg pg : finite_angles db -> proper_radii db -> page_inv db pg -> 2 + ws_next (pg_wasm db pg) < cap -> acts (Click BVisualize h dbg) pg.
Proof.
  intros FA PR I H. destruct (visualize_ok db seg cap checks dfa_syntax nfa_syntax regex_syntax type_error h dbg pg FA PR I H) as (pg' & E & _).
  exists pg'. split; [exact E|]. revert E. start pg I H.
  pose proof (load_nfa_function (normal_newlines (v VisualizeIn)) ds ns rs nx I2 ltac:(lia)) as L.
  destruct (nfa_outcome (normal_newlines (v VisualizeIn))) as [n|m] eqn:O.
  - rewrite L. tidy. intros E. apply bind_Ret_inv in E as ((doc', b) & _ & E). apply Ret_inj in E. subst pg'.
    split; [intros a; reflexivity|]. intros l. cbn. rewrite O. reflexivity.
  - destruct L as (r & E & J). rewrite E. tidy. rewrite J. intros X. apply Ret_inj in X. subst pg'.
    split; [intros a; reflexivity|]. intros l. cbn. rewrite O. reflexivity.
Qed.
Lemma act e pg : finite_angles db -> proper_radii db -> page_inv db pg -> 2 + ws_next (pg_wasm db pg) < cap -> acts e pg.
Proof.
  intros FA PR I H. destruct e as [a u|[] h dbg]; [apply act_edit|apply act_dfa_eq|apply act_nfa_eq|apply act_nfa_to_dfa|apply act_visualize
    |apply act_minimize|apply act_regex]; auto.
Qed.
End Run.

(** ** Two sessions *)
Definition nearly (v v' : area -> str) : Prop := forall a, a <> MinimizeOut -> v a = v' a.
Lemma loads_nfa_ok u n : nfa_outcome u = Ok n -> nfa_valid n.
Proof. intros H. apply nfa_outcome_loads in H. apply loads_nfa_valid in H. auto. Qed.
Lemma value_after_near e e' v v' : same_event e e' -> nearly v v' -> nearly (value_after e v) (value_after e' v').
Proof.
  intros [a' t|b h dbg h' dbg'] N a Ha.
  - cbn. destruct (editable a'); auto. destruct (area_dec a a'); auto.
  - destruct b; cbn [value_after]; auto.
    + destruct (area_dec a NfaToDfaOut); auto. rewrite <- (N NfaToDfaIn) by discriminate.
      destruct (nfa_outcome (normal_newlines (v NfaToDfaIn))) as [n|m] eqn:O; auto.
      rewrite (C63_nfa_to_dfa h h' n (loads_nfa_ok _ _ O)). reflexivity.
    + destruct (area_dec a MinimizeOut); [congruence|]. auto.
    + destruct (area_dec a RegexOut); auto. rewrite <- (N RegexIn) by discriminate. destruct (parse_regex seg (normal_newlines (v RegexIn))) as [[x|]| |]; auto.
      rewrite (proj1 (C63_regex h h' x)). reflexivity.
Qed.
Lemma text_after_near e e' v v' t t' : same_event e e' -> nearly v v' -> (forall l, t l = t' l) -> forall l, text_after e v t l = text_after e' v' t' l.
Proof.
  intros [a' x|b h dbg h' dbg'] N T l; cbn; auto. destruct b; cbn; auto; rewrite <- ?(N _) by discriminate; rewrite T; reflexivity.
Qed.
Lemma minimal_tables u u' d d1 d1' : dfa_valid d -> dfa_alphabet d1 = dfa_alphabet d -> dfa_alphabet d1' = dfa_alphabet d ->
  (exists h dbg, dfa_minimize h dbg d = Ret d1) -> (exists h dbg, dfa_minimize h dbg d = Ret d1') ->
  loads_dfa u d1 -> loads_dfa u' d1' -> tables_alike u u'.
Proof.
  intros V A A' (h & dbg & M) (h' & dbg' & M') L L'. exists d1, d1'. split; auto. split; auto. split; [congruence|].
  destruct (C21_minimize h dbg d V) as (e & E & _ & _ & HL & _). rewrite M in E. apply Ret_inj in E. subst e.
  destruct (C21_minimize h' dbg' d V) as (e & E & _ & _ & HL' & _). rewrite M' in E. apply Ret_inj in E. subst e.
  split; [intros w; rewrite HL, HL'; tauto|]. apply (C22_minimal_unique h dbg h' dbg' d d); auto; [|tauto]. intros x; tauto.
Qed.
Lemma minimized_table h dbg d u : loads_dfa u d ->
  exists d', dfa_minimize h dbg d = Ret d' /\ dfa_alphabet d' = dfa_alphabet d /\
    loads_dfa (normal_newlines (crlf_once (of_R (bind (dfa_minimize h dbg d) dfa_to_table)))) d'.
Proof.
  intros L. pose proof (loads_dfa_valid _ _ L) as V. destruct (loads_dfa_legal _ _ L) as (LA & LN). pose proof (loads_dfa_symbols _ _ L) as NE.
  destruct (C21_minimize h dbg d V) as (d' & Ed & Vd & Ad & _). exists d'. split; auto. split; auto. rewrite Ed. cbn [bind].
  destruct (C49_dfa_tables_aligned d' Vd) as ((t & rows & Eu & _) & _). rewrite Eu. cbn [of_R].
  assert (DL : dnames_legal d') by (eapply (dfa_minimize_legal h dbg d); eauto).
  assert (CR : ~ In 13%N t) by (apply (dfa_table_no_cr d'); auto; rewrite Ad; auto).
  rewrite normal_crlf_once by auto. apply table_loads; auto; rewrite Ad; auto.
Qed.
Definition same_or_alike (u u' : str) : Prop := u = u' \/ tables_alike u u'.
Lemma minimized_near e e' v v' : same_event e e' -> nearly v v' ->
  same_or_alike (normal_newlines (v MinimizeOut)) (normal_newlines (v' MinimizeOut)) ->
  same_or_alike (normal_newlines (value_after e v MinimizeOut)) (normal_newlines (value_after e' v' MinimizeOut)).
Proof.
  intros [a' t|b h dbg h' dbg'] N S.
  - cbn [value_after]. destruct (editable a') eqn:E; auto. destruct (area_dec MinimizeOut a') as [<-|]; [discriminate|auto].
  - destruct b; cbn [value_after]; auto. destruct (area_dec MinimizeOut MinimizeOut) as [_|X]; [|congruence].
    rewrite <- (N MinimizeIn) by discriminate. destruct (dfa_outcome (normal_newlines (v MinimizeIn))) as [d|m] eqn:O; auto.
    apply dfa_outcome_loads in O. right.
    destruct (minimized_table h dbg d _ O) as (d1 & M1 & A1 & L1). destruct (minimized_table h' dbg' d _ O) as (d2 & M2 & A2 & L2).
    apply (minimal_tables _ _ d d1 d2); eauto. apply (loads_dfa_valid _ _ O).
Qed.

Definition twins (pg pg' : page db) : Prop :=
  (forall l, pg_text db pg l = pg_text db pg' l) /\ nearly (pg_value db pg) (pg_value db pg') /\
  same_or_alike (value db pg MinimizeOut) (value db pg' MinimizeOut).
Lemma twins_look pg pg' : twins pg pg' -> looks_like db pg pg'.
Proof. intros (T & N & S). split; auto. split; auto. intros a Ha. unfold value. rewrite (N a Ha). reflexivity. Qed.

Context (cap cap' : nat) (checks checks' : bool).
Local Notation run := (page_run db seg cap checks dfa_syntax nfa_syntax regex_syntax type_error).
Local Notation run' := (page_run db seg cap' checks' dfa_syntax nfa_syntax regex_syntax type_error).
Lemma sessions_alike es es' : finite_angles db -> proper_radii db -> Forall2 same_event es es' -> forall pg pg', twins pg pg' ->
  page_inv db pg -> page_inv db pg' -> 2 * length es + ws_next (pg_wasm db pg) < cap -> 2 * length es' + ws_next (pg_wasm db pg') < cap' ->
  exists pgs pgs', run pg es = Ret pgs /\ run' pg' es' = Ret pgs' /\ Forall2 twins pgs pgs'.
Proof.
  intros FA PR. induction 1 as [|e e' es es' He HF IH]; intros pg pg' T I I' H H'; cbn [page_run].
  - exists [], []. auto.
  - cbn [length] in *.
    destruct (act cap checks e pg FA PR I ltac:(lia)) as (q & E & V & L). destruct (act cap' checks' e' pg' FA PR I' ltac:(lia)) as (q' & E' & V' & L').
    destruct (step_page_ok db seg cap checks dfa_syntax nfa_syntax regex_syntax type_error e pg FA PR I ltac:(lia)) as (x & Ex & _ & _ & Iq & Hq).
    rewrite E in Ex. apply Ret_inj in Ex. subst x.
    destruct (step_page_ok db seg cap' checks' dfa_syntax nfa_syntax regex_syntax type_error e' pg' FA PR I' ltac:(lia)) as (x & Ex & _ & _ & Iq' & Hq').
    rewrite E' in Ex. apply Ret_inj in Ex. subst x.
    assert (Tq : twins q q').
    { destruct T as (T1 & T2 & T3). split; [|split].
      - intros l. rewrite L, L'. apply text_after_near; auto.
      - intros a Ha. rewrite V, V'. apply value_after_near; auto.
      - unfold value. rewrite V, V'. apply minimized_near; auto. }
    destruct (IH q q' Tq Iq Iq' ltac:(lia) ltac:(lia)) as (pgs & pgs' & R1 & R2 & F).
    exists (q :: pgs), (q' :: pgs'). rewrite E, E'. cbn [bind]. rewrite R1, R2. auto.
Qed.
Lemma same_clicks b e e' : same_event e e' -> clicks b e = clicks b e'.
Proof. intros [a u|b' h dbg h' dbg']; reflexivity. Qed.
Lemma pictures_alike es es' : Forall2 same_event es es' -> forall pg pg' pgs pgs' l l', twins pg pg' -> Forall2 twins pgs pgs' ->
  pictures db seg pg es pgs l -> pictures db seg pg' es' pgs' l' -> same_pictures db l l'.
Proof.
  induction 1 as [|e e' es es' He HF IH]; intros pg pg' pgs pgs' l l' T F P P'.
  - inversion P; inversion P'; subst. exists []. auto.
  - assert (V : value db pg VisualizeIn = value db pg' VisualizeIn) by (unfold value; rewrite (proj1 (proj2 T)) by discriminate; reflexivity).
    inversion P; subst; inversion P'; subst; inversion F; subst.
    + edestruct IH as (us & F1 & F2); try eassumption. exists (value db pg VisualizeIn :: us). split; constructor; auto. rewrite V. auto.
    + exfalso. match goal with H : clicks _ e = true, K : _ -> ~ delivers _ _ _ _, Q : picture _ _ _ |- _ =>
        apply K; [rewrite <- (same_clicks _ e e' He); exact H|]; cbn [delivers]; rewrite <- V; destruct Q as (n & _ & _ & Q & _); exists n; exact Q end.
    + exfalso. match goal with H : clicks _ e' = true, K : _ -> ~ delivers _ _ _ _, Q : picture _ _ _ |- _ =>
        apply K; [rewrite (same_clicks _ e e' He); exact H|]; cbn [delivers]; rewrite V; destruct Q as (n & _ & _ & Q & _); exists n; exact Q end.
    + edestruct IH as (us & F1 & F2); try eassumption. exists us. auto.
Qed.
Lemma clicked_same b es es' : Forall2 same_event es es' -> forall k, clicked b es k -> clicked b es' k.
Proof.
  induction 1 as [|e e' es es' He HF IH]; intros k (x & Ex & Cx); [destruct k; discriminate|]. destruct k as [|k].
  - injection Ex as ->. exists e'. split; [reflexivity|]. rewrite <- (same_clicks b x e' He). exact Cx.
  - destruct (IH k) as (y & Ey & Cy); [exists x; auto|]. exists y. auto.
Qed.
Lemma looks_nth pgs pgs' pg pg' : Forall2 (looks_like db) pgs pgs' -> looks_like db pg pg' -> forall k, looks_like db (nth k pgs pg) (nth k pgs' pg').
Proof. induction 1 as [|x y l l' Hx HF IH]; intros Hp [|k]; cbn; auto. Qed.
Lemma looks_before pgs pgs' k : Forall2 (looks_like db) pgs pgs' -> forall a, a <> MinimizeOut ->
  value db (before db (page_init db) pgs k) a = value db (before db (page_init db) pgs' k) a.
Proof.
  intros F. assert (R : looks_like db (page_init db) (page_init db)) by (split; auto).
  apply (looks_nth (page_init db :: pgs) (page_init db :: pgs') (page_init db) (page_init db)); auto.
Qed.
End Page.
