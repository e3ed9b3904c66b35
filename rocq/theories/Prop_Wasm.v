(** * The handle-based interface for JavaScript: C42 *)
From Coq Require Import List NArith Arith Bool Lia.
From Verif Require Import Base BaseLemmas Spec TableSpec LayoutSpec DfaModel NfaModel RegexModel ValidateModel ParserModel TableModel
  RegexParserModel Messages MessageSpec WasmModel WasmSpec WasmProofs ApiProofs Examples Prop_Dfa Prop_Nfa Prop_Regex Prop_RegexParser Prop_Api.
Import ListNotations.

(** ** Every session that creates fewer handles than [usize] has values runs to its end, every result is the one its history
    calls for, and no handle is handed out twice *)
Theorem C42_sessions : forall seg cap checks calls, S (length (filter creates calls)) < cap ->
  exists st rs, wasm_run seg cap checks wasm_init calls = Ret (st, rs) /\ length rs = length calls /\
    explained seg (session calls rs) /\ NoDup (handles rs) /\ ~ In 0 (handles rs).
Proof.
  intros seg cap checks calls H.
  destruct (run_correct seg cap checks calls wasm_init [] (winv_init seg) I H) as (st & rs & E & Hl & _ & Ex).
  rewrite app_nil_r in Ex. exists st, rs. split; auto. split; auto. split; auto.
  destruct (explained_handles seg _ Ex) as [N Z]. unfold session in N, Z. rewrite map_rev in N, Z.
  replace (map snd (combine calls rs)) with rs in N, Z.
  - assert (P : forall l, Permutation.Permutation (handles (rev l)) (handles l)).
    { intros l. unfold handles. apply Permutation.Permutation_flat_map. symmetry. apply Permutation.Permutation_rev. }
    split; [eapply Permutation.Permutation_NoDup; [apply P|]; auto|].
    intros Hin. apply Z. eapply Permutation.Permutation_in; [symmetry; apply P|]; auto.
  - clear - Hl. revert rs Hl. induction calls as [|c cs IH]; intros [|r rs] Hl; try discriminate; simpl; auto.
    f_equal. apply IH. simpl in Hl. congruence.
Qed.
Print Assumptions C42_sessions.

(** what the maps hold at the end is what the history says *)
Theorem C42_final_state : forall seg cap checks calls st rs, S (length (filter creates calls)) < cap ->
  wasm_run seg cap checks wasm_init calls = Ret (st, rs) ->
  (forall k d, hm_get k (ws_dfas st) = Some d <-> live_dfa seg (session calls rs) k d) /\
  (forall k n, hm_get k (ws_nfas st) = Some n <-> live_nfa seg (session calls rs) k n) /\
  (forall k t, hm_get k (ws_regexes st) = Some t <-> live_regex seg (session calls rs) k t).
Proof.
  intros seg cap checks calls st rs H E.
  destruct (run_correct seg cap checks calls wasm_init [] (winv_init seg) I H) as (st' & rs' & E' & _ & W & _).
  rewrite E in E'. injection E' as <- <-. rewrite app_nil_r in W. split; [apply W|]. split; apply W.
Qed.
Print Assumptions C42_final_state.

(** ** A handle keeps its meaning whatever is done to other handles *)
Theorem C42_dfa_frame : forall seg tr' tr k d, explained seg (tr' ++ tr) -> issued tr k ->
  (forall c r, In (c, r) tr' -> leaves_dfa k c) -> (live_dfa seg (tr' ++ tr) k d <-> live_dfa seg tr k d).
Proof. intros seg tr' tr k d Ex I H. apply dfa_frame; auto. intros [c r]; apply H. Qed.
Print Assumptions C42_dfa_frame.
Theorem C42_nfa_frame : forall seg tr' tr k n, explained seg (tr' ++ tr) -> issued tr k ->
  (forall c r, In (c, r) tr' -> leaves_nfa k c) -> (live_nfa seg (tr' ++ tr) k n <-> live_nfa seg tr k n).
Proof. intros seg tr' tr k d Ex I H. apply nfa_frame; auto. intros [c r]; apply H. Qed.
Print Assumptions C42_nfa_frame.
Theorem C42_regex_frame : forall seg tr' tr k t, explained seg (tr' ++ tr) -> issued tr k ->
  (forall c r, In (c, r) tr' -> leaves_regex k c) -> (live_regex seg (tr' ++ tr) k t <-> live_regex seg tr k t).
Proof. intros seg tr' tr k d Ex I H. apply regex_frame; auto. intros [c r]; apply H. Qed.
Print Assumptions C42_regex_frame.

(** and its language and alphabet never change while it lives, also if it is minimized *)
Theorem C42_dfa_language_fixed : forall seg tr' tr k d', explained seg (tr' ++ tr) -> issued tr k -> live_dfa seg (tr' ++ tr) k d' ->
  exists d, live_dfa seg tr k d /\ dfa_alphabet d' = dfa_alphabet d /\ forall w, dfa_lang d' w <-> dfa_lang d w.
Proof. intros seg tr' tr k d' Ex I L. destruct (dfa_language_fixed seg tr' tr k d' Ex I L) as (d & H & _ & A & B). eauto. Qed.
Print Assumptions C42_dfa_language_fixed.

(** ** Conversions hand out a handle for the same language *)
Theorem C42_nfa_to_dfa : forall seg tr' tr h k k' n d, explained seg (tr' ++ (CNfaToDfa h k, WHandle (Some k')) :: tr) ->
  live_nfa seg tr k n -> live_dfa seg (tr' ++ (CNfaToDfa h k, WHandle (Some k')) :: tr) k' d ->
  dfa_alphabet d = nfa_alphabet n /\ forall w, dfa_lang d w <-> nfa_lang n w.
Proof.
  intros seg tr' tr h k k' n d Ex Ln Ld.
  assert (I : issued ((CNfaToDfa h k, WHandle (Some k')) :: tr) k') by (apply issued_cons; left; reflexivity).
  destruct (C42_dfa_language_fixed seg tr' _ k' d Ex I Ld) as (d0 & L0 & A & B).
  simpl in L0. destruct L0 as [[_ (n0 & Ln0 & E)]|[N _]]; [|congruence].
  assert (n0 = n) as -> by (eapply (live_unique seg tr); eauto).
  destruct (C15_nfa_to_dfa h n (proj2 (live_valid seg tr) _ _ Ln)) as (d1 & E1 & _ & A1 & _ & _ & _ & B1).
  assert (d1 = d0) as -> by congruence. split; [congruence|]. intros w. rewrite B. auto.
Qed.
Print Assumptions C42_nfa_to_dfa.
Theorem C42_dfa_to_nfa : forall seg tr' tr k k' n d, explained seg (tr' ++ (CDfaToNfa k, WHandle (Some k')) :: tr) ->
  live_dfa seg tr k d -> live_nfa seg (tr' ++ (CDfaToNfa k, WHandle (Some k')) :: tr) k' n ->
  (forall c r, In (c, r) tr' -> leaves_nfa k' c) ->
  nfa_alphabet n = dfa_alphabet d /\ forall w, nfa_lang n w <-> dfa_lang d w.
Proof.
  intros seg tr' tr k k' n d Ex Ln Ld Hl.
  apply C42_nfa_frame in Ld; auto; [|apply issued_cons; left; reflexivity].
  simpl in Ld. destruct Ld as [[_ (d0 & L0 & ->)]|[N _]]; [|congruence].
  assert (d0 = d) as -> by (eapply (live_unique seg tr); eauto).
  destruct (C14_dfa_to_nfa d (proj1 (live_valid seg tr) _ _ Ln)) as (_ & _ & A & _ & _ & _ & _ & _ & B). auto.
Qed.
Print Assumptions C42_dfa_to_nfa.
Theorem C42_regex_to_nfa : forall seg tr' tr h k k' n t, explained seg (tr' ++ (CRegexToNfa h k, WHandle (Some k')) :: tr) ->
  live_regex seg tr k t -> live_nfa seg (tr' ++ (CRegexToNfa h k, WHandle (Some k')) :: tr) k' n ->
  (forall c r, In (c, r) tr' -> leaves_nfa k' c) ->
  (forall w, nfa_lang n w <-> matches t w) /\ ~ known_regex seg ((CRegexToNfa h k, WHandle (Some k')) :: tr) k.
Proof.
  intros seg tr' tr h k k' n t Ex Ln Ld Hl.
  apply C42_nfa_frame in Ld; auto; [|apply issued_cons; left; reflexivity].
  simpl in Ld. destruct Ld as [[_ (d0 & L0 & ->)]|[N _]]; [|congruence].
  assert (d0 = t) as -> by (eapply (live_unique seg tr); eauto).
  split; [apply C36_regex_to_nfa|]. intros (t' & K & _). congruence.
Qed.
Print Assumptions C42_regex_to_nfa.

(** ** Calls with an unknown handle report failure and change nothing at all *)
Theorem C42_unknown_dfa : forall seg cap checks st k, hm_get k (ws_dfas st) = None ->
  (forall h dbg, wasm_step seg cap checks st (CMinimizeDfa h dbg k) = Ret (st, WBool false)) /\
  wasm_step seg cap checks st (CDeleteDfa k) = Ret (st, WBool false) /\
  (forall canvas, wasm_step seg cap checks st (CDrawDfa k canvas) = Ret (st, WBool false)) /\
  (forall k', wasm_step seg cap checks st (CCheckDfaEq k k') = Ret (st, WOptBool None) /\
              wasm_step seg cap checks st (CCheckDfaEq k' k) = Ret (st, WOptBool None)) /\
  wasm_step seg cap checks st (CDfaToNfa k) = Ret (st, WHandle None) /\
  wasm_step seg cap checks st (CDfaToTable k) = Ret (st, WOptStr None).
Proof.
  intros seg cap checks [ds ns rs nx] k E. simpl in E. simpl. rewrite E. simpl. rewrite hm_remove_unknown by auto.
  repeat split; auto. destruct (hm_get k' ds); reflexivity.
Qed.
Print Assumptions C42_unknown_dfa.
Theorem C42_unknown_nfa : forall seg cap checks st k, hm_get k (ws_nfas st) = None ->
  wasm_step seg cap checks st (CDeleteNfa k) = Ret (st, WBool false) /\
  (forall canvas, wasm_step seg cap checks st (CDrawNfa k canvas) = Ret (st, WBool false)) /\
  (forall k', wasm_step seg cap checks st (CCheckNfaEq k k') = Ret (st, WOptBool None) /\
              wasm_step seg cap checks st (CCheckNfaEq k' k) = Ret (st, WOptBool None)) /\
  (forall h, wasm_step seg cap checks st (CNfaToDfa h k) = Ret (st, WHandle None)) /\
  wasm_step seg cap checks st (CNfaToTable k) = Ret (st, WOptStr None).
Proof.
  intros seg cap checks [ds ns rs nx] k E. simpl in E. simpl. rewrite E. simpl. rewrite hm_remove_unknown by auto.
  repeat split; auto. destruct (hm_get k' ns); reflexivity.
Qed.
Print Assumptions C42_unknown_nfa.
Theorem C42_unknown_regex : forall seg cap checks st k, hm_get k (ws_regexes st) = None ->
  wasm_step seg cap checks st (CDeleteRegex k) = Ret (st, WBool false) /\
  (forall h, wasm_step seg cap checks st (CRegexToNfa h k) = Ret (st, WHandle None)).
Proof.
  intros seg cap checks [ds ns rs nx] k E. simpl in E. simpl. rewrite E. simpl. rewrite hm_remove_unknown by auto. auto.
Qed.
Print Assumptions C42_unknown_regex.

(** ** The bound on the number of handles is needed: after [usize::MAX] of them a build without overflow checks hands out old
    handles again (overwriting what they refer to), and a build with overflow checks panics *)
Theorem C42_wraparound_refuted : forall seg cap, 3 <= cap ->
  exists calls st rs, wasm_run seg cap false wasm_init calls = Ret (st, rs) /\ ~ NoDup (handles rs).
Proof.
  intros seg cap H. exists (repeat (CLoadDfa ex_text_even) (S cap)).
  eapply wraparound; auto; vm_compute; reflexivity.
Qed.
Print Assumptions C42_wraparound_refuted.
Theorem C42_overflow_refuted : forall seg cap, 2 <= cap -> exists calls, wasm_run seg cap true wasm_init calls = Panic.
Proof.
  intros seg cap H. exists (repeat (CLoadDfa ex_text_even) (cap - 1)).
  eapply overflow_panics; auto; vm_compute; reflexivity.
Qed.
Print Assumptions C42_overflow_refuted.

(** ** A session: load an expression, convert it, minimize, compare, delete, use deleted handles *)
Definition ex_session : list wasm_call :=
  [CLoadRegex ex_text_ab; CRegexToNfa id_order 1; CNfaToDfa rev_order 2; CMinimizeDfa id_order true 3; CDfaToNfa 3;
   CCheckNfaEq 2 4; CLoadDfa ex_text_even; CCheckDfaEq 3 5; CDeleteNfa 2; CCheckNfaEq 2 4; CRegexToNfa id_order 1; CDeleteNfa 2;
   CLoadNfa [97%N]; CMinimizeDfa id_order true 4; CDeleteDfa 3; CDfaToTable 3].
Example C42_example : S (length (filter creates ex_session)) < 100 /\
  exists st, wasm_run singles 100 true wasm_init ex_session =
    Ret (st, [WLoad (Ok 1); WHandle (Some 2); WHandle (Some 3); WBool true; WHandle (Some 4);
              WOptBool (Some true); WLoad (Ok 5); WOptBool (Some false); WBool true; WOptBool None; WHandle None; WBool false;
              WLoad (Err LSyntax); WBool false; WBool true; WOptStr None]).
Proof. split; [apply Nat.ltb_lt; vm_compute; reflexivity|]. eexists. vm_compute. reflexivity. Qed.
(** the DFA handle 3 of that session is alive when it is compared, as the theorems about histories require *)
Example C42_example_live : exists st rs, wasm_run singles 100 true wasm_init (firstn 8 ex_session) = Ret (st, rs) /\
  explained singles (session (firstn 8 ex_session) rs) /\ known_dfa singles (session (firstn 8 ex_session) rs) 3 /\
  issued (session (firstn 8 ex_session) rs) 3.
Proof.
  destruct (C42_sessions singles 100 true (firstn 8 ex_session)) as (st & rs & E & _ & Ex & _).
  { apply Nat.ltb_lt. vm_compute. reflexivity. }
  exists st, rs. split; auto. split; auto. assert (K : known_dfa singles (session (firstn 8 ex_session) rs) 3).
  { destruct (C42_final_state singles 100 true (firstn 8 ex_session) st rs) as (F & _); auto.
    { apply Nat.ltb_lt. vm_compute. reflexivity. }
    destruct (hm_get 3 (ws_dfas st)) as [d|] eqn:G; [exists d; apply F; auto|]. exfalso.
    vm_compute in E. injection E as <- <-. vm_compute in G. discriminate. }
  split; auto. destruct K as (d & K). exact (proj1 (live_issued singles _) 3 d K).
Qed.
(** messages of validation errors *)
Example C42_messages : exists st, wasm_run singles 100 true wasm_init
    [CLoadDfa ([32; 97; 10; 45; 62; 32; 120; 32; 121]%N); CLoadNfa ([32; 97; 10; 32; 120; 32; 123; 125]%N)] =
  Ret (st, [WLoad (Err (LInvalid (error_text (TransitionDoesNotExist [120%N] [121%N]))));
            WLoad (Err (LInvalid (error_text MissingInitialState)))]).
Proof. eexists. vm_compute. reflexivity. Qed.
