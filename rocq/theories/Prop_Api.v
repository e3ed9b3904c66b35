(** * Client programs: C41, C48 and C11 *)
From Coq Require Import List NArith Arith Bool Lia.
From Verif Require Import Base BaseLemmas Spec TableSpec LayoutSpec DfaModel NfaModel RegexModel ValidateModel ParserModel TableModel
  RegexParserModel ApiModel ApiProofs TableProofs TableAlign Examples Prop_Dfa Prop_Nfa Prop_RegexParser.
Import ListNotations.

(** ** C41: no program panics or runs forever, and everything it builds is valid *)
Theorem C41_dfa_programs : forall p, exists r, run_dfa p = Ret r /\ forall d, r = Some d -> dfa_valid d.
Proof.
  intros p. destruct (proj1 prog_ok p) as [(_ & d & E & O)|(_ & E)]; rewrite E; eexists; (split; [reflexivity|]); [|discriminate].
  intros d' [= <-]. apply O.
Qed.
Print Assumptions C41_dfa_programs.
Theorem C41_nfa_programs : forall p, exists r, run_nfa p = Ret r /\ forall n, r = Some n -> nfa_valid n.
Proof.
  intros p. destruct (proj2 prog_ok p) as [(_ & d & E & O)|(_ & E)]; rewrite E; eexists; (split; [reflexivity|]); [|discriminate].
  intros d' [= <-]. apply O.
Qed.
Print Assumptions C41_nfa_programs.

(** and every query about what it built returns *)
Theorem C41_dfa_queries : forall p d h w, run_dfa p = Ret (Some d) ->
  (exists r, dfa_accepts d w = Ret r) /\ (exists r, dfa_to_table d = Ret r) /\ (exists r, dfa_ascii_table d = Ret r) /\
  (exists r, dfa_reachable_states h d = Ret r) /\ (exists r, dfa_unreachable_states h d = Ret r) /\
  (exists r, dfa_has_reachable_accepting_state h d = Ret r) /\ (exists r, dfa_state_equivalence_classes h d = Ret r) /\
  (forall p' d', run_dfa p' = Ret (Some d') -> exists r, dfa_equivalent_to d d' = Ret r).
Proof.
  intros p d h w E. assert (V : forall p d, run_dfa p = Ret (Some d) -> dfa_valid d).
  { intros p0 d0 E0. destruct (C41_dfa_programs p0) as (r & E1 & H). rewrite E0 in E1. injection E1 as <-. auto. }
  specialize (V p d E) as V1. split; [destruct (C01_dfa_accepts d w V1) as (r & -> & _); eauto|].
  split; [destruct (dfa_table_aligned d arrow_str V1) as (u & _ & Hu & _); exists u; exact Hu|].
  split; [destruct (dfa_table_aligned d ascii_arrow_str V1) as (u & _ & Hu & _); exists u; exact Hu|].
  split; [destruct (C16_dfa_reachable_states h d V1) as (r & _ & -> & _); eauto|].
  split; [destruct (C16_dfa_unreachable_states h d V1) as (r & _ & -> & _); eauto|].
  split; [destruct (C18_dfa_has_reachable_accepting_state h d V1) as (r & -> & _); eauto|].
  split; [destruct (C19_state_equivalence_classes h d V1) as (r & _ & -> & _); eauto|].
  intros p' d' E'. destruct (C12_dfa_equivalent_to d d' V1 (V p' d' E')) as (r & -> & _); eauto.
Qed.
Print Assumptions C41_dfa_queries.
Theorem C41_nfa_queries : forall p n h w, run_nfa p = Ret (Some n) ->
  (exists r, nfa_accepts n w = Ret r) /\ (exists r, nfa_to_table n = Ret r) /\ (exists r, nfa_ascii_table n = Ret r) /\
  (exists r, nfa_reachable_states h n = Ret r) /\ (exists r, nfa_unreachable_states h n = Ret r) /\
  (exists r, nfa_has_reachable_accepting_state h n = Ret r) /\
  (forall p' n', run_nfa p' = Ret (Some n') -> exists r, nfa_equivalent_to n n' = Ret r).
Proof.
  intros p n h w E. assert (V : forall p n, run_nfa p = Ret (Some n) -> nfa_valid n).
  { intros p0 d0 E0. destruct (C41_nfa_programs p0) as (r & E1 & H). rewrite E0 in E1. injection E1 as <-. auto. }
  specialize (V p n E) as V1. split; [destruct (C03_nfa_accepts n w V1) as (r & -> & _); eauto|].
  split; [destruct (nfa_table_aligned n eps_str arrow_str V1) as (u & _ & Hu & _); exists u; exact Hu|].
  split; [destruct (nfa_table_aligned n ascii_eps_str ascii_arrow_str V1) as (u & _ & Hu & _); exists u; exact Hu|].
  split; [destruct (C16_nfa_reachable_states h n V1) as (r & _ & -> & _); eauto|].
  split; [destruct (C16_nfa_unreachable_states h n V1) as (r & _ & -> & _); eauto|].
  split; [destruct (C18_nfa_has_reachable_accepting_state h n V1) as (r & -> & _); eauto|].
  intros p' d' E'. destruct (C13_nfa_equivalent_to n d' V1 (V p' d' E')) as (r & -> & _); eauto.
Qed.
Print Assumptions C41_nfa_queries.

(** ** C48: what a program computes is given by its leaves and by set operations *)
Theorem C48_dfa_programs : forall p, dfa_prog_sets p ->
  (dfa_prog_defined p -> exists d, run_dfa p = Ret (Some d) /\ (forall a, In a (dfa_alphabet d) <-> dfa_prog_symbol p a) /\
                                   forall w, dfa_lang d w <-> dfa_prog_lang p w) /\
  (~ dfa_prog_defined p -> run_dfa p = Ret None).
Proof.
  intros p Hs. destruct (proj1 prog_ok p) as [(D & d & E & O)|(D & E)]; (split; [|tauto]); [|tauto].
  intros _. exists d. split; auto. split; [apply O|apply O; auto].
Qed.
Print Assumptions C48_dfa_programs.
Theorem C48_nfa_programs : forall p, nfa_prog_sets p ->
  (nfa_prog_defined p -> exists n, run_nfa p = Ret (Some n) /\ (forall a, In a (nfa_alphabet n) <-> nfa_prog_symbol p a) /\
                                   forall w, nfa_lang n w <-> nfa_prog_lang p w) /\
  (~ nfa_prog_defined p -> run_nfa p = Ret None).
Proof.
  intros p Hs. destruct (proj2 prog_ok p) as [(D & d & E & O)|(D & E)]; (split; [|tauto]); [|tauto].
  intros _. exists d. split; auto. split; [apply O|apply O; auto].
Qed.
Print Assumptions C48_nfa_programs.
(** also the programs with combinators of the client succeed exactly when their leaves and alphabets allow it *)
Theorem C48_success : forall p, (exists d, run_dfa p = Ret (Some d)) <-> dfa_prog_defined p.
Proof.
  intros p. destruct (proj1 prog_ok p) as [(D & d & E & O)|(D & E)].
  - split; eauto.
  - split; [intros (d & E'); congruence|tauto].
Qed.
Print Assumptions C48_success.

(** the minimized complement of (a|b)*ab, intersected with the words of even length *)
Definition ex_text_ab : str := [40; 97; 124; 98; 41; 42; 97; 98]%N.
Definition ex_text_even : str :=
  [32; 97; 32; 98; 10; 45; 62; 32; 42; 32; 101; 32; 111; 32; 111; 10; 111; 32; 101; 32; 101]%N.
Definition ex_prog : dfa_prog :=
  PDMinimize rev_order true
    (PDSetOp OIntersection id_order
       (PDInvert (PDOfNfa rev_order (PNOptimize id_order true (PNRegex singles id_order ex_text_ab))))
       (PDParse ex_text_even)).
Example C48_example : dfa_prog_sets ex_prog /\
  exists d, run_dfa ex_prog = Ret (Some d) /\ length (dfa_states d) = 4 /\
            dfa_accepts d [el_b; el_a] = Ret true /\ dfa_accepts d [el_a; el_b] = Ret false /\ dfa_accepts d [el_a] = Ret false.
Proof. split; [vm_compute; auto|]. eexists. split; [vm_compute; reflexivity|]. vm_compute. auto. Qed.
Example C48_example_defined : dfa_prog_defined ex_prog.
Proof. apply C48_success. eexists. vm_compute. reflexivity. Qed.
Example C41_example : exists d, run_dfa ex_prog = Ret (Some d) /\ dfa_valid d.
Proof. eexists. split; [vm_compute; reflexivity|]. apply dfa_validb_valid. vm_compute. reflexivity. Qed.

(** ** C11: tables of everything the API builds parse to the same automaton again, if the symbols of all regular expressions
    are legal tokens and the alphabet is not empty *)
Theorem C11_dfa_tables_partial : forall p d, dfa_prog_legal p -> run_dfa p = Ret (Some d) -> dfa_alphabet d <> [] ->
  (exists u t, dfa_to_table d = Ret u /\ parse_dfa u = Ret (Some t) /\ dfa_try_from t = Ok d) /\
  (exists u t, dfa_ascii_table d = Ret u /\ parse_dfa u = Ret (Some t) /\ dfa_try_from t = Ok d).
Proof.
  intros p d Hl E Hn. destruct (proj1 prog_ok p) as [(_ & d' & E' & O)|(_ & E')]; rewrite E in E'; [injection E' as <-|discriminate].
  split; apply dfa_table_roundtrip; auto; try apply O; auto; [right|left]; reflexivity.
Qed.
Print Assumptions C11_dfa_tables_partial.
Theorem C11_nfa_tables_partial : forall p n, nfa_prog_legal p -> run_nfa p = Ret (Some n) ->
  (exists u t, nfa_to_table n = Ret u /\ parse_nfa u = Ret (Some t) /\ nfa_try_from t = Ok n) /\
  (exists u t, nfa_ascii_table n = Ret u /\ parse_nfa u = Ret (Some t) /\ nfa_try_from t = Ok n).
Proof.
  intros p n Hl E. destruct (proj2 prog_ok p) as [(_ & d' & E' & O)|(_ & E')]; rewrite E in E'; [injection E' as <-|discriminate].
  split; apply nfa_table_roundtrip; auto; try apply O; auto; [right|left]; reflexivity.
Qed.
Print Assumptions C11_nfa_tables_partial.
Example C11_partial_example : dfa_prog_legal ex_prog /\
  exists d, run_dfa ex_prog = Ret (Some d) /\ dfa_alphabet d <> [].
Proof.
  split; [|eexists; split; [vm_compute; reflexivity|discriminate]]. split; [|exact I].
  intros t H. vm_compute in H. injection H as <-. apply Forall_legal. vm_compute. reflexivity.
Qed.

(** Without these conditions the claim is false: the symbol [#] of the expression [\#] starts a comment in the table *)
Theorem C11_regex_symbol_refuted : exists u d tb, run_dfa (PDOfNfa id_order (PNRegex singles id_order u)) = Ret (Some d) /\
  dfa_alphabet d <> [] /\ dfa_to_table d = Ret tb /\ parse_dfa tb = Ret None.
Proof.
  exists [35%N]. eexists. eexists. split; [vm_compute; reflexivity|]. split; [discriminate|]. split; vm_compute; reflexivity.
Qed.
Print Assumptions C11_regex_symbol_refuted.
(** a table whose only column is epsilon is legal for NFAs; the DFA made of it has no columns and its table does not parse *)
Theorem C11_table_refuted : exists u d tb, run_dfa (PDOfNfa id_order (PNParse u)) = Ret (Some d) /\
  dfa_to_table d = Ret tb /\ parse_dfa tb = Ret None.
Proof.
  exists ([32; 101; 112; 115; 10; 45; 62; 32; 97; 32; 123; 125]%N). eexists. eexists. split; [vm_compute; reflexivity|].
  split; vm_compute; reflexivity.
Qed.
Print Assumptions C11_table_refuted.
