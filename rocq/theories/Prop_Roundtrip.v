(** * Printed tables: exactly which tables parse to the same automaton again (C11) *)
From Coq Require Import List NArith Arith Bool Lia.
From Verif Require Import Base BaseLemmas Spec TableSpec LayoutSpec GraphemeSpec DfaModel NfaModel RegexModel ValidateModel ParserModel
  TableModel RegexParserModel ApiModel TableProofs TableAlign ApiProofs ApiNames Examples Prop_Table Prop_RegexParser Prop_Api.
Import ListNotations.

(** ** C11: the table of a DFA parses to it again exactly if its alphabet is not empty and its symbols and names are tokens *)
Theorem C11_dfa_tables_iff : forall d, dfa_valid d ->
  ((exists u t, dfa_to_table d = Ret u /\ parse_dfa u = Ret (Some t) /\ dfa_try_from t = Ok d) <->
   dfa_alphabet d <> [] /\ Forall legal_token (dfa_alphabet d) /\ Forall (fun s => legal_token (ds_name s)) (dfa_states d)) /\
  ((exists u t, dfa_ascii_table d = Ret u /\ parse_dfa u = Ret (Some t) /\ dfa_try_from t = Ok d) <->
   dfa_alphabet d <> [] /\ Forall legal_token (dfa_alphabet d) /\ Forall (fun s => legal_token (ds_name s)) (dfa_states d)).
Proof.
  intros d V. split; (split; [intros (u & t & _ & E & Ef); exact (dfa_reparsed u t d E Ef)|intros (H1 & H2 & H3)]).
  - apply C09_dfa_to_table_roundtrip; auto.
  - apply C09_dfa_ascii_table_roundtrip; auto.
Qed.
Print Assumptions C11_dfa_tables_iff.

(** and the table of an NFA exactly if its symbols and names are tokens *)
Theorem C11_nfa_tables_iff : forall n, nfa_valid n ->
  ((exists u t, nfa_to_table n = Ret u /\ parse_nfa u = Ret (Some t) /\ nfa_try_from t = Ok n) <->
   Forall legal_token (nfa_alphabet n) /\ Forall (fun s => legal_token (ns_name s)) (nfa_states n)) /\
  ((exists u t, nfa_ascii_table n = Ret u /\ parse_nfa u = Ret (Some t) /\ nfa_try_from t = Ok n) <->
   Forall legal_token (nfa_alphabet n) /\ Forall (fun s => legal_token (ns_name s)) (nfa_states n)).
Proof.
  intros n V. split; (split; [intros (u & t & _ & E & Ef); exact (nfa_reparsed u t n E Ef)|intros (H1 & H2)]).
  - apply C10_nfa_to_table_roundtrip; auto.
  - apply C10_nfa_ascii_table_roundtrip; auto.
Qed.
Print Assumptions C11_nfa_tables_iff.

(** Names never are the reason for automata made through the API, only symbols are: they come from regular expressions. *)
Theorem C11_dfa_programs_iff : forall p d, run_dfa p = Ret (Some d) ->
  Forall (fun s => legal_token (ds_name s)) (dfa_states d) /\
  ((exists u t, dfa_to_table d = Ret u /\ parse_dfa u = Ret (Some t) /\ dfa_try_from t = Ok d) <->
   dfa_alphabet d <> [] /\ Forall legal_token (dfa_alphabet d)) /\
  ((exists u t, dfa_ascii_table d = Ret u /\ parse_dfa u = Ret (Some t) /\ dfa_try_from t = Ok d) <->
   dfa_alphabet d <> [] /\ Forall legal_token (dfa_alphabet d)).
Proof.
  intros p d E. pose proof (proj1 prog_names p d E) as N. destruct (C11_dfa_tables_iff d (run_dfa_valid p d E)) as (H1 & H2).
  split; [exact N|]. rewrite H1, H2. unfold dnames_legal in N. tauto.
Qed.
Print Assumptions C11_dfa_programs_iff.
Theorem C11_nfa_programs_iff : forall p n, run_nfa p = Ret (Some n) ->
  Forall (fun s => legal_token (ns_name s)) (nfa_states n) /\
  ((exists u t, nfa_to_table n = Ret u /\ parse_nfa u = Ret (Some t) /\ nfa_try_from t = Ok n) <-> Forall legal_token (nfa_alphabet n)) /\
  ((exists u t, nfa_ascii_table n = Ret u /\ parse_nfa u = Ret (Some t) /\ nfa_try_from t = Ok n) <-> Forall legal_token (nfa_alphabet n)).
Proof.
  intros p n E. pose proof (proj2 prog_names p n E) as N. destruct (C11_nfa_tables_iff n (run_nfa_valid p n E)) as (H1 & H2).
  split; [exact N|]. rewrite H1, H2. unfold nnames_legal in N. tauto.
Qed.
Print Assumptions C11_nfa_programs_iff.

(** Otherwise parsing need not fail: with an accent on a space as symbol, as in the expression "a", space, accent, the table
    is that of another automaton, whose symbol is the accent alone and which does not accept the words of the first one. *)
Definition ex_space_accent : dfa_prog := PDOfNfa id_order (PNRegex seg_accents id_order [97; 32; 769]%N).
Theorem C11_other_automaton_refuted : exists d u t d', run_dfa ex_space_accent = Ret (Some d) /\ dfa_to_table d = Ret u /\
  parse_dfa u = Ret (Some t) /\ dfa_try_from t = Ok d' /\ dfa_alphabet d' = [[97%N]; [769%N]] /\
  dfa_accepts d [[97%N]; [32; 769]%N] = Ret true /\ dfa_accepts d' [[97%N]; [32; 769]%N] = Ret false.
Proof. do 4 eexists. split; [vm_compute; reflexivity|]. do 3 (split; [vm_compute; reflexivity|]). vm_compute. auto. Qed.
Print Assumptions C11_other_automaton_refuted.

Example C11_iff_example : dfa_valid ex_even /\ dfa_alphabet ex_even <> [] /\ Forall legal_token (dfa_alphabet ex_even) /\
  exists d, run_dfa ex_space_accent = Ret (Some d) /\ dfa_alphabet d <> [] /\ ~ Forall legal_token (dfa_alphabet d).
Proof.
  split; [apply ex_even_valid|]. split; [discriminate|]. split; [apply Forall_legal; vm_compute; reflexivity|].
  eexists. split; [vm_compute; reflexivity|]. split; [discriminate|]. cbn [dfa_alphabet]. intros H.
  inversion H as [|? ? _ H1]; subst. inversion H1 as [|? ? (_ & H2 & _) _]; subst. destruct (H2 32%N) as [H3 _]; [left; reflexivity|].
  apply H3. unfold whitespace. lia.
Qed.
