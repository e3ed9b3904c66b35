(** * Printed tables: C09, C10 and C11 *)
From Coq Require Import List NArith Arith Bool Lia.
From Verif Require Import Base BaseLemmas Spec TableSpec LayoutSpec ParserModel ValidateModel NfaModel RegexModel TableModel TableProofs TableAlign Examples.
Import ListNotations.

(** ** C09: the table of a DFA parses to the very same DFA, in both styles *)
Theorem C09_dfa_to_table_roundtrip : forall d, dfa_valid d -> dfa_alphabet d <> [] ->
  Forall legal_token (dfa_alphabet d) -> Forall (fun s => legal_token (ds_name s)) (dfa_states d) ->
  exists u p, dfa_to_table d = Ret u /\ parse_dfa u = Ret (Some p) /\ dfa_try_from p = Ok d.
Proof. intros d V Hn Ha Hs. apply dfa_table_roundtrip; [auto|split; auto|auto|right; reflexivity]. Qed.
Print Assumptions C09_dfa_to_table_roundtrip.

Theorem C09_dfa_ascii_table_roundtrip : forall d, dfa_valid d -> dfa_alphabet d <> [] ->
  Forall legal_token (dfa_alphabet d) -> Forall (fun s => legal_token (ds_name s)) (dfa_states d) ->
  exists u p, dfa_ascii_table d = Ret u /\ parse_dfa u = Ret (Some p) /\ dfa_try_from p = Ok d.
Proof. intros d V Hn Ha Hs. apply dfa_table_roundtrip; [auto|split; auto|auto|left; reflexivity]. Qed.
Print Assumptions C09_dfa_ascii_table_roundtrip.

(** ** C10: the same for NFAs, whose alphabet may be empty *)
Theorem C10_nfa_to_table_roundtrip : forall n, nfa_valid n ->
  Forall legal_token (nfa_alphabet n) -> Forall (fun s => legal_token (ns_name s)) (nfa_states n) ->
  exists u p, nfa_to_table n = Ret u /\ parse_nfa u = Ret (Some p) /\ nfa_try_from p = Ok n.
Proof. intros n V Ha Hs. apply nfa_table_roundtrip; [auto|split; auto|left; reflexivity|right; reflexivity]. Qed.
Print Assumptions C10_nfa_to_table_roundtrip.

Theorem C10_nfa_ascii_table_roundtrip : forall n, nfa_valid n ->
  Forall legal_token (nfa_alphabet n) -> Forall (fun s => legal_token (ns_name s)) (nfa_states n) ->
  exists u p, nfa_ascii_table n = Ret u /\ parse_nfa u = Ret (Some p) /\ nfa_try_from p = Ok n.
Proof. intros n V Ha Hs. apply nfa_table_roundtrip; [auto|split; auto|right; reflexivity|left; reflexivity]. Qed.
Print Assumptions C10_nfa_ascii_table_roundtrip.

Example C09_example : exists u p, dfa_to_table ex_even = Ret u /\ parse_dfa u = Ret (Some p) /\ dfa_try_from p = Ok ex_even /\
  dfa_ascii_table ex_even <> Ret u.
Proof.
  destruct (C09_dfa_to_table_roundtrip ex_even ex_even_valid) as (u & p & E1 & E2 & E3).
  - discriminate.
  - apply Forall_legal. vm_compute. reflexivity.
  - apply Forall_legal_map. vm_compute. reflexivity.
  - exists u, p. repeat (split; auto). intros E. rewrite <- E in E1. vm_compute in E1. discriminate.
Qed.
Example C10_example : exists u p, nfa_ascii_table ex_nfa = Ret u /\ parse_nfa u = Ret (Some p) /\ nfa_try_from p = Ok ex_nfa.
Proof. apply C10_nfa_ascii_table_roundtrip; [apply ex_nfa_valid|apply Forall_legal|apply Forall_legal_map]; vm_compute; reflexivity. Qed.

(** ** C11: the documentation claims the round trip for every DFA *)

(** dandy/src/dfa/mod.rs:212-213: the table "can be parsed by Dandy into this very same DFA again".
    The DFA of the regular expression [ε] has an empty alphabet; its table is rejected. *)
Theorem C11_documented_claim_refuted : exists t d u, nfa_to_dfa id_order (regex_to_nfa id_order t) = Ret d /\ dfa_valid d /\
  dfa_to_table d = Ret u /\ parse_dfa u = Ret None.
Proof.
  exists (RChar REpsilon). eexists. eexists. split; [vm_compute; reflexivity|]. split; [apply dfa_validb_valid; vm_compute; reflexivity|].
  split; vm_compute; reflexivity.
Qed.
Print Assumptions C11_documented_claim_refuted.

(** ** C49: printing never fails, and the columns are aligned *)
Theorem C49_dfa_tables_aligned : forall d, dfa_valid d ->
  (exists u rows, dfa_to_table d = Ret u /\ dfa_cells d [8594%N] rows /\ aligned rows u) /\
  (exists u rows, dfa_ascii_table d = Ret u /\ dfa_cells d [45; 62]%N rows /\ aligned rows u).
Proof. intros d V. split; apply dfa_table_aligned; auto. Qed.
Print Assumptions C49_dfa_tables_aligned.
Theorem C49_nfa_tables_aligned : forall n, nfa_valid n ->
  (exists u rows, nfa_to_table n = Ret u /\ nfa_cells n [949%N] [8594%N] rows /\ aligned rows u) /\
  (exists u rows, nfa_ascii_table n = Ret u /\ nfa_cells n [101; 112; 115]%N [45; 62]%N rows /\ aligned rows u).
Proof. intros n V. split; apply nfa_table_aligned; auto. Qed.
Print Assumptions C49_nfa_tables_aligned.
Example C49_example : dfa_valid ex_even /\ nfa_valid ex_nfa /\
  dfa_ascii_table ex_even_min = Ret ([32; 32; 32; 32; 32; 32; 32; 98; 32; 97; 32; 10;
    32; 32; 32; 32; 32; 111; 32; 111; 32; 101; 32; 10;
    45; 62; 32; 42; 32; 101; 32; 101; 32; 111; 32]%N).
Proof. split; [apply ex_even_valid|]. split; [apply ex_nfa_valid|]. vm_compute. reflexivity. Qed.
