(** * Parsing DFA and NFA tables: C39 (tables) and C40 *)
From Coq Require Import List NArith Arith Bool Lia.
From Verif Require Import Base BaseLemmas Spec TableSpec LayoutSpec ParserModel FaParserProofs CrlfProofs.
Import ListNotations.

(** ** C39: the table parsers are total *)
Theorem C39_dfa_parser_total : forall u, exists r, parse_dfa u = Ret r.
Proof. exact parse_dfa_total. Qed.
Print Assumptions C39_dfa_parser_total.

Theorem C39_nfa_parser_total : forall u, exists r, parse_nfa u = Ret r.
Proof. exact parse_nfa_total. Qed.
Print Assumptions C39_nfa_parser_total.

(** an error is reported exactly for the texts that lay out no table *)
Theorem C39_dfa_parser_error : forall u, parse_dfa u = Ret None <-> ~ exists p, dfa_text p u.
Proof.
  intros u. destruct (parse_dfa_total u) as (r & E). split.
  - intros H (p & Hp). apply parse_dfa_iff in Hp. congruence.
  - intros H. destruct r as [p|]; auto. destruct H. exists p. apply parse_dfa_iff. auto.
Qed.
Print Assumptions C39_dfa_parser_error.

Theorem C39_nfa_parser_error : forall u, parse_nfa u = Ret None <-> ~ exists p, nfa_text p u.
Proof.
  intros u. destruct (parse_nfa_total u) as (r & E). split.
  - intros H (p & Hp). apply parse_nfa_iff in Hp. congruence.
  - intros H. destruct r as [p|]; auto. destruct H. exists p. apply parse_nfa_iff. auto.
Qed.
Print Assumptions C39_nfa_parser_error.

(** ** C40: comments, blank lines and spacing are irrelevant *)

(** exactly the layouts of a table parse to it: all of them, however laid out, and no other text *)
Theorem C40_dfa_layouts : forall p u, parse_dfa u = Ret (Some p) <-> dfa_text p u.
Proof. exact parse_dfa_iff. Qed.
Print Assumptions C40_dfa_layouts.

Theorem C40_nfa_layouts : forall p u, parse_nfa u = Ret (Some p) <-> nfa_text p u.
Proof. exact parse_nfa_iff. Qed.
Print Assumptions C40_nfa_layouts.

Theorem C40_dfa_layout_irrelevant : forall p u v, dfa_text p u -> dfa_text p v -> parse_dfa u = parse_dfa v.
Proof. intros p u v Hu Hv. apply parse_dfa_iff in Hu. apply parse_dfa_iff in Hv. congruence. Qed.
Print Assumptions C40_dfa_layout_irrelevant.

Theorem C40_nfa_layout_irrelevant : forall p u v, nfa_text p u -> nfa_text p v -> parse_nfa u = parse_nfa v.
Proof. intros p u v Hu Hv. apply parse_nfa_iff in Hu. apply parse_nfa_iff in Hv. congruence. Qed.
Print Assumptions C40_nfa_layout_irrelevant.

(** line feeds may be replaced by CRLF throughout *)
Theorem C40_dfa_crlf : forall p u, ~ In 13%N u -> parse_dfa u = Ret (Some p) -> parse_dfa (crlf u) = Ret (Some p).
Proof. intros p u Hn H. apply parse_dfa_iff, dfa_text_crlf; auto. apply parse_dfa_iff. auto. Qed.
Print Assumptions C40_dfa_crlf.

Theorem C40_nfa_crlf : forall p u, ~ In 13%N u -> parse_nfa u = Ret (Some p) -> parse_nfa (crlf u) = Ret (Some p).
Proof. intros p u Hn H. apply parse_nfa_iff, nfa_text_crlf; auto. apply parse_nfa_iff. auto. Qed.
Print Assumptions C40_nfa_crlf.

(** blank and comment lines before and after the table *)
Theorem C40_dfa_lines_around : forall p u j e j' t, junk j -> eol e -> junk j' -> trail t ->
  parse_dfa u = Ret (Some p) -> parse_dfa (j ++ u ++ e ++ j' ++ t) = Ret (Some p).
Proof. intros p u j e j' t Hj He Hj' Ht H. apply parse_dfa_iff, dfa_text_before, dfa_text_after; auto. apply parse_dfa_iff. auto. Qed.
Print Assumptions C40_dfa_lines_around.

Theorem C40_nfa_lines_around : forall p u j e j' t, junk j -> eol e -> junk j' -> trail t ->
  parse_nfa u = Ret (Some p) -> parse_nfa (j ++ u ++ e ++ j' ++ t) = Ret (Some p).
Proof. intros p u j e j' t Hj He Hj' Ht H. apply parse_nfa_iff, nfa_text_before, nfa_text_after; auto. apply parse_nfa_iff. auto. Qed.
Print Assumptions C40_nfa_lines_around.

(** "a b\n-> * x y x # c\n y x y": a layout with a comment, uneven blanks, and no line end at the end *)
Definition ex_layout : str :=
  [97; 32; 98; 10; 45; 62; 32; 42; 32; 32; 120; 32; 121; 9; 120; 32; 35; 32; 99; 10; 32; 121; 32; 120; 32; 121]%N.
Definition ex_parsed : parsed_dfa :=
  {| pd_head := [[97]; [98]]%N;
     pd_states := [ {| pds_name := [120]%N; pds_initial := true; pds_accepting := true; pds_transitions := [[121]; [120]]%N |};
                    {| pds_name := [121]%N; pds_initial := false; pds_accepting := false; pds_transitions := [[120]; [121]]%N |} ] |}.
Example C40_dfa_example : parse_dfa ex_layout = Ret (Some ex_parsed) /\ dfa_text ex_parsed ex_layout /\ ~ In 13%N ex_layout /\
  parse_dfa (crlf ex_layout) = Ret (Some ex_parsed).
Proof.
  assert (E : parse_dfa ex_layout = Ret (Some ex_parsed)) by (vm_compute; reflexivity).
  split; [exact E|]. split; [apply parse_dfa_iff; exact E|].
  assert (H : ~ In 13%N ex_layout) by (simpl; intuition discriminate).
  split; [exact H|]. apply C40_dfa_crlf; [exact H|exact E].
Qed.

(** " eps a\n-> x {} {x  y}\n* y { x } {}" *)
Definition ex_nfa_layout : str :=
  [32; 101; 112; 115; 32; 97; 10; 45; 62; 32; 120; 32; 123; 125; 32; 123; 120; 32; 32; 121; 125; 10;
   42; 32; 121; 32; 123; 32; 120; 32; 125; 32; 123; 125]%N.
Definition ex_nfa_parsed : parsed_nfa :=
  {| pn_head := [Eps; Element [97]]%N;
     pn_states := [ {| pns_name := [120]%N; pns_initial := true; pns_accepting := false; pns_transitions := [[]; [[120]; [121]]]%N |};
                    {| pns_name := [121]%N; pns_initial := false; pns_accepting := true; pns_transitions := [[[120]]; []]%N |} ] |}.
Example C40_nfa_example : parse_nfa ex_nfa_layout = Ret (Some ex_nfa_parsed) /\ nfa_text ex_nfa_parsed ex_nfa_layout /\
  parse_nfa (crlf ex_nfa_layout) = Ret (Some ex_nfa_parsed) /\ parse_dfa ex_nfa_layout = Ret None.
Proof.
  assert (E : parse_nfa ex_nfa_layout = Ret (Some ex_nfa_parsed)) by (vm_compute; reflexivity).
  split; [exact E|]. split; [apply parse_nfa_iff; exact E|].
  split; [apply C40_nfa_crlf; [simpl; intuition discriminate|exact E]|vm_compute; reflexivity].
Qed.

(** The documentation says more than the parser does: "any lines containing only whitespace are ignored" (dandy/src/parser/mod.rs:43)
    fails for whitespace other than space and tab, such as a form feed or an ideographic space, *)
Theorem C40_whitespace_lines_refuted : exists p u l, (forall c, In c l -> whitespace c) /\ ~ In 10%N l /\
  parse_dfa u = Ret (Some p) /\ parse_dfa (l ++ [10%N] ++ u) = Ret None.
Proof.
  exists ex_parsed, ex_layout, [12288%N]. split; [intros c [<- |[]]; unfold whitespace; lia|].
  split; [simpl; intuition discriminate|]. split; vm_compute; reflexivity.
Qed.
Print Assumptions C40_whitespace_lines_refuted.

(** and "that character and all subsequent characters on that line will be ignored" (dandy/src/parser/mod.rs:43-44) fails for a
    comment that contains a carriage return. *)
Theorem C40_comment_cr_refuted : exists p u l, ~ In 10%N l /\
  parse_dfa u = Ret (Some p) /\ parse_dfa ([35%N] ++ l ++ [10%N] ++ u) = Ret None.
Proof.
  exists ex_parsed, ex_layout, [13; 97]%N. split; [simpl; intuition discriminate|]. split; vm_compute; reflexivity.
Qed.
Print Assumptions C40_comment_cr_refuted.
