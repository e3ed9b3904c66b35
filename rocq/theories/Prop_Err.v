(** * Prop_Err: C71 *)
From Coq Require Import String List NArith Arith Bool Lia.
From Verif Require Import Base Spec TableSpec LayoutSpec RegexSpec ErrSpec ParserModel RegexModel RegexParserModel RegexParserProofs Messages CliModel CliSpec CliProofs
  ErrModel ErrProofs ErrRegexProofs ErrCliModel ErrCliProofs.
Import ListNotations.
Close Scope string_scope.
Open Scope list_scope.

(** ** C71: a text that cannot be read is reported with the place and the kind of its error *)
Theorem C71_dfa_result : forall u,
  (forall p, try_dfa u = Ret (Ok p) <-> dfa_text p u) /\
  (forall k a, try_dfa u = Ret (Err (mk_error k a)) <-> dfa_error u k a) /\
  ((exists p, dfa_text p u) \/ (exists k a, dfa_error u k a)).
Proof.
  intros u. split; [intros p; apply try_dfa_ok|]. split; [intros k a; apply try_dfa_fail|].
  destruct (dfa_one_error u) as [(H & _)|(_ & k & a & H & _)]; eauto.
Qed.
Print Assumptions C71_dfa_result.

Theorem C71_nfa_result : forall u,
  (forall p, try_nfa u = Ret (Ok p) <-> nfa_text p u) /\
  (forall k a, try_nfa u = Ret (Err (mk_error k a)) <-> nfa_error u k a) /\
  ((exists p, nfa_text p u) \/ (exists k a, nfa_error u k a)).
Proof.
  intros u. split; [intros p; apply try_nfa_ok|]. split; [intros k a; apply try_nfa_fail|].
  destruct (nfa_one_error u) as [(H & _)|(_ & k & a & H & _)]; eauto.
Qed.
Print Assumptions C71_nfa_result.

(** the error of an expression is at the end of its longest beginning that is an expression *)
Theorem C71_regex_result : forall seg gs u, divides seg -> tokens seg gs -> trims_to u (concat gs) ->
  (forall t, try_regex seg u = Ret (Ok t) <-> parse_regex seg u = Ret (Some t)) /\
  (forall k a, try_regex seg u = Ret (Err (mk_error k a)) <-> regex_error gs k a) /\
  ((exists t, try_regex seg u = Ret (Ok t)) \/ (exists k a, regex_error gs k a)).
Proof.
  intros seg gs u H1 H2 H3. split; [intros t; apply try_regex_ok|]. split; [intros k a; apply try_regex_fail; auto|].
  destruct (try_regex_total seg u) as ([t|[k a]] & E); [left; eauto|right]. exists k, a. apply (try_regex_fail seg H1 gs u); auto.
Qed.
Print Assumptions C71_regex_result.

(** a text has at most one error, and it is not the text of a table *)
Theorem C71_one_error : forall u,
  (forall k a k' a', dfa_error u k a -> dfa_error u k' a' -> k = k' /\ a = a') /\
  (forall k a p, dfa_error u k a -> ~ dfa_text p u) /\
  (forall k a k' a', nfa_error u k a -> nfa_error u k' a' -> k = k' /\ a = a') /\
  (forall k a p, nfa_error u k a -> ~ nfa_text p u).
Proof.
  intros u. split; [|split; [|split]].
  - intros k a k' a' H H'. apply try_dfa_fail in H. apply try_dfa_fail in H'. rewrite H in H'. injection H' as -> ->. auto.
  - intros k a p H H'. apply try_dfa_fail in H. apply try_dfa_ok in H'. congruence.
  - intros k a k' a' H H'. apply try_nfa_fail in H. apply try_nfa_fail in H'. rewrite H in H'. injection H' as -> ->. auto.
  - intros k a p H H'. apply try_nfa_fail in H. apply try_nfa_ok in H'. congruence.
Qed.
Print Assumptions C71_one_error.

(** the place is a rest of the text *)
Theorem C71_place : forall u k a, dfa_error u k a \/ nfa_error u k a -> exists v, u = v ++ a.
Proof. intros u k a [H|H]; [apply dfa_error_sfx in H|apply nfa_error_sfx in H]; apply H. Qed.
Print Assumptions C71_place.

(** the messages of the command line name the kind and show the rest of the text *)
Theorem C71_messages : forall quote env0 ty u,
  let env := with_nom quote env0 in
  (ty = TRegex -> divides (ce_seg env)) ->
  ~ text_parses (ce_seg env) ty u ->
  exists k a m d, syntax_error (ce_seg env) ty u k a /\ shown_error k a m /\ debug_error k (quote a) d /\
    cli_load env u ty = Ret (Err (of_string (match ty with TRegex => "Error parsing Regex: " | _ => "Error parsing DFA: " end) ++ m)) /\
    forall hs,
      load_test env hs u ty = Ret (Err (FailedToParse m)) /\
      tester_load env hs u ty =
        Ret (Err (of_string match ty with
                            | TDfa => "Error parsing DFA: " | TNfa => "Error parsing NFA: " | TRegex => "Error parsing regular expression: "
                            end ++ d)) /\
      (ty = TRegex -> forall n, enumerate_regex env hs u n = Ret ([], Err m)).
Proof. exact error_messages. Qed.
Print Assumptions C71_messages.

(** ** Examples *)
Definition one_by_one (u : str) : list str := map (fun c => [c]) u.
Definition line (s : string) : str := of_string s ++ [10%N].
(** the name of a state is missing; no blank after a name; nothing after the name; a brace in the middle; an expression in the middle *)
Example C71_dfa_examples :
  try_dfa [] = Ret (Err (mk_error KTakeTill1 [])) /\
  try_dfa (of_string "a b") = Ret (Err (mk_error KCrLf [])) /\
  try_dfa (line "a b") = Ret (Err (mk_error KTakeTill1 [])) /\
  try_dfa (line "a b" ++ line "-> * # x") = Ret (Err (mk_error KTakeTill1 (of_string "# x" ++ [10%N]))) /\
  try_dfa (line "a b" ++ of_string "* ->") = Ret (Err (mk_error KVerify (of_string "->"))) /\
  try_dfa (line "a b" ++ of_string "x{y}") = Ret (Err (mk_error KSpace (of_string "{y}"))) /\
  try_dfa (line "a b" ++ line "-> x x x" ++ of_string "y {") = Ret (Err (mk_error KEof (of_string "y {"))) /\
  try_dfa (line "a b" ++ of_string "-> x x y {") = Ret (Err (mk_error KEof (of_string "{"))).
Proof. vm_compute. repeat split; reflexivity. Qed.
Example C71_nfa_examples :
  try_nfa (of_string "{") = Ret (Err (mk_error KTag (of_string "{"))) /\
  try_nfa (line "a" ++ of_string "x {y -> }") = Ret (Err (mk_error KTag (of_string "-> }"))) /\
  try_nfa (line "a" ++ of_string "x y") = Ret (Err (mk_error KTag (of_string "y"))) /\
  try_nfa (line "a" ++ of_string "x {y} z") = Ret (Err (mk_error KEof (of_string "z"))).
Proof. vm_compute. repeat split; reflexivity. Qed.
Example C71_regex_examples :
  try_regex one_by_one (of_string "  ") = Ret (Err (mk_error KFail [])) /\
  try_regex one_by_one (of_string " (a ") = Ret (Err (mk_error KVerify (of_string "(a"))) /\
  try_regex one_by_one (of_string "a(b") = Ret (Err (mk_error KEof (of_string "(b"))) /\
  try_regex one_by_one (of_string "a|*") = Ret (Err (mk_error KEof (of_string "|*"))) /\
  try_regex one_by_one (of_string "a**b") = Ret (Err (mk_error KEof (of_string "*b"))) /\
  error_display (mk_error KEof (of_string "*b")) = of_string "error Eof at: *b".
Proof. vm_compute. repeat split; reflexivity. Qed.
(** the hypotheses of the theorems are met *)
Example C71_error_example : dfa_error (of_string "a b") KCrLf [] /\ nfa_error (of_string "{") KTag (of_string "{").
Proof. split; [apply (proj1 (proj2 (C71_dfa_result _)))|apply (proj1 (proj2 (C71_nfa_result _)))]; vm_compute; reflexivity. Qed.
Lemma divides_one_by_one : divides one_by_one.
Proof.
  intros u. split; [induction u; simpl; congruence|]. intros H. apply in_map_iff in H as (c & E & _). discriminate.
Qed.
Example C71_regex_example : exists gs u, divides one_by_one /\ tokens one_by_one gs /\ trims_to u (concat gs) /\ regex_error gs KEof (of_string "(b").
Proof.
  destruct (tokens_exist one_by_one divides_one_by_one (of_string "a(b")) as (gs & H2 & E).
  assert (H3 : trims_to (of_string "a(b") (concat gs)) by (apply trim_spec; rewrite E; vm_compute; reflexivity).
  exists gs, (of_string "a(b"). pose proof divides_one_by_one as H1. split; auto. split; auto. split; auto.
  apply (proj1 (proj2 (C71_regex_result one_by_one _ _ H1 H2 H3))). vm_compute. reflexivity.
Qed.
