(** * Conversions and comparisons of automata of any kind in the command line tool: C79 *)
From Coq Require Import Ascii String List NArith Arith Bool Lia.
From Verif Require Import Base Spec DfaModel NfaModel RegexModel TableModel Messages CliModel CliSpec ConvSpec ConvProofs Examples NfaBasics Prop_Cli.
Import ListNotations.
Close Scope string_scope.
Open Scope list_scope.

(** ** C79: conversions keep the alphabet and the language, and tell whether they changed anything *)
Theorem C79_into_dfa : forall hs a, sound a -> exists d converted, into_dfa hs a = Ret (d, converted) /\
  into_dfa_automata hs a = Ret (ADfa d, converted) /\ dfa_valid d /\ keeps a (ADfa d) /\
  (converted = false <-> is_dfa a) /\ (is_dfa a -> a = ADfa d).
Proof.
  intros hs a V. destruct (into_dfa_conv hs a V) as (d & c & E & H). exists d, c. split; [exact E|]. unfold into_dfa_automata. rewrite E.
  split; [reflexivity|exact H].
Qed.
Print Assumptions C79_into_dfa.
Theorem C79_into_nfa : forall hs a, sound a -> exists n converted, into_nfa hs a = (n, converted) /\
  into_to_nfa_automata hs a = (ANfa n, converted) /\ nfa_valid n /\ keeps a (ANfa n) /\
  (converted = false <-> is_nfa a) /\ (is_nfa a -> a = ANfa n).
Proof.
  intros hs a V. destruct (into_nfa_conv hs a V) as (n & c & E & H). exists n, c. split; [exact E|]. unfold into_to_nfa_automata. rewrite E.
  split; [reflexivity|exact H].
Qed.
Print Assumptions C79_into_nfa.
(** the flag of the minimizing conversion is false exactly for DFAs that are minimal already, which stay as they are *)
Theorem C79_into_minimized_dfa : forall env hs a, sound a -> exists d converted, into_minimized_dfa env hs a = Ret (d, converted) /\
  into_minimized_dfa_automata env hs a = Ret (ADfa d, converted) /\ dfa_valid d /\ keeps a (ADfa d) /\ minimal d /\
  (converted = false <-> exists d0, a = ADfa d0 /\ minimal d0) /\ (converted = false -> a = ADfa d).
Proof.
  intros env hs a V. destruct (into_minimized_conv env hs a V) as (d & c & E & H). exists d, c. split; [exact E|].
  unfold into_minimized_dfa_automata. rewrite E. split; [reflexivity|exact H].
Qed.
Print Assumptions C79_into_minimized_dfa.
Theorem C79_into_minimized_dfa_if_not_dfa : forall env hs a, sound a -> exists d converted,
  into_minimized_dfa_if_not_dfa env hs a = Ret (d, converted) /\ dfa_valid d /\ keeps a (ADfa d) /\
  (converted = false <-> is_dfa a) /\ (is_dfa a -> a = ADfa d) /\ (~ is_dfa a -> minimal d).
Proof. intros env hs a. apply if_not_dfa_conv. Qed.
Print Assumptions C79_into_minimized_dfa_if_not_dfa.
(** conversion to a given kind: there is none from automata to expressions *)
Theorem C79_convert_to : forall hs a ty, sound a -> exists says r, convert_to hs a ty = Ret (map Warn says, r) /\
  match ty with
  | TDfa => says = [] /\ exists b c, r = Some (b, c) /\ is_dfa b /\ sound b /\ keeps a b /\ (c = false <-> is_dfa a) /\ (c = false -> b = a)
  | TNfa => says = [] /\ exists b c, r = Some (b, c) /\ is_nfa b /\ sound b /\ keeps a b /\ (c = false <-> is_nfa a) /\ (c = false -> b = a)
  | TRegex => (is_regex a /\ says = [] /\ r = Some (a, false)) \/
              (~ is_regex a /\ says = [of_string "Cannot convert DFA/NFA to Regex"] /\ r = None)
  end.
Proof.
  intros hs a [| |] V; cbn [convert_to].
  - destruct (C79_into_dfa hs a V) as (d & c & _ & E & V' & K & C1 & C2). rewrite E. exists [], (Some (ADfa d, c)). split; [reflexivity|]. split; [reflexivity|].
    exists (ADfa d), c. split; [reflexivity|]. split; [exists d; reflexivity|]. split; [exact V'|]. split; [exact K|]. split; [exact C1|].
    intros H. symmetry. apply C2, C1, H.
  - destruct (C79_into_nfa hs a V) as (n & c & _ & E & V' & K & C1 & C2). rewrite E. exists [], (Some (ANfa n, c)). split; [reflexivity|]. split; [reflexivity|].
    exists (ANfa n), c. split; [reflexivity|]. split; [exists n; reflexivity|]. split; [exact V'|]. split; [exact K|]. split; [exact C1|].
    intros H. symmetry. apply C2, C1, H.
  - destruct a as [d|n|t].
    + exists [of_string "Cannot convert DFA/NFA to Regex"], None. split; [reflexivity|]. right. split; [intros (? & ?); discriminate|auto].
    + exists [of_string "Cannot convert DFA/NFA to Regex"], None. split; [reflexivity|]. right. split; [intros (? & ?); discriminate|auto].
    + exists [], (Some (ARegex t, false)). split; [reflexivity|]. left. split; [exists t; reflexivity|auto].
Qed.
Print Assumptions C79_convert_to.
(** what is compared with DFAs becomes a DFA, what is compared with NFAs or expressions an NFA *)
Theorem C79_prepare_to_compare_with : forall hs a ty, sound a -> exists b c, prepare_to_compare_with hs a ty = Ret (b, c) /\ sound b /\ keeps a b /\
  match ty with TDfa => is_dfa b /\ (c = false <-> is_dfa a) | TNfa | TRegex => is_nfa b /\ (c = false <-> is_nfa a) end /\ (c = false -> b = a).
Proof.
  intros hs a ty V. destruct (C79_into_nfa hs a V) as (n & c & _ & E & V' & K & C1 & C2).
  assert (N : exists b c0, Ret (into_to_nfa_automata hs a) = Ret (b, c0) /\ sound b /\ keeps a b /\ (is_nfa b /\ (c0 = false <-> is_nfa a)) /\ (c0 = false -> b = a)).
  { rewrite E. exists (ANfa n), c. split; [reflexivity|]. split; [exact V'|]. split; [exact K|]. split; [split; [exists n; reflexivity|exact C1]|].
    intros H. symmetry. apply C2, C1, H. }
  destruct ty; [clear N E V' K C1 C2|exact N|exact N]. cbn [prepare_to_compare_with].
  destruct (C79_into_dfa hs a V) as (d & c' & _ & E & V' & K & C1 & C2). rewrite E. exists (ADfa d), c'. split; [reflexivity|]. split; [exact V'|]. split; [exact K|].
  split; [split; [exists d; reflexivity|exact C1]|]. intros H. symmetry. apply C2, C1, H.
Qed.
Print Assumptions C79_prepare_to_compare_with.
(** comparing: the answer and the warnings, for all combinations of kinds *)
Theorem C79_test_equivalence : forall hs a b minimized, sound a -> sound b ->
  exists says r, test_equivalence hs a b minimized = Ret (map Warn says, r) /\
    comparison_says a b minimized says /\ comparison_answers a b minimized r.
Proof. exact compare_correct. Qed.
Print Assumptions C79_test_equivalence.
(** the warnings and the answer are determined *)
Theorem C79_determined : forall a b m,
  (forall s s', comparison_says a b m s -> comparison_says a b m s' -> s = s') /\
  (forall r r', comparison_answers a b m r -> comparison_answers a b m r' -> r = r').
Proof.
  intros a b m. split.
  - intros s s' H H'. destruct H; inversion H'; subst; auto; exfalso;
      match goal with
      | N : ~ is_regex (ARegex ?t) |- _ => apply N; exists t; reflexivity
      | N : ~ is_dfa (ADfa ?d) |- _ => apply N; exists d; reflexivity
      end.
  - intros r r' H H'. destruct H; inversion H'; subst; auto; exfalso; auto;
      match goal with H1 : true = true -> _, H2 : length _ <> length _ |- _ => apply H2; eapply H1; reflexivity end.
Qed.
Print Assumptions C79_determined.
(** names of kinds and operations in messages *)
Theorem C79_names :
  type_text TDfa true = of_string "DFAs" /\ type_text TDfa false = of_string "DFA" /\
  type_text TNfa true = of_string "NFAs" /\ type_text TNfa false = of_string "NFA" /\
  type_text TRegex true = of_string "Regexes" /\ type_text TRegex false = of_string "Regex" /\
  (forall d, get_type (ADfa d) = TDfa) /\ (forall n, get_type (ANfa n) = TNfa) /\ (forall t, get_type (ARegex t) = TRegex).
Proof. repeat split. Qed.
Print Assumptions C79_names.

(** ** Examples *)
Definition ex_orders : orders := fun _ => id_order.
Example C79_example : sound (ADfa ex_even) /\ sound (ARegex (RRepeat (RChar (RGrapheme el_a)))) /\
  (exists d, into_minimized_dfa (ex_env [] false) ex_orders (ADfa ex_even) = Ret (d, true)) /\
  test_equivalence ex_orders (ARegex (RRepeat (RChar (RGrapheme el_a)))) (ARegex (RRepeat (RChar (RGrapheme el_a)))) true =
    Ret (map Warn [of_string "Testing with Regex as base, this gives poor performance"; of_string "This is most likely an internal error; please send a bug report";
      of_string "Can only check minimization if the tested type is a DFA"], Equivalent).
Proof.
  split; [apply dfa_validb_valid; vm_compute; reflexivity|]. split; [exact I|]. split; [eexists; vm_compute; reflexivity|vm_compute; reflexivity].
Qed.
