(** * ConvProofs: conversions between the kinds of automata in the command line tool *)
From Coq Require Import Ascii String List NArith Arith Bool Lia.
From Verif Require Import Base Spec DfaModel NfaModel RegexModel TableModel Messages CliModel CliSpec CliProofs ConvSpec.
From Verif Require Import Prop_Dfa Prop_Nfa Prop_Regex Prop_Stable.
Import ListNotations.
Close Scope string_scope.
Open Scope list_scope.

Lemma into_dfa_conv hs a : sound a -> exists d c, into_dfa hs a = Ret (d, c) /\ dfa_valid d /\ keeps a (ADfa d) /\
  (c = false <-> is_dfa a) /\ (is_dfa a -> a = ADfa d).
Proof.
  intros V. destruct (into_dfa_spec hs a V) as (d & c & E & V' & A & L & C & _). exists d, c. split; [exact E|]. split; [exact V'|].
  split; [split; auto|]. split.
  - split; [intros Hc; exists d; auto|]. intros (d0 & ->). cbn in E. congruence.
  - intros (d0 & ->). cbn in E. congruence.
Qed.
Lemma into_nfa_conv hs a : sound a -> exists n c, into_nfa hs a = (n, c) /\ nfa_valid n /\ keeps a (ANfa n) /\
  (c = false <-> is_nfa a) /\ (is_nfa a -> a = ANfa n).
Proof.
  intros V. destruct (into_nfa_spec hs a V) as (n & c & E & V' & A & L). exists n, c. split; [exact E|]. split; [exact V'|].
  split; [split; auto|]. destruct a as [d0|n0|t0]; cbn in E; injection E as <- <-.
  - split; [split; [discriminate|intros (? & ?); discriminate]|intros (? & ?); discriminate].
  - split; [split; [intros _; exists n0; reflexivity|reflexivity]|reflexivity].
  - split; [split; [discriminate|intros (? & ?); discriminate]|intros (? & ?); discriminate].
Qed.
Lemma keeps_same_meaning a b : keeps a b -> same_meaning a b.
Proof. intros [A L]. apply same_meaning_sym, same_meaning_eq; auto. Qed.
Lemma into_minimized_conv env hs a : sound a -> exists d c, into_minimized_dfa env hs a = Ret (d, c) /\ dfa_valid d /\ keeps a (ADfa d) /\ minimal d /\
  (c = false <-> exists d0, a = ADfa d0 /\ minimal d0) /\ (c = false -> a = ADfa d).
Proof.
  intros V. unfold into_minimized_dfa. destruct (into_dfa_conv (fork hs 0) a V) as (d & c & E & V' & [A L] & C1 & C2). rewrite E. cbn [bind].
  destruct (minimize_spec (hs [1]) (ce_dbg env) d V') as (d' & E' & Vd' & A' & L' & M & _). rewrite E'. cbn [bind].
  assert (MI : minimal d <-> length (dfa_states d') = length (dfa_states d)).
  { split.
    - intros Md. assert (Ed : dfa_minimize (hs [1]) (ce_dbg env) d = Ret d) by (apply C65_minimize; [auto|exact Md]). congruence.
    - intros El d2 V2 S2 L2. rewrite <- El. apply M; [auto| |].
      + rewrite A'. exact S2.
      + intros w. rewrite L'. apply L2. }
  exists d', (c || negb (length (dfa_states d') =? length (dfa_states d))). split; [reflexivity|]. split; [exact Vd'|].
  split; [split; [cbn in *; congruence|intros w; cbn in *; rewrite L'; apply L]|]. split; [exact M|].
  assert (X : c || negb (length (dfa_states d') =? length (dfa_states d)) = false -> is_dfa a /\ minimal d).
  { intros H. apply orb_false_iff in H. destruct H as [-> H]. apply negb_false_iff, Nat.eqb_eq in H. split; [apply C1; reflexivity|apply MI; exact H]. }
  split.
  - split.
    + intros H. destruct (X H) as [H1 H2]. exists d. split; [apply C2; exact H1|exact H2].
    + intros (d0 & -> & H). assert (Ed : ADfa d0 = ADfa d) by (apply C2; exists d0; reflexivity). injection Ed as ->.
      rewrite (proj2 C1) by (exists d; reflexivity). apply MI in H. rewrite H, Nat.eqb_refl. reflexivity.
  - intros H. destruct (X H) as [H1 H2]. rewrite (C2 H1). f_equal.
    assert (Ed : dfa_minimize (hs [1]) (ce_dbg env) d = Ret d) by (apply C65_minimize; [auto|exact H2]). congruence.
Qed.
Lemma if_not_dfa_conv env hs a : sound a -> exists d c, into_minimized_dfa_if_not_dfa env hs a = Ret (d, c) /\ dfa_valid d /\ keeps a (ADfa d) /\
  (c = false <-> is_dfa a) /\ (is_dfa a -> a = ADfa d) /\ (~ is_dfa a -> minimal d).
Proof.
  intros V. unfold into_minimized_dfa_if_not_dfa. destruct (into_dfa_conv (fork hs 0) a V) as (d & c & E & V' & [A L] & C1 & C2). rewrite E. cbn [bind].
  destruct c; cbn [negb].
  - destruct (minimize_spec (hs [1]) (ce_dbg env) d V') as (d' & E' & Vd' & A' & L' & M & _). rewrite E'. cbn [bind]. exists d', true.
    split; [reflexivity|]. split; [exact Vd'|]. split; [split; [cbn in *; congruence|intros w; cbn in *; rewrite L'; apply L]|].
    split; [exact C1|]. split; [|auto]. intros H. apply C1 in H. discriminate.
  - exists d, false. split; [reflexivity|]. split; [exact V'|]. split; [split; auto|]. split; [exact C1|]. split; [exact C2|].
    intros H. exfalso. apply H. apply C1. reflexivity.
Qed.

Lemma not_regex_dfa d : ~ is_regex (ADfa d). Proof. intros (t & H). discriminate. Qed.
Lemma not_regex_nfa n : ~ is_regex (ANfa n). Proof. intros (t & H). discriminate. Qed.
Lemma dfa_compare a b d1 d2 : keeps a (ADfa d1) -> keeps b (ADfa d2) -> dfa_valid d1 -> dfa_valid d2 ->
  exists r, dfa_equivalent_to d1 d2 = Ret r /\ (r = true <-> same_meaning a b).
Proof.
  intros K1 K2 V1 V2. destruct (C12_dfa_equivalent_to d1 d2 V1 V2) as (r & E & H). exists r. split; [exact E|].
  apply keeps_same_meaning in K1, K2. change (r = true <-> same_meaning (ADfa d1) (ADfa d2)) in H. rewrite H. split; intros S.
  - apply (same_meaning_trans _ _ _ K1). apply (same_meaning_trans _ _ _ S). apply same_meaning_sym. exact K2.
  - apply (same_meaning_trans _ _ _ (same_meaning_sym _ _ K1)). apply (same_meaning_trans _ _ _ S). exact K2.
Qed.
Lemma nfa_compare n b n2 : keeps b (ANfa n2) -> nfa_valid n -> nfa_valid n2 ->
  exists r, nfa_equivalent_to n n2 = Ret r /\ (r = true <-> same_meaning (ANfa n) b).
Proof.
  intros K2 V1 V2. destruct (C13_nfa_equivalent_to n n2 V1 V2) as (r & E & H). exists r. split; [exact E|].
  apply keeps_same_meaning in K2. change (r = true <-> same_meaning (ANfa n) (ANfa n2)) in H. rewrite H. split; intros S.
  - apply (same_meaning_trans _ _ _ S). apply same_meaning_sym. exact K2.
  - apply (same_meaning_trans _ _ _ S). exact K2.
Qed.
Lemma keeps_refl a : keeps a a. Proof. split; [reflexivity|intros; reflexivity]. Qed.
Lemma answer a b m (r : bool) : (r = true <-> same_meaning a b) ->
  (m = true -> forall d1 d2, a = ADfa d1 -> b = ADfa d2 -> False) -> comparison_answers a b m (if r then Equivalent else NotEquivalent).
Proof.
  intros H N. destruct r.
  - apply answers_same; [apply H; reflexivity|]. intros Hm d1 d2 -> ->. destruct (N Hm d1 d2 eq_refl eq_refl).
  - apply answers_different. intros S. apply H in S. discriminate.
Qed.
Theorem compare_correct hs a b m : sound a -> sound b ->
  exists says r, test_equivalence hs a b m = Ret (map Warn says, r) /\ comparison_says a b m says /\ comparison_answers a b m r.
Proof.
  intros Va Vb. destruct a as [d1|n1|t1].
  - assert (ND : forall b', ~ is_dfa b' -> sound b' -> exists says r, ('(dfa2, _) <- into_dfa (fork hs 0) b' ;; x <- dfa_equivalent_to d1 dfa2 ;;
        Ret (warn_minimized m, if x then Equivalent else NotEquivalent)) = Ret (map Warn says, r) /\
        comparison_says (ADfa d1) b' m says /\ comparison_answers (ADfa d1) b' m r).
    { intros b' N V. destruct (into_dfa_conv (fork hs 0) b' V) as (d2 & c & -> & V2 & K & _). cbn [bind].
      destruct (dfa_compare (ADfa d1) b' d1 d2 (keeps_refl _) K Va V2) as (x & -> & H). cbn [bind].
      exists (if m then [of_string "Can only check minimization if the tested type is a DFA"] else []). eexists. split; [destruct m; reflexivity|]. split.
      - destruct m; [apply says_tested; [apply not_regex_dfa|exact N]|apply says_nothing; apply not_regex_dfa].
      - apply answer; [exact H|]. intros _ ? d2' _ ->. apply N. exists d2'. reflexivity. }
    destruct b as [d2|n2|t2].
    + unfold test_equivalence. cbn [get_type borrow_dfa unwrap bind].
      destruct (dfa_compare (ADfa d1) (ADfa d2) d1 d2 (keeps_refl _) (keeps_refl _) Va Vb) as (x & -> & H). cbn [bind].
      exists []. eexists. split; [reflexivity|]. split; [apply says_dfas|]. destruct x.
      * destruct m; cbn [andb].
        -- destruct (Nat.eqb_spec (length (dfa_states d1)) (length (dfa_states d2))) as [El|El]; cbn [negb].
           ++ apply answers_same; [apply H; reflexivity|]. intros _ e1 e2 E1 E2. congruence.
           ++ apply answers_large; [apply H; reflexivity|exact El].
        -- apply answers_same; [apply H; reflexivity|discriminate].
      * apply answers_different. intros S. apply H in S. discriminate.
    + apply (ND (ANfa n2)); [intros (? & ?); discriminate|exact Vb].
    + apply (ND (ARegex t2)); [intros (? & ?); discriminate|exact Vb].
  - assert (E : test_equivalence hs (ANfa n1) b m = (let '(nfa2, _) := into_nfa (fork hs 0) b in x <- nfa_equivalent_to n1 nfa2 ;;
        Ret (warn_minimized_check_type m b, if x then Equivalent else NotEquivalent))) by (destruct b; reflexivity).
    rewrite E. clear E. destruct (into_nfa_conv (fork hs 0) b Vb) as (n2 & c & -> & V2 & K & _).
    destruct (nfa_compare n1 b n2 K Va V2) as (x & -> & H). cbn [bind].
    assert (W : exists says, warn_minimized_check_type m b = map Warn says /\ comparison_says (ANfa n1) b m says).
    { destruct m.
      - destruct b as [d2|n2'|t2].
        + eexists. split; [|apply says_base]. reflexivity.
        + eexists. split; [|apply says_tested; [apply not_regex_nfa|intros (? & ?); discriminate]]. reflexivity.
        + eexists. split; [|apply says_tested; [apply not_regex_nfa|intros (? & ?); discriminate]]. reflexivity.
      - exists []. split; [destruct b; reflexivity|apply says_nothing; apply not_regex_nfa]. }
    destruct W as (says & -> & W). exists says. eexists. split; [reflexivity|]. split; [exact W|]. apply answer; [exact H|]. discriminate.
  - assert (E : test_equivalence hs (ARegex t1) b m = ('(dfa1, _) <- into_dfa (fork hs 0) (ARegex t1) ;; '(dfa2, _) <- into_dfa (fork hs 1) b ;;
        x <- dfa_equivalent_to dfa1 dfa2 ;;
        Ret ([Warn (of_string "Testing with Regex as base, this gives poor performance");
              Warn (of_string "This is most likely an internal error; please send a bug report")] ++ warn_minimized m,
             if x then Equivalent else NotEquivalent))) by (destruct b; reflexivity).
    rewrite E. clear E. destruct (into_dfa_conv (fork hs 0) (ARegex t1) I) as (d1 & c1 & -> & V1 & K1 & _). cbn [bind].
    destruct (into_dfa_conv (fork hs 1) b Vb) as (d2 & c & -> & V2 & K & _). cbn [bind].
    destruct (dfa_compare (ARegex t1) b d1 d2 K1 K V1 V2) as (x & -> & H). cbn [bind].
    eexists. eexists. split; [|split; [apply says_regex|apply answer; [exact H|discriminate]]]. destruct m; reflexivity.
Qed.
