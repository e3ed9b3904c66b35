(** * LawApi: the laws of expressions and the verdicts of comparisons *)
From Coq Require Import List NArith Arith Bool Lia.
From Verif Require Import Base BaseLemmas Spec LayoutSpec RegexSpec LawSpec DfaModel NfaModel RegexModel RegexParserModel LawModel.
From Verif Require ApiProofs.
From Verif Require Import DfaEquiv NfaEquiv NfaToDfa DfaBasics NfaBasics RegexProofs RegexParserProofs RegexSymbols LawProofs KleeneProofs.
Import ListNotations.

Lemma typed_parses seg u e : divides seg -> types seg u e ->
  exists t, parse_regex seg u = Ret (Some t) /\ (forall w, matches t w <-> doc_lang e w) /\ forall g, In g (regex_graphemes t) <-> In g (doc_symbols e).
Proof. intros Hd (gs & T & Ht & S). exact (complete_symbols seg e gs u S Hd T Ht). Qed.

Lemma parsed_typed seg u t : divides seg -> parse_regex seg u = Ret (Some t) ->
  exists e, types seg u e /\ (forall w, matches t w <-> doc_lang e w) /\ forall g, In g (regex_graphemes t) <-> In g (doc_symbols e).
Proof.
  intros Hd E. destruct (tokens_exist seg Hd (trim u)) as (gs & T & Et). symmetry in Et. apply trim_spec in Et.
  destruct (sound_symbols seg t gs u Hd T Et E) as (e & S & H). exists e. split; auto. exists gs. auto.
Qed.

Lemma regex_alphabet h t g : In g (nfa_alphabet (regex_to_nfa h t)) <-> In g (regex_graphemes t).
Proof. destruct (regex_to_nfa_correct h t) as (_ & -> & _). apply ApiProofs.first_occurrences_In. Qed.

Lemma verdict h1 h2 t1 t2 e1 e2 :
  (forall w, matches t1 w <-> doc_lang e1 w) -> (forall g, In g (regex_graphemes t1) <-> In g (doc_symbols e1)) ->
  (forall w, matches t2 w <-> doc_lang e2 w) -> (forall g, In g (regex_graphemes t2) <-> In g (doc_symbols e2)) ->
  exists b, nfa_equivalent_to (regex_to_nfa h1 t1) (regex_to_nfa h2 t2) = Ret b /\
    (b = true <-> law e1 e2 /\ same_set (doc_symbols e1) (doc_symbols e2)).
Proof.
  intros L1 G1 L2 G2. destruct (regex_to_nfa_correct h1 t1) as (V1 & _ & M1), (regex_to_nfa_correct h2 t2) as (V2 & _ & M2).
  destruct (nfa_equivalent_to_correct _ _ V1 V2) as (b & E & Hb). exists b. split; auto. rewrite Hb. split.
  - intros [A L]. split.
    + apply law_complete. intros w. rewrite <- L1, <- L2, <- M1, <- M2. auto.
    + intros g. rewrite <- G1, <- G2, <- (regex_alphabet h1), <- (regex_alphabet h2). apply A.
  - intros [L A]. split.
    + intros g. rewrite !regex_alphabet, G1, G2. apply A.
    + intros w. rewrite M1, M2, L1, L2. apply law_sound. auto.
Qed.

Lemma as_dfas h3 h4 n1 n2 : nfa_valid n1 -> nfa_valid n2 ->
  exists d1 d2, nfa_to_dfa h3 n1 = Ret d1 /\ nfa_to_dfa h4 n2 = Ret d2 /\ dfa_equivalent_to d1 d2 = nfa_equivalent_to n1 n2.
Proof.
  intros V1 V2. destruct (nfa_to_dfa_correct h3 n1 V1) as (d1 & E1 & W1 & A1 & _ & _ & H1), (nfa_to_dfa_correct h4 n2 V2) as (d2 & E2 & W2 & A2 & _ & _ & H2).
  exists d1, d2. split; auto. split; auto. destruct (dfa_equivalent_to_correct d1 d2 W1 W2) as (b & -> & Hb).
  destruct (nfa_equivalent_to_correct n1 n2 V1 V2) as (c & -> & Hc). f_equal. apply eq_true_iff_eq. rewrite Hb, Hc, A1, A2.
  assert (L1 : forall w, dfa_lang d1 w <-> nfa_lang n1 w) by apply H1. assert (L2 : forall w, dfa_lang d2 w <-> nfa_lang n2 w) by apply H2.
  split; intros [A L]; (split; [ exact A |]); intros w; specialize (L w); rewrite (L1 w), (L2 w) in *; auto.
Qed.

Lemma compare_correct seg h1 h2 h3 h4 u1 u2 e1 e2 : divides seg -> types seg u1 e1 -> types seg u2 e2 ->
  exists b, compare_texts seg h1 h2 u1 u2 = Ret (Some b) /\ compare_texts_as_dfas seg h1 h2 h3 h4 u1 u2 = Ret (Some b) /\
    (b = true <-> law e1 e2 /\ same_set (doc_symbols e1) (doc_symbols e2)).
Proof.
  intros Hd T1 T2. destruct (typed_parses seg u1 e1 Hd T1) as (t1 & E1 & L1 & G1), (typed_parses seg u2 e2 Hd T2) as (t2 & E2 & L2 & G2).
  destruct (verdict h1 h2 t1 t2 e1 e2 L1 G1 L2 G2) as (b & E & Hb).
  destruct (as_dfas h3 h4 (regex_to_nfa h1 t1) (regex_to_nfa h2 t2)) as (d1 & d2 & F1 & F2 & F); try apply regex_to_nfa_correct.
  exists b. unfold compare_texts, compare_texts_as_dfas. rewrite E1, E2. cbn [bind]. rewrite F1. cbn [bind]. rewrite F2. cbn [bind]. rewrite F, E. auto.
Qed.

Lemma compare_untyped seg h1 h2 h3 h4 u1 u2 : divides seg -> (forall e, ~ types seg u1 e) \/ (forall e, ~ types seg u2 e) ->
  compare_texts seg h1 h2 u1 u2 = Ret None /\ compare_texts_as_dfas seg h1 h2 h3 h4 u1 u2 = Ret None.
Proof.
  intros Hd N. unfold compare_texts, compare_texts_as_dfas.
  destruct (parse_regex_total seg u1) as (o1 & E1), (parse_regex_total seg u2) as (o2 & E2). rewrite E1, E2. cbn [bind].
  destruct o1 as [t1 |], o2 as [t2 |]; auto. exfalso. destruct N as [N | N].
  - destruct (parsed_typed seg u1 t1 Hd E1) as (e & T & _). apply (N e T).
  - destruct (parsed_typed seg u2 t2 Hd E2) as (e & T & _). apply (N e T).
Qed.

Lemma same_put f e1 e2 : same_set (doc_symbols e1) (doc_symbols e2) -> same_set (doc_symbols (put f e1)) (doc_symbols (put f e2)).
Proof. intros H g. rewrite !put_symbols. split; intros (g' & D & S); exists g'; split; auto; apply H; auto. Qed.

Lemma same_put_in f f' e : (forall g, In g (doc_symbols e) -> same_set (doc_symbols (f g)) (doc_symbols (f' g))) ->
  same_set (doc_symbols (put f e)) (doc_symbols (put f' e)).
Proof. intros H g. rewrite !put_symbols. split; intros (g' & D & S); exists g'; split; auto; apply (H g' D); auto. Qed.

(** induction: if [a x] adds nothing to [x], neither does [a* x] *)
Lemma induction_left a x : law (DAlt (DSeq a x) x) x -> law (DAlt (DSeq (DStar a) x) x) x.
Proof.
  intros H. pose proof (law_sound _ _ H) as G. apply law_complete. intros w. rewrite lang_alt, lang_seq. split; [| auto ].
  intros [(w1 & w2 & -> & H1 & H2) | D]; auto. revert w1 H1.
  apply (star_ind a (fun w1 => doc_lang x (w1 ++ w2))); auto.
  intros v1 v2 D1 D2 IH. apply G, lang_alt. left. apply lang_seq. exists v1, (v2 ++ w2). rewrite app_assoc. auto.
Qed.

Lemma induction_right a x : law (DAlt (DSeq x a) x) x -> law (DAlt (DSeq x (DStar a)) x) x.
Proof.
  intros H. pose proof (law_sound _ _ H) as G. apply law_complete. intros w. rewrite lang_alt, lang_seq. split; [| auto ].
  intros [(w1 & w2 & -> & H1 & H2) | D]; auto. revert w2 H2 w1 H1.
  apply (star_ind a (fun w2 => forall w1, doc_lang x w1 -> doc_lang x (w1 ++ w2))); [ intros w1; rewrite app_nil_r; auto |].
  intros v1 v2 D1 D2 IH w1 H1. rewrite app_assoc. apply IH. apply G, lang_alt. left. apply lang_seq. eauto.
Qed.

(** ** Kleene's theorem *)

Lemma expression_of_dfa seg d : divides seg -> dfa_valid d -> apart seg (dfa_alphabet d) ->
  exists u t, parse_regex seg u = Ret (Some t) /\ same_set (regex_graphemes t) (dfa_alphabet d) /\ forall w, matches t w <-> dfa_lang d w.
Proof.
  intros Hd V A. destruct (kleene d V) as (e & L & S). destruct (typed seg e Hd) as (u & T).
  { intros hs H. apply A. intros g Hg. destruct (H g Hg) as [D | D]; auto. left. apply S. auto. }
  destruct (typed_parses seg u e Hd T) as (t & E & Lt & Gt). exists u, t. split; auto. split.
  - intros g. rewrite Gt. apply S.
  - intros w. rewrite Lt. auto.
Qed.

Lemma symbols_are_graphemes seg u t g : divides seg -> parse_regex seg u = Ret (Some t) -> In g (regex_graphemes t) -> exists v l, seg (g ++ v) = g :: l.
Proof.
  intros Hd E Hg. destruct (parsed_typed seg u t Hd E) as (e & T & _ & G). apply (typed_graphemes seg u e Hd T). apply G. auto.
Qed.
