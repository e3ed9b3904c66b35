(** * The laws of expressions, and expressions for automata: C96, C97 *)
From Coq Require Import List NArith Arith Bool Lia.
From Verif Require Import Base Spec LayoutSpec RegexSpec LawSpec DfaModel NfaModel RegexModel RegexParserModel LawModel.
From Verif Require Import DfaEquiv NfaEquiv NfaToDfa NfaBasics RegexProofs RegexParserProofs KleeneProofs LawApi Examples Prop_Dfa Prop_Nfa Prop_RegexParser.
Import ListNotations.

(** ** C96: two typed expressions are called equivalent exactly when the laws of Salomaa derive their equation (and they have
    the same symbols), by NFAs and by DFAs *)
Theorem C96_laws : forall seg h1 h2 h3 h4 u1 u2 e1 e2, divides seg -> types seg u1 e1 -> types seg u2 e2 ->
  exists b, compare_texts seg h1 h2 u1 u2 = Ret (Some b) /\ compare_texts_as_dfas seg h1 h2 h3 h4 u1 u2 = Ret (Some b) /\
    (b = true <-> law e1 e2 /\ same_set (doc_symbols e1) (doc_symbols e2)).
Proof. intros. apply compare_correct; auto. Qed.
Print Assumptions C96_laws.

(** A text that is no way to type an expression is refused *)
Theorem C96_refused : forall seg h1 h2 h3 h4 u1 u2, divides seg -> (forall e, ~ types seg u1 e) \/ (forall e, ~ types seg u2 e) ->
  compare_texts seg h1 h2 u1 u2 = Ret None /\ compare_texts_as_dfas seg h1 h2 h3 h4 u1 u2 = Ret None.
Proof. intros. apply compare_untyped; auto. Qed.
Print Assumptions C96_refused.

(** What two expressions match decides derivability: the laws are sound and complete *)
Theorem C96_complete : forall e1 e2, law e1 e2 <-> forall w, doc_lang e1 w <-> doc_lang e2 w.
Proof. exact LawProofs.law_exact. Qed.
Print Assumptions C96_complete.

(** A verdict "equivalent" stays when expressions are put for the symbols *)
Theorem C96_put : forall seg h1 h2 h3 h4 u1 u2 v1 v2 e1 e2 f, divides seg -> types seg u1 e1 -> types seg u2 e2 ->
  types seg v1 (put f e1) -> types seg v2 (put f e2) ->
  compare_texts seg h1 h2 u1 u2 = Ret (Some true) -> compare_texts seg h3 h4 v1 v2 = Ret (Some true).
Proof.
  intros seg h1 h2 h3 h4 u1 u2 v1 v2 e1 e2 f Hd T1 T2 T3 T4 E.
  destruct (compare_correct seg h1 h2 h1 h2 u1 u2 e1 e2 Hd T1 T2) as (b & E1 & _ & Hb). rewrite E in E1. injection E1 as <-.
  destruct (compare_correct seg h3 h4 h3 h4 v1 v2 _ _ Hd T3 T4) as (c & E2 & _ & Hc). rewrite E2. do 2 f_equal. apply Hc.
  destruct (proj1 Hb eq_refl) as [L S]. split; [ apply put_law; auto | apply same_put; auto ].
Qed.
Print Assumptions C96_put.

(** Parts may be replaced by parts that are called equivalent *)
Theorem C96_parts : forall seg h1 h2 v1 v2 e f f' (uf uf' : str -> str), divides seg -> types seg v1 (put f e) -> types seg v2 (put f' e) ->
  (forall g, In g (doc_symbols e) -> types seg (uf g) (f g) /\ types seg (uf' g) (f' g) /\ compare_texts seg h1 h2 (uf g) (uf' g) = Ret (Some true)) ->
  compare_texts seg h1 h2 v1 v2 = Ret (Some true).
Proof.
  intros seg h1 h2 v1 v2 e f f' uf uf' Hd T1 T2 H.
  destruct (compare_correct seg h1 h2 h1 h2 v1 v2 _ _ Hd T1 T2) as (c & E2 & _ & Hc). rewrite E2. do 2 f_equal. apply Hc.
  assert (P : forall g, In g (doc_symbols e) -> law (f g) (f' g) /\ same_set (doc_symbols (f g)) (doc_symbols (f' g))).
  { intros g Hg. destruct (H g Hg) as (S1 & S2 & E). destruct (compare_correct seg h1 h2 h1 h2 _ _ _ _ Hd S1 S2) as (b & E1 & _ & Hb).
    rewrite E in E1. injection E1 as <-. apply Hb. auto. }
  split; [ apply put_law_in | apply same_put_in ]; intros g Hg; apply P; auto.
Qed.
Print Assumptions C96_parts.

(** Induction on repetitions: if ax|x and x are called equivalent, then a*x|x and x are too; and on the other side *)
Theorem C96_induction : forall seg h1 h2 u v v' a x, divides seg -> types seg u x ->
  (types seg v (DAlt (DSeq a x) x) -> types seg v' (DAlt (DSeq (DStar a) x) x) ->
   compare_texts seg h1 h2 v u = Ret (Some true) -> compare_texts seg h1 h2 v' u = Ret (Some true)) /\
  (types seg v (DAlt (DSeq x a) x) -> types seg v' (DAlt (DSeq x (DStar a)) x) ->
   compare_texts seg h1 h2 v u = Ret (Some true) -> compare_texts seg h1 h2 v' u = Ret (Some true)).
Proof.
  intros seg h1 h2 u v v' a x Hd T. split; intros T1 T2 E;
    destruct (compare_correct seg h1 h2 h1 h2 _ _ _ _ Hd T1 T) as (b & E1 & _ & Hb); rewrite E in E1; injection E1 as <-;
    destruct (compare_correct seg h1 h2 h1 h2 _ _ _ _ Hd T2 T) as (c & E2 & _ & Hc); rewrite E2; do 2 f_equal; apply Hc;
    (destruct (proj1 Hb eq_refl) as [L S]; split; [| exact S ]).
  - apply induction_left. auto.
  - apply induction_right. auto.
Qed.
Print Assumptions C96_induction.

(** Every expression whose symbols the segmentation keeps apart can be typed *)
Theorem C96_typed : forall seg e, divides seg -> apart seg (doc_symbols e) -> exists u, types seg u e.
Proof. exact typed. Qed.
Print Assumptions C96_typed.

(** The hypotheses are met, with more than one verdict: (ab)*a and a(ba)* are equivalent, (ab)* and a*b* are not, a and a|∅b match
    the same but have other symbols *)
Lemma singles_segmented : forall hs, (forall g, In g hs -> exists c, g = [c]) -> segmented singles hs.
Proof.
  induction hs as [| g hs IH]; intros H; [ constructor; reflexivity |].
  assert (E : forall l, (forall g, In g l -> exists c, g = [c]) -> singles (concat l) = l).
  { induction l as [| x l IHl]; intros Hl; [ reflexivity |]. destruct (Hl x (or_introl eq_refl)) as (c & ->). cbn. f_equal. apply IHl.
    intros y Hy. apply Hl. right. auto. }
  constructor; [ apply E; auto | apply IH; intros y Hy; apply H; right; auto ].
Qed.
Lemma singles_apart al : (forall g, In g al -> exists c, g = [c]) -> apart singles al.
Proof. intros H hs Hh. apply singles_segmented. intros g Hg. destruct (Hh g Hg) as [D | (c & _ & ->)]; eauto. Qed.

Definition sa : doc_regex := DSym [97%N].
Definition sb : doc_regex := DSym [98%N].
Ltac show_sym := apply sh_sym, not_syntax; reflexivity.
Example C96_example : divides singles /\
  types singles [40; 97; 98; 41; 42; 97]%N (DSeq (DStar (DSeq sa sb)) sa) /\
  types singles [97; 40; 98; 97; 41; 42]%N (DSeq sa (DStar (DSeq sb sa))) /\
  types singles [97]%N sa /\ types singles [97; 124; 8709; 98]%N (DAlt sa (DSeq DEmpty sb)) /\
  compare_texts singles id_order id_order [40; 97; 98; 41; 42; 97]%N [97; 40; 98; 97; 41; 42]%N = Ret (Some true) /\
  compare_texts singles id_order id_order [40; 97; 98; 41; 42]%N [97; 42; 98; 42]%N = Ret (Some false) /\
  compare_texts singles id_order id_order [97]%N [97; 124; 8709; 98]%N = Ret (Some false) /\
  compare_texts singles id_order id_order [97]%N [40; 97]%N = Ret None /\
  law (DSeq (DStar (DSeq sa sb)) sa) (DSeq sa (DStar (DSeq sb sa))) /\
  put (fun _ => DStar sb) (DSeq sa sb) = DSeq (DStar sb) (DStar sb) /\
  apart singles [[97%N]; [32%N]; [40%N]].
Proof.
  split; [ apply singles_divides |].
  assert (T1 : types singles [40; 97; 98; 41; 42; 97]%N (DSeq (DStar (DSeq sa sb)) sa)).
  { exists [[40]; [97]; [98]; [41]; [42]; [97]]%N. split; [ repeat tok |]. split; [ apply trim_spec; vm_compute; reflexivity |].
    apply sh_up, (sh_seq _ _ [[40]; [97]; [98]; [41]; [42]]%N [[97]]%N); [| do 2 apply sh_up; show_sym ].
    apply sh_up, (sh_star _ [[40]; [97]; [98]; [41]]%N), (sh_group _ [[97]; [98]]%N), sh_up, (sh_seq _ _ [[97]]%N [[98]]%N); do 2 apply sh_up; show_sym. }
  assert (T2 : types singles [97; 40; 98; 97; 41; 42]%N (DSeq sa (DStar (DSeq sb sa)))).
  { exists [[97]; [40]; [98]; [97]; [41]; [42]]%N. split; [ repeat tok |]. split; [ apply trim_spec; vm_compute; reflexivity |].
    apply sh_up, (sh_seq _ _ [[97]]%N [[40]; [98]; [97]; [41]; [42]]%N); [ do 2 apply sh_up; show_sym |].
    apply sh_up, (sh_star _ [[40]; [98]; [97]; [41]]%N), (sh_group _ [[98]; [97]]%N), sh_up, (sh_seq _ _ [[98]]%N [[97]]%N); do 2 apply sh_up; show_sym. }
  assert (V : compare_texts singles id_order id_order [40; 97; 98; 41; 42; 97]%N [97; 40; 98; 97; 41; 42]%N = Ret (Some true)) by (vm_compute; reflexivity).
  split; [ exact T1 |]. split; [ exact T2 |].
  split. { exists [[97%N]]. split; [ repeat tok |]. split; [ apply trim_spec; vm_compute; reflexivity | do 3 apply sh_up; show_sym ]. }
  split. { exists [[97]; [124]; [8709]; [98]]%N. split; [ repeat tok |]. split; [ apply trim_spec; vm_compute; reflexivity |].
    apply (sh_alt _ _ [[97]]%N [[8709]; [98]]%N); [ do 3 apply sh_up; show_sym |].
    apply sh_up, (sh_seq _ _ [[8709]]%N [[98]]%N); do 2 apply sh_up; [ constructor | show_sym ]. }
  split; [ exact V |]. split; [ vm_compute; reflexivity |]. split; [ vm_compute; reflexivity |]. split; [ vm_compute; reflexivity |].
  split. { destruct (C96_laws singles id_order id_order id_order id_order _ _ _ _ singles_divides T1 T2) as (b & E & _ & H).
    rewrite V in E. injection E as <-. apply H. reflexivity. }
  split; [ reflexivity |]. apply singles_apart. intros g [<- | [<- | [<- | []]]]; eauto.
Qed.

(** ** C97: for every automaton an expression can be typed that parses to an equivalent one, if the segmentation keeps the elements
    of its alphabet apart *)
Theorem C97_dfa : forall seg d, divides seg -> dfa_valid d -> apart seg (dfa_alphabet d) ->
  exists u t, parse_regex seg u = Ret (Some t) /\ (forall w, matches t w <-> dfa_lang d w) /\
    (forall h, nfa_equivalent_to (regex_to_nfa h t) (dfa_to_nfa d) = Ret true) /\
    forall h h', exists d', nfa_to_dfa h' (regex_to_nfa h t) = Ret d' /\ dfa_equivalent_to d' d = Ret true.
Proof.
  intros seg d Hd V A. destruct (expression_of_dfa seg d Hd V A) as (u & t & E & G & L). exists u, t. split; auto. split; auto.
  destruct (C14_dfa_to_nfa d V) as (Vn & _ & An & _ & _ & _ & _ & _ & Ln). split.
  - intros h. destruct (regex_to_nfa_correct h t) as (Vr & _ & Lr). destruct (C13_nfa_equivalent_to _ _ Vr Vn) as (b & -> & Hb).
    f_equal. apply Hb. split; [ intros a; rewrite regex_alphabet, An; apply G | intros w; rewrite Lr, L, Ln; tauto ].
  - intros h h'. destruct (regex_to_nfa_correct h t) as (Vr & _ & Lr).
    destruct (C15_nfa_to_dfa h' _ Vr) as (d' & E' & V' & A' & _ & _ & _ & L'). exists d'. split; auto.
    destruct (C12_dfa_equivalent_to d' d V' V) as (b & -> & Hb). f_equal. apply Hb. rewrite A'.
    split; [ intros a; rewrite regex_alphabet; apply G | intros w; rewrite L', Lr, L; tauto ].
Qed.
Print Assumptions C97_dfa.

Theorem C97_nfa : forall seg n, divides seg -> nfa_valid n -> apart seg (nfa_alphabet n) ->
  exists u t, parse_regex seg u = Ret (Some t) /\ (forall w, matches t w <-> nfa_lang n w) /\
    forall h, nfa_equivalent_to (regex_to_nfa h t) n = Ret true.
Proof.
  intros seg n Hd V A. destruct (C15_nfa_to_dfa id_order n V) as (d & _ & Vd & Ad & _ & _ & _ & Ld). rewrite <- Ad in A.
  destruct (expression_of_dfa seg d Hd Vd A) as (u & t & E & G & L). exists u, t. split; auto. split; [ intros w; rewrite L; auto |].
  intros h. destruct (regex_to_nfa_correct h t) as (Vr & _ & Lr). destruct (C13_nfa_equivalent_to _ _ Vr V) as (b & -> & Hb).
  f_equal. apply Hb. split; [ intros a; rewrite regex_alphabet, <- Ad; apply G | intros w; rewrite Lr, L, Ld; tauto ].
Qed.
Print Assumptions C97_nfa.

(** An automaton with an element that is not a grapheme (whatever follows it) is equivalent to no parsed expression *)
Theorem C97_only_graphemes : forall seg u t, divides seg -> parse_regex seg u = Ret (Some t) ->
  (forall h n, nfa_valid n -> nfa_equivalent_to (regex_to_nfa h t) n = Ret true ->
     forall a, In a (nfa_alphabet n) -> exists v l, seg (a ++ v) = a :: l) /\
  forall h h' d d', dfa_valid d -> nfa_to_dfa h' (regex_to_nfa h t) = Ret d' -> dfa_equivalent_to d' d = Ret true ->
     forall a, In a (dfa_alphabet d) -> exists v l, seg (a ++ v) = a :: l.
Proof.
  intros seg u t Hd E. split.
  - intros h n V Eq a Ha. destruct (regex_to_nfa_correct h t) as (Vr & _ & _). destruct (C13_nfa_equivalent_to _ _ Vr V) as (b & E' & Hb).
    rewrite Eq in E'. injection E' as <-. destruct (proj1 Hb eq_refl) as [S _]. apply (symbols_are_graphemes seg u t); auto.
    apply (regex_alphabet h). apply S. auto.
  - intros h h' d d' V Ed Eq a Ha. destruct (regex_to_nfa_correct h t) as (Vr & _ & _).
    destruct (C15_nfa_to_dfa h' _ Vr) as (d0 & E0 & V0 & A0 & _). rewrite Ed in E0. injection E0 as <-.
    destruct (C12_dfa_equivalent_to d' d V0 V) as (b & E' & Hb). rewrite Eq in E'. injection E' as <-.
    destruct (proj1 Hb eq_refl) as [S _]. apply (symbols_are_graphemes seg u t); auto. apply (regex_alphabet h). rewrite <- A0. apply S. auto.
Qed.
Print Assumptions C97_only_graphemes.

(** When graphemes are single characters: exactly the automata over single characters *)
Theorem C97_single_characters : forall n, nfa_valid n ->
  ((exists u t, parse_regex singles u = Ret (Some t) /\ forall h, nfa_equivalent_to (regex_to_nfa h t) n = Ret true) <->
   forall a, In a (nfa_alphabet n) -> length a = 1).
Proof.
  intros n V. split.
  - intros (u & t & E & H) a Ha. destruct (C97_only_graphemes singles u t singles_divides E) as [G _].
    destruct (G id_order n V (H id_order) a Ha) as (v & l & D). unfold singles in D. destruct a as [| c a]; cbn in D.
    + destruct v; discriminate D.
    + injection D as <- _. reflexivity.
  - intros H. destruct (C97_nfa singles n singles_divides V) as (u & t & E & _ & Eq); [| eauto ].
    apply singles_apart. intros g Hg. specialize (H g Hg). destruct g as [| c [|]]; try discriminate H. eauto.
Qed.
Print Assumptions C97_single_characters.

Example C97_example : divides singles /\ dfa_valid ex_even /\ apart singles (dfa_alphabet ex_even) /\ nfa_valid ex_nfa /\ apart singles (nfa_alphabet ex_nfa).
Proof.
  split; [ apply singles_divides |]. split; [ exact ex_even_valid |].
  split; [ apply singles_apart; cbn; intros g Hg; repeat (destruct Hg as [<- | Hg]; [ eexists; reflexivity |]); contradiction |].
  split; [ exact ex_nfa_valid | apply singles_apart; cbn; intros g Hg; repeat (destruct Hg as [<- | Hg]; [ eexists; reflexivity |]); contradiction ].
Qed.
