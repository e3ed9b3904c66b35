(** * ErrBasics: the parsers with errors do what the parsers without do, and where their combinators fail *)
From Coq Require Import List NArith Arith Bool Lia.
From Verif Require Import Base BaseLemmas Spec TableSpec LayoutSpec ErrSpec ParserModel ParserBasics RegexModel RegexParserModel ErrModel.
Import ListNotations.

(** ** Forgetting the error *)
Definition erase {A} (r : R (result A nom_error)) : R (option A) :=
  x <- r ;; Ret (match x with Ok a => Some a | Err _ => None end).
Definition erases {A} (e : E A) (p : P A) : Prop := forall i, p i = erase (e i).

Definition eok {A} (e : E A) (i i' : str) (a : A) : Prop := e i = Ret (Ok (i', a)).
Definition efail {A} (e : E A) (i : str) (k : kind) (at_ : str) : Prop := e i = Ret (Err (mk_error k at_)).

Lemma erases_ok {A} (e : E A) p i i' a : erases e p -> (eok e i i' a <-> ok p i i' a).
Proof.
  intros H. unfold eok, ok. rewrite (H i). unfold erase. destruct (e i) as [[x|x]| |]; cbn [bind]; split; congruence.
Qed.
Lemma erases_bad {A} (e : E A) p i : erases e p -> (bad p i <-> exists k a, efail e i k a).
Proof.
  intros H. unfold efail, bad. rewrite (H i). unfold erase. destruct (e i) as [[x|[k a]]| |]; cbn [bind]; split; try discriminate.
  - intros (k & a & ?). discriminate.
  - eauto.
  - auto.
  - intros (k & a & ?). discriminate.
  - intros (k & a & ?). discriminate.
Qed.
Lemma efail_bad {A} (e : E A) p i k a : erases e p -> efail e i k a -> bad p i.
Proof. intros H H1. apply (erases_bad e p i H). eauto. Qed.

Lemma er_basic {A} k (p : P A) : erases (e_basic k p) p.
Proof. intros i. unfold e_basic, erase. destruct (p i) as [[x|]| |]; reflexivity. Qed.
Lemma er_ret {A} (a : A) : erases (e_ret a) (pret a).
Proof. intros i. reflexivity. Qed.
Lemma er_bind {A B} (e : E A) p (f : A -> E B) g : erases e p -> (forall a, erases (f a) (g a)) -> erases (e_bind e f) (pbind p g).
Proof.
  intros H1 H2 i. unfold pbind, e_bind. rewrite (H1 i). unfold erase. destruct (e i) as [[[i' a]|x]| |]; cbn [bind]; auto.
  apply H2.
Qed.
Lemma er_map {A B} (f : A -> B) e p : erases e p -> erases (e_map f e) (pmap f p).
Proof. intros H. apply er_bind; auto. intros a. apply er_ret. Qed.
Lemma er_mapR {A B} (f : A -> R B) e p : erases e p -> erases (e_mapR f e) (pmapR f p).
Proof. intros H. apply er_bind; auto. intros a i. unfold erase. destruct (f a); reflexivity. Qed.
Lemma er_value {A B} (b : B) (e : E A) p : erases e p -> erases (e_value b e) (pvalue b p).
Proof. apply er_map. Qed.
Lemma er_pair {A B} (e : E A) p (f : E B) q : erases e p -> erases f q -> erases (e_pair e f) (ppair p q).
Proof. intros H1 H2. apply er_bind; auto. intros a. apply er_map. auto. Qed.
Lemma er_preceded {A B} (e : E A) p (f : E B) q : erases e p -> erases f q -> erases (e_preceded e f) (preceded p q).
Proof. intros H1 H2. apply er_map, er_pair; auto. Qed.
Lemma er_terminated {A B} (e : E A) p (f : E B) q : erases e p -> erases f q -> erases (e_terminated e f) (terminated p q).
Proof. intros H1 H2. apply er_map, er_pair; auto. Qed.
Lemma er_delimited {A B C} (e : E A) p (f : E B) q (g : E C) r : erases e p -> erases f q -> erases g r ->
  erases (e_delimited e f g) (delimited p q r).
Proof. intros H1 H2 H3. apply er_preceded; auto. apply er_terminated; auto. Qed.
Lemma er_alt {A} (e : E A) p f q : erases e p -> erases f q -> erases (e_alt e f) (palt p q).
Proof.
  intros H1 H2 i. unfold palt, e_alt. rewrite (H1 i). unfold erase at 1. destruct (e i) as [[x|x]| |]; cbn [bind]; auto.
Qed.
Lemma er_opt {A} (e : E A) p : erases e p -> erases (e_opt e) (popt p).
Proof. intros H1 i. unfold popt, e_opt. rewrite (H1 i). unfold erase. destruct (e i) as [[[i' a]|x]| |]; cbn [bind]; auto. Qed.
Lemma er_verify {A} (e : E A) p f : erases e p -> erases (e_verify e f) (pverify p f).
Proof.
  intros H1 i. unfold pverify, e_verify. rewrite (H1 i). unfold erase. destruct (e i) as [[[i' a]|x]| |]; cbn [bind]; auto.
  destruct (f a); reflexivity.
Qed.
Lemma er_recognize {A} (e : E A) p : erases e p -> erases (e_recognize e) (recognize p).
Proof. intros H1 i. unfold recognize, e_recognize. rewrite (H1 i). unfold erase. destruct (e i) as [[[i' a]|x]| |]; reflexivity. Qed.
Lemma er_many_loop {A} own (e : E A) p (H : erases e p) : forall fuel acc i,
  many_loop fuel p acc i = erase (e_many_loop own fuel e acc i).
Proof.
  induction fuel as [|fuel IH]; intros acc i; cbn [many_loop e_many_loop]; [reflexivity|].
  rewrite (H i). unfold erase at 1. destruct (e i) as [[[i' a]|x]| |]; cbn [bind]; auto.
  destruct (length i' =? length i); [reflexivity|apply IH].
Qed.
Lemma er_many0 {A} (e : E A) p : erases e p -> erases (e_many0 e) (many0 p).
Proof. intros H i. apply er_many_loop. auto. Qed.
Lemma er_many1 {A} (e : E A) p : erases e p -> erases (e_many1 e) (many1 p).
Proof. intros H. apply er_bind; auto. intros a i. apply er_many_loop. auto. Qed.
Lemma er_sep_loop {A B} (s : E B) sp (e : E A) p (Hs : erases s sp) (H : erases e p) : forall fuel acc i,
  sep_loop fuel sp p acc i = erase (e_sep_loop fuel s e acc i).
Proof.
  induction fuel as [|fuel IH]; intros acc i; cbn [sep_loop e_sep_loop]; [reflexivity|].
  rewrite (Hs i). unfold erase at 1. destruct (s i) as [[[i' a]|x]| |]; cbn [bind]; auto.
  destruct (length i' =? length i); [reflexivity|].
  rewrite (H i'). unfold erase at 1. destruct (e i') as [[[i2 b]|x]| |]; cbn [bind]; auto.
Qed.
Lemma er_separated_list1 {A B} (s : E B) sp (e : E A) p : erases s sp -> erases e p -> erases (e_separated_list1 s e) (separated_list1 sp p).
Proof. intros Hs H. apply er_bind; auto. intros a i. apply er_sep_loop; auto. Qed.
Lemma er_separated_list0 {A B} (s : E B) sp (e : E A) p : erases s sp -> erases e p -> erases (e_separated_list0 s e) (separated_list0 sp p).
Proof.
  intros Hs H i. unfold separated_list0, e_separated_list0. rewrite (H i). unfold erase at 1.
  destruct (e i) as [[[i' a]|x]| |]; cbn [bind]; auto. apply er_sep_loop; auto.
Qed.
Lemma er_all_consuming {A} (e : E A) p : erases e p -> erases (e_all_consuming e) (all_consuming p).
Proof.
  intros H1 i. unfold all_consuming, e_all_consuming. rewrite (H1 i). unfold erase. destruct (e i) as [[[[|c i'] a]|x]| |]; reflexivity.
Qed.

Create HintDb er discriminated.
#[global] Hint Resolve er_basic er_ret er_bind er_map er_mapR er_value er_pair er_preceded er_terminated er_delimited er_alt er_opt
  er_verify er_recognize er_many0 er_many1 er_separated_list1 er_separated_list0 er_all_consuming : er.

Lemma er_tag t : erases (e_tag t) (tag t). Proof. apply er_basic. Qed.
Lemma er_char c : erases (e_char c) (tag [c]). Proof. apply er_basic. Qed.
Lemma er_one_of l : erases (e_one_of l) (one_of l). Proof. apply er_basic. Qed.
Lemma er_take_till1 f : erases (e_take_till1 f) (take_till1 f). Proof. apply er_basic. Qed.
Lemma er_space0 : erases e_space0 space0. Proof. apply er_basic. Qed.
Lemma er_space1 : erases e_space1 space1. Proof. apply er_basic. Qed.
Lemma er_line_ending : erases e_line_ending line_ending. Proof. apply er_basic. Qed.
Lemma er_not_line_ending : erases e_not_line_ending not_line_ending. Proof. apply er_basic. Qed.
Lemma er_eof : erases e_eof eof. Proof. apply er_basic. Qed.
#[global] Hint Resolve er_tag er_char er_one_of er_take_till1 er_space0 er_space1 er_line_ending er_not_line_ending er_eof : er.

Lemma er_comment : erases e_comment p_comment. Proof. unfold e_comment, p_comment. auto with er. Qed.
#[global] Hint Resolve er_comment : er.
Lemma er_space_comment : erases e_space_comment space_comment. Proof. unfold e_space_comment, space_comment. auto with er. Qed.
#[global] Hint Resolve er_space_comment : er.
Lemma er_scl : erases e_space_comment_line space_comment_line. Proof. unfold e_space_comment_line, space_comment_line. auto 10 with er. Qed.
Lemma er_arrow : erases e_arrow p_arrow. Proof. unfold e_arrow, p_arrow. auto with er. Qed.
Lemma er_accepting : erases e_accepting p_accepting. Proof. unfold e_accepting, p_accepting. auto with er. Qed.
Lemma er_state_name : erases e_state_name state_name. Proof. unfold e_state_name, state_name. auto with er. Qed.
#[global] Hint Resolve er_scl er_arrow er_accepting er_state_name : er.
Lemma er_state_set : erases e_state_set state_set. Proof. unfold e_state_set, state_set. auto 10 with er. Qed.
Lemma er_alphabet_elem : erases e_alphabet_elem alphabet_elem. Proof. apply er_state_name. Qed.
Lemma er_eps : erases e_eps p_eps. Proof. unfold e_eps, p_eps. auto with er. Qed.
#[global] Hint Resolve er_state_set er_alphabet_elem er_eps : er.
Lemma er_line_prefix {A} (e : E A) p : erases e p -> erases (e_line_prefix e) (line_prefix p).
Proof. intros H. unfold e_line_prefix, line_prefix. do 3 (apply er_bind; [auto 10 with er|intros ?]). apply er_map. auto. Qed.
#[global] Hint Resolve er_line_prefix : er.
Lemma er_dfa_line : erases e_dfa_line dfa_line. Proof. unfold e_dfa_line, dfa_line. auto 10 with er. Qed.
Lemma er_dfa_head : erases e_dfa_head dfa_head. Proof. unfold e_dfa_head, dfa_head. auto 10 with er. Qed.
#[global] Hint Resolve er_dfa_line er_dfa_head : er.
Lemma er_full_dfa : erases e_full_dfa full_dfa. Proof. unfold e_full_dfa, full_dfa. auto 15 with er. Qed.
Lemma er_nfa_line : erases e_nfa_line nfa_line. Proof. unfold e_nfa_line, nfa_line. auto 10 with er. Qed.
Lemma er_nfa_head : erases e_nfa_head nfa_head. Proof. unfold e_nfa_head, nfa_head. auto 10 with er. Qed.
#[global] Hint Resolve er_nfa_line er_nfa_head : er.
Lemma er_full_nfa : erases e_full_nfa full_nfa. Proof. unfold e_full_nfa, full_nfa. auto 15 with er. Qed.

Lemma er_expression seg : forall fuel, erases (e_expression seg fuel) (expression seg fuel).
Proof.
  induction fuel as [|fuel IH]; cbn [e_expression expression]; [intros i; reflexivity|].
  unfold e_alternation, p_alternation, e_sequence, p_sequence, e_par_expr, par_expr, e_combinated_char, combinated_char,
    e_regex_char, p_regex_char, e_normal_char, normal_char, e_escaped_char, escaped_char, e_empty_lang, empty_lang, e_empty_str, empty_str,
    e_one_cluster.
  auto 25 with er.
Qed.

Lemma try_with_erase {A} (e : E A) p : erases e p -> forall i,
  parse_with p i = (r <- try_with e i ;; Ret (match r with Ok a => Some a | Err _ => None end)).
Proof.
  intros H i. unfold parse_with, try_with. rewrite (er_all_consuming e p H i). unfold erase.
  destruct (e_all_consuming e i) as [[[i' a]|x]| |]; reflexivity.
Qed.

(** ** Where the combinators fail *)
Section Fail.
  Context {A B C : Type} (e : E A) (p : P A) (Hp : erases e p) (f : E B) (q : P B) (Hq : erases f q) (g : E C) (r : P C) (Hr : erases g r).

  Lemma basic_fail k0 (p0 : P A) i k a : efail (e_basic k0 p0) i k a <-> bad p0 i /\ k = k0 /\ a = i.
  Proof.
    unfold efail, bad, e_basic. destruct (p0 i) as [[x|]| |]; cbn [bind]; split; try discriminate.
    - intros (? & _). discriminate.
    - intros [= -> ->]. auto.
    - intros (_ & -> & ->). auto.
    - intros (? & _). discriminate.
    - intros (? & _). discriminate.
  Qed.
  Lemma bind_fail {D} (h : A -> E D) i k a : efail (e_bind e h) i k a <->
    efail e i k a \/ exists i1 x, ok p i i1 x /\ efail (h x) i1 k a.
  Proof.
    split.
    - unfold efail, e_bind. intros E0. apply bind_Ret_inv in E0 as ([[i1 x]|x] & E1 & E2).
      + right. exists i1, x. split; auto. apply (erases_ok e p); auto.
      + left. congruence.
    - unfold efail, e_bind. intros [E0|(i1 & x & E1 & E2)].
      + rewrite E0. reflexivity.
      + apply (erases_ok e p) in E1; auto. unfold eok in E1. rewrite E1. exact E2.
  Qed.
  Lemma map_fail {D} (h : A -> D) i k a : efail (e_map h e) i k a <-> efail e i k a.
  Proof. unfold e_map. rewrite bind_fail. split; [|auto]. intros [H|(i1 & x & _ & H)]; auto. discriminate. Qed.
  Lemma alt_fail (e' : E A) p' (H' : erases e' p') i k a : efail (e_alt e e') i k a <-> bad p i /\ efail e' i k a.
  Proof.
    unfold efail, e_alt, bad. rewrite (Hp i). unfold erase. destruct (e i) as [[x|x]| |]; cbn [bind]; split; try tauto;
    try discriminate; intros (? & _); discriminate.
  Qed.
  Lemma opt_fail i k a : ~ efail (e_opt e) i k a.
  Proof. unfold efail, e_opt. destruct (e i) as [[[i' x]|x]| |]; cbn [bind]; discriminate. Qed.
  Lemma verify_fail h i k a : efail (e_verify e h) i k a <->
    efail e i k a \/ k = KVerify /\ a = i /\ exists i' x, ok p i i' x /\ h x = false.
  Proof.
    split.
    - unfold efail, e_verify. intros E0. apply bind_Ret_inv in E0 as ([[i1 x]|x] & E1 & E2).
      + right. destruct (h x) eqn:E; [discriminate|]. injection E2 as <- <-. split; auto. split; auto. exists i1, x. split; auto.
        apply (erases_ok e p); auto.
      + left. congruence.
    - unfold efail, e_verify. intros [E0|(-> & -> & i1 & x & E1 & E2)].
      + rewrite E0. reflexivity.
      + apply (erases_ok e p) in E1; auto. unfold eok in E1. rewrite E1. cbn [bind]. rewrite E2. reflexivity.
  Qed.
  Lemma recognize_fail i k a : efail (e_recognize e) i k a <-> efail e i k a.
  Proof. unfold efail, e_recognize. destruct (e i) as [[[i' x]|x]| |]; cbn [bind]; split; try discriminate; intros [= ->]; reflexivity. Qed.

  Definition strict : Prop := forall i i' x, ok p i i' x -> length i' <> length i.
End Fail.

Lemma map_fail' {A B} (h : A -> B) (e : E A) i k a : efail (e_map h e) i k a <-> efail e i k a.
Proof.
  unfold efail, e_map, e_bind, e_ret. destruct (e i) as [[[i' y]|y]| |]; cbn [bind]; split; try discriminate; intros [= ->]; reflexivity.
Qed.
Lemma pair_fail {A B} (e : E A) p (f : E B) i k a : erases e p -> (efail (e_pair e f) i k a <->
  efail e i k a \/ exists i1 x, ok p i i1 x /\ efail f i1 k a).
Proof.
  intros Hp. unfold e_pair. rewrite (bind_fail e p Hp).
  split; intros [H|(i1 & x & H1 & H2)]; auto; right; exists i1, x; split; auto; apply map_fail' in H2 || apply map_fail'; auto.
Qed.
Lemma preceded_fail {A B} (e : E A) p (f : E B) i k a : erases e p -> (efail (e_preceded e f) i k a <->
  efail e i k a \/ exists i1 x, ok p i i1 x /\ efail f i1 k a).
Proof. intros Hp. unfold e_preceded. rewrite map_fail'. apply pair_fail. auto. Qed.
Lemma terminated_fail {A B} (e : E A) p (f : E B) i k a : erases e p -> (efail (e_terminated e f) i k a <->
  efail e i k a \/ exists i1 x, ok p i i1 x /\ efail f i1 k a).
Proof. intros Hp. unfold e_terminated. rewrite map_fail'. apply pair_fail. auto. Qed.

Lemma many_loop_nofail {A} own (e : E A) p (Hp : erases e p) (Hs : strict p) : forall fuel acc i k a,
  e_many_loop own fuel e acc i <> Ret (Err (mk_error k a)).
Proof.
  induction fuel as [|fuel IH]; intros acc i k a; cbn [e_many_loop]; [discriminate|].
  destruct (e i) as [[[i' x]|x]| |] eqn:E0; cbn [bind]; try discriminate.
  destruct (Nat.eqb_spec (length i') (length i)) as [E1|_]; [|apply IH].
  exfalso. apply (Hs i i' x); auto. apply (erases_ok e p); auto.
Qed.
Lemma many0_nofail {A} (e : E A) p i k a : erases e p -> strict p -> ~ efail (e_many0 e) i k a.
Proof. intros Hp Hs. apply (many_loop_nofail _ e p); auto. Qed.
Lemma many1_fail {A} (e : E A) p i k a : erases e p -> strict p -> (efail (e_many1 e) i k a <-> efail e i k a).
Proof.
  intros Hp Hs. unfold e_many1. rewrite (bind_fail e p Hp). split; auto. intros [H|(i1 & x & _ & H)]; auto.
  exfalso. exact (many_loop_nofail _ e p Hp Hs _ _ _ _ _ H).
Qed.
Lemma sep_loop_nofail {A B} (s : E B) sp (e : E A) (Hs : erases s sp) (Hst : strict sp) : forall fuel acc i k a,
  e_sep_loop fuel s e acc i <> Ret (Err (mk_error k a)).
Proof.
  induction fuel as [|fuel IH]; intros acc i k a; cbn [e_sep_loop]; [discriminate|].
  destruct (s i) as [[[i' x]|x]| |] eqn:E0; cbn [bind]; try discriminate.
  destruct (Nat.eqb_spec (length i') (length i)) as [E1|_].
  - exfalso. apply (Hst i i' x); auto. apply (erases_ok s sp); auto.
  - destruct (e i') as [[[i2 y]|y]| |]; cbn [bind]; try discriminate. apply IH.
Qed.
Lemma list1_fail {A B} (s : E B) sp (e : E A) p i k a : erases s sp -> strict sp -> erases e p ->
  (efail (e_separated_list1 s e) i k a <-> efail e i k a).
Proof.
  intros Hs Hst Hp. unfold e_separated_list1. rewrite (bind_fail e p Hp). split; auto. intros [H|(i1 & x & _ & H)]; auto.
  exfalso. exact (sep_loop_nofail s sp e Hs Hst _ _ _ _ _ H).
Qed.
Lemma list0_nofail {A B} (s : E B) sp (e : E A) i k a : erases s sp -> strict sp -> ~ efail (e_separated_list0 s e) i k a.
Proof.
  intros Hs Hst. unfold efail, e_separated_list0. destruct (e i) as [[[i' x]|x]| |]; cbn [bind]; try discriminate.
  apply (sep_loop_nofail s sp); auto.
Qed.
Lemma try_with_fail {A} (e : E A) p i k a : erases e p ->
  (try_with e i = Ret (Err (mk_error k a)) <-> efail e i k a \/ k = KEof /\ a <> [] /\ exists x, ok p i a x).
Proof.
  intros Hp. unfold try_with, e_all_consuming, efail. split.
  - intros E0. apply bind_Ret_inv in E0 as (r & E0 & E1). apply bind_Ret_inv in E0 as ([[i' x]|x] & E2 & E3).
    + right. destruct i' as [|c i']; injection E3 as <-; [discriminate|]. injection E1 as <- <-. split; auto. split; [discriminate|].
      exists x. apply (erases_ok e p); auto.
    + left. injection E3 as <-. rewrite E2. congruence.
  - intros [E0|(-> & Hn & x & E0)].
    + rewrite E0. reflexivity.
    + apply (erases_ok e p) in E0; auto. unfold eok in E0. rewrite E0. cbn [bind]. destruct a as [|c a]; [congruence|reflexivity].
Qed.
