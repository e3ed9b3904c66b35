(** * ParserBasics: totality and elementary facts about the parser combinators *)
From Coq Require Import List NArith Arith Bool Lia.
From Verif Require Import Base BaseLemmas Spec TableSpec LayoutSpec ParserModel.
Import ListNotations.

(** ** Totality: every parser returns, and the rest is a suffix of the input *)
Definition total {A} (p : P A) : Prop :=
  forall i, exists r, p i = Ret r /\ match r with Some (i', _) => exists u, i = u ++ i' | None => True end.

Lemma total_pret {A} (a : A) : total (pret a).
Proof. intros i. exists (Some (i, a)). split; auto. exists []. auto. Qed.

Lemma total_pbind {A B} (p : P A) (f : A -> P B) : total p -> (forall a, total (f a)) -> total (pbind p f).
Proof.
  intros Hp Hf i. unfold pbind. destruct (Hp i) as ([[i1 a]|] & -> & H1); cbn [bind].
  - destruct H1 as (u & ->). destruct (Hf a i1) as ([[i2 b]|] & -> & H2).
    + destruct H2 as (v & ->). exists (Some (i2, b)). split; auto. exists (u ++ v). rewrite app_assoc. auto.
    + exists None. auto.
  - exists None. auto.
Qed.
Lemma total_pmap {A B} (f : A -> B) p : total p -> total (pmap f p).
Proof. intros H. apply total_pbind; auto. intros a. apply total_pret. Qed.
Lemma total_pvalue {A B} (b : B) (p : P A) : total p -> total (pvalue b p).
Proof. apply total_pmap. Qed.
Lemma total_ppair {A B} (p : P A) (q : P B) : total p -> total q -> total (ppair p q).
Proof. intros Hp Hq. apply total_pbind; auto. intros a. apply total_pmap; auto. Qed.
Lemma total_preceded {A B} (p : P A) (q : P B) : total p -> total q -> total (preceded p q).
Proof. intros. apply total_pmap, total_ppair; auto. Qed.
Lemma total_terminated {A B} (p : P A) (q : P B) : total p -> total q -> total (terminated p q).
Proof. intros. apply total_pmap, total_ppair; auto. Qed.
Lemma total_delimited {A B C} (p : P A) (q : P B) (r : P C) : total p -> total q -> total r -> total (delimited p q r).
Proof. intros. apply total_preceded, total_terminated; auto. Qed.

Lemma total_palt {A} (p q : P A) : total p -> total q -> total (palt p q).
Proof.
  intros Hp Hq i. unfold palt. destruct (Hp i) as ([x|] & -> & H); cbn [bind].
  - exists (Some x). auto.
  - apply Hq.
Qed.
Lemma total_popt {A} (p : P A) : total p -> total (popt p).
Proof.
  intros Hp i. unfold popt. destruct (Hp i) as ([[i' a]|] & -> & H); cbn [bind].
  - exists (Some (i', Some a)). auto.
  - exists (Some (i, None)). split; auto. exists []. auto.
Qed.
Lemma total_pverify {A} (p : P A) f : total p -> total (pverify p f).
Proof.
  intros Hp i. unfold pverify. destruct (Hp i) as ([[i' a]|] & -> & H); cbn [bind].
  - destruct (f a); [exists (Some (i', a))|exists None]; auto.
  - exists None. auto.
Qed.
Lemma total_recognize {A} (p : P A) : total p -> total (recognize p).
Proof.
  intros Hp i. unfold recognize. destruct (Hp i) as ([[i' a]|] & -> & H); cbn [bind].
  - exists (Some (i', firstn (length i - length i') i)). auto.
  - exists None. auto.
Qed.

Lemma many_loop_total {A} (p : P A) (Hp : total p) : forall fuel acc i, length i < fuel ->
  exists r, many_loop fuel p acc i = Ret r /\ match r with Some (i', _) => exists u, i = u ++ i' | None => True end.
Proof.
  induction fuel as [|fuel IH]; intros acc i Hl; [lia|]. cbn [many_loop].
  destruct (Hp i) as ([[i1 a]|] & -> & H); cbn [bind].
  - destruct H as (u & ->). destruct (Nat.eqb_spec (length i1) (length (u ++ i1))) as [E|E].
    + exists None. auto.
    + rewrite app_length in E, Hl. destruct (IH (acc ++ [a]) i1) as (r & -> & Hr); [lia|].
      exists r. split; auto. destruct r as [[i2 l]|]; auto. destruct Hr as (v & ->). exists (u ++ v).
      rewrite app_assoc. auto.
  - exists (Some (i, acc)). split; auto. exists []. auto.
Qed.
Lemma total_many0 {A} (p : P A) : total p -> total (many0 p).
Proof. intros H i. apply many_loop_total; auto. Qed.
Lemma total_many1 {A} (p : P A) : total p -> total (many1 p).
Proof. intros H. apply total_pbind; auto. intros a i. apply many_loop_total; auto. Qed.

Lemma sep_loop_total {A B} (sep : P B) (p : P A) (Hs : total sep) (Hp : total p) : forall fuel acc i, length i < fuel ->
  exists r, sep_loop fuel sep p acc i = Ret r /\ match r with Some (i', _) => exists u, i = u ++ i' | None => True end.
Proof.
  induction fuel as [|fuel IH]; intros acc i Hl; [lia|]. cbn [sep_loop].
  destruct (Hs i) as ([[i1 b]|] & -> & H); cbn [bind].
  - destruct H as (u & ->). destruct (Nat.eqb_spec (length i1) (length (u ++ i1))) as [E|E].
    + exists None. auto.
    + rewrite app_length in E, Hl. destruct (Hp i1) as ([[i2 a]|] & -> & H); cbn [bind].
      * destruct H as (v & ->). rewrite app_length in *. destruct (IH (acc ++ [a]) i2) as (r & -> & Hr); [lia|].
        exists r. split; auto. destruct r as [[i3 l]|]; auto. destruct Hr as (w & ->). exists (u ++ v ++ w).
        rewrite !app_assoc. auto.
      * exists (Some (u ++ i1, acc)). split; auto. exists []. auto.
  - exists (Some (i, acc)). split; auto. exists []. auto.
Qed.
Lemma total_separated_list1 {A B} (sep : P B) (p : P A) : total sep -> total p -> total (separated_list1 sep p).
Proof. intros Hs Hp. apply total_pbind; auto. intros a i. apply sep_loop_total; auto. Qed.
Lemma total_separated_list0 {A B} (sep : P B) (p : P A) : total sep -> total p -> total (separated_list0 sep p).
Proof.
  intros Hs Hp i. unfold separated_list0. destruct (Hp i) as ([[i1 a]|] & -> & H); cbn [bind].
  - destruct H as (u & ->). destruct (sep_loop_total sep p Hs Hp (S (length i1)) [a] i1) as (r & -> & Hr); auto.
    exists r. split; auto. destruct r as [[i3 l]|]; auto. destruct Hr as (w & ->). exists (u ++ w). rewrite app_assoc. auto.
  - exists (Some (i, [])). split; auto. exists []. auto.
Qed.
Lemma total_all_consuming {A} (p : P A) : total p -> total (all_consuming p).
Proof.
  intros Hp i. unfold all_consuming. destruct (Hp i) as ([[[|c i'] a]|] & -> & H); cbn [bind].
  - exists (Some ([], a)). auto.
  - exists None. auto.
  - exists None. auto.
Qed.

Lemma tag_spec t : forall i,
  (exists k, i = t ++ k /\ tag t i = Ret (Some (k, tt))) \/ (tag t i = Ret None /\ forall k, i <> t ++ k).
Proof.
  induction t as [|c t IH]; intros i; simpl.
  - left. exists i. auto.
  - destruct i as [|d i].
    + right. split; auto. discriminate.
    + destruct (N.eqb_spec c d) as [->|Hn].
      * destruct (IH i) as [(k & -> & ->)|(-> & Hk)].
        -- left. exists k. auto.
        -- right. split; auto. intros k [= E]. exact (Hk k E).
      * right. split; auto. congruence.
Qed.
Lemma total_tag t : total (tag t).
Proof.
  intros i. destruct (tag_spec t i) as [(k & -> & ->)|(-> & _)].
  - exists (Some (k, tt)). split; auto. exists t. auto.
  - exists None. auto.
Qed.

Lemma span_spec f i : let '(u, v) := span f i in
  i = u ++ v /\ (forall c, In c u -> f c = true) /\ match v with [] => True | c :: _ => f c = false end.
Proof.
  induction i as [|c i IH]; simpl; [repeat split; auto; intros ? []|].
  destruct (f c) eqn:E.
  - destruct (span f i) as [u v]. destruct IH as (-> & H1 & H2). repeat split; auto.
    intros d [->|Hd]; auto.
  - repeat split; auto.
Qed.

Lemma span_app f u v : (forall c, In c u -> f c = true) -> match v with [] => True | c :: _ => f c = false end ->
  span f (u ++ v) = (u, v).
Proof.
  intros Hu Hv. induction u as [|c u IH]; simpl.
  - destruct v as [|c v]; simpl; auto. rewrite Hv. auto.
  - rewrite (Hu c) by (left; auto). rewrite IH; auto. intros d Hd. apply Hu. right; auto.
Qed.

Lemma total_take_till1 f : total (take_till1 f).
Proof.
  intros i. unfold take_till1. pose proof (span_spec (fun c => negb (f c)) i) as H.
  destruct (span (fun c => negb (f c)) i) as [u v]. destruct H as (-> & _). destruct u as [|c u].
  - exists None. auto.
  - exists (Some (v, c :: u)). split; auto. exists (c :: u). auto.
Qed.
Lemma total_space0 : total space0.
Proof.
  intros i. unfold space0. pose proof (span_spec is_space i) as H.
  destruct (span is_space i) as [u v]. destruct H as (-> & _). exists (Some (v, u)). eauto.
Qed.
Lemma total_space1 : total space1.
Proof.
  intros i. unfold space1. pose proof (span_spec is_space i) as H.
  destruct (span is_space i) as [u v]. destruct H as (-> & _). destruct u as [|c u].
  - exists None. auto.
  - exists (Some (v, c :: u)). split; auto. exists (c :: u). auto.
Qed.
Lemma total_line_ending : total line_ending.
Proof. apply total_palt; apply total_tag. Qed.
Lemma total_not_line_ending : total not_line_ending.
Proof.
  intros i. unfold not_line_ending. pose proof (span_spec (fun c => negb (N.eqb c 10 || N.eqb c 13)) i) as H.
  destruct (span _ i) as [u v]. destruct H as (-> & _). destruct v as [|c v].
  - exists (Some ([], u)). split; auto. exists u. reflexivity.
  - destruct (N.eqb c 13); [destruct v as [|d v]; [|destruct (N.eqb d 10)]|].
    all: try (exists None; split; [reflexivity|exact I]). all: eexists; split; [reflexivity|]; exists u; reflexivity.
Qed.
Lemma total_eof : total eof.
Proof. intros [|c i]; [exists (Some ([], tt))|exists None]; split; auto. exists []. auto. Qed.

Create HintDb total discriminated.
#[global] Hint Resolve total_pret total_pbind total_pmap total_pvalue total_ppair total_preceded total_terminated total_delimited
  total_palt total_popt total_pverify total_recognize total_many0 total_many1 total_separated_list1 total_separated_list0
  total_all_consuming total_tag total_take_till1 total_space0 total_space1 total_line_ending total_not_line_ending total_eof
  : total.

Lemma total_p_comment : total p_comment. Proof. unfold p_comment. auto with total. Qed.
#[global] Hint Resolve total_p_comment : total.
Lemma total_space_comment : total space_comment. Proof. unfold space_comment. auto with total. Qed.
#[global] Hint Resolve total_space_comment : total.
Lemma total_scl : total space_comment_line. Proof. unfold space_comment_line. auto 10 with total. Qed.
Lemma total_p_arrow : total p_arrow. Proof. unfold p_arrow. auto with total. Qed.
Lemma total_p_accepting : total p_accepting. Proof. unfold p_accepting. auto with total. Qed.
Lemma total_state_name : total state_name. Proof. unfold state_name. auto with total. Qed.
#[global] Hint Resolve total_scl total_p_arrow total_p_accepting total_state_name : total.
Lemma total_state_set : total state_set. Proof. unfold state_set. auto 10 with total. Qed.
Lemma total_alphabet_elem : total alphabet_elem. Proof. apply total_state_name. Qed.
Lemma total_p_eps : total p_eps. Proof. unfold p_eps. auto with total. Qed.
#[global] Hint Resolve total_state_set total_alphabet_elem total_p_eps : total.
Lemma total_line_prefix {A} (p : P A) : total p -> total (line_prefix p).
Proof. intros H. unfold line_prefix. apply total_pbind; [auto with total|]. intros a. apply total_pbind; [auto with total|].
  intros b. apply total_pbind; [auto with total|]. intros c. auto with total. Qed.
#[global] Hint Resolve total_line_prefix : total.
Lemma total_dfa_line : total dfa_line. Proof. unfold dfa_line. auto 10 with total. Qed.
Lemma total_dfa_head : total dfa_head. Proof. unfold dfa_head. auto 10 with total. Qed.
#[global] Hint Resolve total_dfa_line total_dfa_head : total.
Lemma total_full_dfa : total full_dfa. Proof. unfold full_dfa. auto 10 with total. Qed.
Lemma total_nfa_line : total nfa_line. Proof. unfold nfa_line. auto 10 with total. Qed.
Lemma total_nfa_head : total nfa_head. Proof. unfold nfa_head. auto 10 with total. Qed.
#[global] Hint Resolve total_nfa_line total_nfa_head : total.
Lemma total_full_nfa : total full_nfa. Proof. unfold full_nfa. auto 10 with total. Qed.

Lemma parse_with_total {A} (p : P A) : total p -> forall i, exists r, parse_with p i = Ret r.
Proof.
  intros Hp i. unfold parse_with. destruct (total_all_consuming p Hp i) as (r & -> & _). cbn [bind]. eauto.
Qed.

(** ** Successful and failing runs *)
Definition ok {A} (p : P A) (i i' : str) (a : A) : Prop := p i = Ret (Some (i', a)).
Definition bad {A} (p : P A) (i : str) : Prop := p i = Ret None.

Lemma total_ok_or_bad {A} (p : P A) i : total p -> (exists i' a, ok p i i' a) \/ bad p i.
Proof. intros H. destruct (H i) as ([[i' a]|] & E & _); [left|right]; unfold ok, bad; eauto. Qed.

Lemma pbind_ok {A B} (p : P A) (f : A -> P B) i i1 i2 a b : ok p i i1 a -> ok (f a) i1 i2 b -> ok (pbind p f) i i2 b.
Proof. unfold ok, pbind. intros H1 H2. rewrite H1. exact H2. Qed.
Lemma pbind_bad {A B} (p : P A) (f : A -> P B) i : bad p i -> bad (pbind p f) i.
Proof. unfold bad, pbind. intros ->. reflexivity. Qed.
Lemma pbind_bad2 {A B} (p : P A) (f : A -> P B) i i1 a : ok p i i1 a -> bad (f a) i1 -> bad (pbind p f) i.
Proof. unfold bad, ok, pbind. intros H1 H2. rewrite H1. exact H2. Qed.
Lemma pbind_inv {A B} (p : P A) (f : A -> P B) i i2 b : ok (pbind p f) i i2 b ->
  exists i1 a, ok p i i1 a /\ ok (f a) i1 i2 b.
Proof.
  unfold ok, pbind. intros E. apply bind_Ret_inv in E as ([[i1 a]|] & E1 & E2); [|discriminate]. eauto.
Qed.
Lemma pmap_ok {A B} (f : A -> B) p i i' a : ok p i i' a -> ok (pmap f p) i i' (f a).
Proof. intros H. eapply pbind_ok; eauto. reflexivity. Qed.
Lemma pmap_bad {A B} (f : A -> B) p i : bad p i -> bad (pmap f p) i.
Proof. apply pbind_bad. Qed.
Lemma pmap_inv {A B} (f : A -> B) p i i' b : ok (pmap f p) i i' b -> exists a, ok p i i' a /\ b = f a.
Proof. intros H. apply pbind_inv in H as (i1 & a & H1 & H2). injection H2 as -> <-. eauto. Qed.
Lemma ppair_ok {A B} (p : P A) (q : P B) i i1 i2 a b : ok p i i1 a -> ok q i1 i2 b -> ok (ppair p q) i i2 (a, b).
Proof. intros H1 H2. eapply pbind_ok; eauto. apply (pmap_ok (fun b => (a, b))). auto. Qed.
Lemma ppair_inv {A B} (p : P A) (q : P B) i i2 ab : ok (ppair p q) i i2 ab ->
  exists i1 a b, ok p i i1 a /\ ok q i1 i2 b /\ ab = (a, b).
Proof. intros H. apply pbind_inv in H as (i1 & a & H1 & H2). apply pmap_inv in H2 as (b & H2 & ->). eauto 6. Qed.
Lemma preceded_ok {A B} (p : P A) (q : P B) i i1 i2 a b : ok p i i1 a -> ok q i1 i2 b -> ok (preceded p q) i i2 b.
Proof. intros H1 H2. exact (pmap_ok snd _ _ _ _ (ppair_ok _ _ _ _ _ _ _ H1 H2)). Qed.
Lemma preceded_inv {A B} (p : P A) (q : P B) i i2 b : ok (preceded p q) i i2 b ->
  exists i1 a, ok p i i1 a /\ ok q i1 i2 b.
Proof.
  intros H. apply pmap_inv in H as (ab & H & ->). apply ppair_inv in H as (i1 & a & b & H1 & H2 & ->). simpl. eauto.
Qed.
Lemma preceded_bad {A B} (p : P A) (q : P B) i : bad p i -> bad (preceded p q) i.
Proof. intros H. apply pmap_bad, pbind_bad; auto. Qed.
Lemma preceded_bad2 {A B} (p : P A) (q : P B) i i1 a : ok p i i1 a -> bad q i1 -> bad (preceded p q) i.
Proof. intros H1 H2. apply pmap_bad. eapply pbind_bad2; eauto. apply pmap_bad. auto. Qed.
Lemma terminated_ok {A B} (p : P A) (q : P B) i i1 i2 a b : ok p i i1 a -> ok q i1 i2 b -> ok (terminated p q) i i2 a.
Proof. intros H1 H2. exact (pmap_ok fst _ _ _ _ (ppair_ok _ _ _ _ _ _ _ H1 H2)). Qed.
Lemma terminated_inv {A B} (p : P A) (q : P B) i i2 a : ok (terminated p q) i i2 a ->
  exists i1 b, ok p i i1 a /\ ok q i1 i2 b.
Proof.
  intros H. apply pmap_inv in H as (ab & H & ->). apply ppair_inv in H as (i1 & a & b & H1 & H2 & ->). simpl. eauto.
Qed.
Lemma terminated_bad {A B} (p : P A) (q : P B) i : bad p i -> bad (terminated p q) i.
Proof. intros H. apply pmap_bad, pbind_bad; auto. Qed.
Lemma terminated_bad2 {A B} (p : P A) (q : P B) i i1 a : ok p i i1 a -> bad q i1 -> bad (terminated p q) i.
Proof. intros H1 H2. apply pmap_bad. eapply pbind_bad2; eauto. apply pmap_bad. auto. Qed.
Lemma delimited_ok {A B C} (p : P A) (q : P B) (r : P C) i i1 i2 i3 a b c :
  ok p i i1 a -> ok q i1 i2 b -> ok r i2 i3 c -> ok (delimited p q r) i i3 b.
Proof. intros H1 H2 H3. eapply preceded_ok; eauto. eapply terminated_ok; eauto. Qed.
Lemma delimited_inv {A B C} (p : P A) (q : P B) (r : P C) i i3 b : ok (delimited p q r) i i3 b ->
  exists i1 a i2 c, ok p i i1 a /\ ok q i1 i2 b /\ ok r i2 i3 c.
Proof.
  intros H. apply preceded_inv in H as (i1 & a & H1 & H2). apply terminated_inv in H2 as (i2 & c & H2 & H3).
  exists i1, a, i2, c. auto.
Qed.
Lemma delimited_bad2 {A B C} (p : P A) (q : P B) (r : P C) i i1 a : ok p i i1 a -> bad q i1 -> bad (delimited p q r) i.
Proof. intros H1 H2. eapply preceded_bad2; eauto. apply terminated_bad; auto. Qed.

Lemma palt_ok_l {A} (p q : P A) i i' a : ok p i i' a -> ok (palt p q) i i' a.
Proof. unfold ok, palt. intros ->. reflexivity. Qed.
Lemma palt_ok_r {A} (p q : P A) i i' a : bad p i -> ok q i i' a -> ok (palt p q) i i' a.
Proof. unfold ok, bad, palt. intros H1 H2. rewrite H1. exact H2. Qed.
Lemma palt_bad {A} (p q : P A) i : bad p i -> bad q i -> bad (palt p q) i.
Proof. unfold bad, palt. intros H1 H2. rewrite H1. exact H2. Qed.
Lemma palt_inv {A} (p q : P A) i i' a : ok (palt p q) i i' a -> ok p i i' a \/ (bad p i /\ ok q i i' a).
Proof.
  unfold ok, bad, palt. intros E. apply bind_Ret_inv in E as ([x|] & E1 & E2).
  - left. injection E2 as ->. auto.
  - right. auto.
Qed.
Lemma popt_some {A} (p : P A) i i' a : ok p i i' a -> ok (popt p) i i' (Some a).
Proof. unfold ok, popt. intros ->. reflexivity. Qed.
Lemma popt_none {A} (p : P A) i : bad p i -> ok (popt p) i i None.
Proof. unfold ok, bad, popt. intros ->. reflexivity. Qed.
Lemma popt_inv {A} (p : P A) i i' o : ok (popt p) i i' o ->
  match o with Some a => ok p i i' a | None => bad p i /\ i' = i end.
Proof.
  unfold ok, bad, popt. intros E. apply bind_Ret_inv in E as ([[i1 a]|] & E1 & E2); injection E2 as <- <-; auto.
Qed.
Lemma pverify_ok {A} (p : P A) f i i' a : ok p i i' a -> f a = true -> ok (pverify p f) i i' a.
Proof. unfold ok, pverify. intros -> E. cbn [bind]. rewrite E. reflexivity. Qed.
Lemma pverify_bad {A} (p : P A) f i : bad p i -> bad (pverify p f) i.
Proof. unfold bad, pverify. intros ->. reflexivity. Qed.
Lemma pverify_bad2 {A} (p : P A) f i i' a : ok p i i' a -> f a = false -> bad (pverify p f) i.
Proof. unfold bad, ok, pverify. intros -> E. cbn [bind]. rewrite E. reflexivity. Qed.
Lemma pverify_inv {A} (p : P A) f i i' a : ok (pverify p f) i i' a -> ok p i i' a /\ f a = true.
Proof.
  unfold ok, pverify. intros E. apply bind_Ret_inv in E as ([[i1 b]|] & E1 & E2); [|discriminate].
  destruct (f b) eqn:Ef; [|discriminate]. injection E2 as <- <-. auto.
Qed.
Lemma recognize_ok {A} (p : P A) u v a : ok p (u ++ v) v a -> ok (recognize p) (u ++ v) v u.
Proof.
  unfold ok, recognize. intros ->. cbn [bind]. rewrite app_length.
  replace (length u + length v - length v) with (length u) by lia. rewrite firstn_app, Nat.sub_diag, firstn_all, firstn_O, app_nil_r.
  reflexivity.
Qed.
Lemma recognize_inv {A} (p : P A) i i' u : total p -> ok (recognize p) i i' u -> exists a, ok p i i' a /\ i = u ++ i'.
Proof.
  intros Hp E. unfold ok, recognize in E. apply bind_Ret_inv in E as ([[i1 a]|] & E1 & E2); [|discriminate].
  injection E2 as <- <-. destruct (Hp i) as (r & E & Hr). rewrite E1 in E. injection E as <-. destruct Hr as (v & ->).
  exists a. split; auto. rewrite app_length. replace (length v + length i1 - length i1) with (length v) by lia.
  rewrite firstn_app, Nat.sub_diag, firstn_all, firstn_O, app_nil_r. reflexivity.
Qed.
Lemma recognize_bad {A} (p : P A) i : bad p i -> bad (recognize p) i.
Proof. unfold bad, recognize. intros ->. reflexivity. Qed.

Lemma tag_ok t k : ok (tag t) (t ++ k) k tt.
Proof. destruct (tag_spec t (t ++ k)) as [(k' & E & H)|(_ & H)]; [|destruct (H k eq_refl)]. apply app_inv_head in E as ->. auto. Qed.
Lemma tag_inv t i i' x : ok (tag t) i i' x -> i = t ++ i'.
Proof. unfold ok. destruct (tag_spec t i) as [(k & -> & ->)|(-> & _)]; [|discriminate]. congruence. Qed.
Lemma tag_bad t i : (forall k, i <> t ++ k) -> bad (tag t) i.
Proof. intros H. destruct (tag_spec t i) as [(k & E & _)|(E & _)]; auto. destruct (H k E). Qed.
Lemma tag_bad_inv t i k : bad (tag t) i -> i <> t ++ k.
Proof. intros H E. subst. pose proof (tag_ok t k) as H'. unfold ok, bad in *. congruence. Qed.
