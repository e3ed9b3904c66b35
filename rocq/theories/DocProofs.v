(** * DocProofs: the examples and languages of the documentation *)
From Coq Require Import List NArith Arith Bool Lia.
From Verif Require Import Base BaseLemmas Spec TableSpec DfaModel NfaModel RegexModel ValidateModel ParserModel RegexParserModel
  WordsModel ApiModel TestsModel DocModel DocSpec RegexParserProofs WordsProofs CliSpec CliProofs DfaBasics NfaBasics Examples.
Import ListNotations.

(** ** The parser of regular expressions only looks at the segmentation of suffixes of its input *)
Section Agree.
  Variable ok : str -> Prop.
  Hypothesis ok_tail : forall c i, ok (c :: i) -> ok i.

  Definition agree {A} (p q : P A) : Prop :=
    forall i, ok i -> p i = q i /\ forall i' a, q i = Ret (Some (i', a)) -> ok i'.

  Lemma agree_bind {A B} (p q : P A) (f g : A -> P B) : agree p q -> (forall a, agree (f a) (g a)) -> agree (pbind p f) (pbind q g).
  Proof.
    intros Hp Hf i Hi. destruct (Hp i Hi) as [E H]. unfold pbind. rewrite E. destruct (q i) as [[[i' a]|]| |]; cbn [bind]; try (split; [reflexivity|discriminate]).
    apply Hf. exact (H i' a eq_refl).
  Qed.
  Lemma agree_ret {A} (a : A) : agree (pret a) (pret a).
  Proof. intros i Hi. split; auto. intros i' a' [= <- _]. exact Hi. Qed.
  Lemma agree_map {A B} (f : A -> B) p q : agree p q -> agree (pmap f p) (pmap f q).
  Proof. intros H. apply agree_bind; auto. intros a. apply agree_ret. Qed.
  Lemma agree_mapR {A B} (f : A -> R B) p q : agree p q -> agree (pmapR f p) (pmapR f q).
  Proof.
    intros H. apply agree_bind; auto. intros a i Hi. split; auto. destruct (f a); cbn [bind]; try discriminate. intros i' b' [= <- _]. exact Hi.
  Qed.
  Lemma agree_pair {A B} (p p' : P A) (q q' : P B) : agree p p' -> agree q q' -> agree (ppair p q) (ppair p' q').
  Proof. intros H1 H2. apply agree_bind; auto. intros a. apply agree_map; auto. Qed.
  Lemma agree_preceded {A B} (p p' : P A) (q q' : P B) : agree p p' -> agree q q' -> agree (preceded p q) (preceded p' q').
  Proof. intros. apply agree_map, agree_pair; auto. Qed.
  Lemma agree_terminated {A B} (p p' : P A) (q q' : P B) : agree p p' -> agree q q' -> agree (terminated p q) (terminated p' q').
  Proof. intros. apply agree_map, agree_pair; auto. Qed.
  Lemma agree_delimited {A B C} (p p' : P A) (q q' : P B) (r r' : P C) :
    agree p p' -> agree q q' -> agree r r' -> agree (delimited p q r) (delimited p' q' r').
  Proof. intros. apply agree_preceded, agree_terminated; auto. Qed.
  Lemma agree_alt {A} (p p' q q' : P A) : agree p p' -> agree q q' -> agree (palt p q) (palt p' q').
  Proof.
    intros H1 H2 i Hi. unfold palt. destruct (H1 i Hi) as [-> E]. destruct (p' i) as [[[i' a]|]| |]; cbn [bind]; try (split; [reflexivity|discriminate]).
    - split; [reflexivity|exact E].
    - apply H2; auto.
  Qed.
  Lemma agree_opt {A} (p p' : P A) : agree p p' -> agree (popt p) (popt p').
  Proof.
    intros H i Hi. unfold popt. destruct (H i Hi) as [-> E]. destruct (p' i) as [[[i' a]|]| |]; cbn [bind]; (split; [reflexivity|]); try discriminate.
    - intros i1 a1 [= <- _]. eauto.
    - intros i1 a1 [= <- _]. auto.
  Qed.
  Lemma agree_verify {A} (p p' : P A) f : agree p p' -> agree (pverify p f) (pverify p' f).
  Proof.
    intros H i Hi. unfold pverify. destruct (H i Hi) as [-> E]. destruct (p' i) as [[[i' a]|]| |]; cbn [bind]; (split; [reflexivity|]); try discriminate.
    destruct (f a); try discriminate. intros i1 a1 [= <- _]. eauto.
  Qed.
  Lemma agree_many_loop {A} fuel (p p' : P A) acc : agree p p' -> agree (many_loop fuel p acc) (many_loop fuel p' acc).
  Proof.
    intros H. revert acc. induction fuel as [|fuel IH]; intros acc i Hi; cbn [many_loop]; [split; [reflexivity|discriminate]|].
    destruct (H i Hi) as [-> E]. destruct (p' i) as [[[i' a]|]| |]; cbn [bind]; try (split; [reflexivity|discriminate]).
    - destruct (length i' =? length i); [split; [reflexivity|discriminate]|]. apply IH. eauto.
    - split; auto. intros i1 a1 [= <- _]. auto.
  Qed.
  Lemma agree_many1 {A} (p p' : P A) : agree p p' -> agree (many1 p) (many1 p').
  Proof. intros H. apply agree_bind; auto. intros a i Hi. apply agree_many_loop; auto. Qed.
  Lemma agree_sep_loop {A B} fuel (s s' : P B) (p p' : P A) acc : agree s s' -> agree p p' -> agree (sep_loop fuel s p acc) (sep_loop fuel s' p' acc).
  Proof.
    intros Hs H. revert acc. induction fuel as [|fuel IH]; intros acc i Hi; cbn [sep_loop]; [split; [reflexivity|discriminate]|].
    destruct (Hs i Hi) as [-> E]. destruct (s' i) as [[[i' a]|]| |]; cbn [bind]; try (split; [reflexivity|discriminate]).
    - destruct (length i' =? length i); [split; [reflexivity|discriminate]|]. destruct (H i' (E _ _ eq_refl)) as [-> E'].
      destruct (p' i') as [[[i2 a2]|]| |]; cbn [bind]; try (split; [reflexivity|discriminate]); [|split; auto; intros i1 a1 [= <- _]; auto].
      apply IH. eauto.
    - split; auto. intros i1 a1 [= <- _]. auto.
  Qed.
  Lemma agree_sep1 {A B} (s s' : P B) (p p' : P A) : agree s s' -> agree p p' -> agree (separated_list1 s p) (separated_list1 s' p').
  Proof. intros Hs H. apply agree_bind; auto. intros a i Hi. apply agree_sep_loop; auto. Qed.
  Lemma agree_tag t : agree (tag t) (tag t).
  Proof.
    induction t as [|c t IH]; intros i Hi; (split; [reflexivity|]); cbn [tag].
    - intros i' a [= <- _]. auto.
    - destruct i as [|d i]; try discriminate. destruct (N.eqb c d); try discriminate. apply IH. eauto.
  Qed.
  Lemma agree_one_of l : agree (one_of l) (one_of l).
  Proof.
    intros [|c i] Hi; (split; [reflexivity|]); cbn [one_of]; try discriminate. destruct (mem c l); try discriminate. intros i' a [= <- _]. eauto.
  Qed.
  Lemma ok_skipn k i : ok i -> ok (skipn k i).
  Proof. revert i. induction k as [|k IH]; intros [|c i] H; cbn [skipn]; auto. apply IH. eauto. Qed.

  Variables seg seg' : str -> list str.
  Hypothesis same_seg : forall i, ok i -> seg i = seg' i.

  Lemma agree_cluster : agree (one_cluster seg) (one_cluster seg').
  Proof.
    intros i Hi. unfold one_cluster. rewrite same_seg by auto. split; auto. destruct (seg' i) as [|g l]; try discriminate. intros i' a [= <- _].
    apply ok_skipn; auto.
  Qed.
  Lemma agree_char : agree (p_regex_char seg) (p_regex_char seg').
  Proof.
    unfold p_regex_char, empty_lang, empty_str, pvalue, escaped_char, normal_char.
    apply agree_alt; [apply agree_map, agree_tag|]. apply agree_alt; [apply agree_map, agree_tag|].
    apply agree_alt; [apply agree_preceded; [apply agree_tag|apply agree_cluster]|apply agree_verify, agree_cluster].
  Qed.
  Lemma agree_expression fuel : agree (expression seg fuel) (expression seg' fuel).
  Proof.
    induction fuel as [|fuel IH]; [intros i Hi; split; [reflexivity|discriminate]|]. cbn [expression]. apply agree_mapR, agree_sep1; [apply agree_tag|].
    apply agree_mapR, agree_many1, agree_alt; apply agree_mapR, agree_pair; try (apply agree_opt, agree_one_of).
    - apply agree_delimited; auto using agree_tag.
    - apply agree_map, agree_char.
  Qed.
End Agree.

Lemma parse_regex_same (ok : str -> Prop) seg seg' u : (forall c i, ok (c :: i) -> ok i) -> (forall i, ok i -> seg i = seg' i) -> ok (trim u) ->
  parse_regex seg u = parse_regex seg' u.
Proof.
  intros H1 H2 H3. unfold parse_regex, parse_with, all_consuming. cbv zeta.
  destruct (agree_expression ok H1 seg seg' H2 (S (length (trim u))) (trim u) H3) as [-> _]. reflexivity.
Qed.

Definition singles (s : str) : list str := map (fun c => [c]) s.
Lemma plain_regex g u : splits_plainly g -> plain (trim u) -> parse_regex g u = parse_regex singles u.
Proof.
  intros Hg Hu. apply (parse_regex_same plain); auto. intros c i H x Hx. apply H. right. auto.
Qed.
Definition plainb (s : str) : bool := forallb (fun c => ((33 <=? c) && (c <=? 126) || (c =? 949))%N) s.
Lemma plainb_plain s : plainb s = true -> plain s.
Proof.
  unfold plainb. rewrite forallb_forall. intros H c Hc. apply H in Hc. apply orb_prop in Hc as [Hc|Hc].
  - apply andb_prop in Hc as [H1 H2]. apply N.leb_le in H1, H2. auto.
  - apply N.eqb_eq in Hc. auto.
Qed.
Lemma plain_dfa g d u : splits_plainly g -> plainb u = true -> dfa_accepts_graphemes g d u = dfa_accepts d (singles u).
Proof. intros Hg Hu. unfold dfa_accepts_graphemes, dfa_accepts. rewrite Hg by (apply plainb_plain; auto). reflexivity. Qed.
Lemma plain_nfa g n u : splits_plainly g -> plainb u = true -> nfa_accepts_graphemes g n u = nfa_accepts n (singles u).
Proof. intros Hg Hu. unfold nfa_accepts_graphemes, nfa_accepts. rewrite Hg by (apply plainb_plain; auto). reflexivity. Qed.

(** ** Languages from languages of states *)
Lemma dfa_by_states_in d (ok : nat -> Prop) (L : nat -> word -> Prop) : dfa_valid d -> ok (dfa_initial d) ->
  (forall p s, ok p -> nth_error (dfa_states d) p = Some s -> (L p [] <-> ds_accepting s = true)) ->
  (forall p s i a q w, ok p -> nth_error (dfa_states d) p = Some s -> nth_error (dfa_alphabet d) i = Some a ->
     nth_error (ds_transitions s) i = Some q -> over (dfa_alphabet d) w -> ok q /\ (L p (a :: w) <-> L q w)) ->
  forall w, dfa_lang d w <-> over (dfa_alphabet d) w /\ L (dfa_initial d) w.
Proof.
  intros V O0 Hn Hc w.
  assert (G : forall w p, ok p -> p < length (dfa_states d) -> (dfa_state_lang d p w <-> over (dfa_alphabet d) w /\ L p w)).
  { clear w. induction w as [|a w IH]; intros p O Hp; (destruct (nth_error (dfa_states d) p) as [s|] eqn:Es; [|apply nth_error_None in Es; lia]).
    - rewrite (Hn p s O Es). split.
      + intros (q & Hq & s' & Es' & Hs'). inversion Hq; subst. rewrite Es in Es'. injection Es' as <-. split; [constructor|auto].
      + intros [_ H]. exists p. split; [constructor|exists s; auto].
    - assert (Hq : forall i q, nth_error (dfa_alphabet d) i = Some a -> nth_error (ds_transitions s) i = Some q -> over (dfa_alphabet d) w ->
                  (dfa_state_lang d q w <-> over (dfa_alphabet d) w /\ L q w) /\ (L p (a :: w) <-> L q w)).
      { intros i q Hi Ht Ho. destruct (Hc p s i a q w O Es Hi Ht Ho) as [Oq E]. split; auto.
        apply IH; auto. apply (dv_range d V p s q Es), (nth_error_In _ _ Ht). }
      split.
      + intros (r & Hr & Ha). inversion Hr as [|? ? q ? ? (i & s' & Hi & Hs & Ht) Hp']; subst. rewrite Es in Hs. injection Hs as <-.
        assert (Hl : dfa_state_lang d q w) by (exists r; auto).
        assert (Ho : over (dfa_alphabet d) w).
        { clear - Hp'. induction Hp' as [|p a q w r (i & s & Hi & _) _ IH]; constructor; auto. apply (nth_error_In _ _ Hi). }
        destruct (Hq i q Hi Ht Ho) as [E1 E2]. split; [constructor; auto; apply (nth_error_In _ _ Hi)|]. apply E2, E1, Hl.
      + intros [Ho Hl]. apply Forall_inv_tail in Ho as Ho'. apply Forall_inv in Ho. apply In_nth_error in Ho as [i Hi].
        destruct (nth_error (ds_transitions s) i) as [q|] eqn:Ht.
        2: { apply nth_error_None in Ht. rewrite (dv_width d V p s Es) in Ht. apply nth_error_None in Ht. congruence. }
        destruct (Hq i q Hi Ht Ho') as [E1 E2]. apply E2 in Hl. destruct (proj2 E1 (conj Ho' Hl)) as (r & Hr & Ha).
        exists r. split; auto. apply dfa_path_cons with q; auto. exists i, s. auto. }
  apply G; auto. apply (dv_initial d V).
Qed.
Lemma dfa_by_states d (L : nat -> word -> Prop) : dfa_valid d ->
  (forall p s, nth_error (dfa_states d) p = Some s -> (L p [] <-> ds_accepting s = true)) ->
  (forall p s i a q w, nth_error (dfa_states d) p = Some s -> nth_error (dfa_alphabet d) i = Some a ->
     nth_error (ds_transitions s) i = Some q -> over (dfa_alphabet d) w -> (L p (a :: w) <-> L q w)) ->
  forall w, dfa_lang d w <-> over (dfa_alphabet d) w /\ L (dfa_initial d) w.
Proof. intros V Hn Hc. apply (dfa_by_states_in d (fun _ => True)); auto. intros; split; eauto. Qed.

Lemma nfa_by_states n (L : nat -> word -> Prop) : nfa_valid n -> eps_free n ->
  (forall p s, nth_error (nfa_states n) p = Some s -> (L p [] <-> ns_accepting s = true)) ->
  (forall p s i a ts w, nth_error (nfa_states n) p = Some s -> nth_error (nfa_alphabet n) i = Some a ->
     nth_error (ns_transitions s) i = Some ts -> over (nfa_alphabet n) w -> (L p (a :: w) <-> exists q, In q ts /\ L q w)) ->
  forall w, nfa_lang n w <-> over (nfa_alphabet n) w /\ L (nfa_initial n) w.
Proof.
  intros V F Hn Hc w. assert (G : forall w p, p < length (nfa_states n) -> (nfa_state_lang n p w <-> over (nfa_alphabet n) w /\ L p w)).
  { clear w. induction w as [|a w IH]; intros p Hp; (destruct (nth_error (nfa_states n) p) as [s|] eqn:Es; [|apply nth_error_None in Es; lia]).
    - rewrite (Hn p s Es). split.
      + intros (q & Hq & s' & Es' & Hs'). inversion Hq as [|? ? ? ? (s2 & E2 & I2) _|]; subst.
        * rewrite Es in Es'. injection Es' as <-. split; [constructor|auto].
        * rewrite (F _ _ E2) in I2. destruct I2.
      + intros [_ H]. exists p. split; [constructor|exists s; auto].
    - split.
      + intros (r & Hr & Ha). inversion Hr as [|? ? ? ? (s2 & E2 & I2) _|? ? q ? ? (i & s' & ts & Hi & Hs & Ht & Hin) Hq]; subst.
        { rewrite (F _ _ E2) in I2. destruct I2. }
        rewrite Es in Hs. injection Hs as <-.
        assert (Hl : nfa_state_lang n q w) by (exists r; auto).
        apply IH in Hl as [Ho Hl]; [|apply (nv_range n V p s ts q Es (nth_error_In _ _ Ht) Hin)].
        split; [constructor; auto; apply (nth_error_In _ _ Hi)|]. apply (Hc p s i a ts w); eauto.
      + intros [Ho Hl]. apply Forall_inv_tail in Ho as Ho'. apply Forall_inv in Ho. apply In_nth_error in Ho as [i Hi].
        destruct (nth_error (ns_transitions s) i) as [ts|] eqn:Ht.
        2: { apply nth_error_None in Ht. rewrite (nv_width n V p s Es) in Ht. apply nth_error_None in Ht. congruence. }
        apply (Hc p s i a ts w) in Hl as (q & Hq & Hl); auto.
        destruct (proj2 (IH q (nv_range n V p s ts q Es (nth_error_In _ _ Ht) Hq)) (conj Ho' Hl)) as (r & Hr & Ha).
        exists r. split; auto. apply nfa_path_cons with q; auto. exists i, s, ts. auto. }
  apply G, (nv_initial n V).
Qed.

(** ** The automata of the tables *)
Definition the_dfa (u : str) : dfa := match load_dfa u with Ret (Some d) => d | _ => ex_even end.
Definition the_nfa (u : str) : nfa := match load_nfa u with Ret (Some n) => n | _ => ex_nfa end.
Definition d_table : dfa := Eval vm_compute in the_dfa doc_table.
Definition d_equivalent : dfa := Eval vm_compute in the_dfa doc_equivalent_table.
Definition d_odd_as : dfa := Eval vm_compute in the_dfa odd_as_table.
Definition d_even_odd : dfa := Eval vm_compute in the_dfa even_odd_table.
Definition d_ends_with_a : dfa := Eval vm_compute in the_dfa ends_with_a_table.
Definition d_starts_with_b : dfa := Eval vm_compute in the_dfa starts_with_b_table.
Definition d_contains_a : dfa := Eval vm_compute in the_dfa contains_a_table.
Definition d_everything : dfa := Eval vm_compute in the_dfa accepts_everything_table.
Definition n_ends_with_aab : nfa := Eval vm_compute in the_nfa ends_with_aab_table.
Definition n_contains_babb : nfa := Eval vm_compute in the_nfa contains_babb_table.

Ltac dvalid := apply dfa_validb_valid; vm_compute; reflexivity.
Ltac nvalid := apply nfa_validb_valid; vm_compute; reflexivity.
Lemma d_table_valid : dfa_valid d_table. Proof. dvalid. Qed.
Lemma d_equivalent_valid : dfa_valid d_equivalent. Proof. dvalid. Qed.
Lemma d_odd_as_valid : dfa_valid d_odd_as. Proof. dvalid. Qed.
Lemma d_even_odd_valid : dfa_valid d_even_odd. Proof. dvalid. Qed.
Lemma d_ends_with_a_valid : dfa_valid d_ends_with_a. Proof. dvalid. Qed.
Lemma d_starts_with_b_valid : dfa_valid d_starts_with_b. Proof. dvalid. Qed.
Lemma d_contains_a_valid : dfa_valid d_contains_a. Proof. dvalid. Qed.
Lemma d_everything_valid : dfa_valid d_everything. Proof. dvalid. Qed.
Lemma n_ends_with_aab_valid : nfa_valid n_ends_with_aab. Proof. nvalid. Qed.
Lemma n_contains_babb_valid : nfa_valid n_contains_babb. Proof. nvalid. Qed.

(** [states_cases]: one goal per state, and per state and symbol *)
Ltac cases k := repeat (destruct k as [|k]; [|try discriminate]); try discriminate.
Ltac all_nil := intros p s Es; cases p; injection Es as <-; cbn [ds_accepting ns_accepting].
Ltac all_cons := intros p s i a q v Es Ei Eq Hw; cases p; injection Es as <-; cases i; injection Ei as <-; injection Eq as <-.

Lemma occ_cons a x w : occurrences a (x :: w) = (if list_eq_dec N.eq_dec x a then 1 else 0) + occurrences a w.
Proof. unfold occurrences. cbn [count_occ]. destruct (list_eq_dec N.eq_dec x a); reflexivity. Qed.

Lemma c_before_nil (c a : str) : ~ exists u v, ([] : word) = u ++ c :: v /\ ~ In a u.
Proof. intros (u & v & E & _). destruct u; discriminate. Qed.
Lemma c_before_cons c a x (w : word) : (exists u v, x :: w = u ++ c :: v /\ ~ In a u) <-> x = c \/ (x <> a /\ exists u v, w = u ++ c :: v /\ ~ In a u).
Proof.
  split.
  - intros (u & v & E & Hu). destruct u as [|y u]; injection E as -> ->; auto. right. split; [intros ->; apply Hu; left; auto|].
    exists u, v. split; auto. intros Hin. apply Hu. right. auto.
  - intros [-> |(Hx & u & v & -> & Hu)]; [exists [], w; auto|]. exists (x :: u), v. split; auto. intros [<- |Hin]; auto.
Qed.
Lemma only_cons (P : str -> Prop) x (w : word) : (forall y, In y (x :: w) -> P y) <-> P x /\ forall y, In y w -> P y.
Proof. split; [intros H; split; [apply H; left; auto|intros; apply H; right; auto]|]. intros [H1 H2] y [<- |Hy]; auto. Qed.

Ltac fin := repeat match goal with |- context [list_eq_dec N.eq_dec ?x ?y] =>
    let E := fresh in destruct (list_eq_dec N.eq_dec x y) as [E|E]; [try discriminate E|try (exfalso; apply E; reflexivity)]; clear E end;
  unfold la, lb, lc, l0, l1 in *; cbn [In]; try tauto; try (intuition (try congruence; try discriminate; try lia)).

Definition table_state (w : word) : Prop :=
  (forall x, In x w -> x = lb) \/ 2 <= occurrences la w \/ (exists u v, w = u ++ lc :: v /\ ~ In la u).
Lemma d_table_lang w : dfa_lang d_table w <-> documented_table_language w.
Proof.
  apply (dfa_by_states d_table (fun p w => match p with 0 => table_state w | 1 => 1 <= occurrences la w | _ => True end) d_table_valid).
  - all_nil; [split; auto; intros _; left; intros x []|split; [cbn; lia|discriminate]|tauto].
  - all_cons; unfold table_state; rewrite ?only_cons, ?c_before_cons, ?occ_cons; fin.
Qed.
Lemma d_equivalent_lang w : dfa_lang d_equivalent w <-> documented_table_language w.
Proof.
  apply (dfa_by_states d_equivalent (fun p w => match p with 0 => table_state w | 1 => True | _ => 1 <= occurrences la w end) d_equivalent_valid).
  - all_nil; [split; auto; intros _; left; intros x []|tauto|split; [cbn; lia|discriminate]|split; [cbn; lia|discriminate]].
  - all_cons; unfold table_state; rewrite ?only_cons, ?c_before_cons, ?occ_cons; fin.
Qed.
Lemma d_odd_as_lang w : dfa_lang d_odd_as w <-> odd_number_of_as w.
Proof.
  apply (dfa_by_states d_odd_as (fun p w => match p with 0 | 2 => Nat.odd (occurrences la w) = true | _ => Nat.odd (occurrences la w) = false end)
    d_odd_as_valid).
  - all_nil; cbn; intuition discriminate.
  - all_cons; rewrite ?occ_cons; fin; rewrite ?Nat.odd_add; cbn [Nat.odd Nat.even Nat.add negb xorb] in *;
      try (rewrite Nat.odd_succ in *); rewrite <- ?Nat.negb_odd in *; destruct (Nat.odd (occurrences _ v)); cbn in *; congruence.
Qed.
Lemma snoc_cons (x y : str) (w : word) : (exists u, x :: w = u ++ [y]) <-> (w = [] /\ x = y) \/ exists u, w = u ++ [y].
Proof.
  split.
  - intros (u & E). destruct u as [|z u]; injection E as -> ->; eauto.
  - intros [[-> ->]|(u & ->)]; [exists []; auto|exists (x :: u); auto].
Qed.
Lemma snoc_nil (y : str) : ~ exists u, ([] : word) = u ++ [y].
Proof. intros ([] & E); discriminate. Qed.
Lemma d_even_odd_lang w : dfa_lang d_even_odd w <-> odd_binary w.
Proof.
  apply (dfa_by_states d_even_odd (fun p w => match p with 0 => exists u, w = u ++ [l1] | _ => w = [] \/ exists u, w = u ++ [l1] end) d_even_odd_valid).
  - all_nil; pose proof (snoc_nil l1); intuition congruence.
  - all_cons; rewrite ?snoc_cons; fin.
Qed.
Lemma d_ends_with_a_lang w : dfa_lang d_ends_with_a w <-> ends_with_a w.
Proof.
  apply (dfa_by_states d_ends_with_a (fun p w => match p with 0 => exists u, w = u ++ [la] | _ => w = [] \/ exists u, w = u ++ [la] end) d_ends_with_a_valid).
  - all_nil; pose proof (snoc_nil la); intuition congruence.
  - all_cons; rewrite ?snoc_cons; fin.
Qed.
Lemma d_starts_with_b_lang w : dfa_lang d_starts_with_b w <-> starts_with_b w.
Proof.
  apply (dfa_by_states d_starts_with_b (fun p w => match p with 0 => exists u, w = lb :: u | 1 => False | _ => True end) d_starts_with_b_valid).
  - all_nil; try tauto; [|intuition discriminate]. split; [intros (u & E); discriminate|discriminate].
  - all_cons; try tauto; (split; [intros (u & E); try discriminate E; auto|try tauto; intros _; exists v; reflexivity]).
Qed.
Lemma d_contains_a_lang w : dfa_lang d_contains_a w <-> contains_a w.
Proof.
  apply (dfa_by_states d_contains_a (fun p w => match p with 0 => In la w | _ => True end) d_contains_a_valid).
  - all_nil; cbn; intuition discriminate.
  - all_cons; fin.
Qed.
Lemma d_everything_lang w : dfa_lang d_everything w <-> over [la; lb; lc] w.
Proof.
  rewrite (dfa_by_states_in d_everything (fun p => p = 0) (fun _ _ => True) d_everything_valid); [split; [intros H; apply H|intros H; split; auto]|reflexivity| |].
  - intros p s -> Es. injection Es as <-. cbn. tauto.
  - intros p s i a q v -> Es Ei Eq Hw. injection Es as <-. split; [|tauto]. cases i; injection Eq as <-; reflexivity.
Qed.

Lemma suffix_cons (s : word) (x : str) (w : word) : (exists u, x :: w = u ++ s) <-> x :: w = s \/ exists u, w = u ++ s.
Proof.
  split.
  - intros (u & E). destruct u as [|z u]; [auto|injection E as -> ->; eauto].
  - intros [E|(u & ->)]; [exists []; auto|exists (x :: u); auto].
Qed.
Lemma infix_cons (s : word) (x : str) (w : word) :
  (exists u v, x :: w = u ++ s ++ v) <-> (exists v, x :: w = s ++ v) \/ exists u v, w = u ++ s ++ v.
Proof.
  split.
  - intros (u & v & E). destruct u as [|z u]; [eauto|injection E as -> ->; eauto].
  - intros [(v & E)|(u & v & ->)]; [exists [], v; auto|exists (x :: u), v; auto].
Qed.
Lemma prefix_cons (y : str) (s : word) (x : str) (w : word) : (exists v, x :: w = (y :: s) ++ v) <-> x = y /\ exists v, w = s ++ v.
Proof. split; [intros (v & E); injection E as -> ->; eauto|intros (-> & v & ->); exists v; auto]. Qed.
Lemma two_targets (P : nat -> Prop) (q1 q2 : nat) : (exists q, In q [q1; q2] /\ P q) <-> P q1 \/ P q2.
Proof. split; [intros (q & [<- |[<- |[]]] & H); auto|intros [H|H]; [exists q1|exists q2]; cbn; auto]. Qed.
Lemma one_target (P : nat -> Prop) (q1 : nat) : (exists q, In q [q1] /\ P q) <-> P q1.
Proof. split; [intros (q & [<- |[]] & H); auto|intros H; exists q1; cbn; auto]. Qed.
Lemma no_target (P : nat -> Prop) : (exists q, In q [] /\ P q) <-> False.
Proof. split; [intros (q & [] & _)|intros []]. Qed.

Lemma n_ends_with_aab_lang w : nfa_lang n_ends_with_aab w <-> ends_with_aab w.
Proof.
  apply (nfa_by_states n_ends_with_aab (fun p w => match p with 0 => exists u, w = u ++ [la; la; lb] | 1 => w = [la; lb] | 2 => w = [lb] | _ => w = [] end)
    n_ends_with_aab_valid).
  - intros p s Es. cases p; injection Es as <-; reflexivity.
  - all_nil; try (intuition discriminate). split; [intros ([] & E); discriminate|discriminate].
  - all_cons; rewrite ?two_targets, ?one_target, ?no_target, ?suffix_cons; fin.
Qed.
Lemma n_contains_babb_lang w : nfa_lang n_contains_babb w <-> contains_babb w.
Proof.
  apply (nfa_by_states n_contains_babb (fun p w => match p with
      0 => exists u v, w = u ++ [lb; la; lb; lb] ++ v | 1 => exists v, w = [la; lb; lb] ++ v | 2 => exists v, w = [lb; lb] ++ v
    | 3 => exists v, w = [lb] ++ v | _ => True end) n_contains_babb_valid).
  - intros p s Es. cases p; injection Es as <-; reflexivity.
  - all_nil; try tauto; (split; [|discriminate]); try (intros (v & E); discriminate E). intros ([] & v & E); discriminate E.
  - all_cons; rewrite ?two_targets, ?one_target, ?no_target, ?infix_cons, ?prefix_cons; fin; try (eexists; reflexivity).
Qed.

(** ** The regular expressions *)
Lemma char_iff g w : matches (RChar (RGrapheme g)) w <-> w = [g].
Proof. split; [intros H; inversion H; auto|intros ->; constructor]. Qed.
Lemma eps_iff w : matches (RChar REpsilon) w <-> w = [].
Proof. split; [intros H; inversion H; auto|intros ->; constructor]. Qed.
Lemma seq2_iff x y w : matches (RSequence [x; y]) w <-> exists w1 w2, w = w1 ++ w2 /\ matches x w1 /\ matches y w2.
Proof.
  rewrite matches_seq_iff. change [x; y] with ([x] ++ [y]). rewrite matches_seq_app. split; intros (w1 & w2 & -> & H1 & H2); exists w1, w2; rewrite ?matches_seq_one in *; auto.
Qed.
Lemma seq3_iff x y z w : matches (RSequence [x; y; z]) w <-> exists w1 w2 w3, w = w1 ++ w2 ++ w3 /\ matches x w1 /\ matches y w2 /\ matches z w3.
Proof.
  rewrite matches_seq_iff. change [x; y; z] with ([x] ++ [y; z]). rewrite matches_seq_app. split.
  - intros (w1 & w2 & -> & H1 & H2). rewrite matches_seq_one in H1. rewrite <- matches_seq_iff, seq2_iff in H2. destruct H2 as (u & v & -> & H2 & H3). exists w1, u, v. auto.
  - intros (w1 & w2 & w3 & -> & H1 & H2 & H3). exists w1, (w2 ++ w3). rewrite matches_seq_one. split; auto. split; auto. rewrite <- matches_seq_iff, seq2_iff. exists w2, w3. auto.
Qed.
Lemma alt2_iff x y w : matches (RAlt [x; y]) w <-> matches x w \/ matches y w.
Proof. rewrite matches_alt. split; [intros (r & [<- |[<- |[]]] & H); auto|intros [H|H]; [exists x|exists y]; cbn; auto]. Qed.
Lemma rep_power t u w : (forall w, matches t w <-> w = u) -> (matches (RRepeat t) w <-> exists k, w = power u k).
Proof.
  intros H. rewrite repeat_iff. split.
  - intros (ws & Hf & ->). exists (length ws). unfold power. f_equal. induction Hf as [|x l Hx _ IH]; auto. cbn. apply H in Hx. congruence.
  - intros (k & ->). exists (repeat u k). split; auto. apply Forall_forall. intros x Hx. apply repeat_spec in Hx. apply H. auto.
Qed.
Lemma power_single (a : str) k : power [a] k = repeat a k.
Proof. unfold power. induction k as [|k IH]; auto. cbn. f_equal. exact IH. Qed.

Definition t_ab : regex_tree := RSequence [RChar (RGrapheme la); RChar (RGrapheme lb)].
Lemma t_ab_iff w : matches t_ab w <-> w = [la; lb].
Proof.
  unfold t_ab. rewrite seq2_iff. split.
  - intros (w1 & w2 & -> & H1 & H2). rewrite char_iff in *. subst. reflexivity.
  - intros ->. exists [la], [lb]. rewrite !char_iff. auto.
Qed.
Definition t_plus : regex_tree := RSequence [t_ab; RRepeat t_ab].
Lemma t_plus_iff w : matches t_plus w <-> ab_plus w.
Proof.
  unfold t_plus. rewrite seq2_iff. split.
  - intros (w1 & w2 & -> & H1 & H2). rewrite t_ab_iff in H1. rewrite (rep_power _ _ _ t_ab_iff) in H2. destruct H2 as (k & ->). subst. exists (S k). split; [lia|reflexivity].
  - intros (k & Hk & ->). destruct k as [|k]; [lia|]. exists [la; lb], (power [la; lb] k). split; [reflexivity|]. rewrite t_ab_iff, (rep_power _ _ _ t_ab_iff). eauto.
Qed.
Definition t_star : regex_tree := RRepeat t_ab.
Lemma t_star_iff w : matches t_star w <-> ab_star w.
Proof. apply rep_power, t_ab_iff. Qed.
Definition t_plus_c : regex_tree := RSequence [t_plus; RChar (RGrapheme lc)].
Lemma t_plus_c_iff w : matches t_plus_c w <-> ab_plus_c w.
Proof.
  unfold t_plus_c. rewrite seq2_iff. split.
  - intros (w1 & w2 & -> & H1 & H2). rewrite t_plus_iff in H1. rewrite char_iff in H2. destruct H1 as (k & Hk & ->). subst. exists k. auto.
  - intros (k & Hk & ->). exists (power [la; lb] k), [lc]. rewrite t_plus_iff, char_iff. split; [reflexivity|]. split; [exists k; auto|reflexivity].
Qed.
Definition t_c_c : regex_tree :=
  RSequence [RChar (RGrapheme lc); RRepeat (RAlt [RChar (RGrapheme la); RChar (RGrapheme lb)]); RChar (RGrapheme lc)].
Lemma t_c_c_iff w : matches t_c_c w <-> c_ab_c w.
Proof.
  unfold t_c_c. rewrite seq3_iff. split.
  - intros (w1 & w2 & w3 & -> & H1 & H2 & H3). rewrite char_iff in H1, H3. subst. exists w2. split; auto. apply repeat_iff in H2 as (ws & Hf & ->).
    induction Hf as [|x l Hx _ IH]; [constructor|]. cbn. rewrite alt2_iff, !char_iff in Hx. destruct Hx as [-> | ->]; constructor; cbn; auto.
  - intros (u & Ho & ->). exists [lc], u, [lc]. rewrite char_iff. split; auto. split; auto. split; auto. apply repeat_iff. exists (map (fun x => [x]) u).
    split; [|induction Ho; cbn; congruence]. apply Forall_forall. intros x Hx. apply in_map_iff in Hx as (y & <- & Hy). unfold over in Ho. rewrite Forall_forall in Ho.
    rewrite alt2_iff, !char_iff. destruct (Ho y Hy) as [<- |[<- |[]]]; auto.
Qed.
Definition t_zeros : regex_tree :=
  RSequence [RRepeat (RChar (RGrapheme l0)); RChar (RGrapheme l1); RAlt [RChar (RGrapheme l0); RChar REpsilon]].
Lemma t_zeros_iff w : matches t_zeros w <-> zeros_one w.
Proof.
  unfold t_zeros. rewrite seq3_iff. split.
  - intros (w1 & w2 & w3 & -> & H1 & H2 & H3). rewrite char_iff in H2. rewrite (rep_power _ _ _ (char_iff l0)) in H1. destruct H1 as (k & ->).
    rewrite power_single. rewrite alt2_iff, char_iff, eps_iff in H3. subst. exists k. destruct H3 as [-> | ->]; auto.
  - intros (k & [-> | ->]).
    + exists (repeat l0 k), [l1], []. rewrite (rep_power _ _ _ (char_iff l0)), alt2_iff, char_iff, eps_iff. split; auto. split; [exists k; symmetry; apply power_single|auto].
    + exists (repeat l0 k), [l1], [l0]. rewrite (rep_power _ _ _ (char_iff l0)), alt2_iff, !char_iff. split; auto. split; [exists k; symmetry; apply power_single|auto].
Qed.

Definition t_zeros_plus : regex_tree :=
  RSequence [RRepeat (RChar (RGrapheme l0)); RChar (RGrapheme l1);
             RSequence [RSequence [RChar (RGrapheme l0); RRepeat (RChar (RGrapheme l0))]; RChar REpsilon]].
Lemma t_zeros_plus_iff w : matches t_zeros_plus w <-> zeros_one_zeros w.
Proof.
  assert (R : forall w, matches (RRepeat (RChar (RGrapheme l0))) w <-> exists k, w = repeat l0 k).
  { intros u. rewrite (rep_power _ _ _ (char_iff l0)). split; intros (k & ->); exists k; [apply power_single|symmetry; apply power_single]. }
  unfold t_zeros_plus. rewrite seq3_iff. split.
  - intros (w1 & w2 & w3 & -> & H1 & H2 & H3). rewrite char_iff in H2. apply R in H1 as (k & ->). apply seq2_iff in H3 as (w4 & w5 & -> & H3 & H5).
    apply eps_iff in H5. apply seq2_iff in H3 as (w6 & w7 & -> & H6 & H7). apply char_iff in H6. apply R in H7 as (j & ->). subst. exists k, j.
    rewrite app_nil_r. reflexivity.
  - intros (k & j & ->). exists (repeat l0 k), [l1], (repeat l0 (S j)). split; [reflexivity|]. split; [apply R; eauto|]. split; [apply char_iff; reflexivity|].
    apply seq2_iff. exists (repeat l0 (S j)), []. split; [rewrite app_nil_r; reflexivity|]. split; [|apply eps_iff; reflexivity].
    apply seq2_iff. exists [l0], (repeat l0 j). split; [reflexivity|]. split; [apply char_iff; reflexivity|apply R; eauto].
Qed.

(** ** What the iterators list depends on the language and the order of the alphabet only *)
Lemma words_language_only n n' k : nfa_valid n -> nfa_valid n' -> eps_free n -> eps_free n' -> nfa_alphabet n = nfa_alphabet n' ->
  (forall w, nfa_lang n w <-> nfa_lang n' w) ->
  word_component_indices_calls n k = word_component_indices_calls n' k /\ word_components_calls n k = word_components_calls n' k /\
  words_calls n k = words_calls n' k.
Proof.
  intros V V' F F' A L.
  assert (C : exists ws, word_components_calls n k = Ret (map Some ws ++ repeat None (k - length ws)) /\
                         word_components_calls n' k = Ret (map Some ws ++ repeat None (k - length ws))).
  { destruct (word_components_correct n k V F) as (l & ws & E & Hl & S & HF & H1 & H2).
    destruct (word_components_correct n' k V' F') as (l' & ws' & E' & Hl' & S' & HF' & H1' & H2').
    pose proof (Forall2_len _ _ _ HF) as HL. pose proof (Forall2_len _ _ _ HF') as HL'. unfold word in *.
    assert (ws = ws'); [|subst; eauto]. apply (first_words_unique (nfa_alphabet n) (nfa_lang n) k); [apply V| |].
    - split; [unfold word in *; lia|]. split; auto. exists l. auto.
    - apply (first_words_ext _ (nfa_lang n')); [intros w; symmetry; apply L|]. rewrite A. split; [unfold word in *; lia|]. split; auto. exists l'. auto. }
  destruct C as (ws & C1 & C2). split; [|split; [congruence|]].
  - destruct (word_component_indices_correct n k V F) as (l & -> & H1 & H2 & H3 & H4).
    destruct (word_component_indices_correct n' k V' F') as (l' & -> & H1' & H2' & H3' & H4').
    assert (l = l'); [|subst; auto]. apply (shortlex_prefix_unique (fun x => exists w, spells (nfa_alphabet n) x w /\ nfa_lang n w) k); auto.
    + intros x (w & Hx & Hw). eauto.
    + intros x Hx. destruct (H3' x Hx) as (w & Hs & Hw). exists w. rewrite A, L. auto.
    + intros x (w & Hx & Hw). rewrite A in Hx. apply L in Hw. eauto.
  - destruct (words_correct n k V F) as (w1 & E1 & ->). destruct (words_correct n' k V' F') as (w2 & E2 & ->).
    assert (I : forall (l l' : list word) a b, map Some l ++ repeat None a = map Some l' ++ repeat None b -> l = l').
    { clear. induction l as [|x l IH]; intros [|y l'] a b E; cbn in E; auto; try (exfalso; destruct a; discriminate); try (exfalso; destruct b; discriminate).
      injection E as -> E. f_equal. eauto. }
    rewrite E1 in C1. rewrite E2 in C2. injection C1 as C1. injection C2 as C2. apply I in C1, C2. congruence.
Qed.

Lemma plain_only g d : splits_plainly g -> forallb plainb (dfa_alphabet d) = true -> dfa_graphemes_only g d = dfa_graphemes_only singles d.
Proof.
  intros Hg H. unfold dfa_graphemes_only. rewrite forallb_forall in H. induction (dfa_alphabet d) as [|a l IH]; auto. cbn [forallb].
  rewrite Hg by (apply plainb_plain, H; left; auto). f_equal. apply IH. intros x Hx. apply H. right. auto.
Qed.
Lemma plain_only_nfa g n : splits_plainly g -> forallb plainb (nfa_alphabet n) = true -> nfa_graphemes_only g n = nfa_graphemes_only singles n.
Proof.
  intros Hg H. unfold nfa_graphemes_only. rewrite forallb_forall in H. induction (nfa_alphabet n) as [|a l IH]; auto. cbn [forallb].
  rewrite Hg by (apply plainb_plain, H; left; auto). f_equal. apply IH. intros x Hx. apply H. right. auto.
Qed.

Lemma decides_dfa d L : dfa_valid d -> (forall w, dfa_lang d w <-> L w) -> decides (dfa_accepts d) L.
Proof. intros V H w. destruct (dfa_accepts_correct d w V) as (b & -> & Hb). exists b. split; auto. rewrite Hb. apply H. Qed.
Lemma decides_nfa n L : nfa_valid n -> (forall w, nfa_lang n w <-> L w) -> decides (nfa_accepts n) L.
Proof. intros V H w. destruct (nfa_accepts_correct n w V) as (b & -> & Hb). exists b. split; auto. rewrite Hb. apply H. Qed.

Lemma three_words n o1 o2 o3 (b1 b2 b3 : option str -> bool) : words_calls n 3 = Ret [o1; o2; o3] -> b1 o1 = true -> b2 o2 = true -> b3 o3 = true ->
  (words <- words_new n ;;
   '(words, w) <- words_next words ;; _ <- assert_that (b1 w) ;;
   '(words, w) <- words_next words ;; _ <- assert_that (b2 w) ;;
   '(words, w) <- words_next words ;; assert_that (b3 w)) = Ret tt.
Proof.
  unfold words_calls. intros H H1 H2 H3. destruct (words_new n) as [wi| |]; cbn [bind iter_calls] in *; try discriminate.
  destruct (words_next wi) as [[wi1 w1]| |]; cbn [bind] in *; try discriminate.
  destruct (words_next wi1) as [[wi2 w2]| |]; cbn [bind] in *; try discriminate.
  destruct (words_next wi2) as [[wi3 w3]| |]; cbn [bind] in *; try discriminate.
  injection H as -> -> ->. unfold assert_that. rewrite H1, H2, H3. reflexivity.
Qed.
