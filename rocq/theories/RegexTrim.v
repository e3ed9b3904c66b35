(** * RegexTrim: printing and parsing expressions with whitespace symbols at the ends *)
From Coq Require Import List NArith Arith Lia Bool.
From Verif Require Import Base BaseLemmas Spec TableSpec LayoutSpec RegexSpec RegexTrimSpec ParserModel ParserBasics FaParserProofs RegexModel RegexProofs
  RegexParserModel RegexParserProofs RegexPrintProofs RegexSymbols RegexUnescape.
Import ListNotations.

(** ** Parts *)
Lemma parts_string t : flat_map regex_to_string (parts t) = regex_to_string t.
Proof.
  induction t as [l IH|l IH|r IH|c] using regex_ind'; try (cbn [parts flat_map]; apply app_nil_r).
  cbn [parts regex_to_string]. induction IH as [|x l Hx HF IHl]; auto. cbn [flat_map]. rewrite flat_map_app, Hx, IHl. reflexivity.
Qed.
Lemma parts_graphemes t : flat_map regex_graphemes (parts t) = regex_graphemes t.
Proof.
  induction t as [l IH|l IH|r IH|c] using regex_ind'; try (cbn [parts flat_map]; apply app_nil_r).
  cbn [parts regex_graphemes]. induction IH as [|x l Hx HF IHl]; auto. cbn [flat_map]. rewrite flat_map_app, Hx, IHl. reflexivity.
Qed.
Lemma seq_single t w : matches_seq [t] w <-> matches t w.
Proof. apply matches_seq_one. Qed.
Lemma parts_matches t w : matches_seq (parts t) w <-> matches t w.
Proof.
  revert w. induction t as [l IH|l IH|r IH|c] using regex_ind'; intros w; try apply seq_single.
  cbn [parts]. rewrite matches_seq_iff. revert w. induction IH as [|x l Hx HF IHl]; intros w; [reflexivity|].
  cbn [flat_map]. rewrite matches_seq_app. change (x :: l) with ([x] ++ l). rewrite matches_seq_app.
  split; intros (w1 & w2 & -> & H1 & H2); exists w1, w2; (split; [auto|]).
  - rewrite seq_single, <- Hx, <- IHl. auto.
  - rewrite seq_single, <- Hx, <- IHl in *. auto.
Qed.
Lemma parts_parsed Q t : parsed_tree Q t -> Forall (parsed_tree Q) (parts t).
Proof.
  induction t as [l IH|l IH|r IH|c] using regex_ind'; intros H; try (constructor; auto; fail).
  cbn [parts]. inversion H as [l' Hn HF| | | | |]; subst. clear H Hn. induction IH as [|x l Hx HF' IHl]; [constructor|].
  inversion HF; subst. cbn [flat_map]. apply Forall_app. auto.
Qed.

Lemma parts_nonempty Q t : parsed_tree Q t -> parts t <> [].
Proof.
  induction t as [l IH|l IH|r IH|c] using regex_ind'; intros H; cbn [parts]; try discriminate.
  inversion H as [l' Hn HF| | | | |]; subst. destruct l as [|x l]; [congruence|]. cbn [flat_map].
  inversion HF; subst. inversion IH as [|? ? Hx _]; subst. intros E. apply app_eq_nil in E as (E & _). exact (Hx H2 E).
Qed.
Lemma parsed_graphemes (Q : str -> Prop) t : parsed_tree Q t -> forall g, In g (regex_graphemes t) -> Q g.
Proof.
  induction t as [l IH|l IH|r IH|c] using regex_ind'; intros H g Hg; inversion H as [l' Hn HF|l' Hn HF| | | |g' HQ]; subst; cbn [regex_graphemes] in Hg.
  1, 2: rewrite Forall_forall in *; apply in_flat_map in Hg as (x & Hx & Hg); eauto.
  - eauto.
  - destruct Hg.
  - destruct Hg.
  - destruct Hg as [<-|[]]. auto.
Qed.

(** ** Cutting off blank parts *)
Definition is_blank (x : regex_tree) : bool :=
  match x with
  | RChar (RGrapheme g) => forallb is_whitespace g
  | _ => false
  end.
Lemma is_blank_spec x : is_blank x = true <-> blank x.
Proof.
  unfold blank. destruct x as [l|l|r|[g| |]]; cbn [is_blank]; try (split; [discriminate|intros (g' & E & _); discriminate]).
  rewrite forallb_forall. split.
  - intros H. exists g. split; auto. intros c Hc. apply is_whitespace_spec. auto.
  - intros (g' & E & H) c Hc. injection E as <-. apply is_whitespace_spec. auto.
Qed.
Fixpoint drop_blank (l : list regex_tree) : list regex_tree :=
  match l with
  | [] => []
  | x :: k => if is_blank x then drop_blank k else l
  end.
Lemma drop_blank_split l : exists b, l = b ++ drop_blank l /\ (forall x, In x b -> blank x) /\ forall x k, drop_blank l = x :: k -> ~ blank x.
Proof.
  induction l as [|x l (b & E & Hb & Hd)]; [exists []; split; [auto|]; split; [intros x []|discriminate]|]. cbn [drop_blank]. destruct (is_blank x) eqn:B.
  - exists (x :: b). split; [rewrite E at 1; reflexivity|]. split; auto. intros y [<-|Hy]; auto. apply is_blank_spec. auto.
  - exists []. split; auto. split; [intros y []|]. intros y k H. injection H as <- <-. rewrite <- is_blank_spec, B. discriminate.
Qed.
Lemma strips_exist l : exists b k a, strips_to l b k a.
Proof.
  destruct (drop_blank_split l) as (b & E & Hb & H1). destruct (drop_blank_split (rev (drop_blank l))) as (a & Ea & Ha & H2).
  exists b, (rev (drop_blank (rev (drop_blank l)))), (rev a).
  assert (K : drop_blank l = rev (drop_blank (rev (drop_blank l))) ++ rev a) by (rewrite <- rev_app_distr, <- Ea, rev_involutive; reflexivity).
  split; [rewrite <- K; exact E|]. split; [|split].
  - intros x [Hx|Hx]; auto. apply Ha, in_rev. auto.
  - intros x k E'. rewrite E' in K. exact (H1 x _ K).
  - intros x k E'. apply (H2 x (rev k)). apply (f_equal (@rev regex_tree)) in E'. rewrite rev_involutive, rev_app_distr in E'. exact E'.
Qed.

(** ** Their texts *)
Lemma syntax_not_ws c : syntax_char c -> ~ whitespace c.
Proof. unfold syntax_char, whitespace. simpl. lia. Qed.
Lemma blank_string x : blank x -> forall c, In c (regex_to_string x) -> whitespace c.
Proof.
  intros (g & -> & H) c. cbn [regex_to_string]. unfold grapheme_string. destruct g as [|d [|e g]]; auto.
  destruct ((d <? 128)%N && is_reserved_char d) eqn:E; auto. apply andb_prop in E as (_ & E).
  exfalso. apply (syntax_not_ws d); [|apply H; left; auto]. apply is_reserved_spec. auto.
Qed.
Lemma snoc_last {A} (l1 l2 : list A) x y : l1 ++ [x] = l2 ++ [y] -> x = y.
Proof. intros H. apply app_inj_tail in H as (_ & H). auto. Qed.
Lemma solid_string x : (forall g, In g (regex_graphemes x) -> g <> [] /\ plain_ends g) -> ~ blank x -> (forall l, x <> RSequence l) ->
  exists c v v' c', regex_to_string x = c :: v /\ regex_to_string x = v' ++ [c'] /\ ~ whitespace c /\ ~ whitespace c'.
Proof.
  intros Hg Hb Hs. destruct x as [l|l|r|[g| |]].
  - destruct (Hs l eq_refl).
  - cbn [regex_to_string]. eexists 40%N, _, _, 41%N. split; [reflexivity|]. split; [rewrite app_assoc; reflexivity|]. unfold whitespace. lia.
  - cbn [regex_to_string]. eexists 40%N, _, ([40%N] ++ regex_to_string r ++ [41%N]), 42%N. split; [reflexivity|].
    split; [rewrite <- !app_assoc; reflexivity|]. unfold whitespace. lia.
  - destruct (Hg g (or_introl eq_refl)) as (Hn & [Hw|(H1 & H2)]).
    { destruct Hb. exists g. auto. }
    cbn [regex_to_string]. unfold grapheme_string. destruct g as [|d [|e g]]; [congruence| |].
    + pose proof (H1 d [] eq_refl) as Hd. destruct ((d <? 128)%N && is_reserved_char d).
      * exists 92%N, [d], [92%N], d. split; auto. split; auto. split; auto. unfold whitespace. lia.
      * exists d, [], [], d. auto.
    + destruct (exists_last (l := d :: e :: g)) as (v' & c' & E); [discriminate|]. exists d, (e :: g), v', c'. split; auto. split; auto.
      split; [exact (H1 _ _ eq_refl)|exact (H2 _ _ E)].
  - exists 949%N, [], [], 949%N. unfold whitespace. cbn. repeat split; lia.
  - exists 8709%N, [], [], 8709%N. unfold whitespace. cbn. repeat split; lia.
Qed.
Lemma parts_not_seq t x : In x (parts t) -> forall l, x <> RSequence l.
Proof.
  induction t as [l IH|l IH|r IH|c] using regex_ind'; cbn [parts]; try (intros [<-|[]] l'; discriminate).
  intros Hx. apply in_flat_map in Hx as (y & Hy & Hx). rewrite Forall_forall in IH. exact (IH y Hy Hx).
Qed.
Lemma strips_trims t b k a : (forall g, In g (regex_graphemes t) -> g <> [] /\ plain_ends g) -> strips_to (parts t) b k a ->
  trims_to (regex_to_string t) (flat_map regex_to_string k).
Proof.
  intros Hg (E & Hb & H1 & H2). exists (flat_map regex_to_string b), (flat_map regex_to_string a).
  assert (Hk : forall x, In x k -> In x (parts t)) by (intros x Hx; rewrite E; apply in_app_iff; right; apply in_app_iff; auto).
  assert (Hgk : forall x, In x k -> forall g, In g (regex_graphemes x) -> g <> [] /\ plain_ends g).
  { intros x Hx g Hgx. apply Hg. rewrite <- parts_graphemes. apply in_flat_map. eauto. }
  split; [rewrite <- parts_string, E, !flat_map_app; reflexivity|]. split; [|split].
  - intros c [Hc|Hc]; apply in_flat_map in Hc as (x & Hx & Hc); apply (blank_string x); auto.
  - intros c v' Ec. destruct k as [|x k]; [discriminate|].
    destruct (solid_string x (Hgk x (or_introl eq_refl)) (H1 _ _ eq_refl) (parts_not_seq t x (Hk x (or_introl eq_refl)))) as (d & v & _ & _ & Ed & _ & Hd & _).
    cbn [flat_map] in Ec. rewrite Ed in Ec. injection Ec as <- _. exact Hd.
  - intros c v' Ec. destruct k as [|x0 k0]; [destruct v'; discriminate|]. destruct (exists_last (l := x0 :: k0)) as (k' & x & Ek); [discriminate|].
    rewrite Ek in *. assert (Hx : In x (k' ++ [x])) by (apply in_app_iff; right; left; auto).
    destruct (solid_string x (Hgk x Hx) (H2 _ _ eq_refl) (parts_not_seq t x (Hk x Hx))) as (_ & _ & v & d & _ & Ed & _ & Hd).
    rewrite flat_map_app in Ec. cbn [flat_map] in Ec. rewrite app_nil_r, Ed, app_assoc in Ec. apply snoc_last in Ec. subst d. exact Hd.
Qed.

(** ** What the printed text is read as *)
Lemma trims_parse seg u v : trims_to u v -> parse_regex seg u = parse_regex seg v.
Proof.
  intros H. pose proof (proj1 (trim_spec u v) H) as E.
  assert (E' : trim v = v).
  { apply trim_spec. destruct H as (_ & _ & _ & _ & H1 & H2). exists [], []. rewrite app_nil_r. split; [auto|]. split; [intros c [[]|[]]|]. auto. }
  unfold parse_regex, parse_with, all_consuming. cbv zeta. rewrite E, E'. reflexivity.
Qed.
Lemma empty_regex_none seg : seg [] = [] -> parse_regex seg [] = Ret None.
Proof. intros S. vm_compute. rewrite S. reflexivity. Qed.
Lemma list_nil_dec {A} (l : list A) : l = [] \/ l <> [].
Proof. destruct l; [left|right]; auto; discriminate. Qed.
Lemma print_parse_stripped seg u t : divides seg -> parse_regex seg u = Ret (Some t) ->
  (forall g, In g (regex_graphemes t) -> (syntax_head g -> length g = 1) /\ plain_ends g) -> apart seg t ->
  forall b k a, strips_to (parts t) b k a ->
    (k = [] -> parse_regex seg (regex_to_string t) = Ret None) /\
    (k <> [] -> exists t', parse_regex seg (regex_to_string t) = Ret (Some t') /\
       (forall w, matches t' w <-> matches (unescaped (RSequence k)) w) /\
       forall g, In g (regex_graphemes t') <-> In g (regex_graphemes (RSequence k)) /\ g <> [949%N] /\ g <> [8709%N]).
Proof.
  intros Hd H Hg Ha b k a Hs. pose proof (parse_regex_tree seg t u Hd H) as Ht.
  assert (Hne : forall g, In g (regex_graphemes t) -> g <> [] /\ plain_ends g).
  { intros g Hi. split; [|apply Hg; auto]. apply (parsed_graphemes _ t Ht). auto. }
  pose proof (strips_trims t b k a Hne Hs) as Htr. rewrite (trims_parse seg _ _ Htr).
  assert (Hk : forall g, In g (regex_graphemes (RSequence k)) -> In g (regex_graphemes t)).
  { intros g Hi. rewrite <- parts_graphemes, (proj1 Hs), !flat_map_app. apply in_app_iff. right. apply in_app_iff. left. exact Hi. }
  split.
  - intros ->. cbn [flat_map]. apply empty_regex_none. destruct (Hd []) as (E & Hn). destruct (seg []) as [|x l]; auto.
    cbn [concat] in E. apply app_eq_nil in E as (-> & _). destruct Hn. left. auto.
  - intros Hn. change (flat_map regex_to_string k) with (regex_to_string (RSequence k)).
    destruct (print_parse_symbols seg (unescaped (RSequence k))) as (t' & E & L & S); auto.
    + apply parsed_printable.
      * apply unescaped_parsed. constructor; auto. pose proof (parts_parsed _ _ Ht) as HF. rewrite (proj1 Hs), !Forall_app in HF. tauto.
      * intros g Hi. apply unescaped_symbols in Hi as (Hi & ? & ?). split; auto. split; auto. apply Hg, Hk. auto.
    + intros hs Hh. apply Ha. intros g Hi. destruct (Hh g Hi) as [Hi'|Hi']; auto. apply unescaped_symbols in Hi'. left. apply Hk. tauto.
    + rewrite unescaped_string. destruct Htr as (_ & _ & _ & _ & H1 & H2).
      exists [], []. rewrite app_nil_r. split; [auto|]. split; [intros c [[]|[]]|]. split; [exact H1|exact H2].
    + rewrite unescaped_string in E. exists t'. split; auto. split; auto. intros g. rewrite S. apply unescaped_symbols.
Qed.

(** ** When nothing is lost *)
Lemma blank_word x w : blank x -> matches x w -> length w = 1.
Proof. intros (g & -> & _) H. inversion H; subst. reflexivity. Qed.
Lemma blank_words l w : (forall x, In x l -> blank x) -> matches_seq l w -> length w = length l.
Proof.
  revert w. induction l as [|x l IH]; intros w Hl H; inversion H; subst; auto. rewrite app_length. cbn [length].
  rewrite (IH w2), (blank_word x w1); [lia| | | |]; auto; [apply Hl; left; auto|]. intros y Hy. apply Hl. right. auto.
Qed.
Lemma strips_longer t b k a w : strips_to (parts t) b k a -> matches t w -> exists v, matches_seq k v /\ length w = length b + length v + length a.
Proof.
  intros (E & Hb & _) H. apply parts_matches in H. rewrite E in H. apply matches_seq_app in H as (w1 & w2 & -> & M1 & M2).
  apply matches_seq_app in M2 as (w3 & w4 & -> & M3 & M4). exists w3. split; auto. rewrite !app_length.
  rewrite (blank_words b w1), (blank_words a w4); auto. lia.
Qed.
Lemma strips_empty t b k a : strips_to (parts t) b k a -> ~ (b = [] /\ a = []) -> (forall w, matches_seq k w <-> matches t w) -> forall w, ~ matches t w.
Proof.
  intros Hs Hne Hk w. remember (length w) as n eqn:En. revert w En. induction n as [n IH] using lt_wf_ind. intros w -> M.
  destruct (strips_longer t b k a w Hs M) as (v & Mv & El). apply (IH (length v)) with (w := v); auto; [|apply Hk; auto].
  destruct b as [|x b]; [destruct a as [|x a]; [tauto|]|]; cbn [length] in El; lia.
Qed.
Lemma strips_nothing t b k a : strips_to (parts t) b k a -> (forall w, ~ matches t w) -> forall w, ~ matches_seq k w.
Proof.
  intros (E & Hb & _) H w M.
  assert (K : forall l, (forall x, In x l -> blank x) -> exists v, matches_seq l v).
  { induction l as [|x l IH]; intros Hl; [exists []; constructor|]. destruct IH as (v & Mv); [intros y Hy; apply Hl; right; auto|].
    destruct (Hl x (or_introl eq_refl)) as (g & -> & _). exists ([g] ++ v). constructor; auto. constructor. }
  destruct (K b) as (v1 & M1); [auto|]. destruct (K a) as (v2 & M2); [auto|].
  apply (H (v1 ++ w ++ v2)). apply parts_matches. rewrite E. apply matches_seq_app. exists v1, (w ++ v2). split; auto. split; auto.
  apply matches_seq_app. exists w, v2. auto.
Qed.
Lemma print_parse_stripped_iff seg u t : divides seg -> parse_regex seg u = Ret (Some t) ->
  (forall g, In g (regex_graphemes t) -> (syntax_head g -> length g = 1) /\ plain_ends g) -> apart seg t ->
  forall b k a, strips_to (parts t) b k a ->
    ((exists t', parse_regex seg (regex_to_string t) = Ret (Some t') /\ (forall w, matches t' w <-> matches t w) /\
       forall g, In g (regex_graphemes t') <-> In g (regex_graphemes t)) <->
     ~ In [949%N] (regex_graphemes t) /\ ~ In [8709%N] (regex_graphemes t) /\
     (b = [] /\ a = [] \/ (forall w, ~ matches t w) /\ forall g, In g (regex_graphemes t) -> In g (regex_graphemes (RSequence k)))).
Proof.
  intros Hd H Hg Ha b k a Hs. destruct (print_parse_stripped seg u t Hd H Hg Ha b k a Hs) as (P1 & P2).
  assert (Hk : forall g, In g (regex_graphemes (RSequence k)) -> In g (regex_graphemes t)).
  { intros g Hi. rewrite <- parts_graphemes, (proj1 Hs), !flat_map_app. apply in_app_iff. right. apply in_app_iff. left. exact Hi. }
  split.
  - intros (t' & E & L & S). destruct k as [|x k]; [rewrite P1 in E by auto; discriminate|].
    destruct P2 as (t2 & E2 & L2 & S2); [discriminate|]. rewrite E in E2. injection E2 as <-.
    assert (N : ~ In [949%N] (regex_graphemes t) /\ ~ In [8709%N] (regex_graphemes t)).
    { split; intros Hi; apply S, S2 in Hi; tauto. }
    destruct N as (N1 & N2). split; auto. split; auto.
    assert (Hu : unescaped (RSequence (x :: k)) = RSequence (x :: k)).
    { apply unescaped_same. intros g Hi. apply Hk in Hi. split; intros ->; contradiction. }
    rewrite Hu in L2. destruct (list_nil_dec b) as [->|Hb]; [destruct (list_nil_dec a) as [->|Hna]; [left; auto|]|]; right; split.
    1, 3: apply (strips_empty t _ _ _ Hs); [tauto|]; intros w; rewrite <- L, L2, matches_seq_iff; reflexivity.
    all: intros g Hi; apply S, S2 in Hi; tauto.
  - intros (N1 & N2 & Hc). assert (Hn : k <> []).
    { intros ->. pose proof (proj1 Hs) as E. destruct Hc as [(-> & ->)|(_ & Hc)].
      - pose proof (parts_nonempty _ t (parse_regex_tree seg t u Hd H)). cbn in E. congruence.
      - pose proof (parts_nonempty _ t (parse_regex_tree seg t u Hd H)) as Hp. destruct (parts t) as [|x l] eqn:Ep; [congruence|].
        assert (blank x) as (g & -> & _).
        { cbn [app] in E. apply (proj1 (proj2 Hs)). assert (Hx : In x (b ++ a)) by (rewrite <- E; left; auto). apply in_app_iff in Hx. auto. }
        apply (Hc g). rewrite <- parts_graphemes, Ep. cbn [flat_map]. apply in_app_iff. left. left. auto. }
    destruct (P2 Hn) as (t' & E & L & S). exists t'. split; auto.
    assert (Hu : unescaped (RSequence k) = RSequence k).
    { apply unescaped_same. intros g Hi. apply Hk in Hi. split; intros ->; contradiction. }
    rewrite Hu in L. destruct Hc as [(-> & ->)|(Hc1 & Hc2)].
    + pose proof (proj1 Hs) as Ep. cbn [app] in Ep. rewrite app_nil_r in Ep. split.
      * intros w. rewrite L, matches_seq_iff, <- Ep. apply parts_matches.
      * intros g. rewrite S. cbn [regex_graphemes]. rewrite <- Ep, parts_graphemes. split; [tauto|]. intros Hi. split; auto. split; intros ->; contradiction.
    + split.
      * intros w. rewrite L, matches_seq_iff. split; intros M; exfalso; [exact (strips_nothing t b k a Hs Hc1 w M)|exact (Hc1 w M)].
      * intros g. rewrite S. split; [intros (Hi & _); auto|]. intros Hi. split; auto. split; intros ->; contradiction.
Qed.
