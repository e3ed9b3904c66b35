(** * Properties of parsing and printing regular expressions: C37, C38, C39 *)
From Coq Require Import List NArith Arith Bool Lia.
From Verif Require Import Base Spec LayoutSpec RegexSpec RegexTrimSpec ParserModel RegexModel RegexParserModel RegexParserProofs RegexPrintProofs RegexSymbols RegexUnescape RegexTrim.
Import ListNotations.

(** ** C39: any input is parsed or rejected, whatever the grapheme segmentation does *)
Theorem C39_regex_parser_total : forall seg u, exists r, parse_regex seg u = Ret r.
Proof. exact parse_regex_total. Qed.
Print Assumptions C39_regex_parser_total.

(** ** C37: the parser accepts exactly the documented syntax and the result means what the syntax says

    Every text has tokens, whatever the graphemes are (reserved characters may have combining marks after them). *)
Theorem C37_tokens : forall seg, divides seg -> forall u,
  (exists gs, tokens seg gs /\ trims_to u (concat gs)) /\
  (forall gs hs, tokens seg gs -> trims_to u (concat gs) -> tokens seg hs -> trims_to u (concat hs) -> gs = hs).
Proof.
  intros seg Hd u. split.
  - destruct (tokens_exist seg Hd (trim u)) as (gs & H & E). exists gs. split; auto. apply trim_spec. auto.
  - intros gs hs H1 H2 H3 H4. apply trim_spec in H2. apply trim_spec in H4. apply (tokens_unique seg Hd); auto. congruence.
Qed.
Print Assumptions C37_tokens.

Theorem C37_documented_syntax_parses : forall seg e gs u,
  divides seg -> tokens seg gs -> trims_to u (concat gs) ->
  shows 0 e gs ->
  exists t, parse_regex seg u = Ret (Some t) /\ (forall w, matches t w <-> doc_lang e w) /\
    forall g, In g (regex_graphemes t) <-> In g (doc_symbols e).
Proof. intros seg e gs u H1 H2 H3 H4. exact (complete_symbols seg e gs u H4 H1 H2 H3). Qed.
Print Assumptions C37_documented_syntax_parses.

Theorem C37_only_documented_syntax_parses : forall seg t gs u,
  divides seg -> tokens seg gs -> trims_to u (concat gs) ->
  parse_regex seg u = Ret (Some t) ->
  exists e, shows 0 e gs /\ (forall w, matches t w <-> doc_lang e w) /\
    forall g, In g (regex_graphemes t) <-> In g (doc_symbols e).
Proof. intros seg t gs u H1 H2 H3 H4. exact (sound_symbols seg t gs u H1 H2 H3 H4). Qed.
Print Assumptions C37_only_documented_syntax_parses.

(** Hence the documented syntax is unambiguous as far as languages are concerned *)
Theorem C37_unambiguous : forall seg gs e1 e2, divides seg -> tokens seg gs -> trims_to (concat gs) (concat gs) ->
  shows 0 e1 gs -> shows 0 e2 gs -> forall w, doc_lang e1 w <-> doc_lang e2 w.
Proof.
  intros seg gs e1 e2 H1 H2 H3 Hs1 Hs2 w.
  destruct (C37_documented_syntax_parses seg e1 gs _ H1 H2 H3 Hs1) as (t & E & Ht & _).
  destruct (C37_documented_syntax_parses seg e2 gs _ H1 H2 H3 Hs2) as (t' & E' & Ht' & _).
  rewrite E in E'. injection E' as <-. rewrite <- (Ht w). apply Ht'.
Qed.
Print Assumptions C37_unambiguous.

(** Code points as graphemes *)
Definition singles (u : str) : list str := map (fun c => [c]) u.
Lemma singles_concat u : concat (singles u) = u.
Proof. induction u; simpl; congruence. Qed.
Lemma singles_divides : divides singles.
Proof. intros u. split; [apply singles_concat|]. intros H. apply in_map_iff in H as (c & E & _). discriminate. Qed.
Lemma singles_segmented u : segmented singles (singles u).
Proof.
  induction u as [|c u IH]; constructor; auto. exact (f_equal singles (singles_concat (c :: u))).
Qed.
(** Graphemes with the combining mark U+0308 *)
Definition add_mark (c : N) (l : list str) : list str :=
  match l with
  | (d :: g) :: l' => if N.eqb d 776 then (c :: d :: g) :: l' else [c] :: l
  | _ => [c] :: l
  end.
Fixpoint marked (u : str) : list str := match u with [] => [] | c :: u => add_mark c (marked u) end.
Lemma marked_divides : divides marked.
Proof.
  intros u. induction u as [|c u (IH1 & IH2)]; [split; auto|]. cbn [marked]. revert IH1 IH2. generalize (marked u) as l. intros l El Hl.
  assert (D : concat ([c] :: l) = c :: u /\ ~ In [] ([c] :: l)).
  { split; [cbn [concat app]; rewrite El; auto|]. intros [E|H]; [discriminate|auto]. }
  destruct l as [|[|d g] l]; auto. cbn [add_mark]. destruct (N.eqb d 776); auto.
  split; [cbn [concat app] in *; rewrite El; auto|]. intros [E|H]; [discriminate|]. apply Hl. right; auto.
Qed.

(** "(a|b)*\*c+" *)
Definition ex_regex_text : str := [40; 97; 124; 98; 41; 42; 92; 42; 99; 43]%N.
Definition ex_regex_tokens : list str := [[40]; [97]; [124]; [98]; [41]; [42]; [92; 42]; [99]; [43]]%N.
Definition ex_regex_doc : doc_regex :=
  (DSeq (DSeq (DStar (DAlt (DSym [97]) (DSym [98]))) (DSym [42])) (DPlus (DSym [99])))%N.
Lemma not_syntax c g : existsb (N.eqb c) [40; 41; 8709; 949; 124; 42; 43; 92]%N = false -> ~ syntax_head (c :: g).
Proof.
  intros Hc (c' & g' & E & H). injection E as <- <-. unfold syntax_char in H.
  assert (existsb (N.eqb c) [40; 41; 8709; 949; 124; 42; 43; 92]%N = true) by (apply existsb_exists; exists c; split; [auto|apply N.eqb_refl]).
  congruence.
Qed.
Ltac tok := first [apply tk_nil | apply tk_reserved; [unfold syntax_char; simpl; tauto|discriminate|] |
  eapply tk_escape; [vm_compute; reflexivity|] | eapply tk_symbol; [apply not_syntax; reflexivity|vm_compute; reflexivity|]].
Example C37_example : divides singles /\ tokens singles ex_regex_tokens /\
  trims_to ([32] ++ ex_regex_text ++ [10; 9])%N (concat ex_regex_tokens) /\
  shows 0 ex_regex_doc ex_regex_tokens /\
  parse_regex singles ([32] ++ ex_regex_text ++ [10; 9])%N =
    (Ret (Some (RSequence [RRepeat (RAlt [RChar (RGrapheme [97]); RChar (RGrapheme [98])]); RChar (RGrapheme [42]);
                          RSequence [RChar (RGrapheme [99]); RRepeat (RChar (RGrapheme [99]))]])))%N.
Proof.
  split; [apply singles_divides|]. split; [unfold ex_regex_tokens; repeat tok|].
  split; [apply trim_spec; vm_compute; reflexivity|].
  split; [|vm_compute; reflexivity]. apply sh_up.
  apply (sh_seq _ _ [[40]; [97]; [124]; [98]; [41]; [42]; [92; 42]]%N [[99]; [43]]%N).
  - apply (sh_seq _ _ [[40]; [97]; [124]; [98]; [41]; [42]]%N [[92; 42]]%N); [|do 2 apply sh_up; apply sh_escape; discriminate].
    apply sh_up, (sh_star _ [[40]; [97]; [124]; [98]; [41]]%N), (sh_group _ [[97]; [124]; [98]]%N).
    apply (sh_alt _ _ [[97]]%N [[98]]%N); do 3 apply sh_up; apply sh_sym, not_syntax; reflexivity.
  - apply sh_up, (sh_plus _ [[99]]%N), sh_sym, not_syntax. reflexivity.
Qed.
(** "(\*̈ä)̈": the mark after the backslash's star belongs to the symbol, the mark after the parenthesis is a symbol *)
Example C37_marks_example : divides marked /\ tokens marked [[40]; [92; 42; 776]; [97; 776]; [41]; [776]]%N /\
  marked [40; 92; 42; 776; 97; 776; 41; 776]%N = [[40]; [92]; [42; 776]; [97; 776]; [41; 776]]%N /\
  parse_regex marked [40; 92; 42; 776; 97; 776; 41; 776]%N =
    (Ret (Some (RSequence [RSequence [RChar (RGrapheme [42; 776]); RChar (RGrapheme [97; 776])]; RChar (RGrapheme [776])])))%N.
Proof. split; [apply marked_divides|]. split; [repeat tok|]. split; vm_compute; reflexivity. Qed.

(** The module documentation (dandy/src/regex/mod.rs:16) gives `0*1(0+ε)` as an expression that matches `1`.  By the syntax the same
    documentation describes, and by the parser, it does not: `+` is repetition. *)
Definition ex_doc_text : str := [48; 42; 49; 40; 48; 43; 949; 41]%N.
Theorem C37_documented_example_refuted : exists t, parse_regex singles ex_doc_text = Ret (Some t) /\ ~ matches t [[49%N]].
Proof.
  exists (RSequence [RRepeat (RChar (RGrapheme [48%N])); RChar (RGrapheme [49%N]);
    RSequence [RSequence [RChar (RGrapheme [48%N]); RRepeat (RChar (RGrapheme [48%N]))]; RChar REpsilon]]).
  split; [vm_compute; reflexivity|]. intros M.
  rewrite matches_seq_iff in M. inversion M as [|? ? w1 w2 M1 M2 E1 E2]; subst. inversion M2 as [|? ? w3 w4 M3 M4]; subst.
  rewrite matches_seq_one, matches_seq_iff in M4. inversion M4 as [|? ? w5 w6 M5 M6]; subst.
  rewrite matches_seq_iff in M5. inversion M5 as [|? ? w7 w8 M7 M8]; subst. inversion M3; subst. inversion M7; subst.
  apply (f_equal (@length _)) in E2. rewrite !app_length in E2. simpl in E2. lia.
Qed.
Print Assumptions C37_documented_example_refuted.

(** ** C38: printing a parsed expression and parsing the result

    The full claim is: for every text [u] that parses to [t], [regex_to_string t] parses to an expression of the same
    language.  It fails for the symbols ε and ∅, which are printed without the backslash, *)
Theorem C38_escaped_epsilon_refuted : exists u t t',
  parse_regex singles u = Ret (Some t) /\ parse_regex singles (regex_to_string t) = Ret (Some t') /\
  ~ (forall w, matches t' w <-> matches t w).
Proof.
  exists [92; 949]%N, (RChar (RGrapheme [949%N])), (RChar REpsilon).
  split; [vm_compute; reflexivity|]. split; [vm_compute; reflexivity|]. intros H.
  assert (M : matches (RChar (RGrapheme [949%N])) []) by (apply H; constructor). inversion M.
Qed.
Print Assumptions C38_escaped_epsilon_refuted.
Theorem C38_escaped_empty_refuted : exists u t t',
  parse_regex singles u = Ret (Some t) /\ parse_regex singles (regex_to_string t) = Ret (Some t') /\
  ~ (forall w, matches t' w <-> matches t w).
Proof.
  exists [92; 8709]%N, (RChar (RGrapheme [8709%N])), (RChar REmpty).
  split; [vm_compute; reflexivity|]. split; [vm_compute; reflexivity|]. intros H.
  assert (M : matches (RChar REmpty) [[8709%N]]) by (apply H; constructor). inversion M.
Qed.
Print Assumptions C38_escaped_empty_refuted.

(** and for whitespace at the ends, which parentheses protected in the original text: "( )" is printed as " ", which does
    not parse, and "( )a" as " a", which parses to another language. *)
Theorem C38_whitespace_refuted : exists u t, parse_regex singles u = Ret (Some t) /\ parse_regex singles (regex_to_string t) = Ret None.
Proof. exists [40; 32; 41]%N, (RChar (RGrapheme [32%N])). split; vm_compute; reflexivity. Qed.
Print Assumptions C38_whitespace_refuted.
Theorem C38_whitespace_language_refuted : exists u t t',
  parse_regex singles u = Ret (Some t) /\ parse_regex singles (regex_to_string t) = Ret (Some t') /\
  ~ (forall w, matches t' w <-> matches t w).
Proof.
  exists [40; 32; 41; 97]%N, (RSequence [RChar (RGrapheme [32%N]); RChar (RGrapheme [97%N])]), (RChar (RGrapheme [97%N])).
  split; [vm_compute; reflexivity|]. split; [vm_compute; reflexivity|]. intros H.
  assert (M : matches (RSequence [RChar (RGrapheme [32%N]); RChar (RGrapheme [97%N])]) [[97%N]]) by (apply H; constructor).
  rewrite matches_seq_iff in M. inversion M as [|? ? w1 w2 M1 M2 E1 E2]; subst. rewrite matches_seq_one in M2.
  inversion M1; subst. inversion M2; subst. discriminate.
Qed.
Print Assumptions C38_whitespace_language_refuted.

(** and for symbols that begin with a reserved character but have more characters: backslash, parenthesis, combining mark is
    printed without the backslash. *)
Theorem C38_marks_refuted : exists u t, divides marked /\ parse_regex marked u = Ret (Some t) /\ parse_regex marked (regex_to_string t) = Ret None.
Proof.
  exists [92; 40; 776]%N, (RChar (RGrapheme [40; 776]%N)). split; [apply marked_divides|]. split; vm_compute; reflexivity.
Qed.
Print Assumptions C38_marks_refuted.

(** It holds for every parsed expression without these symbols (missing from the full claim: the graphemes ε and ∅, graphemes
    with whitespace in them, graphemes of several characters beginning with a reserved one), if the segmentation does not merge
    graphemes of the expression with syntax characters. *)
Theorem C38_to_string_reparses_partial : forall seg u t,
  divides seg -> parse_regex seg u = Ret (Some t) ->
  (forall g, In g (regex_graphemes t) -> g <> [949%N] /\ g <> [8709%N] /\ (syntax_head g -> length g = 1) /\ forall c, In c g -> ~ whitespace c) ->
  (forall hs, (forall g, In g hs -> In g (regex_graphemes t) \/ exists c, syntax_char c /\ g = [c]) -> segmented seg hs) ->
  exists t', parse_regex seg (regex_to_string t) = Ret (Some t') /\ (forall w, matches t' w <-> matches t w) /\
    forall g, In g (regex_graphemes t') <-> In g (regex_graphemes t).
Proof.
  intros seg u t Hd H Hg Hseg.
  assert (Hp : printable t).
  { apply parsed_printable; [exact (parse_regex_tree seg t u Hd H)|]. intros g Hi. destruct (Hg g Hi) as (A & B & C & _). auto. }
  apply print_parse_symbols; auto. apply trims_self, to_string_not_ws; auto. intros g c Hi Hc. destruct (Hg g Hi) as (_ & _ & _ & A). auto.
Qed.
Print Assumptions C38_to_string_reparses_partial.

(** The same with whitespace symbols allowed everywhere but at the two ends of the printed text *)
Theorem C38_to_string_inner_whitespace_partial : forall seg u t,
  divides seg -> parse_regex seg u = Ret (Some t) ->
  (forall g, In g (regex_graphemes t) -> g <> [949%N] /\ g <> [8709%N] /\ (syntax_head g -> length g = 1)) ->
  (forall c v, regex_to_string t = c :: v -> ~ whitespace c) -> (forall c v, regex_to_string t = v ++ [c] -> ~ whitespace c) ->
  (forall hs, (forall g, In g hs -> In g (regex_graphemes t) \/ exists c, syntax_char c /\ g = [c]) -> segmented seg hs) ->
  exists t', parse_regex seg (regex_to_string t) = Ret (Some t') /\ (forall w, matches t' w <-> matches t w) /\
    forall g, In g (regex_graphemes t') <-> In g (regex_graphemes t).
Proof.
  intros seg u t Hd H Hg H1 H2 Hseg. apply print_parse_symbols; auto.
  - apply parsed_printable; [exact (parse_regex_tree seg t u Hd H)|exact Hg].
  - exists [], []. rewrite app_nil_r. split; [auto|]. split; [intros c [[]|[]]|]. split; [exact H1|exact H2].
Qed.
Print Assumptions C38_to_string_inner_whitespace_partial.

(** What becomes of ε and ∅: the printed text always parses (if it neither begins nor ends with whitespace), and is read as
    the expression in which they stand for the empty word and the empty language. *)
Theorem C38_to_string_reads_as : forall seg u t,
  divides seg -> parse_regex seg u = Ret (Some t) ->
  (forall g, In g (regex_graphemes t) -> syntax_head g -> length g = 1) ->
  (forall c v, regex_to_string t = c :: v -> ~ whitespace c) -> (forall c v, regex_to_string t = v ++ [c] -> ~ whitespace c) ->
  (forall hs, (forall g, In g hs -> In g (regex_graphemes t) \/ exists c, syntax_char c /\ g = [c]) -> segmented seg hs) ->
  exists t', parse_regex seg (regex_to_string t) = Ret (Some t') /\ (forall w, matches t' w <-> matches (unescaped t) w) /\
    forall g, In g (regex_graphemes t') <-> In g (regex_graphemes t) /\ g <> [949%N] /\ g <> [8709%N].
Proof. exact print_parse_unescaped. Qed.
Print Assumptions C38_to_string_reads_as.
(** Hence an expression with the same language and symbols is read exactly if neither of the two is a symbol. *)
Theorem C38_to_string_iff : forall seg u t,
  divides seg -> parse_regex seg u = Ret (Some t) ->
  (forall g, In g (regex_graphemes t) -> syntax_head g -> length g = 1) ->
  (forall c v, regex_to_string t = c :: v -> ~ whitespace c) -> (forall c v, regex_to_string t = v ++ [c] -> ~ whitespace c) ->
  (forall hs, (forall g, In g hs -> In g (regex_graphemes t) \/ exists c, syntax_char c /\ g = [c]) -> segmented seg hs) ->
  ((exists t', parse_regex seg (regex_to_string t) = Ret (Some t') /\ (forall w, matches t' w <-> matches t w) /\
      forall g, In g (regex_graphemes t') <-> In g (regex_graphemes t)) <->
   ~ In [949%N] (regex_graphemes t) /\ ~ In [8709%N] (regex_graphemes t)).
Proof.
  intros seg u t Hd H Hr H1 H2 Hseg. destruct (print_parse_unescaped seg u t Hd H Hr H1 H2 Hseg) as (t' & E & L & S). split.
  - intros (t2 & E2 & _ & S2). rewrite E in E2. injection E2 as <-.
    split; intros Hi; apply (proj2 (S2 _)), S in Hi as (_ & X & Y); congruence.
  - intros (N1 & N2). exists t'. split; auto. rewrite unescaped_same in L by (intros g Hg; split; intros ->; contradiction). split; auto.
    intros g. rewrite S. split; [tauto|]. intros Hg. split; auto. split; intros ->; contradiction.
Qed.
Print Assumptions C38_to_string_iff.

(** What becomes of whitespace: the symbols of whitespace at both ends of the expression are lost, all others stay.  If nothing
    else is left, the printed text does not parse; otherwise it is read as the rest (with ε and ∅ as above).  Missing from
    the full claim are only symbols of several characters beginning with a reserved character or beginning or ending, but
    not consisting of, whitespace. *)
Theorem C38_to_string_whitespace : forall seg u t,
  divides seg -> parse_regex seg u = Ret (Some t) ->
  (forall g, In g (regex_graphemes t) -> (syntax_head g -> length g = 1) /\ plain_ends g) ->
  (forall hs, (forall g, In g hs -> In g (regex_graphemes t) \/ exists c, syntax_char c /\ g = [c]) -> segmented seg hs) ->
  (exists before core after, strips_to (parts t) before core after) /\
  forall before core after, strips_to (parts t) before core after ->
    (core = [] -> parse_regex seg (regex_to_string t) = Ret None) /\
    (core <> [] -> exists t', parse_regex seg (regex_to_string t) = Ret (Some t') /\
       (forall w, matches t' w <-> matches (unescaped (RSequence core)) w) /\
       forall g, In g (regex_graphemes t') <-> In g (regex_graphemes (RSequence core)) /\ g <> [949%N] /\ g <> [8709%N]).
Proof. intros seg u t Hd H Hg Hs. split; [apply strips_exist|]. exact (print_parse_stripped seg u t Hd H Hg Hs). Qed.
Print Assumptions C38_to_string_whitespace.
(** Hence an expression with the same language and symbols is read exactly if neither ε nor ∅ is a symbol and there is no
    whitespace at the ends, except for expressions that match nothing, if the lost symbols also occur elsewhere. *)
Theorem C38_to_string_exact : forall seg u t,
  divides seg -> parse_regex seg u = Ret (Some t) ->
  (forall g, In g (regex_graphemes t) -> (syntax_head g -> length g = 1) /\ plain_ends g) ->
  (forall hs, (forall g, In g hs -> In g (regex_graphemes t) \/ exists c, syntax_char c /\ g = [c]) -> segmented seg hs) ->
  forall before core after, strips_to (parts t) before core after ->
  ((exists t', parse_regex seg (regex_to_string t) = Ret (Some t') /\ (forall w, matches t' w <-> matches t w) /\
      forall g, In g (regex_graphemes t') <-> In g (regex_graphemes t)) <->
   ~ In [949%N] (regex_graphemes t) /\ ~ In [8709%N] (regex_graphemes t) /\
   (before = [] /\ after = [] \/
    (forall w, ~ matches t w) /\ forall g, In g (regex_graphemes t) -> In g (regex_graphemes (RSequence core)))).
Proof. exact print_parse_stripped_iff. Qed.
Print Assumptions C38_to_string_exact.

Definition ex_regex_tree : regex_tree :=
  (RSequence [RRepeat (RAlt [RChar (RGrapheme [97]); RChar (RGrapheme [98])]); RChar (RGrapheme [42]);
              RSequence [RChar (RGrapheme [99]); RRepeat (RChar (RGrapheme [99]))]])%N.
Example C38_example : parse_regex singles ex_regex_text = Ret (Some ex_regex_tree) /\
  (forall g, In g (regex_graphemes ex_regex_tree) -> g <> [949%N] /\ g <> [8709%N] /\ (syntax_head g -> length g = 1) /\
     forall c, In c g -> ~ whitespace c) /\
  (forall hs, (forall g, In g hs -> In g (regex_graphemes ex_regex_tree) \/ exists c, syntax_char c /\ g = [c]) -> segmented singles hs) /\
  regex_to_string ex_regex_tree = [40; 40; 97; 124; 98; 41; 41; 42; 92; 42; 99; 40; 99; 41; 42]%N.
Proof.
  split; [vm_compute; reflexivity|]. split.
  - assert (E : regex_graphemes ex_regex_tree = [[97]; [98]; [42]; [99]; [99]]%N) by (vm_compute; reflexivity). rewrite E.
    intros g [<- |[<- |[<- |[<- |[<- |[]]]]]]; (split; [discriminate|]; split; [discriminate|]; split; [reflexivity|]; intros c [<- |[]]; unfold whitespace; lia).
  - split; [|vm_compute; reflexivity]. intros hs Hhs.
    assert (E : hs = singles (concat hs)).
    { induction hs as [|g hs IH]; auto. simpl. unfold singles in *. rewrite map_app, <- IH by (intros; apply Hhs; right; auto).
      destruct (Hhs g) as [H|(c & _ & ->)]; [left; auto| |reflexivity].
      assert (Eg : regex_graphemes ex_regex_tree = [[97]; [98]; [42]; [99]; [99]]%N) by (vm_compute; reflexivity). rewrite Eg in H.
      destruct H as [<- |[<- |[<- |[<- |[<- |[]]]]]]; reflexivity. }
    rewrite E. apply singles_segmented.
Qed.

(** "a\\ε|\\∅": printed as "(aε|∅)", with the meaning of "a" *)
Example C38_reads_as_example : exists t, parse_regex singles [97; 92; 949; 124; 92; 8709]%N = Ret (Some t) /\
  regex_to_string t = [40; 97; 949; 124; 8709; 41]%N /\ In [949%N] (regex_graphemes t) /\
  unescaped t = (RAlt [RSequence [RChar (RGrapheme [97]); RChar REpsilon]; RChar REmpty])%N.
Proof. eexists. split; [vm_compute; reflexivity|]. split; [vm_compute; reflexivity|]. split; [vm_compute; auto|vm_compute; reflexivity]. Qed.

(** "( a) ": the group protects the first space; printed as " a", read as "a" *)
Definition ex_blank_tree : regex_tree := RSequence [RChar (RGrapheme [32%N]); RChar (RGrapheme [97%N])].
Example C38_whitespace_example : parse_regex singles [40; 32; 97; 41; 32]%N = Ret (Some ex_blank_tree) /\
  (forall g, In g (regex_graphemes ex_blank_tree) -> (syntax_head g -> length g = 1) /\ plain_ends g) /\
  (forall hs, (forall g, In g hs -> In g (regex_graphemes ex_blank_tree) \/ exists c, syntax_char c /\ g = [c]) -> segmented singles hs) /\
  strips_to (parts ex_blank_tree) [RChar (RGrapheme [32%N])] [RChar (RGrapheme [97%N])] [] /\
  parse_regex singles (regex_to_string ex_blank_tree) = Ret (Some (RChar (RGrapheme [97%N]))).
Proof.
  assert (W : whitespace 32%N) by (unfold whitespace; lia). assert (A : ~ whitespace 97%N) by (unfold whitespace; lia).
  split; [vm_compute; reflexivity|]. split; [|split; [|split; [|vm_compute; reflexivity]]].
  - intros g [<- |[<- |[]]]; (split; [reflexivity|]).
    + left. intros c [<- |[]]. exact W.
    + right. split; intros c v E; [injection E as <- _; exact A|]. destruct v as [|x [|y v]]; try discriminate. injection E as <-. exact A.
  - intros hs Hhs. assert (E : hs = singles (concat hs)).
    { induction hs as [|g hs IH]; auto. simpl. unfold singles in *. rewrite map_app, <- IH by (intros; apply Hhs; right; auto).
      destruct (Hhs g) as [H|(c & _ & ->)]; [left; auto| |reflexivity]. destruct H as [<- |[<- |[]]]; reflexivity. }
    rewrite E. apply singles_segmented.
  - split; [reflexivity|]. split; [|split].
    + intros x [[<- |[]]|[]]. exists [32%N]. split; auto. intros c [<- |[]]. exact W.
    + intros x k E. injection E as <- _. intros (g & Eg & H). injection Eg as <-. apply A, H. left. auto.
    + intros x k E. destruct k as [|y [|z k]]; try discriminate. injection E as <-. intros (g & Eg & H). injection Eg as <-. apply A, H. left. auto.
Qed.
