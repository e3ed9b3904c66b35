(** * RegexPrintProofs: printing expressions and parsing the result *)
From Coq Require Import List NArith Arith Bool Lia.
From Verif Require Import Base BaseLemmas Spec TableSpec LayoutSpec RegexSpec ParserModel ParserBasics FaParserProofs RegexModel RegexProofs RegexParserModel RegexParserProofs.
Import ListNotations.

(** ** The tokens of a printed expression *)
Definition grapheme_toks (g : str) : list str :=
  match g with
  | [c] => if (c <? 128)%N && is_reserved_char c then [92%N :: g] else [g]
  | _ => [g]
  end.
Fixpoint tree_toks (tree : regex_tree) : list str :=
  match tree with
  | RSequence seq => flat_map tree_toks seq
  | RAlt seq =>
      [40%N] ::
      match seq with
      | [] => []
      | first :: rest => tree_toks first ++ flat_map (fun item => [124%N] :: tree_toks item) rest
      end ++ [[41%N]]
  | RRepeat r => [40%N] :: tree_toks r ++ [[41%N]; [42%N]]
  | RChar REpsilon => [[949%N]]
  | RChar REmpty => [[8709%N]]
  | RChar (RGrapheme g) => grapheme_toks g
  end.

Lemma grapheme_toks_concat g : concat (grapheme_toks g) = grapheme_string g.
Proof.
  unfold grapheme_toks, grapheme_string. destruct g as [|c [|d g]]; auto.
  - destruct (_ && _); reflexivity.
  - simpl. rewrite app_nil_r. reflexivity.
Qed.
Lemma concat_flat_map {A} (f : A -> list str) (g : A -> str) l : Forall (fun x => concat (f x) = g x) l ->
  concat (flat_map f l) = flat_map g l.
Proof. induction 1 as [|x l Hx HF IH]; simpl; auto. rewrite concat_app, Hx, IH. reflexivity. Qed.

Lemma tree_toks_concat t : concat (tree_toks t) = regex_to_string t.
Proof.
  induction t as [l IH|l IH|r IH|c] using regex_ind'.
  - simpl. apply concat_flat_map. auto.
  - destruct l as [|x l]; [reflexivity|]. inversion IH as [|? ? Hx HF]; subst. cbn [tree_toks regex_to_string].
    cbn [concat app]. rewrite !concat_app, Hx. do 2 f_equal. f_equal. apply concat_flat_map.
    revert HF. apply Forall_impl. intros y Hy. simpl. rewrite Hy. reflexivity.
  - cbn [tree_toks regex_to_string concat app]. rewrite concat_app, IH. reflexivity.
  - destruct c; [apply grapheme_toks_concat|reflexivity|reflexivity].
Qed.

(** ** Trees whose printed form parses *)
Inductive printable : regex_tree -> Prop :=
| pr_seq l : l <> [] -> Forall printable l -> printable (RSequence l)
| pr_alt l : l <> [] -> Forall printable l -> printable (RAlt l)
| pr_rep r : printable r -> printable (RRepeat r)
| pr_eps : printable (RChar REpsilon)
| pr_empty : printable (RChar REmpty)
| pr_sym g : g <> [] -> g <> [949%N] -> g <> [8709%N] -> (syntax_head g -> length g = 1) -> printable (RChar (RGrapheme g)).

Lemma grapheme_shows g : g <> [949%N] -> g <> [8709%N] -> (syntax_head g -> length g = 1) -> shows 3 (DSym g) (grapheme_toks g).
Proof.
  intros H1 H2 H. unfold grapheme_toks.
  assert (Hn : length g <> 1 -> shows 3 (DSym g) [g]).
  { intros Hl. apply sh_sym. intros C. apply H in C. congruence. }
  destruct g as [|c [|d g]].
  - apply Hn. discriminate.
  - destruct (is_reserved_char c) eqn:E.
    + rewrite andb_true_r. destruct (N.ltb_spec c 128) as [Hc|Hc]; [apply sh_escape; discriminate|].
      apply is_reserved_spec in E. unfold syntax_char in E. simpl in E.
      repeat (destruct E as [<- |E]; [first [lia|congruence]|]). destruct E.
    + rewrite andb_false_r. apply sh_sym. intros (c' & g' & E' & Hc). injection E' as <- <-. apply is_reserved_spec in Hc. congruence.
  - apply Hn. discriminate.
Qed.

Lemma seq_shows l : l <> [] -> Forall (fun t => exists e, shows 1 e (tree_toks t) /\ same_lang t e) l ->
  exists e, shows 1 e (flat_map tree_toks l) /\ forall w, matches_seq l w <-> doc_lang e w.
Proof.
  intros Hn HF. induction HF as [|x l (e & Hs & He) HF IH]; [congruence|]. destruct l as [|y l].
  - exists e. simpl. rewrite app_nil_r. split; auto. intros w. rewrite matches_seq_one. apply He.
  - destruct IH as (e2 & Hs2 & He2); [discriminate|]. exists (DSeq e e2). cbn [flat_map] in *. split; [apply sh_seq; auto|].
    intros w. split.
    + intros M. inversion M; subst. constructor; [apply He|apply He2]; auto.
    + intros M. inversion M; subst. constructor; [apply He|apply He2]; auto.
Qed.
Lemma alt_shows x l : Forall (fun t => exists e, shows 1 e (tree_toks t) /\ same_lang t e) (x :: l) ->
  exists e, shows 0 e (tree_toks x ++ flat_map (fun item => [124%N] :: tree_toks item) l) /\
            forall w, matches (RAlt (x :: l)) w <-> doc_lang e w.
Proof.
  revert x. induction l as [|y l IH]; intros x HF; inversion HF as [|? ? (e & Hs & He) HF']; subst.
  - exists e. simpl. rewrite app_nil_r. split; [apply sh_up; auto|]. intros w. rewrite matches_alt. split.
    + intros (r & [<- |[]] & M). apply He. auto.
    + intros M. exists x. split; [left; auto|apply He; auto].
  - destruct (IH y HF') as (e2 & Hs2 & He2). exists (DAlt e e2). split.
    + cbn [flat_map app]. apply sh_alt; [apply sh_up; auto|]. exact Hs2.
    + intros w. rewrite matches_alt. split.
      * intros (r & [<- |Hr] & M); [apply dl_alt_l, He; auto|]. apply dl_alt_r, He2, matches_alt. eauto.
      * intros M. inversion M as [| | |? ? ? M'|? ? ? M'| | |]; subst.
        -- exists x. split; [left; auto|apply He; auto].
        -- apply He2, matches_alt in M' as (r & Hr & M'). exists r. split; auto. right; auto.
Qed.

Lemma tree_shows t : printable t -> exists e, shows 1 e (tree_toks t) /\ same_lang t e.
Proof.
  induction t as [l IH|l IH|r IH|c] using regex_ind'; intros Hp; inversion Hp; subst.
  - destruct (seq_shows l) as (e & Hs & He); auto.
    { rewrite Forall_forall in *. auto. }
    exists e. split; auto. intros w. rewrite matches_seq_iff. apply He.
  - destruct l as [|x l]; [congruence|]. destruct (alt_shows x l) as (e & Hs & He).
    { rewrite Forall_forall in *. auto. }
    exists e. split; auto. cbn [tree_toks]. apply sh_up, sh_up. apply sh_group. auto.
  - destruct IH as (e & Hs & He); auto. exists (DStar e). split; [|apply star_same; auto]. cbn [tree_toks].
    replace ([40%N] :: tree_toks r ++ [[41%N]; [42%N]]) with (([40%N] :: tree_toks r ++ [[41%N]]) ++ [[42%N]])
      by (cbn [app]; rewrite <- app_assoc; reflexivity).
    apply sh_up, sh_star, sh_group, sh_up. auto.
  - exists DEps. split; [do 2 apply sh_up; constructor|]. intros w. split; intros Hm; inversion Hm; subst; constructor.
  - exists DEmpty. split; [do 2 apply sh_up; constructor|]. intros w. split; intros Hm; inversion Hm; subst; constructor.
  - exists (DSym g). split; [do 2 apply sh_up; apply grapheme_shows; auto|]. intros w. split; intros Hm; inversion Hm; subst; constructor.
Qed.

(** ** Tokens of the printed text *)
(** what a token is in the printed text of [t]: a reserved character, a symbol, or a symbol with a backslash *)
Definition token_of (t : regex_tree) (x : str) : Prop :=
  (exists c, syntax_char c /\ c <> 92%N /\ x = [c]) \/ (In x (regex_graphemes t) /\ ~ syntax_head x) \/
  (exists g, In g (regex_graphemes t) /\ x = 92%N :: g).
Lemma token_of_incl t t' x : (forall g, In g (regex_graphemes t) -> In g (regex_graphemes t')) -> token_of t x -> token_of t' x.
Proof. intros H [Hx|[(Hx & Hn)|(g & Hg & ->)]]; unfold token_of; eauto 6. Qed.
Lemma token_reserved t c : syntax_char c -> c <> 92%N -> token_of t [c].
Proof. intros H1 H2. left. eauto. Qed.
Ltac tres := apply token_reserved; [unfold syntax_char; simpl; tauto|discriminate].
Lemma tree_toks_In t : printable t -> forall x, In x (tree_toks t) -> token_of t x.
Proof.
  induction t as [l IH|l IH|r IH|c] using regex_ind'; intros Hp x; inversion Hp; subst.
  - cbn [tree_toks]. rewrite in_flat_map. intros (y & Hy & H). rewrite Forall_forall in *.
    apply (token_of_incl y); [|apply IH; auto]. intros g Hg. cbn [regex_graphemes]. apply in_flat_map. eauto.
  - cbn [tree_toks]. intros [<- |H]; [tres|]. apply in_app_iff in H as [H|[<- |[]]]; [|tres]. rewrite Forall_forall in *.
    assert (K : forall y, In y l -> In x (tree_toks y) -> token_of (RAlt l) x).
    { intros y Hy Hx. apply (token_of_incl y); [|apply IH; auto]. intros g Hg. cbn [regex_graphemes]. apply in_flat_map. eauto. }
    destruct l as [|y l]; [destruct H|]. apply in_app_iff in H as [H|H]; [apply (K y); auto; left; auto|].
    apply in_flat_map in H as (z & Hz & [<- |H]); [tres|]. apply (K z); auto. right; auto.
  - cbn [tree_toks]. intros [<- |H]; [tres|]. apply in_app_iff in H as [H|[<- |[<- |[]]]]; [|tres|tres].
    apply (token_of_incl r); auto.
  - cbn [tree_toks]. intros [<- |[]]. tres.
  - cbn [tree_toks]. intros [<- |[]]. tres.
  - cbn [tree_toks]. intros Hx. match goal with H : syntax_head g -> length g = 1 |- _ => rename H into Hs end.
    assert (K : ~ syntax_head g -> x = g -> token_of (RChar (RGrapheme g)) x).
    { intros Hn ->. right; left. split; auto. left; auto. }
    assert (L : length g <> 1 -> ~ syntax_head g) by (intros Hl Hh; apply Hl; auto).
    unfold grapheme_toks in Hx. destruct g as [|c [|d g]]; [congruence| |].
    + destruct ((c <? 128)%N && is_reserved_char c) eqn:E.
      * destruct Hx as [<- |[]]. right; right. exists [c]. split; auto. left; auto.
      * destruct Hx as [<- |[]]. apply K; auto. intros (c' & g' & Eg & Hc). injection Eg as <- <-.
        pose proof Hc as Hr. apply is_reserved_spec in Hr. rewrite Hr, andb_true_r in E. apply N.ltb_ge in E.
        unfold syntax_char in Hc. simpl in Hc. repeat (destruct Hc as [<- |Hc]; [first [lia|congruence]|]). destruct Hc.
    + destruct Hx as [<- |[]]. apply K; auto. apply L. discriminate.
Qed.

Lemma printable_regular t : printable t -> forall g, In g (regex_graphemes t) ->
  g <> [] /\ (syntax_head g -> length g = 1).
Proof.
  induction t as [l IH|l IH|r IH|c] using regex_ind'; intros Hp g Hg; inversion Hp; subst; cbn [regex_graphemes] in Hg.
  - apply in_flat_map in Hg as (x & Hx & Hg). rewrite Forall_forall in *. eauto.
  - apply in_flat_map in Hg as (x & Hx & Hg). rewrite Forall_forall in *. eauto.
  - auto.
  - destruct Hg.
  - destruct Hg.
  - destruct Hg as [<- |[]]. auto.
Qed.

(** If segmentation keeps the symbols and the reserved characters apart, then these are the tokens of the printed text *)
Definition apart (seg : str -> list str) (t : regex_tree) : Prop :=
  forall hs, (forall g, In g hs -> In g (regex_graphemes t) \/ exists c, syntax_char c /\ g = [c]) -> segmented seg hs.
Lemma apart_tokens seg t ts : apart seg t -> (forall g, In g (regex_graphemes t) -> g <> []) -> (forall x, In x ts -> token_of t x) -> tokens seg ts.
Proof.
  intros Ha Hne. induction ts as [|x ts IH]; intros H; [constructor|].
  assert (K : forall ts, (forall x, In x ts -> token_of t x) -> exists hs, concat hs = concat ts /\
    forall g, In g hs -> In g (regex_graphemes t) \/ exists c, syntax_char c /\ g = [c]).
  { clear. induction ts as [|x ts IH]; intros H; [exists []; split; auto; intros g []|].
    destruct IH as (hs & E & Hh); [intros; apply H; right; auto|].
    destruct (H x (or_introl eq_refl)) as [(c & H1 & _ & ->)|[(Hx & _)|(g & Hg & ->)]].
    - exists ([c] :: hs). cbn [concat]. rewrite E. split; auto. intros g [<- |Hg]; eauto.
    - exists (x :: hs). cbn [concat]. rewrite E. split; auto. intros g [<- |Hg]; eauto.
    - exists ([92%N] :: g :: hs). cbn [concat app]. rewrite E. split; auto. intros g' [<- |[<- |Hg']]; eauto.
      right. exists 92%N. split; auto. unfold syntax_char. simpl. tauto. }
  assert (Hts : tokens seg ts) by (apply IH; intros; apply H; right; auto).
  assert (L : forall g, In g (regex_graphemes t) -> exists l, seg (g ++ concat ts) = g :: l).
  { intros g Hg. destruct (K ts) as (hs & E & Hh); [intros; apply H; right; auto|]. rewrite <- E.
    assert (Hs : segmented seg (g :: hs)) by (apply Ha; intros h [<- |Hi]; auto). inversion Hs as [|? ? Es _]; subst. exists hs. exact Es. }
  destruct (H x (or_introl eq_refl)) as [(c & H1 & H2 & ->)|[(Hx & Hn)|(g & Hg & ->)]].
  - constructor; auto.
  - destruct (L x Hx) as (l & E). econstructor; eauto.
  - destruct (L g Hg) as (l & E). econstructor; eauto.
Qed.

(** ** Parsed trees *)
Inductive parsed_tree (Q : str -> Prop) : regex_tree -> Prop :=
| pt_seq l : l <> [] -> Forall (parsed_tree Q) l -> parsed_tree Q (RSequence l)
| pt_alt l : l <> [] -> Forall (parsed_tree Q) l -> parsed_tree Q (RAlt l)
| pt_rep r : parsed_tree Q r -> parsed_tree Q (RRepeat r)
| pt_eps : parsed_tree Q (RChar REpsilon)
| pt_empty : parsed_tree Q (RChar REmpty)
| pt_sym g : Q g -> parsed_tree Q (RChar (RGrapheme g)).

Lemma wrap_parsed (Q : str -> Prop) f l : l <> [] -> Forall (parsed_tree Q) l -> (Forall (parsed_tree Q) l -> parsed_tree Q (f l)) -> parsed_tree Q (wrap f l).
Proof.
  intros Hn HF Hf. destruct l as [|x [|y l]]; simpl; auto. inversion HF; auto.
Qed.
Lemma kapply_parsed (Q : str -> Prop) k t : parsed_tree Q t -> parsed_tree Q (kapply k t).
Proof. intros H. destruct k; simpl; auto; constructor; auto. discriminate. constructor; auto. constructor; auto. constructor; auto. Qed.

Lemma toks_parsed : let Q := fun g : str => g <> [] in
  (forall t u, prim t u -> (forall g, In g u -> Q g) -> parsed_tree Q t) /\
  (forall l u, atoms l u -> (forall g, In g u -> Q g) -> Forall (parsed_tree Q) l) /\
  (forall l u, alts l u -> (forall g, In g u -> Q g) -> Forall (parsed_tree Q) l).
Proof.
  intros Q. apply toks_mind.
  - intros c u Hc HQ. inversion Hc; subst; constructor; auto; apply HQ; simpl; auto.
  - intros l u Ha IH HQ. apply wrap_parsed.
    + eapply alts_nonempty; eauto.
    + apply IH. intros g Hg. apply HQ. right. apply in_app_iff. auto.
    + constructor; auto. eapply alts_nonempty; eauto.
  - intros t u k Hp IH HQ. constructor; auto. apply kapply_parsed, IH. intros g Hg. apply HQ. apply in_app_iff. auto.
  - intros t u k l v Hp IH Ha IHa HQ. constructor.
    + apply kapply_parsed, IH. intros g Hg. apply HQ. rewrite !in_app_iff. auto.
    + apply IHa. intros g Hg. apply HQ. rewrite !in_app_iff. auto.
  - intros l u Ha IH HQ. constructor; auto. apply wrap_parsed; auto; [eapply atoms_nonempty; eauto|].
    intros. constructor; auto. eapply atoms_nonempty; eauto.
  - intros l u ls v Ha IH Hl IHl HQ. constructor.
    + apply wrap_parsed; [eapply atoms_nonempty; eauto| |].
      * apply IH. intros g Hg. apply HQ. rewrite in_app_iff. auto.
      * intros. constructor; auto. eapply atoms_nonempty; eauto.
    + apply IHl. intros g Hg. apply HQ. rewrite in_app_iff. simpl. auto.
Qed.

Lemma parse_regex_tree seg t u : divides seg -> parse_regex seg u = Ret (Some t) -> parsed_tree (fun g => g <> []) t.
Proof.
  intros Hd H. destruct (tokens_exist seg Hd (trim u)) as (gs & Hg & Et). unfold parse_regex, parse_with, all_consuming in H. cbv zeta in H.
  apply bind_Ret_inv in H as (r & H & E). apply bind_Ret_inv in H as ([[[|c i] t']|] & H & E'); injection E' as <-; try discriminate.
  injection E as ->. rewrite <- Et in H at 2.
  destruct (expression_sound seg Hd _ gs [] t Hg H) as (l & v & k & -> & Hk & Ha & ->).
  apply wrap_parsed.
  - eapply alts_nonempty; eauto.
  - apply (proj2 (proj2 toks_parsed) l v Ha). intros g Hi. apply (good_nonempty seg Hd _ Hg). apply in_app_iff. auto.
  - constructor; auto. eapply alts_nonempty; eauto.
Qed.

Lemma parsed_printable t : parsed_tree (fun g => g <> []) t ->
  (forall g, In g (regex_graphemes t) -> g <> [949%N] /\ g <> [8709%N] /\ (syntax_head g -> length g = 1)) -> printable t.
Proof.
  induction t as [l IH|l IH|r IH|c] using regex_ind'; intros Hp Hg; inversion Hp; subst; cbn [regex_graphemes] in Hg.
  - constructor; auto. rewrite Forall_forall in *. intros x Hx. apply IH; auto. intros g Hgx. apply Hg. apply in_flat_map. eauto.
  - constructor; auto. rewrite Forall_forall in *. intros x Hx. apply IH; auto. intros g Hgx. apply Hg. apply in_flat_map. eauto.
  - constructor; auto.
  - constructor.
  - constructor.
  - destruct (Hg g) as (H1 & H2 & H3); [left; auto|]. constructor; auto.
Qed.

Lemma tree_tokens seg t : printable t -> apart seg t -> tokens seg (tree_toks t).
Proof. intros Hp Ha. apply (apart_tokens seg t); auto; [intros g Hg; apply (printable_regular t Hp g Hg)|apply tree_toks_In; auto]. Qed.
Lemma print_parse seg t : divides seg -> printable t -> apart seg t -> trims_to (regex_to_string t) (regex_to_string t) ->
  exists t', parse_regex seg (regex_to_string t) = Ret (Some t') /\ forall w, matches t' w <-> matches t w.
Proof.
  intros Hd Hp Ha Ht. destruct (tree_shows t Hp) as (e & Hs & He).
  destruct (parse_regex_complete seg e (tree_toks t) (regex_to_string t)) as (t' & E & Ht').
  - apply sh_up; auto.
  - auto.
  - apply tree_tokens; auto.
  - rewrite tree_toks_concat. auto.
  - exists t'. split; auto. intros w. rewrite (Ht' w), (He w). reflexivity.
Qed.

Lemma trims_self u : (forall c, In c u -> ~ whitespace c) -> trims_to u u.
Proof.
  intros H. exists [], []. rewrite app_nil_r. split; auto. split; [intros c [[]|[]]|]. split.
  - intros c v' ->. apply H. left; auto.
  - intros c v' ->. apply H. apply in_app_iff. right. left; auto.
Qed.
Lemma syntax_not_ws c : syntax_char c -> ~ whitespace c.
Proof.
  unfold syntax_char. simpl. intros H W. unfold whitespace in W.
  repeat (destruct H as [<- |H]; [lia|]). destruct H.
Qed.
Lemma to_string_not_ws t : printable t -> (forall g c, In g (regex_graphemes t) -> In c g -> ~ whitespace c) ->
  forall c, In c (regex_to_string t) -> ~ whitespace c.
Proof.
  intros Hp H c Hc. rewrite <- tree_toks_concat in Hc. apply in_concat in Hc as (x & Hx & Hc).
  apply (tree_toks_In t Hp) in Hx as [(c' & Hc' & _ & ->)|[(Hx & _)|(g & Hg & ->)]]; [|eauto|].
  - destruct Hc as [<- |[]]. apply syntax_not_ws; auto.
  - destruct Hc as [<- |Hc]; [|eauto]. apply syntax_not_ws. unfold syntax_char. simpl. tauto.
Qed.
