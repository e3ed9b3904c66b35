(** * RegexSymbols: the symbols of a parsed expression are the symbols of its text *)
From Coq Require Import List NArith Arith Lia Bool.
From Verif Require Import Base BaseLemmas Spec TableSpec LayoutSpec RegexSpec ParserModel ParserBasics FaParserProofs RegexModel RegexProofs
  RegexParserModel RegexParserProofs RegexPrintProofs.
Import ListNotations.

(** The symbols of a text: escaped graphemes, and graphemes that are not reserved *)
Definition tok_symbols (x : str) : list str :=
  match x with
  | [] => [[]]
  | c :: g => if (c =? 92)%N then match g with [] => [] | _ => [g] end else if is_reserved_char c then [] else [x]
  end.
Definition scan (u : list str) : list str := flat_map tok_symbols u.
Lemma scan_cons g u : scan (g :: u) = tok_symbols g ++ scan u.
Proof. reflexivity. Qed.

Lemma scan_reserved c u : syntax_char c -> c <> 92%N -> scan ([c] :: u) = scan u.
Proof.
  intros Hc Hn. rewrite scan_cons. cbn [tok_symbols].
  destruct (N.eqb_spec c 92) as [E|_]; [congruence|]. apply is_reserved_spec in Hc. rewrite Hc. reflexivity.
Qed.
Lemma scan_escape g u : g <> [] -> scan ((92%N :: g) :: u) = g :: scan u.
Proof. intros H. destruct g; [congruence|reflexivity]. Qed.
Lemma scan_sym g u : ~ syntax_head g -> scan (g :: u) = g :: scan u.
Proof.
  intros Hn. rewrite scan_cons. unfold tok_symbols. destruct g as [|c g]; [reflexivity|].
  destruct (N.eqb_spec c 92) as [->|_]; [destruct Hn; exists 92%N, g; split; auto; unfold syntax_char; simpl; tauto|].
  destruct (is_reserved_char c) eqn:E; [|reflexivity]. apply is_reserved_spec in E. destruct Hn. exists c, g. auto.
Qed.
Ltac sres := rewrite scan_reserved; [|unfold syntax_char; simpl; tauto|discriminate].

Lemma scan_shows n e u : shows n e u -> forall k, scan (u ++ k) = doc_symbols e ++ scan k.
Proof.
  induction 1 as [g Hn|g Hn| | |e u H IH|e u H IH|e u H IH|a b u v Ha IHa Hb IHb|a b u v Ha IHa Hb IHb|n e u H IH]; intros k; cbn [app doc_symbols].
  - apply scan_sym. auto.
  - apply scan_escape. auto.
  - sres. reflexivity.
  - sres. reflexivity.
  - sres. rewrite <- app_assoc, IH. cbn [app]. sres. reflexivity.
  - rewrite <- app_assoc, IH. cbn [app]. sres. reflexivity.
  - rewrite <- app_assoc, IH. cbn [app]. sres. reflexivity.
  - rewrite <- !app_assoc, IHa, IHb. reflexivity.
  - rewrite <- !app_assoc, IHa. cbn [app]. sres. rewrite IHb. reflexivity.
  - apply IH.
Qed.

Lemma wrap_graphemes f l : (forall l, regex_graphemes (f l) = flat_map regex_graphemes l) -> regex_graphemes (wrap f l) = flat_map regex_graphemes l.
Proof. intros H. destruct l as [|x [|y l]]; [apply H| |apply H]. simpl. rewrite app_nil_r. reflexivity. Qed.
Lemma kapply_graphemes k t g : In g (regex_graphemes (kapply k t)) <-> In g (regex_graphemes t).
Proof. destruct k; simpl; rewrite ?app_nil_r, ?in_app_iff; tauto. Qed.
Lemma scan_ktoks k u : scan (ktoks k ++ u) = scan u.
Proof. destruct k; cbn [ktoks app]; [reflexivity|sres; reflexivity|sres; reflexivity]. Qed.

Definition reads (l u : list str) : Prop := forall k g, In g (scan (u ++ k)) <-> In g l \/ In g (scan k).
Lemma scan_toks :
  (forall t u, prim t u -> reads (regex_graphemes t) u) /\ (forall l u, atoms l u -> reads (flat_map regex_graphemes l) u) /\
  (forall l u, alts l u -> reads (flat_map regex_graphemes l) u).
Proof.
  apply toks_mind; unfold reads.
  - intros c u Hc k g. inversion Hc as [| |h Hn|h Hn]; subst; cbn [app regex_graphemes].
    + sres. simpl. tauto.
    + sres. simpl. tauto.
    + rewrite scan_escape by auto. simpl. tauto.
    + rewrite scan_sym by auto. simpl. tauto.
  - intros l u Ha IH k g. cbn [app]. sres. rewrite <- app_assoc, IH. cbn [app]. sres. rewrite (wrap_graphemes RAlt) by reflexivity. reflexivity.
  - intros t u kl Hp IH k g. rewrite <- app_assoc, IH, scan_ktoks. cbn [flat_map]. rewrite app_nil_r, kapply_graphemes. reflexivity.
  - intros t u kl l v Hp IH Ha IHa k g. rewrite <- !app_assoc, IH, scan_ktoks, IHa. cbn [flat_map].
    rewrite in_app_iff, kapply_graphemes. tauto.
  - intros l u Ha IH k g. rewrite IH. cbn [flat_map]. rewrite app_nil_r, (wrap_graphemes RSequence) by reflexivity. reflexivity.
  - intros l u ls v Ha IH Hs IHs k g. rewrite <- app_assoc, IH. cbn [app]. sres. rewrite IHs. cbn [flat_map].
    rewrite in_app_iff, (wrap_graphemes RSequence) by reflexivity. tauto.
Qed.

Lemma parse_regex_symbols seg t gs u : divides seg -> tokens seg gs -> trims_to u (concat gs) -> parse_regex seg u = Ret (Some t) ->
  forall g, In g (regex_graphemes t) <-> In g (scan gs).
Proof.
  intros Hseg Hr Ht H. apply trim_spec in Ht. unfold parse_regex, parse_with, all_consuming in H. cbv zeta in H. rewrite Ht in H.
  apply bind_Ret_inv in H as (r & H & E). apply bind_Ret_inv in H as ([[[|c i] t']|] & H & E'); injection E' as <-; try discriminate.
  injection E as ->. destruct (expression_sound seg Hseg _ gs [] t Hr H) as (l & v & k & -> & Hk & Ha & ->).
  assert (k = []).
  { destruct k as [|g k]; auto. assert (Hg : g <> []) by (apply (good_nonempty seg Hseg _ Hr); apply in_app_iff; right; left; auto).
    simpl in Hk. symmetry in Hk. apply app_eq_nil in Hk as (Hk & _). congruence. }
  subst k. intros g. rewrite (proj2 (proj2 scan_toks) l v Ha [] g), (wrap_graphemes RAlt) by reflexivity. simpl. tauto.
Qed.

(** ** Parsing what was printed *)
Lemma scan_grapheme g k : g <> [949%N] -> g <> [8709%N] -> (syntax_head g -> length g = 1) ->
  scan (grapheme_toks g ++ k) = g :: scan k.
Proof. intros H1 H2 H3. rewrite (scan_shows 3 (DSym g)) by (apply grapheme_shows; auto). reflexivity. Qed.

Lemma scan_flat l (f : regex_tree -> list str) : Forall (fun t => forall k, scan (f t ++ k) = regex_graphemes t ++ scan k) l ->
  forall k, scan (flat_map f l ++ k) = flat_map regex_graphemes l ++ scan k.
Proof.
  induction 1 as [|t l H HF IH]; intros k; cbn [flat_map app]; auto. rewrite <- !app_assoc, H, IH. reflexivity.
Qed.
Lemma scan_tree t : printable t -> forall k, scan (tree_toks t ++ k) = regex_graphemes t ++ scan k.
Proof.
  induction t as [l IH|l IH|r IH|c] using regex_ind'; intros Hp k; inversion Hp; subst; cbn [tree_toks regex_graphemes].
  - apply scan_flat. rewrite Forall_forall in *. auto.
  - destruct l as [|x l]; [congruence|]. inversion IH as [|? ? Hx HF]; subst.
    match goal with H : Forall printable _ |- _ => inversion H; subst end. cbn [app flat_map]. sres.
    rewrite <- !app_assoc. rewrite Hx by auto. rewrite (scan_flat l (fun item => [124%N] :: tree_toks item)).
    + cbn [app]. sres. reflexivity.
    + rewrite Forall_forall in *. intros y Hy k'. cbn [app]. sres. auto.
  - cbn [app]. sres. rewrite <- app_assoc, IH by auto. cbn [app]. sres. sres. reflexivity.
  - cbn [app]. sres. reflexivity.
  - cbn [app]. sres. reflexivity.
  - apply scan_grapheme; auto.
Qed.

Lemma complete_symbols seg e gs u : shows 0 e gs -> divides seg -> tokens seg gs -> trims_to u (concat gs) ->
  exists t, parse_regex seg u = Ret (Some t) /\ same_lang t e /\ forall g, In g (regex_graphemes t) <-> In g (doc_symbols e).
Proof.
  intros Hs Hseg Hr Ht. destruct (parse_regex_complete seg e gs u Hs Hseg Hr Ht) as (t & E & Hl). exists t. split; auto. split; auto.
  intros g. rewrite (parse_regex_symbols seg t gs u Hseg Hr Ht E). pose proof (scan_shows 0 e gs Hs []) as H.
  rewrite app_nil_r in H. rewrite H, app_nil_r. reflexivity.
Qed.
Lemma sound_symbols seg t gs u : divides seg -> tokens seg gs -> trims_to u (concat gs) -> parse_regex seg u = Ret (Some t) ->
  exists e, shows 0 e gs /\ same_lang t e /\ forall g, In g (regex_graphemes t) <-> In g (doc_symbols e).
Proof.
  intros Hseg Hr Ht E. destruct (parse_regex_sound seg t gs u Hseg Hr Ht E) as (e & Hs & Hl). exists e. split; auto. split; auto.
  intros g. rewrite (parse_regex_symbols seg t gs u Hseg Hr Ht E). pose proof (scan_shows 0 e gs Hs []) as H.
  rewrite app_nil_r in H. rewrite H, app_nil_r. reflexivity.
Qed.
Lemma print_parse_symbols seg t : divides seg -> printable t -> apart seg t -> trims_to (regex_to_string t) (regex_to_string t) ->
  exists t', parse_regex seg (regex_to_string t) = Ret (Some t') /\ (forall w, matches t' w <-> matches t w) /\
    forall g, In g (regex_graphemes t') <-> In g (regex_graphemes t).
Proof.
  intros Hd Hp Ha Ht. destruct (print_parse seg t Hd Hp Ha Ht) as (t' & E & Hl). exists t'. split; auto. split; auto.
  intros g. rewrite (parse_regex_symbols seg t' (tree_toks t) (regex_to_string t) Hd); auto.
  - pose proof (scan_tree t Hp []) as H. rewrite app_nil_r in H. rewrite H, app_nil_r. reflexivity.
  - apply tree_tokens; auto.
  - rewrite tree_toks_concat. auto.
Qed.
