(** * RegexUnescape: printing and parsing expressions that contain the symbols ε and ∅ *)
From Coq Require Import List NArith Arith Lia Bool.
From Verif Require Import Base BaseLemmas Spec TableSpec LayoutSpec RegexSpec ParserModel ParserBasics FaParserProofs RegexModel RegexProofs
  RegexParserModel RegexParserProofs RegexPrintProofs RegexSymbols.
Import ListNotations.

Definition special (g : str) : Prop := g = [949%N] \/ g = [8709%N].
Lemma special_dec g : special g \/ ~ special g.
Proof.
  unfold special. destruct (list_eq_dec N.eq_dec g [949%N]); auto. destruct (list_eq_dec N.eq_dec g [8709%N]); auto. tauto.
Qed.
Lemma unescaped_char g : ~ special g -> unescaped (RChar (RGrapheme g)) = RChar (RGrapheme g).
Proof.
  intros H. cbn [unescaped]. unfold special in H. destruct g as [|c [|d g]]; auto.
  - destruct (N.eqb_spec c 949) as [->|H1]; [tauto|]. destruct (N.eqb_spec c 8709) as [->|H2]; [tauto|].
    destruct c as [|p]; auto. repeat (destruct p as [p|p|]; auto; try congruence).
  - destruct c as [|p]; auto. repeat (destruct p as [p|p|]; auto; try congruence).
Qed.

Lemma unescaped_string t : regex_to_string (unescaped t) = regex_to_string t.
Proof.
  induction t as [l IH|l IH|r IH|c] using regex_ind'.
  - cbn [unescaped regex_to_string]. induction IH as [|x l Hx HF IHl]; auto. cbn [map flat_map]. rewrite Hx, IHl. reflexivity.
  - cbn [unescaped regex_to_string]. destruct IH as [|x l Hx HF]; auto. cbn [map]. rewrite Hx. do 3 f_equal.
    induction HF as [|y l Hy HF IHl]; auto. cbn [map flat_map]. rewrite Hy, IHl. reflexivity.
  - cbn [unescaped regex_to_string]. rewrite IH. reflexivity.
  - destruct c as [g| |]; auto. destruct (special_dec g) as [[-> | ->]|H]; auto. rewrite unescaped_char; auto.
Qed.
Lemma unescaped_symbols t g : In g (regex_graphemes (unescaped t)) <-> In g (regex_graphemes t) /\ g <> [949%N] /\ g <> [8709%N].
Proof.
  induction t as [l IH|l IH|r IH|c] using regex_ind'; cbn [unescaped regex_graphemes].
  - rewrite !in_flat_map. rewrite Forall_forall in IH. split.
    + intros (x & Hx & Hg). apply in_map_iff in Hx as (y & <- & Hy). apply IH in Hg; auto. firstorder.
    + intros ((x & Hx & Hg) & H). exists (unescaped x). split; [apply in_map; auto|]. apply IH; auto.
  - rewrite !in_flat_map. rewrite Forall_forall in IH. split.
    + intros (x & Hx & Hg). apply in_map_iff in Hx as (y & <- & Hy). apply IH in Hg; auto. firstorder.
    + intros ((x & Hx & Hg) & H). exists (unescaped x). split; [apply in_map; auto|]. apply IH; auto.
  - exact IH.
  - destruct c as [h| |]; cbn [regex_graphemes In]; try tauto.
    destruct (special_dec h) as [[-> | ->]|H]; cbn [regex_graphemes In].
    + split; [intros []|intros ([<- |[]] & H1 & H2); congruence].
    + split; [intros []|intros ([<- |[]] & H1 & H2); congruence].
    + pose proof (unescaped_char h H) as E. cbn [unescaped] in E. rewrite E. cbn [regex_graphemes In]. unfold special in H.
      split; [intros [<- |[]]; tauto|tauto].
Qed.
Lemma unescaped_parsed Q t : parsed_tree Q t -> parsed_tree Q (unescaped t).
Proof.
  induction t as [l IH|l IH|r IH|c] using regex_ind'; intros Hp; inversion Hp; subst.
  - cbn [unescaped]. constructor; [destruct l; [congruence|discriminate]|]. apply Forall_map. rewrite Forall_forall in *. auto.
  - cbn [unescaped]. constructor; [destruct l; [congruence|discriminate]|]. apply Forall_map. rewrite Forall_forall in *. auto.
  - cbn [unescaped]. constructor. auto.
  - constructor.
  - constructor.
  - destruct (special_dec g) as [[-> | ->]|H]; [constructor|constructor|]. rewrite unescaped_char; auto.
Qed.

Lemma unescaped_same t : (forall g, In g (regex_graphemes t) -> g <> [949%N] /\ g <> [8709%N]) -> unescaped t = t.
Proof.
  induction t as [l IH|l IH|r IH|c] using regex_ind'; cbn [regex_graphemes]; intros Hg.
  - cbn [unescaped]. f_equal. induction IH as [|x l Hx HF IHl]; auto. cbn [map flat_map] in *. rewrite Hx, IHl; auto; intros; apply Hg, in_app_iff; auto.
  - cbn [unescaped]. f_equal. induction IH as [|x l Hx HF IHl]; auto. cbn [map flat_map] in *. rewrite Hx, IHl; auto; intros; apply Hg, in_app_iff; auto.
  - cbn [unescaped]. f_equal. auto.
  - destruct c as [g| |]; auto. apply unescaped_char. intros [-> | ->]; destruct (Hg _ (or_introl eq_refl)); congruence.
Qed.

Lemma print_parse_unescaped seg u t : divides seg -> parse_regex seg u = Ret (Some t) ->
  (forall g, In g (regex_graphemes t) -> syntax_head g -> length g = 1) ->
  (forall c v, regex_to_string t = c :: v -> ~ whitespace c) -> (forall c v, regex_to_string t = v ++ [c] -> ~ whitespace c) ->
  apart seg t ->
  exists t', parse_regex seg (regex_to_string t) = Ret (Some t') /\ (forall w, matches t' w <-> matches (unescaped t) w) /\
    forall g, In g (regex_graphemes t') <-> In g (regex_graphemes t) /\ g <> [949%N] /\ g <> [8709%N].
Proof.
  intros Hd H Hr H1 H2 Hseg.
  destruct (print_parse_symbols seg (unescaped t)) as (t' & E & L & S); auto.
  - apply parsed_printable; [apply unescaped_parsed, (parse_regex_tree seg t u Hd H)|].
    intros g Hg. apply unescaped_symbols in Hg as (Hg & ? & ?). auto.
  - intros hs Hh. apply Hseg. intros g Hg. destruct (Hh g Hg) as [Hi|Hi]; auto. apply unescaped_symbols in Hi. tauto.
  - rewrite unescaped_string. exists [], []. rewrite app_nil_r. split; [auto|]. split; [intros c [[]|[]]|]. split; [exact H1|exact H2].
  - rewrite unescaped_string in E. exists t'. split; auto. split; auto. intros g. rewrite S. apply unescaped_symbols.
Qed.
