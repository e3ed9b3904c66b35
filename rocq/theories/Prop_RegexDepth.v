(** Properties about the recursion of the parser of regular expressions and the height of the parsed expressions. *)
From Coq Require Import List NArith Arith Bool Lia.
From Verif Require Import Base BaseLemmas Spec LayoutSpec RegexSpec RegexDepthSpec RegexModel RegexParserModel RegexDepthProofs Prop_RegexParser.
Import ListNotations.

(** ** C82: recursion goes as deep as the groups are nested *)

(** [expression seg k] is the parser with calls of itself inside each other at most [k] deep; [Diverge] is a call deeper than that *)
Theorem C82_depth : forall seg gs u t n, divides seg -> tokens seg gs -> trims_to u (concat gs) -> parse_regex seg u = Ret (Some t) ->
  nested gs n -> forall k, expression seg k (concat gs) = if k <=? n then Diverge else Ret (Some ([], t)).
Proof. exact expression_depth. Qed.
Print Assumptions C82_depth.

Theorem C82_any_text : forall seg i k m, count_occ N.eq_dec i 40%N < k -> k <= m ->
  expression seg k i <> Diverge /\ expression seg m i = expression seg k i.
Proof.
  intros seg i k m H L. assert (P : parens i < k).
  { revert H. unfold parens. clear L. assert (E : count_occ N.eq_dec i 40%N = length (filter (N.eqb 40) i)); [|lia].
    induction i as [|c i IH]; auto. cbn [count_occ filter]. destruct (N.eq_dec c 40) as [->|N]; [simpl; auto|].
    destruct (N.eqb_spec 40 c); [congruence|auto]. }
  destruct (totalM_expression seg k i P) as (r & E & _). assert (D : expression seg k i <> Diverge) by (rewrite E; discriminate).
  split; [exact D|]. exact (within_expression seg k m L i D).
Qed.
Print Assumptions C82_any_text.

Theorem C82_height : forall seg gs u t n, divides seg -> tokens seg gs -> trims_to u (concat gs) -> parse_regex seg u = Ret (Some t) ->
  nested gs n -> height t <= 4 * n + 5.
Proof. exact expression_height. Qed.
Print Assumptions C82_height.

Theorem C82_height_attained : forall seg n u, divides seg -> tokens seg (tall n) -> trims_to u (concat (tall n)) ->
  exists t, parse_regex seg u = Ret (Some t) /\ nested (tall n) n /\ height t = 4 * n + 5.
Proof.
  intros seg n u H1 H2 H3. exists (tall_tree n). split; [exact (tall_parses seg n u H1 H2 H3)|]. split; [|apply tall_tree_height].
  rewrite <- (tall_nest n) at 2. apply nest_nested.
Qed.
Print Assumptions C82_height_attained.

Example C82_example : divides singles /\ (forall n, tokens singles (tall n) /\ trims_to (concat (tall n)) (concat (tall n))) /\
  concat (tall 2) = [40; 40; 97; 43; 98; 124; 99; 41; 43; 98; 124; 99; 41; 43; 98; 124; 99]%N /\
  expression singles 2 (concat (tall 2)) = Diverge /\
  (exists t, expression singles 3 (concat (tall 2)) = Ret (Some ([], t)) /\ height t = 13) /\
  expression singles 1 [97; 98; 124; 99; 42; 41]%N <> Diverge.
Proof.
  split; [apply singles_divides|]. split.
  { intros n. split; [|apply tall_trims]. apply tall_tokens. intros c u. eexists. reflexivity. }
  split; [reflexivity|]. split; [reflexivity|]. split; [|discriminate]. eexists. split; reflexivity.
Qed.
