(** * RegexSizeProofs: how large the tree of a parsed expression is *)
From Coq Require Import List NArith Arith Bool Lia.
From Verif Require Import Base BaseLemmas Spec LayoutSpec RegexSpec SizeSpec RegexModel ParserModel ParserBasics RegexParserModel RegexParserProofs.
Import ListNotations.

Lemma plus_signs_app u v : plus_signs (u ++ v) = plus_signs u + plus_signs v.
Proof. unfold plus_signs. rewrite filter_app, app_length. reflexivity. Qed.

Definition weight (l : list regex_tree) : nat := list_sum (map (fun t => regex_nodes t + 2) l).
Lemma weight_nodes l : weight l = list_sum (map regex_nodes l) + 2 * length l.
Proof. unfold weight. induction l as [|t l IH]; cbn [map list_sum length fold_right]; auto. unfold list_sum in *. simpl. lia. Qed.
Lemma wrap_weight f l : l <> [] -> (forall l, regex_nodes (f l) = S (list_sum (map regex_nodes l))) ->
  regex_nodes (wrap f l) + 2 <= weight l.
Proof.
  intros Hl Hf. destruct l as [|x [|y l]]; [congruence|unfold weight; simpl; lia|].
  cbn [wrap]. rewrite Hf, weight_nodes. cbn [length]. lia.
Qed.

(** [bounded x u]: [x] is at most [3 * length u * 2 ^ plus_signs u] *)
Definition bounded (x : nat) (u : list str) : Prop := x <= 3 * length u * 2 ^ plus_signs u.
Lemma bounded_le x y u : x <= y -> bounded y u -> bounded x u.
Proof. unfold bounded. lia. Qed.
Lemma pow_pos n : 1 <= 2 ^ n.
Proof. pose proof (Nat.pow_nonzero 2 n). lia. Qed.
Lemma bounded_app x y u v : bounded x u -> bounded y v -> bounded (x + y) (u ++ v).
Proof.
  unfold bounded. rewrite app_length, plus_signs_app, Nat.pow_add_r. intros H1 H2.
  pose proof (pow_pos (plus_signs u)). pose proof (pow_pos (plus_signs v)).
  set (p := 2 ^ plus_signs u) in *. set (q := 2 ^ plus_signs v) in *. nia.
Qed.
Lemma bounded_zero u : bounded 0 u.
Proof. unfold bounded. lia. Qed.
Lemma bounded_kleene k t u : bounded (regex_nodes t + 2) u -> bounded (regex_nodes (kapply k t) + 2) (u ++ ktoks k).
Proof.
  destruct k; cbn [kapply ktoks]; intros H.
  - rewrite app_nil_r. auto.
  - cbn [regex_nodes]. apply (bounded_le _ ((regex_nodes t + 2) + 1)); [lia|]. apply bounded_app; auto. unfold bounded. simpl. lia.
  - cbn [regex_nodes map list_sum fold_right]. unfold bounded in *. rewrite app_length, plus_signs_app, Nat.pow_add_r.
    change (2 ^ plus_signs [[43%N]]) with 2. simpl length. pose proof (pow_pos (plus_signs u)). unfold list_sum. simpl fold_right. nia.
Qed.

Lemma toks_bounded :
  (forall t u, prim t u -> bounded (regex_nodes t + 2) u) /\
  (forall l u, atoms l u -> bounded (weight l) u) /\
  (forall l u, alts l u -> bounded (weight l) u).
Proof.
  apply toks_mind.
  - intros c u Hc. unfold bounded. pose proof (pow_pos (plus_signs u)). cbn [regex_nodes].
    assert (1 <= length u) by (destruct Hc; simpl; lia). nia.
  - intros l u Ha IH. apply (bounded_le _ (0 + (weight l + 0))).
    { pose proof (wrap_weight RAlt l (alts_nonempty _ _ Ha) (fun _ => eq_refl)). lia. }
    apply (bounded_app 0 (weight l + 0) [[40%N]]); [apply bounded_zero|]. apply bounded_app; auto. apply bounded_zero.
  - intros t u k Hp IH. unfold weight. cbn [map list_sum fold_right]. apply (bounded_le _ (regex_nodes (kapply k t) + 2)); [simpl; lia|].
    apply bounded_kleene; auto.
  - intros t u k l v Hp IH Ha IHa. change (weight (kapply k t :: l)) with ((regex_nodes (kapply k t) + 2) + weight l).
    apply bounded_app; auto. apply bounded_kleene; auto.
  - intros l u Ha IH. unfold weight at 1. cbn [map list_sum fold_right].
    apply (bounded_le _ (weight l)); auto. pose proof (wrap_weight RSequence l (atoms_nonempty _ _ Ha) (fun _ => eq_refl)). simpl. lia.
  - intros l u ls v Ha IH Hl IHl. change (weight (wrap RSequence l :: ls)) with ((regex_nodes (wrap RSequence l) + 2) + weight ls).
    apply bounded_app.
    + apply (bounded_le _ (weight l)); auto. apply (wrap_weight RSequence l (atoms_nonempty _ _ Ha) (fun _ => eq_refl)).
    + apply (bounded_app 0 (weight ls) [[124%N]]); auto. apply bounded_zero.
Qed.

Lemma parse_regex_alts seg t gs u : divides seg -> tokens seg gs -> trims_to u (concat gs) -> parse_regex seg u = Ret (Some t) ->
  exists l, alts l gs /\ t = wrap RAlt l.
Proof.
  intros Hseg Hr Ht H. apply trim_spec in Ht. unfold parse_regex, parse_with, all_consuming in H. cbv zeta in H. rewrite Ht in H.
  apply bind_Ret_inv in H as (r & H & E). apply bind_Ret_inv in H as ([[[|c i] t']|] & H & E'); injection E' as <-; try discriminate.
  injection E as ->. destruct (expression_sound seg Hseg _ gs [] t Hr H) as (l & v & k & -> & Hk & Ha & ->).
  assert (k = []).
  { destruct k as [|g k]; auto. assert (Hg : g <> []) by (apply (good_nonempty seg Hseg _ Hr); apply in_app_iff; right; left; auto).
    simpl in Hk. symmetry in Hk. apply app_eq_nil in Hk as (Hk & _). congruence. }
  subst k. rewrite app_nil_r. eauto.
Qed.
Lemma alts_parse_regex seg l gs u : alts l gs -> divides seg -> tokens seg gs -> trims_to u (concat gs) ->
  parse_regex seg u = Ret (Some (wrap RAlt l)).
Proof.
  intros Ha Hseg Hr Ht. apply trim_spec in Ht. unfold parse_regex, parse_with, all_consuming. cbv zeta. rewrite Ht.
  pose proof (expression_complete seg Hseg l gs (S (length (concat gs))) Ha Hr) as H. unfold ok in H. rewrite H by lia. reflexivity.
Qed.

Lemma parse_regex_nodes seg t gs u : divides seg -> tokens seg gs -> trims_to u (concat gs) -> parse_regex seg u = Ret (Some t) ->
  regex_nodes t + 2 <= 3 * length gs * 2 ^ plus_signs gs.
Proof.
  intros H1 H2 H3 H4. destruct (parse_regex_alts _ _ _ _ H1 H2 H3 H4) as (l & Ha & ->).
  apply (bounded_le _ (weight l)); [|apply toks_bounded; auto]. apply (wrap_weight RAlt l (alts_nonempty _ _ Ha) (fun _ => eq_refl)).
Qed.

(** ** Nested repetitions *)
Fixpoint plus_tree (n : nat) : regex_tree :=
  match n with
  | O => RChar (RGrapheme [97%N])
  | S n => RSequence [plus_tree n; RRepeat (plus_tree n)]
  end.
Lemma nested_plus_alts n : alts [plus_tree n] (nested_plus n).
Proof.
  induction n as [|n IH].
  - apply (alts_one [RChar (RGrapheme [97%N])]). apply (atoms_one (RChar (RGrapheme [97%N])) [[97%N]] KNone). constructor. constructor.
    intros (c & g' & E & Hc). injection E as <- <-. unfold syntax_char in Hc. simpl in Hc.
    repeat (destruct Hc as [Hc|Hc]; [discriminate|]). destruct Hc.
  - apply (alts_one [kapply KPlus (plus_tree n)]).
    change (nested_plus (S n)) with ([40%N] :: nested_plus n ++ [[41%N]; [43%N]]).
    replace ([40%N] :: nested_plus n ++ [[41%N]; [43%N]]) with (([40%N] :: nested_plus n ++ [[41%N]]) ++ ktoks KPlus)
      by (cbn [ktoks app]; rewrite <- app_assoc; reflexivity).
    apply atoms_one. apply (prim_group [plus_tree n]). auto.
Qed.
Lemma plus_tree_nodes n : regex_nodes (plus_tree n) + 2 = 3 * 2 ^ n.
Proof.
  induction n as [|n IH]; [reflexivity|]. cbn [plus_tree regex_nodes map list_sum fold_right]. rewrite Nat.pow_succ_r'. unfold list_sum. simpl fold_right. lia.
Qed.
Lemma plus_tree_elements n : sequence_elements (plus_tree n) + 2 = 2 * 2 ^ n.
Proof.
  induction n as [|n IH]; [reflexivity|]. cbn [plus_tree sequence_elements map list_sum fold_right length]. rewrite Nat.pow_succ_r'. unfold list_sum. simpl fold_right. lia.
Qed.
Lemma nested_plus_length n : length (nested_plus n) = 3 * n + 1.
Proof. induction n as [|n IH]; [reflexivity|]. cbn [nested_plus length]. rewrite app_length, IH. simpl. lia. Qed.
Lemma nested_plus_In n g : In g (nested_plus n) -> In g [[97%N]; [40%N]; [41%N]; [43%N]].
Proof.
  induction n as [|n IH]; cbn [nested_plus]; [simpl; tauto|]. intros [<-|H]; [simpl; auto|]. apply in_app_iff in H as [H|H]; auto.
  simpl in *. tauto.
Qed.

(** ** No polynomial bounds [2 ^ n] *)
Lemma beyond_polynomials c k : exists n, c * (3 * n + 1) ^ k <= 2 ^ n.
Proof.
  set (m := c * (3 * S k) ^ k). exists (m * S k). rewrite Nat.pow_mul_r.
  assert (H1 : (m + 1) ^ S k <= (2 ^ m) ^ S k) by (apply Nat.pow_le_mono_l; pose proof (Nat.pow_gt_lin_r 2 m); lia).
  assert (H2 : (3 * (m * S k) + 1) ^ k <= (3 * S k * (m + 1)) ^ k) by (apply Nat.pow_le_mono_l; nia).
  rewrite Nat.pow_mul_l in H2. rewrite Nat.pow_succ_r' in H1.
  apply (Nat.le_trans _ ((m + 1) * (m + 1) ^ k)); [|exact H1].
  apply (Nat.le_trans _ (c * ((3 * S k) ^ k * (m + 1) ^ k))); [apply Nat.mul_le_mono_l; exact H2|].
  rewrite Nat.mul_assoc. fold m. apply Nat.mul_le_mono_r. lia.
Qed.

Lemma no_plus_signs gs : ~ In [43%N] gs -> plus_signs gs = 0.
Proof.
  unfold plus_signs. induction gs as [|g gs IH]; intros H; auto. cbn [filter]. destruct (eqb_spec [43%N] g) as [E|E].
  - exfalso. apply H. left. auto.
  - apply IH. intros I. apply H. right. auto.
Qed.
Lemma not_syntax_a g : ~ syntax_head (97%N :: g).
Proof.
  intros (c & g' & E & Hc). injection E as <- <-. unfold syntax_char in Hc. simpl in Hc. repeat (destruct Hc as [Hc|Hc]; [discriminate|]). destruct Hc.
Qed.
(** the tokens of the nested text are its characters if no segmentation merges the [a] with the parenthesis after it *)
Lemma nested_plus_tokens seg n : (forall k, exists l, seg (97%N :: concat (repeat [41; 43]%N k)) = [97%N] :: l) -> tokens seg (nested_plus n).
Proof.
  intros H.
  assert (K : forall n k ks, concat ks = concat (repeat [41; 43]%N k) -> tokens seg ks -> tokens seg (nested_plus n ++ ks)).
  { clear n. induction n as [|n IH]; intros k ks E Hk; cbn [nested_plus app].
    - destruct (H k) as (l & Hl). apply (tk_symbol seg [97%N] l); auto; [apply not_syntax_a|]. cbn [app]. rewrite E. exact Hl.
    - apply tk_reserved; [unfold syntax_char; simpl; tauto|discriminate|]. rewrite <- app_assoc. cbn [app]. apply (IH (S k)).
      + cbn [concat app repeat]. rewrite E. reflexivity.
      + apply tk_reserved; [unfold syntax_char; simpl; tauto|discriminate|]. apply tk_reserved; [unfold syntax_char; simpl; tauto|discriminate|]. auto. }
  rewrite <- (app_nil_r (nested_plus n)). apply (K n 0); [reflexivity|constructor].
Qed.
Lemma nested_plus_singles n : nested_plus n = map (fun c => [c]) (concat (nested_plus n)).
Proof.
  induction n as [|n IH]; [reflexivity|]. cbn [nested_plus concat app map]. rewrite concat_app, map_app, <- IH. reflexivity.
Qed.
Lemma nested_plus_trims n : trims_to (concat (nested_plus n)) (concat (nested_plus n)).
Proof.
  assert (K : forall c, In c (concat (nested_plus n)) -> ~ whitespace c).
  { intros c Hc. apply in_concat in Hc as (g & Hg & Hc). apply nested_plus_In in Hg. simpl in Hg.
    destruct Hg as [<-|[<-|[<-|[<-|[]]]]]; destruct Hc as [<-|[]]; unfold whitespace; lia. }
  exists [], []. rewrite app_nil_r. split; auto. split; [simpl; tauto|]. split; intros c v' E; apply K; rewrite E; [left; auto|].
  apply in_app_iff. right. left. auto.
Qed.
