(** * CutNfaProofs: tables of NFAs whose end is missing *)
From Coq Require Import List NArith Arith Bool Lia.
From Verif Require Import Base Spec TableSpec LayoutSpec DfaModel BaseLemmas ValidateModel ValidateProofs TableProofs
  NfaModel ParserModel FaParserProofs Prop_Validate TableModel Prop_Table ApiModel ApiProofs WasmSpec PageProofs CliProofs CanvasProofs ByteModel ByteSpec ByteProofs ShareSpec WriteSpec CutSpec CutProofs.
Import ListNotations.

(** ** The lines of a text that are not blank *)
Definition inked (l : str) : bool := negb (forallb isblank l).
Definition lns (u : str) : list str := filter inked (split islf u).
Lemma inked_in c u : In c u -> isblank c = false -> inked u = true.
Proof. intros H E. unfold inked. apply negb_true_iff. destruct (forallb isblank u) eqn:F; auto. rewrite forallb_forall in F. rewrite (F c H) in E. discriminate. Qed.
Lemma blank_inked b : blank b -> inked b = false.
Proof. intros H. unfold inked. apply negb_false_iff, forallb_forall. intros c Hc. destruct (H c Hc) as [->| ->]; auto. Qed.
Lemma inked_app u v : inked u = true -> inked (u ++ v) = true.
Proof. unfold inked. rewrite forallb_app. intros H. apply negb_true_iff in H. rewrite H. auto. Qed.
Lemma lns_line u v : flat u -> lns (u ++ 10%N :: v) = filter inked [u] ++ lns v.
Proof. intros H. unfold lns. rewrite split_sep by auto. rewrite (split_lf u H), filter_app. auto. Qed.
Lemma lns_last u : flat u -> lns u = filter inked [u].
Proof. intros H. unfold lns. rewrite (split_lf u H). auto. Qed.
Lemma lns_junk ls v : Forall junk_line ls -> plain (concat ls) -> lns (concat ls ++ v) = lns v.
Proof.
  induction 1 as [|l ls H _ IH]; intros P; auto. cbn [concat] in *. apply plain_app in P as [P1 P2].
  destruct (junk_line_plain l H P1) as (b & -> & B). rewrite <- !app_assoc. cbn [app]. rewrite lns_line by (apply blank_flat; auto).
  cbn [filter]. rewrite blank_inked by auto. cbn [app]. apply IH. auto.
Qed.
Lemma lns_item u j v : flat u -> inked u = true -> junk1 j -> plain j -> exists b, blank b /\ lns (u ++ j ++ v) = (u ++ b) :: lns v.
Proof.
  intros F W (l & ls & -> & L & LS) P. apply plain_app in P as [P1 P2]. destruct (junk_line_plain l L P1) as (b & -> & B).
  exists b. split; auto. replace (u ++ ((b ++ [10%N]) ++ concat ls) ++ v) with ((u ++ b) ++ 10%N :: (concat ls ++ v)) by (rewrite <- !app_assoc; auto).
  rewrite lns_line by (apply flat_app; auto using blank_flat). rewrite lns_junk by auto. cbn [filter]. rewrite inked_app by auto. auto.
Qed.
Lemma lns_cut u v : lns u = [] \/ exists ls x y rest, lns u = ls ++ [x] /\ lns (u ++ v) = ls ++ (x ++ y) :: rest.
Proof.
  destruct (split_app islf u v) as (A & x & y & B & E1 & E2 & E3). unfold lns. rewrite E1, E3, !filter_app. destruct (inked x) eqn:I.
  - right. exists (filter inked A), x, y, (filter inked B). cbn [filter]. rewrite I, inked_app by auto. auto.
  - cbn [filter]. rewrite I, app_nil_r. destruct (last_case (filter inked A)) as [F|(l & a & F)]; [auto|right].
    exists l, a, [], (filter inked ((x ++ y) :: B)). rewrite F, app_nil_r, <- app_assoc. auto.
Qed.

(** ** Lines of tables: as many closing braces as columns, and one at the end *)
Definition closing (u : str) : nat := count_occ N.eq_dec u 125%N.
Definition clean (u : str) : Prop := forall c, In c u -> c <> 10%N /\ c <> 125%N.
Lemma clean_flat u : clean u -> flat u.
Proof. intros H c Hc. apply H; auto. Qed.
Lemma clean_closing u : clean u -> closing u = 0.
Proof. intros H. apply count_occ_not_In. intros K. destruct (H _ K). congruence. Qed.
Lemma clean_app u v : clean u -> clean v -> clean (u ++ v).
Proof. intros H K c Hc. apply in_app_or in Hc as [|]; auto. Qed.
Lemma clean_blank u : blank u -> clean u.
Proof. intros H c Hc. destruct (H c Hc) as [->| ->]; split; discriminate. Qed.
Lemma clean_legal t : legal_token t -> clean t.
Proof. intros (_ & H & _) c Hc. destruct (H c Hc) as (W & _ & _ & X). split; auto. intros ->. apply W. unfold whitespace. lia. Qed.
Lemma clean_tokens ts u : sep_by blank1 token_text ts u -> clean u.
Proof. induction 1 as [t u [L ->]|t u s l v [L ->] [S _] _ IH]; auto using clean_app, clean_legal, clean_blank. Qed.
Lemma clean_start i k n u : line_start i k n u -> clean u.
Proof.
  intros (a & s & -> & A & S & L). apply clean_app; [|apply clean_app; auto using clean_legal].
  - destruct i; [destruct A as (w & b & -> & W & [B _])|subst a; intros c []]. apply clean_app; auto using clean_blank.
    destruct W as [->| ->]; intros c; cbn; intuition (subst; discriminate).
  - destruct k; [destruct S as (b & -> & [B _])|subst s; intros c []]. intros c [<- |Hc]; [split; discriminate|]. apply (clean_blank _ B); auto.
Qed.
Definition closed (k : nat) (u : str) : Prop := flat u /\ closing u = k /\ exists v, u = v ++ [125%N].
Lemma closing_app u v : closing (u ++ v) = closing u + closing v.
Proof. apply count_occ_app. Qed.
Lemma closed_after k u v : clean u -> closed k v -> closed k (u ++ v).
Proof. intros C (F & K & x & ->). split; [auto using flat_app, clean_flat|]. split; [rewrite closing_app, (clean_closing u C), K; auto|]. exists (u ++ x). apply app_assoc. Qed.
Lemma closed_set ts u : set_text ts u -> closed 1 u.
Proof.
  intros (b1 & v & b2 & -> & B1 & B2 & V). assert (C : clean ([123%N] ++ b1 ++ v ++ b2)).
  { apply clean_app; [intros c [<- |[]]; split; discriminate|]. apply clean_app; auto using clean_blank. apply clean_app; auto using clean_blank.
    destruct V as [[_ ->]|V]; [intros c []|eapply clean_tokens; eauto]. }
  replace ([123%N] ++ b1 ++ v ++ b2 ++ [125%N]) with (([123%N] ++ b1 ++ v ++ b2) ++ [125%N]) by (rewrite <- !app_assoc; auto).
  apply closed_after; auto. split; [intros c [<- |[]]; discriminate|]. split; [reflexivity|exists []; auto].
Qed.
Lemma closed_sets ts u : sep_by blank1 set_text ts u -> closed (length ts) u.
Proof.
  induction 1 as [t u S|t u s l v S [B _] _ IH]; [eapply closed_set; eauto|]. apply closed_set in S as (F & K & _). destruct IH as (F' & K' & x & ->).
  split; [auto using flat_app, blank_flat|]. split.
  - rewrite !closing_app, K, (clean_closing s) by auto using clean_blank. rewrite closing_app in K'. cbn [length]. lia.
  - exists (u ++ s ++ x). rewrite <- !app_assoc. auto.
Qed.
Lemma closed_line s u : nfa_line_text s u -> closed (length (pns_transitions s)) u.
Proof. intros (b0 & st & b & ts & -> & B0 & [B _] & S & T). repeat apply closed_after; eauto using clean_blank, clean_start, closed_sets. Qed.
Lemma closed_inked k u : closed k u -> inked u = true.
Proof. intros (_ & _ & v & ->). apply (inked_in 125%N); auto. apply in_or_app. right. left. auto. Qed.
Lemma app_cases {A} (a b c e : list A) : a ++ b = c ++ e -> exists l, a = c ++ l \/ c = a ++ l.
Proof.
  revert c. induction a as [|x a IH]; intros c E; [exists c; auto|]. destruct c as [|y c]; [exists (x :: a); auto|].
  injection E as <- E. destruct (IH _ E) as [l [->| ->]]; exists l; auto.
Qed.
Lemma closed_longer k u l : closed k u -> closed k (u ++ l) -> l = [].
Proof.
  intros (_ & K & _) (_ & K' & v & E). destruct (last_case l) as [|(l' & a & ->)]; auto. rewrite app_assoc in E. apply app_inj_tail in E as [_ ->].
  rewrite !closing_app in K'. cbn in K'. lia.
Qed.
Lemma closed_same k u u' b b' : closed k u -> closed k u' -> u ++ b = u' ++ b' -> u = u'.
Proof.
  intros C C' E. destruct (app_cases _ _ _ _ E) as [l [->| ->]].
  - rewrite (closed_longer k u' l) by auto. apply app_nil_r.
  - rewrite (closed_longer k u l) by auto. symmetry. apply app_nil_r.
Qed.

(** ** The lines tell the table *)
Definition line_of (s : parsed_nfa_state) (l : str) : Prop := exists x b, l = x ++ b /\ nfa_line_text s x /\ blank b.
Definition head_of (h : list nfa_entry) (l : str) : Prop := exists x b, l = x ++ b /\ nfa_head_text h x /\ blank b.
Lemma junk_none : junk [].
Proof. exists []. auto. Qed.
Lemma trail_blank b : blank b -> trail b.
Proof. intros B. exists b, []. rewrite app_nil_r. auto. Qed.
Lemma two_lines h l s r : head_of h l -> line_of s r -> nfa_text (mk_parsed_nfa h [s]) (l ++ [10%N] ++ r).
Proof.
  intros (x & b & -> & H & B) (y & c & -> & L & C). exists [], x, (b ++ [10%N]), y, [], c. split; [rewrite <- !app_assoc; auto|].
  split; [apply junk_none|]. split; auto. split; [exists (b ++ [10%N]), []; rewrite app_nil_r; split; auto; split; auto; exists b, [10%N]; split; auto; split; [apply trail_blank; auto|left; auto]|].
  split; [constructor; auto|]. split; [apply junk_none|apply trail_blank; auto].
Qed.
Lemma lines_tell h h' l s s' r : head_of h l -> head_of h' l -> line_of s r -> line_of s' r -> h = h' /\ s = s'.
Proof. intros H H' L L'. pose proof (nfa_text_unique _ _ _ (two_lines _ _ _ _ H L) (two_lines _ _ _ _ H' L')) as E. injection E as -> ->. auto. Qed.
Lemma nfa_body_lines l body j t : sep_by junk1 nfa_line_text l body -> junk j -> trail t -> plain (body ++ j ++ t) -> Forall2 line_of l (lns (body ++ j ++ t)) /\ l <> [].
Proof.
  intros H (ls & -> & J) T. induction H as [s u L|s u k l v L K _ IH]; intros P; (split; [|discriminate]); pose proof (closed_line _ _ L) as C; pose proof (closed_inked _ _ C) as I; destruct C as (F & _).
  - apply plain_app in P as [_ P]. apply plain_app in P as [P1 P2]. pose proof (trail_plain _ T P2) as B. destruct J as [|x ls X J].
    + cbn [concat app]. rewrite lns_last by (apply flat_app; auto using blank_flat). cbn [filter]. rewrite inked_app by auto. constructor; [exists u, t; auto|constructor].
    + cbn [concat]. destruct (lns_item u (x ++ concat ls) t F I) as (b & Hb & ->); [exists x, ls; auto|auto|].
      constructor; [exists u, b; auto|]. rewrite lns_last by auto using blank_flat. cbn [filter]. rewrite blank_inked by auto. constructor.
  - rewrite <- !app_assoc in *. apply plain_app in P as [_ P]. apply plain_app in P as [P1 P2]. destruct (lns_item u k (v ++ concat ls ++ t) F I K P1) as (b & Hb & ->).
    constructor; [exists u, b; auto|]. apply IH. auto.
Qed.
Lemma entries_flat h u : sep_by blank1 entry_text h u -> flat u /\ inked u = true.
Proof.
  assert (X : forall e u, entry_text e u -> flat u /\ inked u = true).
  { intros [a|] w; cbn [entry_text].
    - intros [L ->]. split; [apply flat_legal; auto|]. pose proof (solid_legal _ L) as [N S]. destruct a as [|c w]; [congruence|]. apply (inked_in c); [left|apply S; left]; auto.
    - intros [->| ->]; (split; [intros c; cbn; intuition (subst; discriminate)|auto]). }
  induction 1 as [e w E|e w s l v E [B _] _ [IH _]]; [eauto|]. apply X in E as [F I]. split; [auto using flat_app, blank_flat|apply inked_app; auto].
Qed.
Lemma inked_after u v : inked v = true -> inked (u ++ v) = true.
Proof. unfold inked. rewrite forallb_app. intros H. apply negb_true_iff in H. rewrite H, andb_false_r. auto. Qed.
Theorem nfa_table_lines p u : nfa_text p u -> plain u -> exists l ls, lns u = l :: ls /\ head_of (pn_head p) l /\ Forall2 line_of (pn_states p) ls /\ pn_states p <> [].
Proof.
  intros (j0 & h & j1 & body & j2 & t & -> & (l0 & -> & J0) & HT & J1 & S & J2 & Tr) P.
  pose proof HT as (b & ts & E & B & T). apply entries_flat in T as [F I]. apply plain_app in P as [P0 P]. apply plain_app in P as [_ P]. apply plain_app in P as [P1 P].
  destruct (nfa_body_lines _ _ _ _ S J2 Tr P) as [R Ns]. rewrite lns_junk by auto.
  destruct (lns_item h j1 (body ++ j2 ++ t)) as (b' & Hb & ->); auto.
  - rewrite E. auto using flat_app, blank_flat.
  - rewrite E. apply inked_after. auto.
  - exists (h ++ b'), (lns (body ++ j2 ++ t)). split; auto. split; [exists h, b'; auto|auto].
Qed.
Lemma lines_unique h l a a' rs : head_of h l -> Forall2 line_of a rs -> Forall2 line_of a' rs -> a = a'.
Proof. intros H F. revert a'. induction F as [|s r a rs R _ IH]; intros a' K; inversion K; subst; auto. f_equal; auto. eapply lines_tell; eauto. Qed.
Lemma line_cut s s' x y : line_of s x -> line_of s' (x ++ y) -> length (pns_transitions s) = length (pns_transitions s') -> line_of s (x ++ y).
Proof.
  intros (u & b & -> & L & B) (u' & b' & E & L' & B') W. pose proof (closed_line _ _ L) as C. pose proof (closed_line _ _ L') as C'. rewrite <- W in C'.
  assert (u = u') by (eapply closed_same; eauto; rewrite <- E, <- app_assoc; reflexivity). subst u'. exists u, b'. auto.
Qed.
Lemma nfa_cut_begins p P u v : nfa_text p u -> nfa_well_formed p -> nfa_text P (u ++ v) -> nfa_well_formed P -> plain (u ++ v) ->
  pn_head P = pn_head p /\ exists T, pn_states P = pn_states p ++ T.
Proof.
  intros Hp Wp HP WP Pl. destruct (nfa_table_lines p u Hp (proj1 (plain_app _ _ Pl))) as (l & rs & R & H & F & N). destruct (nfa_table_lines P _ HP Pl) as (l' & RS & R' & H' & F' & N').
  destruct (lns_cut u v) as [C|(ls & x & y & rest & C & C')]; [congruence|]. rewrite C in R. rewrite C' in R'.
  destruct ls as [|h ls]; [injection R; intros; subst rs; inversion F; congruence|]. cbn [app] in R, R'. injection R as -> <-. injection R' as -> <-.
  apply Forall2_app_inv_r in F as (S & S1 & F1 & F2 & E). apply Forall2_app_inv_r in F' as (S' & S1' & F1' & F2' & E').
  assert (S' = S) by (eapply lines_unique; eauto). subst S'. inversion F2 as [|s r l0 l1 Rs F3 Q1 Q2]. subst. inversion F3. subst. clear F2 F3. inversion F2' as [|s' r' T l1' Rs' F3']. subst. clear F2' F3'.
  assert (Eh : pn_head P = pn_head p) by (eapply lines_tell; eauto).
  assert (Ws : length (pns_transitions s) = length (pn_head p)) by (apply (nwf_width _ Wp); rewrite E; apply in_or_app; right; left; auto).
  assert (Ws' : length (pns_transitions s') = length (pn_head P)) by (apply (nwf_width _ WP); rewrite E'; apply in_or_app; right; left; auto).
  assert (s' = s). { eapply (lines_tell _ _ _ _ _ _ H H); eauto. eapply line_cut; eauto. congruence. }
  subst s'. split; auto. exists T. rewrite E, E', <- app_assoc. auto.
Qed.

(** ** What remains of the automaton *)
Lemma nfa_named_unique p t q q' : nfa_well_formed p -> nfa_named p t q -> nfa_named p t q' -> q = q'.
Proof.
  intros W (s & E & N) (s' & E' & N'). assert (D : NoDup (map pns_name (pn_states p))) by (apply not_repeated_NoDup, (nwf_names _ W)).
  rewrite NoDup_nth_error in D. apply D; [rewrite map_length; apply nth_error_Some; congruence|]. rewrite (map_nth_error _ _ _ E), (map_nth_error _ _ _ E'). congruence.
Qed.
Lemma targets_unique {A B} (R R' : A -> B -> Prop) ts qs qs' : (forall t q q', R t q -> R' t q' -> q = q') -> Forall2 R ts qs -> Forall2 R' ts qs' -> qs = qs'.
Proof. intros U F. revert qs'. induction F as [|t q ts qs Hq _ IH]; intros l' F'; inversion F'; subst; auto. f_equal; eauto. Qed.
Lemma nfa_begins_states p P T n' n : nfa_well_formed p -> nfa_well_formed P -> pn_head P = pn_head p -> pn_states P = pn_states p ++ T -> nfa_denotes p n' -> nfa_denotes P n ->
  nfa_alphabet n = nfa_alphabet n' /\ nfa_initial n = nfa_initial n' /\ exists R, nfa_states n = nfa_states n' ++ R.
Proof.
  intros Wp WP H E (A' & F' & s' & I' & J') (A & F & s & I & J). split; [congruence|].
  assert (U : forall t q q', nfa_named P t q -> nfa_named p t q' -> q = q').
  { intros t q q' Q (x & X & N). apply (nfa_named_unique P t q q' WP Q). exists x. split; auto. rewrite E, nth_error_app1; auto. apply nth_error_Some. congruence. }
  split.
  - destruct (nwf_initial _ WP) as (j & _ & O). apply (O _ _ I) in J. assert (K : nth_error (pn_states P) (nfa_initial n') = Some s').
    { rewrite E, nth_error_app1; auto. apply nth_error_Some. congruence. } apply (O _ _ K) in J'. congruence.
  - rewrite E in F. apply Forall2_app_inv_l in F as (X & R & F & _ & ->). exists R. f_equal. rewrite H in F. clear - F F' U. revert F'. generalize (nfa_states n').
    induction F as [|ps x l X (N & I & K & Tr & Ep) _ IH]; intros l' F'; inversion F' as [|ps' x' l1 X' (N' & I' & K' & Tr' & Ep') F1]; subst; auto. f_equal; auto.
    assert (Q : ns_transitions x = ns_transitions x').
    { refine (targets_unique _ _ _ _ _ _ Tr Tr'). intros t q q'. apply targets_unique. auto. }
    assert (Q' : ns_eps x = ns_eps x').
    { destruct (eps_column (pn_head p) (pns_transitions ps)); [|congruence]. exact (targets_unique _ _ _ _ _ U Ep Ep'). }
    destruct x, x'; cbn in *; congruence.
Qed.
Lemma nfa_denotes_closed p n q r : nfa_denotes p n -> (exists a, nfa_edge n q a r) \/ nfa_eps_edge n q r -> r < length (nfa_states n).
Proof.
  intros (_ & F & _) H. assert (L : forall t, nfa_named p t r -> r < length (nfa_states n)).
  { intros t (x & X & _). rewrite <- (Forall2_len _ _ _ F). apply nth_error_Some. congruence. }
  destruct H as [(a & i & s & ts & _ & Es & Et & Hr)|(s & Es & Hr)]; destruct (Forall2_nth_r _ _ _ F _ _ Es) as (ps & _ & _ & _ & _ & G & Ep).
  - destruct (Forall2_nth_r _ _ _ G _ _ Et) as (t & _ & X). apply In_nth_error in Hr as [k Hk]. destruct (Forall2_nth_r _ _ _ X _ _ Hk) as (m & _ & Y). eauto.
  - apply In_nth_error in Hr as [k Hk]. destruct (eps_column (pn_head p) (pns_transitions ps)).
    + destruct (Forall2_nth_r _ _ _ Ep _ _ Hk) as (m & _ & Y). eauto.
    + rewrite Ep in Hk. destruct k; discriminate.
Qed.
Section Begins.
Context (n' n : nfa) (R : list nfa_state).
Hypothesis C : forall q r, (exists a, nfa_edge n' q a r) \/ nfa_eps_edge n' q r -> r < length (nfa_states n').
Hypothesis A : nfa_alphabet n = nfa_alphabet n'.
Hypothesis S : nfa_states n = nfa_states n' ++ R.
Lemma begins_edge q a r : q < length (nfa_states n') -> (nfa_edge n q a r <-> nfa_edge n' q a r).
Proof. intros Q. unfold nfa_edge. rewrite A, S. rewrite nth_error_app1 by auto. reflexivity. Qed.
Lemma begins_eps q r : q < length (nfa_states n') -> (nfa_eps_edge n q r <-> nfa_eps_edge n' q r).
Proof. intros Q. unfold nfa_eps_edge. rewrite S. rewrite nth_error_app1 by auto. reflexivity. Qed.
Lemma begins_down q w r : nfa_path n q w r -> q < length (nfa_states n') -> nfa_path n' q w r /\ r < length (nfa_states n').
Proof.
  induction 1 as [q|q z w r E _ IH|q a z w r E _ IH]; intros Q.
  - split; auto. constructor.
  - apply begins_eps in E; auto. destruct IH; [eauto|]. split; auto. eapply nfa_path_eps; eauto.
  - apply begins_edge in E; auto. destruct IH; [eauto|]. split; auto. eapply nfa_path_cons; eauto.
Qed.
Lemma begins_up q w r : nfa_path n' q w r -> q < length (nfa_states n') -> nfa_path n q w r.
Proof.
  induction 1 as [q|q z w r E _ IH|q a z w r E _ IH]; intros Q.
  - constructor.
  - eapply nfa_path_eps; [apply begins_eps; eauto|eauto].
  - eapply nfa_path_cons; [apply begins_edge; eauto|eauto].
Qed.
End Begins.
Theorem nfa_cut_loads u v n n' : loads_nfa (u ++ v) n -> loads_nfa u n' -> plain (u ++ v) ->
  nfa_alphabet n' = nfa_alphabet n /\ (forall w, nfa_lang n' w <-> nfa_lang n w) /\ ((forall q, q < length (nfa_states n) -> nfa_reachable n q) -> n' = n).
Proof.
  intros (P & HP & WP & DP) (p & Hp & Wp & Dp) Pl.
  destruct (nfa_cut_begins p P u v Hp Wp HP WP Pl) as (H & T & E). destruct (nfa_begins_states p P T n' n Wp WP H E Dp DP) as (A & I & R & S).
  assert (Init : nfa_initial n' < length (nfa_states n')).
  { destruct Dp as (_ & F & s & Es & _). rewrite <- (Forall2_len _ _ _ F). apply nth_error_Some. congruence. }
  pose proof (fun q r => nfa_denotes_closed p n' q r Dp) as C. split; [auto|]. split.
  - intros w. unfold nfa_lang, nfa_state_lang. rewrite I. split; intros (q & Hq & s & Es & As); exists q.
    + apply (begins_up n' n R) in Hq; auto. split; auto. exists s. split; auto. rewrite S, nth_error_app1; auto. apply nth_error_Some. congruence.
    + apply (begins_down n' n R) in Hq as [Hq L]; auto. split; auto. exists s. split; auto. rewrite S, nth_error_app1 in Es; auto.
  - intros Re. destruct R as [|x R]; [rewrite app_nil_r in S; destruct n, n'; cbn in *; congruence|]. exfalso.
    destruct (Re (length (nfa_states n'))) as [w Hw]; [rewrite S, app_length; cbn; lia|]. rewrite I in Hw. apply (begins_down n' n (x :: R)) in Hw as [_ L]; auto. lia.
Qed.

(** ** The tables that are printed *)
Lemma nfa_table_plain n u : nfa_valid n -> nfa_to_table n = Ret u -> Forall legal_token (nfa_alphabet n) -> nnames_legal n -> plain u.
Proof.
  intros V E A N. destruct (C49_nfa_tables_aligned n V) as ((u' & rs & E' & (body & -> & HB) & (ws & _ & _ & U)) & _). rewrite E in E'. injection E' as <-.
  intros c Hc. rewrite U in Hc. apply lines_text_In in Hc as [->|(l & K & Hc)]; [split; discriminate|].
  apply in_map_iff in K as (row & <- & HR). apply aligned_line_In in Hc as [->|(cell & HC & Hc)]; [split; discriminate|].
  enough (plain cell) by auto. clear c Hc U ws. destruct HR as [<- |HR].
  - apply in_app_or in HC as [[<- |[<- |[<- |[<- |[]]]]]|HC]; try (intros c []; fail); try (intros c; cbn; intuition (subst; discriminate)). apply legal_plain. rewrite Forall_forall in A. auto.
  - assert (NN : forall i st, nth_error (nfa_states n) i = Some st -> plain (ns_name st)).
    { intros i st Hi. apply legal_plain. apply (proj1 (nnames_nth n) N i). auto. }
    destruct (Forall2_In_r _ _ _ _ HB HR) as (s & HI & sets & -> & HF). apply In_nth_error in HI as (i & Hi).
    destruct HC as [<- |[<- |[<- |HC]]].
    + destruct (ns_initial s); intros c; cbn; intuition (subst; discriminate).
    + destruct (ns_accepting s); intros c; cbn; intuition (subst; discriminate).
    + eauto.
    + destruct (Forall2_In_r _ _ _ _ HF HC) as (ts & _ & names & -> & HN). intros c K.
      apply in_app_or in K as [[<- |[]]|K]; [split; discriminate|]. apply in_app_or in K as [K|[<- |[]]]; [|split; discriminate].
      apply spaced_In in K as [->|(nm & K1 & K2)]; [split; discriminate|].
      destruct (Forall2_In_r _ _ _ _ HN K1) as (t & _ & st & K3 & <-). exact (NN _ _ K3 _ K2).
Qed.
Lemma load_nfa_none u : load_nfa u = Ret None \/ exists n, load_nfa u = Ret (Some n) /\ loads_nfa u n.
Proof.
  unfold load_nfa. destruct (parse_nfa_total u) as (o & Eo). rewrite Eo. destruct o as [t|]; cbn [obind bind]; auto.
  destruct (nfa_try_from t) as [n|e] eqn:Ed; cbn [result_option]; auto. right. exists n. split; auto. exists t. split; [apply parse_nfa_iff; auto|].
  assert (W : nfa_well_formed t) by (apply C07_nfa_accepted_iff_well_formed; eauto). split; auto. apply C07_nfa_faithful; auto.
Qed.
Theorem nfa_cut_table n table u : nfa_valid n -> Forall legal_token (nfa_alphabet n) -> nnames_legal n ->
  nfa_to_table n = Ret table -> prefix_of u table -> load_nfa u = Ret None \/ exists n', load_nfa u = Ret (Some n') /\
    nfa_alphabet n' = nfa_alphabet n /\ (forall w, nfa_lang n' w <-> nfa_lang n w) /\ ((forall q, q < length (nfa_states n) -> nfa_reachable n q) -> n' = n).
Proof.
  intros V A N E (v & ->). destruct (load_nfa_none u) as [E'|(n' & E' & L)]; auto. right. exists n'. split; auto.
  apply (nfa_cut_loads u v); eauto using nfa_loads_table, nfa_table_plain.
Qed.
Theorem nfa_cut_bytes n table l l' u : nfa_valid n -> Forall legal_token (nfa_alphabet n) -> nnames_legal n ->
  nfa_to_table n = Ret table -> rust_text table -> utf8 table l -> prefix_of l' l -> from_utf8 l' = Some u -> load_nfa u = Ret None \/ exists n', load_nfa u = Ret (Some n') /\
    nfa_alphabet n' = nfa_alphabet n /\ (forall w, nfa_lang n' w <-> nfa_lang n w) /\ ((forall q, q < length (nfa_states n) -> nfa_reachable n q) -> n' = n).
Proof.
  intros V A N E Rt U P F. apply from_utf8_spec in F as [Ru U']. apply (nfa_cut_table n table); auto. apply (utf8_prefix _ _ _ _ Ru Rt U' U P).
Qed.
