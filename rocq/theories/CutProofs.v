(** * CutProofs: tables whose end is missing *)
From Coq Require Import List NArith Arith Bool Lia.
From Verif Require Import Base Spec TableSpec LayoutSpec DfaModel BaseLemmas ValidateModel ValidateProofs TableProofs
  TableModel Prop_Table ApiModel ApiProofs WasmSpec PageProofs CliProofs CanvasProofs ByteModel ByteSpec ByteProofs ShareSpec WriteSpec CutSpec.
Import ListNotations.

(** ** The words of the lines of a text *)
Fixpoint split (f : N -> bool) (u : str) : list str :=
  match u with
  | [] => [[]]
  | c :: r => if f c then [] :: split f r else match split f r with [] => [[c]] | w :: ws => (c :: w) :: ws end
  end.
Definition isblank (c : N) : bool := N.eqb c 32 || N.eqb c 9.
Definition islf (c : N) : bool := N.eqb c 10.
Definition full {A} (l : list A) : bool := match l with [] => false | _ => true end.
Definition fullw (w : str) : bool := full w.
Definition fullr (r : list str) : bool := full r.
Definition words (l : str) : list str := filter fullw (split isblank l).
Definition rows (u : str) : list (list str) := filter fullr (map words (split islf u)).

Lemma split_some f u : exists w ws, split f u = w :: ws.
Proof. destruct u as [|c r]; cbn [split]; eauto. destruct (f c); eauto. destruct (split f r); eauto. Qed.
Lemma split_none f u : (forall c, In c u -> f c = false) -> split f u = [u].
Proof.
  induction u as [|c u IH]; intros H; auto. cbn [split]. rewrite (H c (or_introl eq_refl)), IH; auto. intros x Hx. apply H. right. auto.
Qed.
(** a text, and the same text with something behind *)
Lemma split_app f u v : exists A x y B, split f u = A ++ [x] /\ split f v = y :: B /\ split f (u ++ v) = A ++ (x ++ y) :: B.
Proof.
  induction u as [|c u IH]; cbn [app split].
  - destruct (split_some f v) as (y & B & E). exists [], [], y, B. rewrite E. auto.
  - destruct IH as (A & x & y & B & E1 & E2 & E3). rewrite E1, E2, E3. destruct (f c).
    + exists ([] :: A), x, y, B. auto.
    + destruct A as [|a A]; cbn [app]; [exists [], (c :: x), y, B|exists ((c :: a) :: A), x, y, B]; auto.
Qed.
Lemma split_sep f u c v : f c = true -> split f (u ++ c :: v) = split f u ++ split f v.
Proof.
  intros H. induction u as [|b u IH]; cbn [app split].
  - rewrite H. auto.
  - rewrite IH. destruct (f b); auto. destruct (split_some f u) as (w & ws & ->). auto.
Qed.

Lemma words_blank b l : blank b -> words (b ++ l) = words l.
Proof.
  induction b as [|c b IH]; intros H; auto. change ((c :: b) ++ l) with ([] ++ c :: (b ++ l)).
  assert (C : isblank c = true). { destruct (H c (or_introl eq_refl)) as [->| ->]; auto. }
  unfold words. rewrite split_sep by auto. cbn [split app filter fullw fullr full]. apply IH. intros x Hx. apply H. right. auto.
Qed.
Definition solid (t : str) : Prop := t <> [] /\ forall c, In c t -> isblank c = false.
Lemma words_one t : solid t -> words t = [t].
Proof. intros [N H]. unfold words. rewrite split_none by auto. destruct t; [congruence|auto]. Qed.
Lemma words_more t b l : solid t -> blank1 b -> words (t ++ b ++ l) = t :: words l.
Proof.
  intros [N H] [B Nb]. destruct b as [|c b]; [congruence|]. cbn [app]. 
  assert (C : isblank c = true). { destruct (B c (or_introl eq_refl)) as [->| ->]; auto. }
  unfold words. rewrite split_sep, split_none by auto. destruct t; [congruence|]. cbn [app filter fullw fullr full]. apply f_equal.
  apply words_blank. intros x Hx. apply B. right. auto.
Qed.
Lemma words_trail t b : blank b -> words (t ++ b) = words t.
Proof.
  revert t. induction b as [|c b IH]; intros t H; [rewrite app_nil_r; auto|].
  assert (C : isblank c = true). { destruct (H c (or_introl eq_refl)) as [->| ->]; auto. }
  unfold words. rewrite split_sep by auto. rewrite filter_app.
  assert (W : filter fullw (split isblank b) = []). { change (words b = []). rewrite <- (app_nil_r b), words_blank; auto. intros x Hx. apply H. right. auto. }
  transitivity (filter fullw (split isblank t) ++ []); [f_equal; exact W|apply app_nil_r].
Qed.
Lemma last_case {A} (l : list A) : l = [] \/ exists l' a, l = l' ++ [a].
Proof. induction l using rev_ind; eauto. Qed.
(** what is left of the words of a text that is cut *)
Lemma words_cut u v : words u = [] \/ exists ws w y ms, words u = ws ++ [w] /\ words (u ++ v) = ws ++ (w ++ y) :: ms /\ w <> [].
Proof.
  destruct (split_app isblank u v) as (A & x & y & B & E1 & E2 & E3). unfold words. rewrite E1, E3, !filter_app.
  destruct x as [|c x].
  - cbn [filter fullw fullr full app]. rewrite app_nil_r. destruct (last_case (filter fullw A)) as [F|(l & a & F)]; [auto|right].
    exists l, a, [], (filter fullw (y :: B)). rewrite F, app_nil_r, <- app_assoc. split; auto. split; auto.
    assert (In a (filter fullw A)) by (rewrite F; apply in_or_app; right; left; auto). apply filter_In in H as [_ H]. destruct a; [discriminate H|discriminate].
  - right. exists (filter fullw A), (c :: x), y, (filter fullw B). split; auto. split; [auto|discriminate].
Qed.
Lemma rows_cut u v : rows u = [] \/ exists ls ws w y ms rest, rows u = ls ++ [ws ++ [w]] /\ rows (u ++ v) = ls ++ (ws ++ (w ++ y) :: ms) :: rest /\ w <> [].
Proof.
  destruct (split_app islf u v) as (A & x & y & B & E1 & E2 & E3). unfold rows. rewrite E1, E3, !map_app, !filter_app. cbn [map].
  destruct (words_cut x y) as [X|(ws & w & z & ms & X & Y & W)].
  - rewrite X. cbn [filter fullw fullr full]. rewrite app_nil_r. destruct (last_case (filter fullr (map words A))) as [F|(l & a & F)]; [auto|right].
    assert (In a (filter fullr (map words A))) by (rewrite F; apply in_or_app; right; left; auto). apply filter_In in H as [H K].
    apply in_map_iff in H as (t & <- & _). destruct (last_case (words t)) as [T|(ws & w & T)]; [rewrite T in K; discriminate K|].
    exists l, ws, w, [], [], (filter fullr (words (x ++ y) :: map words B)). rewrite F, T, app_nil_r, <- app_assoc. split; auto. split; auto.
    assert (In w (words t)) by (rewrite T; apply in_or_app; right; left; auto). apply filter_In in H as [_ H]. destruct w; [discriminate H|discriminate].
  - right. exists (filter fullr (map words A)), ws, w, z, ms, (filter fullr (map words B)). rewrite X, Y. cbn [filter].
    assert (G : forall (l : list str) a, fullr (l ++ a :: ms) = true /\ fullr (l ++ [a]) = true) by (intros [|]; auto).
    rewrite (proj1 (G ws _)), (proj2 (G ws _)). auto.
Qed.

(** ** The rows of a text without comments and carriage returns *)
Definition flat (u : str) : Prop := forall c, In c u -> c <> 10%N.
Lemma plain_app u v : plain (u ++ v) -> plain u /\ plain v.
Proof. intros H. split; intros c Hc; apply H, in_or_app; auto. Qed.
Lemma flat_app u v : flat u -> flat v -> flat (u ++ v).
Proof. intros H K c Hc. apply in_app_or in Hc as [|]; auto. Qed.
Lemma split_lf u : flat u -> split islf u = [u].
Proof. intros H. apply split_none. intros c Hc. apply N.eqb_neq, H. auto. Qed.
Lemma rows_line u v : flat u -> rows (u ++ 10%N :: v) = filter fullr [words u] ++ rows v.
Proof. intros H. unfold rows. rewrite split_sep by auto. rewrite (split_lf u H), map_app, filter_app. auto. Qed.
Lemma rows_last u : flat u -> rows u = filter fullr [words u].
Proof. intros H. unfold rows. rewrite (split_lf u H). auto. Qed.
Lemma blank_flat b : blank b -> flat b.
Proof. intros H c Hc E. destruct (H c Hc); subst; discriminate. Qed.
Lemma blank_words b : blank b -> words b = [].
Proof. intros H. rewrite <- (app_nil_r b), words_blank by auto. auto. Qed.
Lemma trail_plain t : trail t -> plain t -> blank t.
Proof.
  intros (b & c & -> & B & [->|(x & -> & _)]) P; [rewrite app_nil_r; auto|]. destruct (P 35%N) as [X _]; [|congruence]. apply in_or_app. right. left. auto.
Qed.
Lemma eol_plain e : eol e -> plain e -> e = [10%N].
Proof. intros [->| ->] P; auto. destruct (P 13%N) as [_ X]; [left; auto|congruence]. Qed.
Lemma junk_line_plain l : junk_line l -> plain l -> exists b, l = b ++ [10%N] /\ blank b.
Proof. intros (t & e & -> & T & E) P. apply plain_app in P as [P1 P2]. exists t. rewrite (eol_plain e) by auto. split; auto. apply trail_plain; auto. Qed.
Lemma rows_junk ls v : Forall junk_line ls -> plain (concat ls) -> rows (concat ls ++ v) = rows v.
Proof.
  induction 1 as [|l ls H _ IH]; intros P; auto. cbn [concat] in *. apply plain_app in P as [P1 P2].
  destruct (junk_line_plain l H P1) as (b & -> & B). rewrite <- !app_assoc. cbn [app]. rewrite rows_line by (apply blank_flat; auto).
  rewrite blank_words by auto. cbn [filter fullw fullr full app]. apply IH. auto.
Qed.
Lemma rows_item u j v : flat u -> words u <> [] -> junk1 j -> plain j -> rows (u ++ j ++ v) = words u :: rows v.
Proof.
  intros F W (l & ls & -> & L & LS) P. apply plain_app in P as [P1 P2]. destruct (junk_line_plain l L P1) as (b & -> & B).
  replace (u ++ ((b ++ [10%N]) ++ concat ls) ++ v) with ((u ++ b) ++ 10%N :: (concat ls ++ v)) by (rewrite <- !app_assoc; auto).
  rewrite rows_line by (apply flat_app; auto using blank_flat). rewrite words_trail, rows_junk by auto. cbn [filter].
  destruct (words u); [congruence|auto].
Qed.

(** ** The rows of a table *)
Lemma solid_legal t : legal_token t -> solid t.
Proof.
  intros (N & H & _). split; auto. intros c Hc. destruct (H c Hc) as (W & _). unfold isblank. apply orb_false_iff. split; apply N.eqb_neq; intros ->; apply W; unfold whitespace; lia.
Qed.
Lemma flat_legal t : legal_token t -> flat t.
Proof. intros (N & H & _) c Hc ->. destruct (H 10%N Hc) as (W & _). apply W. unfold whitespace. lia. Qed.
Lemma tokens_words ts u : sep_by blank1 token_text ts u -> words u = ts /\ flat u /\ Forall legal_token ts /\ ts <> [].
Proof.
  induction 1 as [t u [L ->]|t u s l v [L ->] S _ (E & F & A & N)].
  - split; [apply words_one, solid_legal; auto|]. split; [apply flat_legal; auto|]. split; [auto|discriminate].
  - rewrite words_more by auto using solid_legal. split; [congruence|]. split; [|split; [auto|discriminate]].
    destruct S as [S _]. auto using flat_app, flat_legal, blank_flat.
Qed.
Definition arrow_word (w : str) : Prop := w = [45%N; 62%N] \/ w = [8594%N].
Definition row_of (s : parsed_dfa_state) (r : list str) : Prop :=
  exists a, r = a ++ (if pds_accepting s then [[42%N]] else []) ++ pds_name s :: pds_transitions s /\
    (if pds_initial s then exists w, arrow_word w /\ a = [w] else a = []) /\ legal_token (pds_name s) /\ pds_transitions s <> [].
Lemma solid_arrow w : arrow_word w -> solid w /\ flat w.
Proof. intros [->| ->]; (split; [split; [discriminate|]|]); intros c; cbn; intuition (subst; auto; discriminate). Qed.
Lemma solid_star : solid [42%N] /\ flat [42%N].
Proof. split; [split; [discriminate|]|]; intros c; cbn; intuition (subst; auto; discriminate). Qed.
Lemma line_row s u : dfa_line_text s u -> row_of s (words u) /\ flat u.
Proof.
  intros (b0 & st & b & ts & -> & B0 & B & (a & k & -> & A & K & L) & T). apply tokens_words in T as (E & F & _ & N).
  rewrite words_blank by auto. destruct B as [B1 B2].
  assert (X : words ((pds_name s) ++ b ++ ts) = pds_name s :: pds_transitions s) by (rewrite words_more, E; auto using solid_legal; split; auto).
  assert (Y : words (k ++ pds_name s ++ b ++ ts) = (if pds_accepting s then [[42%N]] else []) ++ pds_name s :: pds_transitions s /\ flat k).
  { destruct (pds_accepting s); [destruct K as (b' & -> & K)|subst k; split; [auto|intros c []]].
    change (42%N :: b') with ([42%N] ++ b'). rewrite <- app_assoc, words_more, X by (auto; apply solid_star). split; auto.
    apply flat_app; [apply solid_star|apply blank_flat, K]. }
  destruct Y as [Y Fk]. rewrite <- !app_assoc.
  assert (Z : exists a', words (a ++ k ++ pds_name s ++ b ++ ts) = a' ++ (if pds_accepting s then [[42%N]] else []) ++ pds_name s :: pds_transitions s /\
     (if pds_initial s then exists w, arrow_word w /\ a' = [w] else a' = []) /\ flat a).
  { destruct (pds_initial s); [destruct A as (w & b' & -> & W & A)|subst a; exists []; repeat split; [exact Y|intros c []]].
    exists [w]. rewrite <- app_assoc, words_more, Y by (auto; apply solid_arrow, W). split; auto. split; [eauto|].
    apply flat_app; [apply solid_arrow, W|apply blank_flat, A]. }
  destruct Z as (a' & Z & I & Fa). split.
  - exists a'. auto.
  - repeat apply flat_app; auto using blank_flat, flat_legal.
Qed.
Lemma row_some s r : row_of s r -> r <> [].
Proof. intros (a & -> & _) E. apply app_eq_nil in E as [_ E]. apply app_eq_nil in E as [_ E]. discriminate E. Qed.
Lemma body_rows l body j t : sep_by junk1 dfa_line_text l body -> junk j -> trail t -> plain (body ++ j ++ t) -> Forall2 row_of l (rows (body ++ j ++ t)) /\ l <> [].
Proof.
  intros H (ls & -> & J) T. induction H as [s u L|s u k l v L K _ IH]; intros P.
  - apply line_row in L as [R F]. split; [|discriminate]. apply plain_app in P as [_ P]. apply plain_app in P as [P1 P2]. pose proof (trail_plain _ T P2) as B.
    destruct J as [|x ls X J].
    + cbn [concat app]. rewrite rows_last by (apply flat_app; auto using blank_flat). rewrite words_trail by auto. cbn [filter].
      pose proof (row_some _ _ R). destruct (words u); [congruence|]. cbn [fullr full]. auto.
    + cbn [concat]. rewrite rows_item; [|auto|eapply row_some; eauto| |auto].
      * constructor; auto. rewrite rows_last, blank_words by auto using blank_flat. constructor.
      * exists x, ls. auto.
  - apply line_row in L as [R F]. split; [|discriminate]. rewrite <- !app_assoc in *. apply plain_app in P as [_ P]. apply plain_app in P as [P1 P2].
    rewrite rows_item; eauto using row_some. constructor; auto. apply IH. auto.
Qed.
Theorem table_rows p u : dfa_text p u -> plain u -> exists rs, rows u = pd_head p :: rs /\ Forall2 row_of (pd_states p) rs /\ pd_states p <> [] /\ pd_head p <> [].
Proof.
  intros (j0 & h & j1 & body & j2 & t & -> & (l0 & -> & J0) & (b & ts & -> & B & T) & J1 & S & J2 & Tr) P.
  apply tokens_words in T as (E & F & _ & N). apply plain_app in P as [P0 P]. apply plain_app in P as [_ P]. apply plain_app in P as [P1 P].
  destruct (body_rows _ _ _ _ S J2 Tr P) as [R Ns]. rewrite rows_junk by auto.
  rewrite rows_item; [|apply flat_app; auto using blank_flat|rewrite words_blank by auto; congruence|auto|auto].
  rewrite words_blank, E by auto. eauto.
Qed.

(** ** The rows tell the states *)
Lemma legal_word t : legal_token t -> ~ arrow_word t /\ t <> [42%N].
Proof. intros (_ & _ & R). unfold reserved_words in R. cbn [In] in R. unfold arrow_word. split; [intros [->| ->]|intros ->]; apply R; auto 8. Qed.
Definition starts (i k : bool) (a : list str) : Prop :=
  exists b, a = b ++ (if k then [[42%N]] else []) /\ (if i then exists w, arrow_word w /\ b = [w] else b = []).
Lemma starts_unique i k a n X i' k' a' n' X' : starts i k a -> starts i' k' a' -> legal_token n -> legal_token n' ->
  a ++ n :: X = a' ++ n' :: X' -> i = i' /\ k = k' /\ a = a' /\ n = n' /\ X = X'.
Proof.
  intros (b & -> & B) (b' & -> & B') L L' E. apply legal_word in L as [L1 L2], L' as [L1' L2'].
  assert (S : ~ arrow_word [42%N]) by (intros [|]; discriminate).
  destruct i; [destruct B as (w & W & ->)|subst b]; (destruct i'; [destruct B' as (w' & W' & ->)|subst b']); destruct k, k'; cbn [app] in E; injection E; intros; subst; try tauto; try (exfalso; tauto); repeat split; auto.
Qed.
Lemma row_starts s r : row_of s r <-> exists a, starts (pds_initial s) (pds_accepting s) a /\ r = a ++ pds_name s :: pds_transitions s /\ legal_token (pds_name s) /\ pds_transitions s <> [].
Proof.
  split.
  - intros (a & -> & A & L & N). exists (a ++ (if pds_accepting s then [[42%N]] else [])). rewrite <- app_assoc. split; [exists a; auto|auto].
  - intros (a & (b & -> & B) & -> & L & N). exists b. rewrite <- app_assoc. auto.
Qed.
Lemma row_unique s s' r : row_of s r -> row_of s' r -> s = s'.
Proof.
  rewrite !row_starts. intros (a & A & -> & L & _) (a' & A' & E & L' & _). destruct (starts_unique _ _ _ _ _ _ _ _ _ _ A A' L L' E) as (? & ? & ? & ? & ?).
  destruct s, s'; cbn in *; congruence.
Qed.
Lemma rows_unique l l' rs : Forall2 row_of l rs -> Forall2 row_of l' rs -> l = l'.
Proof. intros H. revert l'. induction H as [|s r l rs R _ IH]; intros l' K; inversion K; subst; auto. f_equal; eauto using row_unique. Qed.

(** the table whose text was cut begins the whole table *)
Lemma cut_begins p P u v : dfa_text p u -> dfa_well_formed p -> dfa_text P (u ++ v) -> dfa_well_formed P -> plain (u ++ v) ->
  apart (map pds_name (pd_states P)) -> pd_head P = pd_head p /\ exists T, pd_states P = pd_states p ++ T.
Proof.
  intros Hp Wp HP WP Pl A. destruct (table_rows p u Hp (proj1 (plain_app _ _ Pl))) as (rs & R & F & N & _). destruct (table_rows P _ HP Pl) as (RS & R' & F' & _ & _).
  destruct (rows_cut u v) as [C|(ls & ws & w & y & ms & rest & C & C' & W)]; [congruence|]. rewrite C in R. rewrite C' in R'.
  destruct ls as [|h ls]; [injection R; intros; subst rs; inversion F; congruence|]. cbn [app] in R, R'. injection R as -> <-. injection R' as Eh <-.
  apply Forall2_app_inv_r in F as (S & S1 & F1 & F2 & E). apply Forall2_app_inv_r in F' as (S' & S1' & F1' & F2' & E').
  assert (S' = S) by (eapply rows_unique; eauto). subst S'. inversion F2 as [|s r l0 l1 Rs F3 Q1 Q2]. subst. inversion F3. subst. clear F2 F3. inversion F2' as [|s' r' T l1' Rs' F3']. subst. clear F2' F3'.
  assert (s' = s).
  { apply row_starts in Rs as (a & St & Er & L & Nt). apply row_starts in Rs' as (a' & St' & Er' & L' & Nt').
    destruct (last_case (pds_transitions s)) as [|(ts & z & Et)]; [congruence|]. rewrite Et in Er. change (a ++ pds_name s :: ts ++ [z]) with (a ++ (pds_name s :: ts) ++ [z]) in Er. rewrite app_assoc in Er.
    apply app_inj_tail in Er as [-> ->]. rewrite <- app_assoc in Er'. cbn [app] in Er'.
    destruct (starts_unique _ _ _ _ _ _ _ _ _ _ St St' L L' Er') as (I & K & _ & Nm & X).
    assert (Ws : length (pds_transitions s) = length (pd_head p)) by (apply (dwf_width _ Wp); rewrite E; apply in_or_app; right; left; auto).
    assert (Ws' : length (pds_transitions s') = length (pd_head P)) by (apply (dwf_width _ WP); rewrite E'; apply in_or_app; right; left; auto).
    rewrite <- X, app_length in Ws'. rewrite Et, app_length in Ws. cbn [length] in *.
    rewrite <- Eh in Ws'. assert (Q : Datatypes.S (length ms) = 1) by (apply (Nat.add_cancel_l _ _ (length ts)); exact (eq_trans Ws' (eq_sym Ws))). destruct ms; [|discriminate Q].
    assert (y = []).
    { apply (A z).
      - assert (Z : In z (map pds_name (pd_states p))). { apply (dwf_targets _ Wp s); [rewrite E; apply in_or_app; right; left; auto|rewrite Et; apply in_or_app; right; left; auto]. }
        rewrite E' . rewrite E in Z. rewrite map_app in *. apply in_app_or in Z as [Z|[Z|[]]]; apply in_or_app; auto. right. left. congruence.
      - apply (dwf_targets _ WP s'); [rewrite E'; apply in_or_app; right; left; auto|rewrite <- X; apply in_or_app; right; left; auto]. }
    subst y. rewrite app_nil_r in X.
    assert (Tr : pds_transitions s' = pds_transitions s) by (rewrite Et; symmetry; exact X). clear - I K Nm Tr. destruct s, s'; cbn in *; congruence. }
  subst s'. split; auto. exists T. rewrite E, E', <- app_assoc. auto.
Qed.
Lemma dfa_named_unique p t q q' : dfa_well_formed p -> dfa_named p t q -> dfa_named p t q' -> q = q'.
Proof.
  intros W (s & E & N) (s' & E' & N'). assert (D : NoDup (map pds_name (pd_states p))) by (apply not_repeated_NoDup, (dwf_names _ W)).
  rewrite NoDup_nth_error in D. apply D; [rewrite map_length; apply nth_error_Some; congruence|]. rewrite (map_nth_error _ _ _ E), (map_nth_error _ _ _ E'). congruence.
Qed.
(** the automaton of the table whose text was cut is the beginning of the whole automaton *)
Lemma begins_states p P T d' d : dfa_well_formed p -> dfa_well_formed P -> pd_head P = pd_head p -> pd_states P = pd_states p ++ T -> dfa_denotes p d' -> dfa_denotes P d ->
  dfa_alphabet d = dfa_alphabet d' /\ dfa_initial d = dfa_initial d' /\ exists R, dfa_states d = dfa_states d' ++ R.
Proof.
  intros Wp WP H E (A' & F' & s' & I' & J') (A & F & s & I & J). split; [congruence|].
  assert (Up : forall t q, dfa_named p t q -> dfa_named P t q).
  { intros t q (x & X & N). exists x. split; auto. rewrite E, nth_error_app1; auto. apply nth_error_Some. congruence. }
  split.
  - destruct (dwf_initial _ WP) as (j & _ & O). apply (O _ _ I) in J. assert (K : nth_error (pd_states P) (dfa_initial d') = Some s').
    { rewrite E, nth_error_app1; auto. apply nth_error_Some. congruence. } apply (O _ _ K) in J'. congruence.
  - rewrite E in F. apply Forall2_app_inv_l in F as (X & R & F & _ & ->). exists R. f_equal. clear - F F' Up WP. revert F'. generalize (dfa_states d').
    induction F as [|ps x l X (N & I & K & Tr) _ IH]; intros l' F'; inversion F' as [|ps' x' l1 X' (N' & I' & K' & Tr') F1]; subst; auto. f_equal; auto.
    assert (Q : ds_transitions x = ds_transitions x').
    { clear - Tr Tr' Up WP. revert Tr'. generalize (ds_transitions x'). induction Tr as [|t q ts qs Hq _ IH]; intros l' F'; inversion F'; subst; auto. f_equal; eauto using dfa_named_unique. }
    destruct x, x'; cbn in *; congruence.
Qed.
Lemma denotes_closed p d q a r : dfa_denotes p d -> dfa_edge d q a r -> r < length (dfa_states d).
Proof.
  intros (_ & F & _) (i & s & _ & Es & Et). destruct (Forall2_nth_r _ _ _ F _ _ Es) as (ps & _ & _ & _ & _ & G). destruct (Forall2_nth_r _ _ _ G _ _ Et) as (t & _ & x & X & _).
  rewrite <- (Forall2_len _ _ _ F). apply nth_error_Some. congruence.
Qed.
Lemma begins_paths d' d R q w r : (forall q a r, dfa_edge d' q a r -> r < length (dfa_states d')) -> dfa_alphabet d = dfa_alphabet d' -> dfa_states d = dfa_states d' ++ R ->
  q < length (dfa_states d') -> (dfa_path d q w r <-> dfa_path d' q w r) /\ (dfa_path d q w r -> r < length (dfa_states d')).
Proof.
  intros C A S. revert q. induction w as [|a w IH]; intros q Q.
  - repeat split; intros H; inversion H; subst; auto; constructor.
  - assert (K : forall z, dfa_edge d q a z <-> dfa_edge d' q a z).
    { intros z. unfold dfa_edge. rewrite A, S. split; intros (i & s & H1 & H2 & H3); exists i, s; rewrite nth_error_app1 in * by auto; auto. }
    repeat split; intros H; inversion H as [|? ? z ? ? H1 H2]; subst.
    + apply K in H1. econstructor; eauto. apply IH; eauto.
    + econstructor; [apply K; eauto|]. apply IH; eauto.
    + apply K in H1. destruct (IH z (C _ _ _ H1)) as [_ X]. auto.
Qed.
Theorem cut_loads u v d d' : loads_dfa (u ++ v) d -> loads_dfa u d' -> plain (u ++ v) -> apart (map ds_name (dfa_states d)) ->
  dfa_alphabet d' = dfa_alphabet d /\ (forall w, dfa_lang d' w <-> dfa_lang d w) /\ ((forall q, q < length (dfa_states d) -> dfa_reachable d q) -> d' = d).
Proof.
  intros (P & HP & WP & DP) (p & Hp & Wp & Dp) Pl Ap.
  assert (Ap' : apart (map pds_name (pd_states P))).
  { replace (map pds_name (pd_states P)) with (map ds_name (dfa_states d)); auto. destruct DP as (_ & F & _). clear - F. induction F as [|a b l l' (E & _) _ IH]; cbn [map]; congruence. }
  destruct (cut_begins p P u v Hp Wp HP WP Pl Ap') as (H & T & E). destruct (begins_states p P T d' d Wp WP H E Dp DP) as (A & I & R & S).
  assert (Init : dfa_initial d' < length (dfa_states d')).
  { destruct Dp as (_ & F & s & Es & _). rewrite <- (Forall2_len _ _ _ F). apply nth_error_Some. congruence. }
  pose proof (fun w r => begins_paths d' d R (dfa_initial d') w r (fun q a r => denotes_closed p d' q a r Dp) A S Init) as Path.
  split; [auto|]. split.
  - intros w. unfold dfa_lang, dfa_state_lang. rewrite I. split; intros (q & Hq & s & Es & As); exists q.
    + apply Path in Hq. split; auto. exists s. split; auto. rewrite S, nth_error_app1; auto. apply nth_error_Some. congruence.
    + destruct (Path w q) as [P1 P2]. specialize (P2 Hq). apply P1 in Hq. split; auto. exists s. split; auto. rewrite S, nth_error_app1 in Es; auto.
  - intros Re. destruct R as [|x R]; [rewrite app_nil_r in S; destruct d, d'; cbn in *; congruence|]. exfalso.
    destruct (Re (length (dfa_states d'))) as [w Hw]; [rewrite S, app_length; cbn; lia|]. rewrite I in Hw. apply Path in Hw. lia.
Qed.

(** ** The tables that are printed *)
Lemma legal_plain t : legal_token t -> plain t.
Proof. intros L c Hc. split; intros ->; [destruct L as (_ & H & _); destruct (H _ Hc) as (_ & X & _); auto|exact (legal_no_cr _ L Hc)]. Qed.
Lemma table_plain d u : dfa_valid d -> dfa_to_table d = Ret u -> Forall legal_token (dfa_alphabet d) -> dnames_legal d -> plain u.
Proof.
  intros V E A N. destruct (C49_dfa_tables_aligned d V) as ((u' & rs & E' & (body & -> & HB) & (ws & _ & _ & U)) & _). rewrite E in E'. injection E' as <-.
  intros c Hc. rewrite U in Hc. apply lines_text_In in Hc as [->|(l & K & Hc)]; [split; discriminate|].
  apply in_map_iff in K as (row & <- & HR). apply aligned_line_In in Hc as [->|(cell & HC & Hc)]; [split; discriminate|].
  enough (plain cell) by auto. clear c Hc U ws. destruct HR as [<- |HR].
  - apply in_app_or in HC as [[<- |[<- |[<- |[]]]]|HC]; try (intros c []). apply legal_plain. rewrite Forall_forall in A. auto.
  - assert (NN : forall i st, nth_error (dfa_states d) i = Some st -> plain (ds_name st)).
    { intros i st Hi. apply legal_plain. apply (proj1 (dnames_nth d) N i). auto. }
    destruct (Forall2_In_r _ _ _ _ HB HR) as (s & HI & names & -> & HF). apply In_nth_error in HI as (i & Hi).
    destruct HC as [<- |[<- |[<- |HC]]].
    + destruct (ds_initial s); intros c; cbn; intuition (subst; discriminate).
    + destruct (ds_accepting s); intros c; cbn; intuition (subst; discriminate).
    + eauto.
    + clear - HF HC NN. induction HF as [|t nm ts names (st & K1 & <-) HF IH]; [destruct HC|]. destruct HC as [<- |HC]; eauto.
Qed.
Theorem cut_table d table u : dfa_valid d -> dfa_alphabet d <> [] -> Forall legal_token (dfa_alphabet d) -> dnames_legal d -> apart (map ds_name (dfa_states d)) ->
  dfa_to_table d = Ret table -> prefix_of u table -> load_dfa u = Ret None \/ exists d', load_dfa u = Ret (Some d') /\
    dfa_alphabet d' = dfa_alphabet d /\ (forall w, dfa_lang d' w <-> dfa_lang d w) /\ ((forall q, q < length (dfa_states d) -> dfa_reachable d q) -> d' = d).
Proof.
  intros V Na A N Ap E (v & ->). destruct (load_dfa_cases u) as [(d' & E' & L)|[E' _]]; auto. right. exists d'. split; auto.
  apply (cut_loads u v); eauto using table_loads, table_plain.
Qed.
Theorem cut_bytes d table l l' u : dfa_valid d -> dfa_alphabet d <> [] -> Forall legal_token (dfa_alphabet d) -> dnames_legal d -> apart (map ds_name (dfa_states d)) ->
  dfa_to_table d = Ret table -> rust_text table -> utf8 table l -> prefix_of l' l -> from_utf8 l' = Some u -> load_dfa u = Ret None \/ exists d', load_dfa u = Ret (Some d') /\
    dfa_alphabet d' = dfa_alphabet d /\ (forall w, dfa_lang d' w <-> dfa_lang d w) /\ ((forall q, q < length (dfa_states d) -> dfa_reachable d q) -> d' = d).
Proof.
  intros V Na A N Ap E Rt U P F. apply from_utf8_spec in F as [Ru U']. apply (cut_table d table); auto. apply (utf8_prefix _ _ _ _ Ru Rt U' U P).
Qed.
