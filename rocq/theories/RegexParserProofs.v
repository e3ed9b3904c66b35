(** * RegexParserProofs: the regex parser is total and implements the documented syntax *)
From Coq Require Import List NArith Arith Bool Lia.
From Verif Require Import Base BaseLemmas Spec TableSpec LayoutSpec RegexSpec ParserModel ParserBasics FaParserProofs RegexModel RegexProofs RegexParserModel.
Import ListNotations.

(** ** Totality on inputs shorter than [n] *)
Definition totalN {A} (n : nat) (p : P A) : Prop :=
  forall i, length i < n -> exists r, p i = Ret r /\ match r with Some (i', _) => exists u, i = u ++ i' | None => True end.

Lemma total_N {A} n (p : P A) : total p -> totalN n p.
Proof. intros H i _. apply H. Qed.
Lemma totalN_pbind {A B} n (p : P A) (f : A -> P B) : totalN n p -> (forall a, totalN n (f a)) -> totalN n (pbind p f).
Proof.
  intros Hp Hf i Hi. unfold pbind. destruct (Hp i Hi) as ([[i1 a]|] & -> & H1); cbn [bind].
  - destruct H1 as (u & ->). rewrite app_length in Hi. destruct (Hf a i1) as ([[i2 b]|] & -> & H2); [lia| |].
    + destruct H2 as (v & ->). exists (Some (i2, b)). split; auto. exists (u ++ v). rewrite app_assoc. auto.
    + exists None. auto.
  - exists None. auto.
Qed.
Lemma totalN_pmap {A B} n (f : A -> B) p : totalN n p -> totalN n (pmap f p).
Proof. intros H. apply totalN_pbind; auto. intros a. apply total_N, total_pret. Qed.
Lemma totalN_ppair {A B} n (p : P A) (q : P B) : totalN n p -> totalN n q -> totalN n (ppair p q).
Proof. intros Hp Hq. apply totalN_pbind; auto. intros a. apply totalN_pmap; auto. Qed.
Lemma totalN_terminated {A B} n (p : P A) (q : P B) : totalN n p -> totalN n q -> totalN n (terminated p q).
Proof. intros Hp Hq. apply totalN_pmap, totalN_ppair; auto. Qed.
Lemma totalN_palt {A} n (p q : P A) : totalN n p -> totalN n q -> totalN n (palt p q).
Proof.
  intros Hp Hq i Hi. unfold palt. destruct (Hp i Hi) as ([x|] & -> & H); cbn [bind].
  - exists (Some x). auto.
  - apply Hq; auto.
Qed.
Lemma totalN_many_loop {A} n (p : P A) (Hp : totalN n p) : forall fuel acc i, length i < fuel -> length i < n ->
  exists r, many_loop fuel p acc i = Ret r /\ match r with Some (i', l) => (exists u, i = u ++ i') /\ length acc <= length l | None => True end.
Proof.
  induction fuel as [|fuel IH]; intros acc i Hl Hn; [lia|]. cbn [many_loop].
  destruct (Hp i Hn) as ([[i1 a]|] & -> & H); cbn [bind].
  - destruct H as (u & ->). destruct (Nat.eqb_spec (length i1) (length (u ++ i1))) as [E|E].
    + exists None. auto.
    + rewrite app_length in E, Hl, Hn. destruct (IH (acc ++ [a]) i1) as (r & -> & Hr); [lia|lia|].
      exists r. split; auto. destruct r as [[i2 l]|]; auto. destruct Hr as ((v & ->) & Hle). rewrite app_length in Hle.
      split; [|simpl in Hle; lia]. exists (u ++ v). rewrite app_assoc. auto.
  - exists (Some (i, acc)). split; auto. split; auto. exists []. auto.
Qed.
Lemma totalN_sep_loop {A B} n (sep : P B) (p : P A) (Hs : totalN n sep) (Hp : totalN n p) : forall fuel acc i, length i < fuel -> length i < n ->
  exists r, sep_loop fuel sep p acc i = Ret r /\ match r with Some (i', l) => (exists u, i = u ++ i') /\ length acc <= length l | None => True end.
Proof.
  induction fuel as [|fuel IH]; intros acc i Hl Hn; [lia|]. cbn [sep_loop].
  destruct (Hs i Hn) as ([[i1 b]|] & -> & H); cbn [bind].
  - destruct H as (u & ->). destruct (Nat.eqb_spec (length i1) (length (u ++ i1))) as [E|E].
    + exists None. auto.
    + rewrite app_length in E, Hl, Hn. destruct (Hp i1) as ([[i2 a]|] & -> & H); [lia| |]; cbn [bind].
      * destruct H as (v & ->). rewrite app_length in *. destruct (IH (acc ++ [a]) i2) as (r & -> & Hr); [lia|lia|].
        exists r. split; auto. destruct r as [[i3 l]|]; auto. destruct Hr as ((w & ->) & Hle). rewrite app_length in Hle.
        split; [|simpl in Hle; lia]. exists (u ++ v ++ w). rewrite !app_assoc. auto.
      * exists (Some (u ++ i1, acc)). split; auto. split; auto. exists []. auto.
  - exists (Some (i, acc)). split; auto. split; auto. exists []. auto.
Qed.

(** [many1] and [separated_list1] yield at least one item *)
Lemma totalN_pmapR {A B} n (f : A -> R B) (p : P A) (Q : A -> Prop) :
  (forall i, length i < n -> exists r, p i = Ret r /\ match r with Some (i', a) => (exists u, i = u ++ i') /\ Q a | None => True end) ->
  (forall a, Q a -> exists b, f a = Ret b) -> totalN n (pmapR f p).
Proof.
  intros Hp Hf i Hi. unfold pmapR, pbind. destruct (Hp i Hi) as ([[i1 a]|] & -> & H); cbn [bind].
  - destruct H as (Hu & Ha). destruct (Hf a Ha) as (b & ->). cbn [bind]. exists (Some (i1, b)). auto.
  - exists None. auto.
Qed.

Lemma wrap_multiple_total f l : 1 <= length l -> exists t, wrap_multiple f l = Ret t.
Proof.
  intros Hl. unfold wrap_multiple. destruct (1 <? length l); eauto. destruct l; simpl in Hl; [lia|]. eauto.
Qed.
Lemma totalN_sequence seg n e : totalN n (palt (par_expr e) (combinated_char seg)) -> totalN n (p_sequence seg e).
Proof.
  intros H. apply (totalN_pmapR n _ _ (fun l => 1 <= length l)); [|apply wrap_multiple_total].
  intros i Hi. unfold many1, pbind. destruct (H i Hi) as ([[i1 a]|] & -> & H1); cbn [bind].
  - destruct H1 as (u & ->). rewrite app_length in Hi.
    destruct (totalN_many_loop n _ H (S (length i1)) [a] i1) as (r & -> & Hr); [lia|lia|].
    exists r. split; auto. destruct r as [[i2 l]|]; auto. destruct Hr as ((v & ->) & Hl). split; auto.
    exists (u ++ v). rewrite app_assoc. auto.
  - exists None. auto.
Qed.
Lemma totalN_alternation seg n e : totalN n (palt (par_expr e) (combinated_char seg)) -> totalN n (p_alternation seg e).
Proof.
  intros H. apply totalN_sequence in H. apply (totalN_pmapR n _ _ (fun l => 1 <= length l)); [|apply wrap_multiple_total].
  intros i Hi. unfold separated_list1, pbind. destruct (H i Hi) as ([[i1 a]|] & -> & H1); cbn [bind].
  - destruct H1 as (u & ->). rewrite app_length in Hi.
    destruct (totalN_sep_loop n (tag [124%N]) _ (total_N n _ (total_tag _)) H (S (length i1)) [a] i1) as (r & -> & Hr); [lia|lia|].
    exists r. split; auto. destruct r as [[i2 l]|]; auto. destruct Hr as ((v & ->) & Hl). split; auto.
    exists (u ++ v). rewrite app_assoc. auto.
  - exists None. auto.
Qed.

Lemma one_of_spec cs i : exists r, one_of cs i = Ret r /\
  match r with Some (i', c) => i = c :: i' /\ In c cs | None => match i with c :: _ => ~ In c cs | [] => True end end.
Proof.
  unfold one_of. destruct i as [|c i]; [exists None; auto|]. destruct (mem_spec c cs) as [H|H].
  - exists (Some (i, c)). auto.
  - exists None. auto.
Qed.
Lemma apply_kleene_total t o : match o with Some c => In c [43; 42]%N | None => True end -> exists b, apply_kleene (t, o) = Ret b.
Proof.
  intros H. destruct o as [c|]; simpl; eauto. destruct H as [<- |[<- |[]]]; simpl; eauto.
Qed.
Lemma totalN_kleene n p : totalN n p -> totalN n (pmapR apply_kleene (ppair p (popt (one_of [43; 42]%N)))).
Proof.
  intros H. apply (totalN_pmapR n _ _ (fun x => match snd x with Some c => In c [43; 42]%N | None => True end)).
  - intros i Hi. unfold ppair, pbind. destruct (H i Hi) as ([[i1 a]|] & -> & H1); cbn [bind].
    + destruct H1 as (u & ->). unfold pmap, popt, pbind. destruct (one_of_spec [43; 42]%N i1) as (r & E & Hr). rewrite E.
      destruct r as [[i2 c]|]; cbn [bind pret]; unfold pret.
      * exists (Some (i2, (a, Some c))). destruct Hr as (-> & Hc). split; auto. split; auto. exists (u ++ [c]).
        rewrite <- app_assoc. reflexivity.
      * exists (Some (i1, (a, None))). split; auto. simpl. eauto.
    + exists None. auto.
  - intros [t o] Ho. apply apply_kleene_total; auto.
Qed.

Lemma total_one_cluster seg : total (one_cluster seg).
Proof.
  intros i. unfold one_cluster. destruct (seg i) as [|g l].
  - exists None. auto.
  - exists (Some (skipn (length g) i, RGrapheme g)). split; auto. exists (firstn (length g) i). symmetry. apply firstn_skipn.
Qed.
Lemma total_regex_char seg : total (p_regex_char seg).
Proof.
  pose proof (total_one_cluster seg). unfold p_regex_char, empty_lang, empty_str, escaped_char, normal_char. auto 10 with total.
Qed.
Lemma totalN_combinated n seg : totalN n (combinated_char seg).
Proof. apply totalN_kleene, total_N, total_pmap, total_regex_char. Qed.
Lemma totalN_par_expr n e : totalN n e -> totalN (S n) (par_expr e).
Proof.
  intros H. apply totalN_kleene. unfold delimited, preceded. intros i Hi. unfold pmap, ppair, pbind.
  destruct (tag_spec [40%N] i) as [(k & -> & E)|(E & _)]; rewrite E; cbn [bind]; [|exists None; auto].
  simpl in Hi. destruct (totalN_terminated n _ _ H (total_N n _ (total_tag [41%N])) k) as (r & Er & Hr); [lia|].
  unfold pmap, pbind. rewrite Er. cbn [bind]. destruct r as [[i2 t]|]; cbn [bind pret]; unfold pret; cbn [bind].
  - eexists. split; [reflexivity|]. destruct Hr as (v & ->). exists ([40%N] ++ v). rewrite app_assoc. auto.
  - exists None. auto.
Qed.
Lemma totalN_expression seg : forall n, totalN n (expression seg n).
Proof.
  induction n as [|n IH]; [intros i Hi; lia|]. cbn [expression]. apply totalN_alternation, totalN_palt.
  - apply totalN_par_expr; auto.
  - apply totalN_combinated.
Qed.

Lemma parse_regex_total seg u : exists r, parse_regex seg u = Ret r.
Proof.
  unfold parse_regex, parse_with, all_consuming. cbv zeta.
  destruct (totalN_expression seg (S (length (trim u))) (trim u)) as (r & E & _); [lia|]. rewrite E. cbn [bind].
  destruct r as [[[|c i] t]|]; cbn [bind]; eauto.
Qed.

(** ** The grammar of trees *)
Definition wrap (f : list regex_tree -> regex_tree) (l : list regex_tree) : regex_tree :=
  match l with [x] => x | _ => f l end.
Lemma wrap_multiple_wrap f l : l <> [] -> wrap_multiple f l = Ret (wrap f l).
Proof. destruct l as [|x [|y l]]; intros H; [congruence|reflexivity|reflexivity]. Qed.

Inductive kleene : Type := KNone | KStar | KPlus.
Definition ktoks (k : kleene) : list str := match k with KNone => [] | KStar => [[42%N]] | KPlus => [[43%N]] end.
Definition kapply (k : kleene) (t : regex_tree) : regex_tree :=
  match k with KNone => t | KStar => RRepeat t | KPlus => RSequence [t; RRepeat t] end.

Inductive char_toks : regex_char -> list str -> Prop :=
| ct_empty : char_toks REmpty [[8709%N]]
| ct_eps : char_toks REpsilon [[949%N]]
| ct_esc g : g <> [] -> char_toks (RGrapheme g) [92%N :: g]
| ct_sym g : ~ syntax_head g -> char_toks (RGrapheme g) [g].

Inductive prim : regex_tree -> list str -> Prop :=
| prim_char c u : char_toks c u -> prim (RChar c) u
| prim_group l u : alts l u -> prim (wrap RAlt l) ([40%N] :: u ++ [[41%N]])
with atoms : list regex_tree -> list str -> Prop :=
| atoms_one t u k : prim t u -> atoms [kapply k t] (u ++ ktoks k)
| atoms_more t u k l v : prim t u -> atoms l v -> atoms (kapply k t :: l) ((u ++ ktoks k) ++ v)
with alts : list regex_tree -> list str -> Prop :=
| alts_one l u : atoms l u -> alts [wrap RSequence l] u
| alts_more l u ls v : atoms l u -> alts ls v -> alts (wrap RSequence l :: ls) (u ++ [124%N] :: v).

Scheme prim_mind := Induction for prim Sort Prop
with atoms_mind := Induction for atoms Sort Prop
with alts_mind := Induction for alts Sort Prop.
Combined Scheme toks_mind from prim_mind, atoms_mind, alts_mind.

Lemma atoms_nonempty l u : atoms l u -> l <> [].
Proof. destruct 1; discriminate. Qed.
Lemma alts_nonempty l u : alts l u -> l <> [].
Proof. destruct 1; discriminate. Qed.

(** ** Texts as lists of tokens *)
Lemma syntax_dec c : syntax_char c \/ ~ syntax_char c.
Proof. destruct (in_dec N.eq_dec c [40; 41; 8709; 949; 124; 42; 43; 92]%N); auto. Qed.
Lemma is_reserved_spec c : is_reserved_char c = true <-> syntax_char c.
Proof. unfold is_reserved_char, reserved_chars, syntax_char. rewrite mem_In. simpl. tauto. Qed.

Section Seg.
  Variable seg : str -> list str.
  Hypothesis Hdiv : divides seg.
  Local Notation good := (tokens seg).

  Lemma seg_empty : seg [] = [].
  Proof.
    destruct (Hdiv []) as (E & H). destruct (seg []) as [|g l]; auto. cbn [concat] in E. apply app_eq_nil in E as (-> & _).
    destruct H. left; auto.
  Qed.
  Lemma seg_first u g l : seg u = g :: l -> g <> [] /\ u = g ++ concat l.
  Proof. intros E. destruct (Hdiv u) as (E' & H). rewrite E in *. split; [intros ->; apply H; left; auto|]. symmetry. exact E'. Qed.

  Lemma good_tail g gs : good (g :: gs) -> good gs.
  Proof. intros H. inversion H; subst; auto. constructor. Qed.
  Lemma good_app a b : good (a ++ b) -> good b.
  Proof. induction a as [|x a IH]; simpl; auto. intros H. apply good_tail in H. auto. Qed.
  Lemma good_nonempty gs : good gs -> forall g, In g gs -> g <> [].
  Proof.
    induction 1 as [|c gs Hc Hn Hg IH| |g l gs Hs Hg IH|g l gs Hsh Hs Hg IH]; intros h Hh; [destruct Hh|..];
      (destruct Hh as [<- |Hh]; [try discriminate|auto]).
    apply seg_first in Hs. tauto.
  Qed.

  (** a reserved character at the front, other than the backslash, is a token of its own *)
  Lemma good_tag c gs : syntax_char c -> c <> 92%N -> good gs ->
    (exists gs', gs = [c] :: gs' /\ ok (tag [c]) (concat gs) (concat gs') tt) \/
    (bad (tag [c]) (concat gs) /\ forall gs', gs <> [c] :: gs').
  Proof.
    intros Hc Hn Hg. destruct (tag_spec [c] (concat gs)) as [(k & E & H)|(H & Hk)].
    - left. inversion Hg as [|c' gs' Hc' Hn' Hg'| |g l gs' Hs Hg'|g l gs' Hsh Hs Hg']; subst gs; cbn [concat app] in E.
      + discriminate.
      + injection E as -> E. exists gs'. split; auto. rewrite E. exact H.
      + injection E as E _. congruence.
      + injection E as E _. congruence.
      + apply seg_first in Hs as (Hne & _). destruct g as [|c' g]; [congruence|]. injection E as -> E. destruct Hsh. exists c, g. auto.
    - right. split; auto. intros gs' ->. apply (Hk (concat gs')). reflexivity.
  Qed.
  Lemma good_one_of gs : good gs ->
    (exists c gs', (c = 43%N \/ c = 42%N) /\ gs = [c] :: gs' /\ ok (one_of [43; 42]%N) (concat gs) (concat gs') c) \/
    (bad (one_of [43; 42]%N) (concat gs) /\ forall c gs', (c = 43%N \/ c = 42%N) -> gs <> [c] :: gs').
  Proof.
    intros Hg. destruct (one_of_spec [43; 42]%N (concat gs)) as (r & E & H). destruct r as [[i c]|].
    - destruct H as (Hc & Hin). left. exists c.
      assert (Hor : c = 43%N \/ c = 42%N) by (destruct Hin as [<- |[<- |[]]]; auto).
      destruct (good_tag c gs) as [(gs' & -> & H)|(_ & H)]; auto.
      + unfold syntax_char. destruct Hor as [-> | ->]; simpl; tauto.
      + destruct Hor as [-> | ->]; discriminate.
      + cbn [concat app] in *. injection Hc as <-. exists gs'. auto.
      + exfalso. destruct gs as [|g gs]; [discriminate|]. pose proof (good_nonempty _ Hg g (or_introl eq_refl)) as Hne.
        inversion Hg as [|c' gs' Hc' Hn' Hg'| |g0 l gs' Hs Hg'|g0 l gs' Hsh Hs Hg']; subst; cbn [concat app] in Hc.
        * injection Hc as -> _. destruct (H gs); auto.
        * injection Hc as <- _. destruct Hor; discriminate.
        * injection Hc as <- _. destruct Hor; discriminate.
        * destruct g as [|c' g]; [congruence|]. injection Hc as -> Hc. apply Hsh. exists c, g. split; auto.
          unfold syntax_char. destruct Hor as [-> | ->]; simpl; tauto.
    - right. split; auto. intros c gs' Hc ->. simpl in H. apply H. destruct Hc as [-> | ->]; simpl; tauto.
  Qed.

  Lemma normal_check g : g <> [] ->
    negb (is_reserved_char (match g with c :: _ => c | [] => 0%N end)) = true <-> ~ syntax_head g.
  Proof.
    intros Hg. destruct g as [|c g]; [congruence|]. rewrite negb_true_iff. split.
    - intros E (c' & g' & E' & Hc). injection E' as -> ->. apply is_reserved_spec in Hc. congruence.
    - intros H. apply not_true_iff_false. intros E. apply H. exists c, g. split; auto. apply is_reserved_spec. auto.
  Qed.
  Lemma cluster_ok g k l : seg (g ++ k) = g :: l -> ok (one_cluster seg) (g ++ k) k (RGrapheme g).
  Proof. intros E. unfold ok, one_cluster. rewrite E. rewrite skipn_app, skipn_all, Nat.sub_diag. reflexivity. Qed.
  Lemma cluster_nil : bad (one_cluster seg) [].
  Proof. unfold bad, one_cluster. rewrite seg_empty. reflexivity. Qed.
  Lemma normal_bad c k : syntax_char c -> bad (normal_char seg) (c :: k).
  Proof.
    intros Hc. unfold normal_char, bad, pverify, one_cluster. destruct (seg (c :: k)) as [|g l] eqn:E; [reflexivity|].
    apply seg_first in E as (Hne & E). destruct g as [|c' g]; [congruence|]. injection E as <- _. cbn [bind].
    apply is_reserved_spec in Hc. rewrite Hc. reflexivity.
  Qed.
  Lemma tag_no c g k : ~ (exists g', g ++ k = c :: g') -> bad (tag [c]) (g ++ k).
  Proof. intros H. destruct (tag_spec [c] (g ++ k)) as [(k' & E & _)|(H' & _)]; auto. destruct H. exists k'. exact E. Qed.
  Lemma tag_ok c k : ok (tag [c]) (c :: k) k tt.
  Proof.
    destruct (tag_spec [c] (c :: k)) as [(k' & E & H)|(_ & H)]; [injection E as <-; exact H|]. destruct (H k). reflexivity.
  Qed.

  (** every text has tokens, and only one list of them *)
  Lemma tokens_exist u : exists gs, good gs /\ concat gs = u.
  Proof.
    assert (K : forall n u, length u < n -> exists gs, good gs /\ concat gs = u).
    { induction n as [|n IH]; intros v Hv; [lia|]. destruct v as [|c v]; [exists []; split; [constructor|auto]|].
      destruct (syntax_dec c) as [Hc|Hc].
      - destruct (N.eq_dec c 92) as [->|Hn].
        + destruct (seg v) as [|g l] eqn:E.
          * destruct (Hdiv v) as (Ev & _). rewrite E in Ev. cbn [concat] in Ev. subst v. exists [[92%N]]. split; [apply tk_backslash|auto].
          * pose proof (seg_first _ _ _ E) as (Hne & ->). cbn [length] in Hv. rewrite app_length in Hv.
            destruct (IH (concat l)) as (gs & Hg & Eg); [lia|]. exists ((92%N :: g) :: gs). split; [|cbn [concat app]; rewrite Eg; auto].
            apply (tk_escape seg g l); auto. rewrite Eg. auto.
        + destruct (IH v) as (gs & Hg & Eg); [cbn [length] in Hv; lia|]. exists ([c] :: gs). split; [constructor; auto|cbn [concat app]; rewrite Eg; auto].
      - destruct (seg (c :: v)) as [|g l] eqn:E; [destruct (Hdiv (c :: v)) as (Ev & _); rewrite E in Ev; discriminate|].
        pose proof (seg_first _ _ _ E) as (Hne & Ev). rewrite Ev in *. rewrite app_length in Hv.
        destruct (IH (concat l)) as (gs & Hg & Eg); [destruct g; [congruence|cbn [length] in Hv; lia]|].
        exists (g :: gs). split; [|cbn [concat]; rewrite Eg; auto]. apply (tk_symbol seg g l); auto; [|rewrite Eg; auto].
        intros (c' & g' & -> & Hc'). injection Ev as <- _. auto. }
    apply (K (S (length u))). lia.
  Qed.
  Lemma tokens_unique gs : good gs -> forall hs, good hs -> concat gs = concat hs -> gs = hs.
  Proof.
    induction 1 as [|c gs Hc Hn Hg IH| |g l gs Hs Hg IH|g l gs Hsh Hs Hg IH]; intros hs Hh E.
    - destruct hs as [|h hs]; auto. pose proof (good_nonempty _ Hh h (or_introl eq_refl)) as Hne. destruct h; [congruence|discriminate].
    - destruct (good_tag c hs Hc Hn Hh) as [(hs' & -> & _)|(H & _)].
      + f_equal. apply IH; [eapply good_tail; eauto|]. injection E as E. auto.
      + rewrite <- E in H. exfalso. destruct (tag_spec [c] (concat ([c] :: gs))) as [(k & _ & H')|(_ & H')]; [unfold bad in H; congruence|].
        apply (H' (concat gs)). reflexivity.
    - inversion Hh as [|c' gs' Hc' Hn' Hg'| |g0 l gs' Hs Hg'|g0 l gs' Hsh Hs Hg']; subst hs; cbn [concat app] in E; auto; try discriminate.
      + injection E as E _. congruence.
      + apply seg_first in Hs as (Hne & _). injection E as E. destruct g0; [congruence|discriminate].
      + apply seg_first in Hs as (Hne & _). destruct g0 as [|c g0]; [congruence|]. injection E as <- _. destruct Hsh. exists 92%N, g0.
        split; auto. unfold syntax_char. simpl. tauto.
    - inversion Hh as [|c' gs' Hc' Hn' Hg'| |g0 l' gs' Hs' Hg'|g0 l' gs' Hsh Hs' Hg']; subst hs; cbn [concat app] in E; try discriminate.
      + injection E as E _. congruence.
      + apply seg_first in Hs as (Hne & _). injection E as E. destruct g; [congruence|discriminate].
      + injection E as E. rewrite E, Hs' in Hs. injection Hs as <- _. apply app_inv_head in E. f_equal. auto.
      + exfalso. apply seg_first in Hs' as (Hne & _). destruct g0 as [|c g0]; [congruence|]. injection E as <- _. destruct Hsh. exists 92%N, g0.
        split; auto. unfold syntax_char. simpl. tauto.
    - assert (Hne : g <> []) by (apply seg_first in Hs; tauto).
      inversion Hh as [|c' gs' Hc' Hn' Hg'| |g0 l' gs' Hs' Hg'|g0 l' gs' Hsh' Hs' Hg']; subst hs; cbn [concat app] in E.
      + destruct g; [congruence|discriminate].
      + exfalso. destruct g as [|c g]; [congruence|]. injection E as -> _. destruct Hsh. exists c', g. auto.
      + exfalso. destruct g as [|c g]; [congruence|]. injection E as -> _. destruct Hsh. exists 92%N, g. split; auto. unfold syntax_char. simpl. tauto.
      + exfalso. destruct g as [|c g]; [congruence|]. injection E as -> _. destruct Hsh. exists 92%N, g. split; auto. unfold syntax_char. simpl. tauto.
      + rewrite E, Hs' in Hs. injection Hs as <- _. apply app_inv_head in E. f_equal. auto.
  Qed.

  Ltac synch := unfold syntax_char; simpl; tauto.
  Ltac nothead := let g := fresh in let E := fresh in intros (g & E); discriminate E.

  (** ** Characters *)
  Lemma char_ok c u k : char_toks c u -> good (u ++ k) -> ok (p_regex_char seg) (concat (u ++ k)) (concat k) c.
  Proof.
    intros Hc Hg. unfold p_regex_char, empty_lang, empty_str, escaped_char, normal_char. inversion Hc as [| |g Hne|g Hn]; subst; cbn [app concat].
    - apply palt_ok_l. apply (pmap_ok (fun _ => REmpty) (tag [8709%N]) _ _ tt). apply tag_ok.
    - apply palt_ok_r; [apply pmap_bad, (tag_no _ [949%N]); nothead|]. apply palt_ok_l.
      apply (pmap_ok (fun _ => REpsilon) (tag [949%N]) _ _ tt). apply tag_ok.
    - apply palt_ok_r; [apply pmap_bad, (tag_no _ [92%N]); nothead|]. apply palt_ok_r; [apply pmap_bad, (tag_no _ [92%N]); nothead|].
      apply palt_ok_l. eapply preceded_ok; [apply tag_ok|].
      inversion Hg as [|c' gs' Hc' Hn' Hg'| |g0 l gs' Hs Hg'|g0 l gs' Hsh Hs Hg']; subst; try congruence.
      + exact (cluster_ok _ _ _ Hs).
      + destruct Hsh. exists 92%N, g. split; auto. synch.
    - inversion Hg as [|c' gs' Hc' Hn' Hg'| |g0 l gs' Hs Hg'|g0 l gs' Hsh Hs Hg']; subst.
      + destruct Hn. exists c', []. auto.
      + destruct Hn. exists 92%N, []. split; auto. synch.
      + destruct Hn. exists 92%N, g0. split; auto. synch.
      + assert (Hbad : forall c, syntax_char c -> bad (tag [c]) (g ++ concat k)).
        { intros c Hsc. apply tag_no. intros (g' & E). apply seg_first in Hs as (Hne & _). destruct g as [|c' g]; [congruence|]. injection E as -> E. apply Hn. exists c, g. auto. }
        apply palt_ok_r; [apply pmap_bad, Hbad; synch|]. apply palt_ok_r; [apply pmap_bad, Hbad; synch|].
        apply palt_ok_r; [apply preceded_bad, Hbad; synch|]. apply pverify_ok.
        * exact (cluster_ok _ _ _ Hs).
        * apply normal_check; auto. apply seg_first in Hs. tauto.
  Qed.
  Lemma char_inv gs i c : good gs -> ok (p_regex_char seg) (concat gs) i c ->
    exists u k, gs = u ++ k /\ i = concat k /\ char_toks c u.
  Proof.
    intros Hg H.
    assert (K : forall c' u k, gs = u ++ k -> char_toks c' u -> exists u k, gs = u ++ k /\ i = concat k /\ char_toks c u).
    { intros c' u k -> Hc. pose proof (char_ok c' u k Hc Hg) as H'. unfold ok in H, H'. rewrite H in H'. injection H' as -> ->. eauto. }
    unfold p_regex_char, empty_lang, empty_str, escaped_char, normal_char in H.
    destruct Hg as [|c' gs' Hc' Hn' Hg'| |g0 l gs' Hs Hg'|g0 l gs' Hsh Hs Hg'].
    - exfalso. cbn [concat] in H.
      apply palt_inv in H as [H|(_ & H)]; [|apply palt_inv in H as [H|(_ & H)]; [|apply palt_inv in H as [H|(_ & H)]]].
      + apply pmap_inv in H as ([] & H & _). discriminate.
      + apply pmap_inv in H as ([] & H & _). discriminate.
      + apply preceded_inv in H as (i1 & [] & H1 & _). discriminate.
      + apply pverify_inv in H as (H & _). pose proof cluster_nil as H1. unfold ok, bad in *. congruence.
    - destruct (N.eq_dec c' 8709) as [->|N1]; [apply (K REmpty [[8709%N]] gs'); [auto|constructor]|].
      destruct (N.eq_dec c' 949) as [->|N2]; [apply (K REpsilon [[949%N]] gs'); [auto|constructor]|]. exfalso. cbn [concat app] in H.
      assert (Hbad : forall d, d <> c' -> bad (tag [d]) (c' :: concat gs')).
      { intros d Hd. apply (tag_no d [c']). intros (g' & E). injection E as E _. congruence. }
      apply palt_inv in H as [H|(_ & H)]; [|apply palt_inv in H as [H|(_ & H)]; [|apply palt_inv in H as [H|(_ & H)]]].
      + apply pmap_inv in H as ([] & H & _). pose proof (Hbad 8709%N) as B. unfold ok, bad in *. rewrite B in H by congruence. discriminate.
      + apply pmap_inv in H as ([] & H & _). pose proof (Hbad 949%N) as B. unfold ok, bad in *. rewrite B in H by congruence. discriminate.
      + apply preceded_inv in H as (i1 & [] & H1 & _). pose proof (Hbad 92%N) as B. unfold ok, bad in *. rewrite B in H1 by congruence. discriminate.
      + pose proof (normal_bad c' (concat gs') Hc') as B. unfold normal_char, ok, bad in *. congruence.
    - exfalso. cbn [concat app] in H.
      apply palt_inv in H as [H|(_ & H)]; [|apply palt_inv in H as [H|(_ & H)]; [|apply palt_inv in H as [H|(_ & H)]]].
      + apply pmap_inv in H as ([] & H & _). discriminate.
      + apply pmap_inv in H as ([] & H & _). discriminate.
      + apply preceded_inv in H as (i1 & [] & H1 & H2). injection H1 as <-. pose proof cluster_nil as B. unfold ok, bad in *. congruence.
      + assert (B : bad (normal_char seg) [92%N]) by (apply normal_bad; synch). unfold normal_char, ok, bad in *. congruence.
    - apply (K (RGrapheme g0) [92%N :: g0] gs'); auto. constructor. apply seg_first in Hs. tauto.
    - apply (K (RGrapheme g0) [g0] gs'); auto. constructor. auto.
  Qed.
  Lemma char_bad gs : good gs -> (forall g gs', gs = g :: gs' -> exists c, g = [c] /\ In c [40; 41; 124; 42; 43]%N) ->
    bad (p_regex_char seg) (concat gs).
  Proof.
    intros Hg H. destruct (total_ok_or_bad (p_regex_char seg) (concat gs) (total_regex_char seg)) as [(i & c & Hok)|]; auto.
    destruct (char_inv gs i c Hg Hok) as (u & k & -> & _ & Hc). exfalso. inversion Hc as [| |g Hne|g Hn]; subst.
    - destruct (H _ _ eq_refl) as (c & E & Hin). injection E as <-. simpl in Hin. intuition discriminate.
    - destruct (H _ _ eq_refl) as (c & E & Hin). injection E as <-. simpl in Hin. intuition discriminate.
    - destruct (H _ _ eq_refl) as (c & E & Hin). injection E as <-. simpl in Hin. intuition discriminate.
    - destruct (H _ _ eq_refl) as (c & -> & Hin). apply Hn. exists c, []. split; auto. unfold syntax_char. simpl in *. tauto.
  Qed.

  (** ** Kleene operators *)
  Definition no_kleene (k : list str) : Prop := forall c k', (c = 43%N \/ c = 42%N) -> k <> [c] :: k'.
  Lemma kleene_ok p i t u k kl : ok p i (concat (ktoks kl ++ k)) t -> good (u ++ ktoks kl ++ k) -> (kl = KNone -> no_kleene k) ->
    ok (pmapR apply_kleene (ppair p (popt (one_of [43; 42]%N)))) i (concat k) (kapply kl t).
  Proof.
    intros Hp Hg Hk. apply good_app in Hg. unfold pmapR.
    assert (Ho : ok (popt (one_of [43; 42]%N)) (concat (ktoks kl ++ k)) (concat k)
                    (match kl with KNone => None | KStar => Some 42%N | KPlus => Some 43%N end)).
    { destruct (good_one_of _ Hg) as [(c & gs' & Hc & E & H)|(H & Hn)].
      - destruct kl; simpl in E.
        + destruct (Hk eq_refl c gs' Hc E).
        + injection E as <- <-. apply popt_some. exact H.
        + injection E as <- <-. apply popt_some. exact H.
      - destruct kl; simpl in *.
        + apply popt_none. exact H.
        + destruct (Hn 42%N k (or_intror eq_refl) eq_refl).
        + destruct (Hn 43%N k (or_introl eq_refl) eq_refl). }
    eapply pbind_ok; [exact (ppair_ok _ _ _ _ _ _ _ Hp Ho)|]. unfold ok. destruct kl; reflexivity.
  Qed.
  Lemma kleene_inv p i i' t (Q : regex_tree -> list str -> Prop) : ok (pmapR apply_kleene (ppair p (popt (one_of [43; 42]%N)))) i i' t ->
    (forall i1 t1, ok p i i1 t1 -> exists k1, Q t1 k1 /\ i1 = concat k1 /\ good k1) ->
    exists t1 kl k, Q t1 (ktoks kl ++ k) /\ i' = concat k /\ good k /\ t = kapply kl t1.
  Proof.
    intros H Hp. unfold pmapR in H. apply pbind_inv in H as (i2 & [t1 o] & H & Hf).
    apply ppair_inv in H as (i1 & t1' & o' & H1 & H2 & E). injection E as <- <-. destruct (Hp i1 t1 H1) as (k1 & Hgs & -> & Hg).
    apply popt_inv in H2. unfold ok in Hf.
    destruct (good_one_of k1 Hg) as [(c & gs' & Hc & -> & Hok)|(Hb & Hn)].
    - destruct o as [c'|]; [|destruct H2 as (H2 & _); unfold ok, bad in *; congruence].
      unfold ok in H2, Hok. rewrite Hok in H2. injection H2 as <- <-. pose proof (good_tail _ _ Hg) as Hg'.
      destruct Hc as [-> | ->]; simpl in Hf; injection Hf as <- <-.
      + exists t1, KPlus, gs'. auto 10.
      + exists t1, KStar, gs'. auto 10.
    - destruct o as [c'|]; [unfold ok, bad in *; congruence|]. destruct H2 as (_ & ->). simpl in Hf. injection Hf as <- <-.
      exists t1, KNone, k1. auto 10.
  Qed.

  (** ** Completeness *)
  Definition p_atom (f : nat) : P regex_tree := palt (par_expr (expression seg f)) (combinated_char seg).
  Definition stop (cs : list N) (k : list str) : Prop := forall g k', k = g :: k' -> exists c, g = [c] /\ In c cs.

  Lemma stop_no_kleene k : stop [41; 124]%N k -> no_kleene k.
  Proof.
    intros H c k' Hc ->. destruct (H _ _ eq_refl) as (c' & E & Hin). injection E as <-.
    simpl in Hin. destruct Hc as [-> | ->]; intuition discriminate.
  Qed.
  Lemma atom_bad f k : good k -> stop [41; 124]%N k -> bad (p_atom f) (concat k).
  Proof.
    intros Hg Hs. apply palt_bad.
    - unfold par_expr, pmapR. apply pbind_bad. apply pbind_bad. unfold delimited. apply preceded_bad.
      destruct (good_tag 40%N k ltac:(synch) ltac:(discriminate) Hg) as [(gs' & -> & _)|(H & _)]; auto.
      destruct (Hs _ _ eq_refl) as (c & E & Hin). injection E as <-. simpl in Hin. intuition discriminate.
    - unfold combinated_char, pmapR. apply pbind_bad. apply pbind_bad. apply pmap_bad. apply char_bad; auto.
      intros g gs' ->. destruct (Hs _ _ eq_refl) as (c & -> & Hin). exists c. split; auto. simpl in *. tauto.
  Qed.

  Lemma concat_snoc_len (g : str) (u : list str) : g <> [] -> length (concat u) < length (concat (g :: u)).
  Proof. intros Hg. simpl. rewrite app_length. destruct g; [congruence|simpl; lia]. Qed.

  Lemma prim_head t u : prim t u -> exists g u', u = g :: u' /\ (forall c, c = 43%N \/ c = 42%N \/ c = 41%N \/ c = 124%N -> g <> [c]).
  Proof.
    intros H. inversion H as [c u' Hc|l u' Hl]; subst.
    - inversion Hc as [| |g Hne|g Hn]; subst.
      + eexists _, _. split; [reflexivity|]. intros c [->|[->|[->| ->]]]; discriminate.
      + eexists _, _. split; [reflexivity|]. intros c [->|[->|[->| ->]]]; discriminate.
      + eexists _, _. split; [reflexivity|]. intros c [->|[->|[->| ->]]]; discriminate.
      + eexists _, _. split; [reflexivity|]. intros c Hc' ->. apply Hn. exists c, []. split; auto.
        unfold syntax_char. simpl. destruct Hc' as [->|[->|[->| ->]]]; tauto.
    - eexists _, _. split; [reflexivity|]. intros c [->|[->|[->| ->]]]; discriminate.
  Qed.
  Lemma atoms_head l u : atoms l u -> exists g u', u = g :: u' /\ (forall c, c = 43%N \/ c = 42%N \/ c = 41%N \/ c = 124%N -> g <> [c]).
  Proof.
    intros H. destruct H as [t u k Hp|t u k l v Hp Hl]; destruct (prim_head _ _ Hp) as (g & u' & -> & Hg).
    - exists g, (u' ++ ktoks k). auto.
    - exists g, ((u' ++ ktoks k) ++ v). auto.
  Qed.

  Definition P_prim (t : regex_tree) (u : list str) : Prop := forall f kl k, good (u ++ ktoks kl ++ k) -> (kl = KNone -> no_kleene k) ->
    length (concat (u ++ ktoks kl ++ k)) <= f -> ok (p_atom f) (concat (u ++ ktoks kl ++ k)) (concat k) (kapply kl t).
  Definition P_atoms (l : list regex_tree) (u : list str) : Prop := forall f k, good (u ++ k) -> stop [41; 124]%N k ->
    length (concat (u ++ k)) <= f ->
    (forall acc fuel, length (concat (u ++ k)) < fuel -> many_loop fuel (p_atom f) acc (concat (u ++ k)) = Ret (Some (concat k, acc ++ l))) /\
    ok (many1 (p_atom f)) (concat (u ++ k)) (concat k) l.
  Definition P_alts (l : list regex_tree) (u : list str) : Prop := forall f k, good (u ++ k) -> stop [41]%N k ->
    length (concat (u ++ k)) <= f ->
    (forall acc fuel, length (concat ([124%N] :: u ++ k)) < fuel -> good ([124%N] :: u ++ k) ->
       sep_loop fuel (tag [124%N]) (p_sequence seg (expression seg f)) acc (concat ([124%N] :: u ++ k)) = Ret (Some (concat k, acc ++ l))) /\
    ok (separated_list1 (tag [124%N]) (p_sequence seg (expression seg f))) (concat (u ++ k)) (concat k) l.

  Lemma alts_expression l u f k : P_alts l u -> l <> [] -> good (u ++ k) -> stop [41]%N k -> length (concat (u ++ k)) < f ->
    ok (expression seg f) (concat (u ++ k)) (concat k) (wrap RAlt l).
  Proof.
    intros H Hl Hg Hs Hf. destruct f as [|f]; [lia|]. cbn [expression]. unfold p_alternation, pmapR.
    destruct (H f k Hg Hs) as (_ & Hok); [lia|]. eapply pbind_ok; [exact Hok|]. unfold ok. rewrite wrap_multiple_wrap by auto. reflexivity.
  Qed.
  Lemma atoms_sequence l u f k : P_atoms l u -> l <> [] -> good (u ++ k) -> stop [41; 124]%N k -> length (concat (u ++ k)) <= f ->
    ok (p_sequence seg (expression seg f)) (concat (u ++ k)) (concat k) (wrap RSequence l).
  Proof.
    intros H Hl Hg Hs Hf. unfold p_sequence, pmapR. destruct (H f k Hg Hs Hf) as (_ & Hok).
    eapply pbind_ok; [exact Hok|]. unfold ok. rewrite wrap_multiple_wrap by auto. reflexivity.
  Qed.

  Lemma many_loop_stop f acc fuel k : good k -> stop [41; 124]%N k -> 0 < fuel ->
    many_loop fuel (p_atom f) acc (concat k) = Ret (Some (concat k, acc)).
  Proof.
    intros Hg Hs Hf. destruct fuel as [|fuel]; [lia|]. cbn [many_loop]. pose proof (atom_bad f k Hg Hs) as H.
    unfold bad in H. rewrite H. reflexivity.
  Qed.

  Lemma shorter_app u k : good (u ++ k) -> u <> [] -> length (concat k) < length (concat (u ++ k)).
  Proof.
    intros Hg Hu. destruct u as [|g u]; [congruence|]. rewrite concat_app, app_length.
    pose proof (good_nonempty _ Hg g (or_introl eq_refl)) as Hne. simpl. rewrite app_length. destruct g; [congruence|]. simpl. lia.
  Qed.
  Lemma many_step f i i1 a acc fuel : ok (p_atom f) i i1 a -> length i1 < length i ->
    many_loop (S fuel) (p_atom f) acc i = many_loop fuel (p_atom f) (acc ++ [a]) i1.
  Proof.
    intros H Hl. cbn [many_loop]. unfold ok in H. rewrite H. cbn [bind]. destruct (Nat.eqb_spec (length i1) (length i)); [lia|reflexivity].
  Qed.

  Lemma toks_complete : (forall t u, prim t u -> P_prim t u) /\ (forall l u, atoms l u -> P_atoms l u) /\ (forall l u, alts l u -> P_alts l u).
  Proof.
    apply toks_mind.
    - (* characters *)
      intros c u Hc f kl k Hg Hk Hf. apply palt_ok_r.
      + unfold par_expr, pmapR. apply pbind_bad. apply pbind_bad. unfold delimited. apply preceded_bad.
        destruct (good_tag 40%N _ ltac:(synch) ltac:(discriminate) Hg) as [(gs' & E & _)|(H & _)]; auto.
        inversion Hc as [| |g Hne|g Hn]; subst; try discriminate. injection E as -> _. destruct Hn. exists 40%N, []. split; auto. synch.
      + unfold combinated_char. apply (kleene_ok _ _ (RChar c) u k kl); auto. apply pmap_ok. apply char_ok; auto.
    - (* groups *)
      intros l u Ha IH f kl k Hg Hk Hf. apply palt_ok_l. unfold par_expr.
      cbn [app] in *. rewrite <- app_assoc in *. cbn [app] in *.
      apply (kleene_ok _ _ (wrap RAlt l) ([40%N] :: u ++ [[41%N]]) k kl); auto.
      2:{ cbn [app]. rewrite <- app_assoc. exact Hg. }
      pose proof (good_tail _ _ Hg) as Hg1. pose proof (good_app _ _ Hg1) as Hg2.
      eapply delimited_ok.
      + destruct (good_tag 40%N _ ltac:(synch) ltac:(discriminate) Hg) as [(gs' & E & H)|(_ & H)]; [|destruct (H _ eq_refl)]. injection E as <-. exact H.
      + apply alts_expression.
        * exact IH.
        * eapply alts_nonempty; eauto.
        * exact Hg1.
        * intros g k' E. injection E as <- <-. exists 41%N. split; auto. simpl; auto.
        * simpl in Hf. simpl. lia.
      + destruct (good_tag 41%N _ ltac:(synch) ltac:(discriminate) Hg2) as [(gs' & E & H)|(_ & H)]; [|destruct (H _ eq_refl)]. injection E as <-. exact H.
    - (* one atom *)
      intros t u kl Hp IH f k Hg Hs Hf. rewrite <- app_assoc in *.
      pose proof (IH f kl k Hg (fun _ => stop_no_kleene k Hs) Hf) as Hok.
      pose proof (good_app _ _ (good_app _ _ Hg)) as Hgk.
      assert (Hlt : length (concat k) < length (concat (u ++ ktoks kl ++ k))).
      { rewrite app_assoc. apply shorter_app; [rewrite <- app_assoc; auto|]. destruct (prim_head _ _ Hp) as (g & u' & -> & _). discriminate. }
      split.
      + intros acc fuel Hfu. destruct fuel as [|fuel]; [lia|]. rewrite (many_step f _ _ _ _ _ Hok Hlt).
        apply many_loop_stop; auto. lia.
      + eapply pbind_ok; [exact Hok|]. unfold ok. apply many_loop_stop; auto. lia.
    - (* more atoms *)
      intros t u kl l v Hp IH Ha IHa f k Hg Hs Hf. rewrite <- !app_assoc in *.
      pose proof (good_app _ _ (good_app _ _ Hg)) as Hgv.
      assert (Hk : no_kleene (v ++ k)).
      { destruct (atoms_head _ _ Ha) as (g & v' & -> & Hh). intros c k' Hc E. injection E as E _. apply (Hh c); tauto. }
      pose proof (IH f kl (v ++ k) Hg (fun _ => Hk) Hf) as Hok.
      assert (Hlt : length (concat (v ++ k)) < length (concat (u ++ ktoks kl ++ v ++ k))).
      { rewrite app_assoc. apply shorter_app; [rewrite <- app_assoc; auto|]. destruct (prim_head _ _ Hp) as (g & u' & -> & _). discriminate. }
      destruct (IHa f k Hgv Hs) as (Hloop & _); [lia|]. split.
      + intros acc fuel Hfu. destruct fuel as [|fuel]; [lia|]. rewrite (many_step f _ _ _ _ _ Hok Hlt).
        rewrite Hloop by lia. rewrite <- app_assoc. reflexivity.
      + eapply pbind_ok; [exact Hok|]. unfold ok. rewrite Hloop by lia. reflexivity.
    - (* one alternative *)
      intros l u Ha IHa f k Hg Hs Hf.
      assert (Hs' : stop [41; 124]%N k). { intros g k' E. destruct (Hs g k' E) as (c & -> & Hc). exists c. split; auto. simpl in *; tauto. }
      pose proof (atoms_sequence l u f k IHa (atoms_nonempty _ _ Ha) Hg Hs' Hf) as Hok.
      pose proof (good_app _ _ Hg) as Hgk.
      assert (Hend : forall acc fuel, 0 < fuel -> sep_loop fuel (tag [124%N]) (p_sequence seg (expression seg f)) acc (concat k) = Ret (Some (concat k, acc))).
      { intros acc fuel Hfu. destruct fuel as [|fuel]; [lia|]. cbn [sep_loop].
        destruct (good_tag 124%N k ltac:(synch) ltac:(discriminate) Hgk) as [(gs' & -> & _)|(H & _)].
        - destruct (Hs _ _ eq_refl) as (c & E & Hc). injection E as <-. simpl in Hc. intuition discriminate.
        - unfold bad in H. rewrite H. reflexivity. }
      split.
      + intros acc fuel Hfu Hg'. destruct fuel as [|fuel]; [lia|]. cbn [sep_loop].
        destruct (good_tag 124%N _ ltac:(synch) ltac:(discriminate) Hg') as [(gs' & E & H)|(_ & H)]; [|destruct (H _ eq_refl)]. injection E as <-.
        unfold ok in H. rewrite H. cbn [bind]. destruct (Nat.eqb_spec (length (concat (u ++ k))) (length (concat ([124%N] :: u ++ k)))) as [C|_]; [simpl in C; lia|].
        unfold ok in Hok. rewrite Hok. cbn [bind]. apply Hend. simpl in Hfu. lia.
      + eapply pbind_ok; [exact Hok|]. unfold ok. rewrite Hend by lia. reflexivity.
    - (* more alternatives *)
      intros l u ls v Ha IHa Hl IHl f k Hg Hs Hf. rewrite <- app_assoc in *. cbn [app] in *.
      assert (Hs' : stop [41; 124]%N ([124%N] :: v ++ k)). { intros g k' E. injection E as <- <-. exists 124%N. split; auto. simpl; tauto. }
      pose proof (atoms_sequence l u f _ IHa (atoms_nonempty _ _ Ha) Hg Hs' Hf) as Hok.
      pose proof (good_app _ _ Hg) as Hgk. pose proof (good_tail _ _ Hgk) as Hgv.
      assert (Hlt : length (concat ([124%N] :: v ++ k)) < length (concat (u ++ [124%N] :: v ++ k))).
      { apply shorter_app; auto. destruct (atoms_head _ _ Ha) as (g & u' & -> & _). discriminate. }
      assert (Hle : length (concat (v ++ k)) <= f).
      { eapply Nat.le_trans; [|exact Hf]. apply Nat.lt_le_incl. eapply Nat.lt_trans; [|exact Hlt]. apply Nat.lt_succ_diag_r. }
      destruct (IHl f k Hgv Hs Hle) as (Hloop & _). split.
      + intros acc fuel Hfu Hg'. destruct fuel as [|fuel]; [lia|]. cbn [sep_loop].
        destruct (good_tag 124%N _ ltac:(synch) ltac:(discriminate) Hg') as [(gs' & E & H)|(_ & H)]; [|destruct (H _ eq_refl)]. injection E as <-.
        unfold ok in H. rewrite H. cbn [bind].
        match goal with |- context [?a =? ?b] => destruct (Nat.eqb_spec a b) as [C|_]; [exfalso; revert C; apply Nat.neq_succ_diag_r|] end.
        unfold ok in Hok. rewrite Hok. cbn [bind]. rewrite Hloop; auto.
        * rewrite <- app_assoc. reflexivity.
        * change (concat ([124%N] :: u ++ [124%N] :: v ++ k)) with (124%N :: concat (u ++ [124%N] :: v ++ k)) in Hfu. cbn [length] in Hfu. lia.
      + eapply pbind_ok; [exact Hok|]. unfold ok. rewrite Hloop; auto.
  Qed.

  Lemma expression_complete l u f : alts l u -> good u -> length (concat u) < f -> ok (expression seg f) (concat u) [] (wrap RAlt l).
  Proof.
    intros Ha Hg Hf. pose proof (alts_expression l u f [] (proj2 (proj2 toks_complete) l u Ha) (alts_nonempty _ _ Ha)) as H.
    rewrite app_nil_r in H. apply H; auto. intros g k' E. discriminate.
  Qed.

  (** ** Soundness *)
  Definition expr_sound (f : nat) : Prop := forall gs i t, good gs -> ok (expression seg f) (concat gs) i t ->
    exists l u k, gs = u ++ k /\ i = concat k /\ alts l u /\ t = wrap RAlt l.

  Lemma atom_sound f gs i t : expr_sound f -> good gs -> ok (p_atom f) (concat gs) i t ->
    exists t0 u kl k, gs = u ++ ktoks kl ++ k /\ i = concat k /\ prim t0 u /\ t = kapply kl t0.
  Proof.
    intros He Hg H. apply palt_inv in H as [H|(_ & H)].
    - unfold par_expr in H.
      apply (kleene_inv _ _ _ _ (fun t1 k1 => exists l u, gs = ([40%N] :: u ++ [[41%N]]) ++ k1 /\ alts l u /\ t1 = wrap RAlt l)) in H
        as (t1 & kl & k & (l & u & E & Ha & ->) & -> & Hgk & ->).
      + exists (wrap RAlt l), ([40%N] :: u ++ [[41%N]]), kl, k. repeat split; auto. constructor; auto.
      + intros i1 t1 H1. apply delimited_inv in H1 as (i2 & [] & i3 & [] & H1 & H2 & H3).
        destruct (good_tag 40%N gs ltac:(synch) ltac:(discriminate) Hg) as [(gs' & -> & H4)|(H4 & _)]; unfold ok, bad in H1, H4; [|congruence].
        rewrite H1 in H4. injection H4 as ->. pose proof (good_tail _ _ Hg) as Hg'.
        destruct (He gs' i3 t1 Hg' H2) as (l & u & k & -> & -> & Ha & ->). pose proof (good_app _ _ Hg') as Hgk.
        destruct (good_tag 41%N k ltac:(synch) ltac:(discriminate) Hgk) as [(k' & -> & H4)|(H4 & _)]; unfold ok, bad in H3, H4; [|congruence].
        rewrite H3 in H4. injection H4 as ->. exists k'. split; [|split; [auto|exact (good_tail _ _ Hgk)]].
        exists l, u. repeat split; auto. cbn [app]. rewrite <- app_assoc. reflexivity.
    - unfold combinated_char in H.
      apply (kleene_inv _ _ _ _ (fun t1 k1 => exists c u, gs = u ++ k1 /\ char_toks c u /\ t1 = RChar c)) in H
        as (t1 & kl & k & (c & u & E & Ha & ->) & -> & Hgk & ->).
      + exists (RChar c), u, kl, k. repeat split; auto. constructor; auto.
      + intros i1 t1 H1. apply pmap_inv in H1 as (c & H1 & ->). destruct (char_inv gs i1 c Hg H1) as (u & k & -> & -> & Hc).
        exists k. split; [|split; [auto|exact (good_app _ _ Hg)]]. exists c, u. auto.
  Qed.

  Lemma many_sound f (He : expr_sound f) : forall fuel gs acc i l, good gs ->
    many_loop fuel (p_atom f) acc (concat gs) = Ret (Some (i, l)) ->
    exists l' u k, l = acc ++ l' /\ gs = u ++ k /\ i = concat k /\ (l' = [] /\ u = [] \/ atoms l' u).
  Proof.
    induction fuel as [|fuel IH]; intros gs acc i l Hg H; [discriminate|]. cbn [many_loop] in H.
    apply bind_Ret_inv in H as ([[i1 t]|] & E & H).
    - destruct (length i1 =? length (concat gs)); [discriminate|].
      destruct (atom_sound f gs i1 t He Hg E) as (t0 & u & kl & k & -> & -> & Hp & ->).
      pose proof (good_app _ _ (good_app _ _ Hg)) as Hgk.
      destruct (IH k _ _ _ Hgk H) as (l' & u' & k' & -> & -> & -> & Hl).
      exists (kapply kl t0 :: l'), ((u ++ ktoks kl) ++ u'), k'. rewrite <- !app_assoc. repeat split; auto. right.
      destruct Hl as [(-> & ->)|Hl].
      + rewrite app_nil_r. constructor; auto.
      + rewrite app_assoc. constructor; auto.
    - injection H as <- <-. exists [], [], gs. rewrite app_nil_r. repeat split; auto.
  Qed.
  Lemma sequence_sound f gs i t : expr_sound f -> good gs -> ok (p_sequence seg (expression seg f)) (concat gs) i t ->
    exists l u k, gs = u ++ k /\ i = concat k /\ atoms l u /\ t = wrap RSequence l.
  Proof.
    intros He Hg H. unfold p_sequence, pmapR in H. apply pbind_inv in H as (i1 & l & H & Hw).
    unfold many1 in H. apply pbind_inv in H as (i2 & a & H1 & H2).
    destruct (atom_sound f gs i2 a He Hg H1) as (t0 & u & kl & k & -> & -> & Hp & ->).
    pose proof (good_app _ _ (good_app _ _ Hg)) as Hgk.
    destruct (many_sound f He _ k _ _ _ Hgk H2) as (l' & u' & k' & -> & -> & -> & Hl).
    unfold ok in Hw. rewrite wrap_multiple_wrap in Hw by discriminate. cbn [bind] in Hw. injection Hw as <- <-.
    exists ([kapply kl t0] ++ l'), ((u ++ ktoks kl) ++ u'), k'. rewrite <- !app_assoc. repeat split; auto.
    destruct Hl as [(-> & ->)|Hl]; cbn [app].
    - rewrite app_nil_r. constructor; auto.
    - rewrite app_assoc. constructor; auto.
  Qed.
  Lemma sep_sound f (He : expr_sound f) : forall fuel gs acc i l, good gs ->
    sep_loop fuel (tag [124%N]) (p_sequence seg (expression seg f)) acc (concat gs) = Ret (Some (i, l)) ->
    exists l' u k, l = acc ++ l' /\ gs = u ++ k /\ i = concat k /\ (l' = [] /\ u = [] \/ exists u', u = [124%N] :: u' /\ alts l' u').
  Proof.
    induction fuel as [|fuel IH]; intros gs acc i l Hg H; [discriminate|]. cbn [sep_loop] in H.
    apply bind_Ret_inv in H as ([[i1 []]|] & E & H).
    - destruct (length i1 =? length (concat gs)); [discriminate|].
      destruct (good_tag 124%N gs ltac:(synch) ltac:(discriminate) Hg) as [(gs' & -> & H4)|(H4 & _)]; unfold ok, bad in H4; [|congruence].
      rewrite E in H4. injection H4 as ->. pose proof (good_tail _ _ Hg) as Hg'.
      apply bind_Ret_inv in H as ([[i2 t]|] & E2 & H).
      + destruct (sequence_sound f gs' i2 t He Hg' E2) as (la & u & k & -> & -> & Ha & ->).
        pose proof (good_app _ _ Hg') as Hgk. destruct (IH k _ _ _ Hgk H) as (l' & u' & k' & -> & -> & -> & Hl).
        exists (wrap RSequence la :: l'), ([124%N] :: u ++ u'), k'. rewrite <- !app_assoc. cbn [app]. rewrite <- app_assoc.
        repeat split; auto. right. exists (u ++ u'). split; auto. destruct Hl as [(-> & ->)|(v & -> & Hl)].
        * rewrite app_nil_r. constructor; auto.
        * constructor; auto.
      + injection H as <- <-. exists [], [], ([124%N] :: gs'). rewrite app_nil_r. repeat split; auto.
    - injection H as <- <-. exists [], [], gs. rewrite app_nil_r. repeat split; auto.
  Qed.
  Lemma expression_sound : forall f, expr_sound f.
  Proof.
    induction f as [|f IH]; intros gs i t Hg H; [discriminate|]. cbn [expression] in H. unfold p_alternation, pmapR in H.
    apply pbind_inv in H as (i1 & l & H & Hw). unfold separated_list1 in H. apply pbind_inv in H as (i2 & a & H1 & H2).
    destruct (sequence_sound f gs i2 a IH Hg H1) as (la & u & k & -> & -> & Ha & ->).
    pose proof (good_app _ _ Hg) as Hgk. destruct (sep_sound f IH _ k _ _ _ Hgk H2) as (l' & u' & k' & -> & -> & -> & Hl).
    unfold ok in Hw. rewrite wrap_multiple_wrap in Hw by discriminate. cbn [bind] in Hw. injection Hw as <- <-.
    exists ([wrap RSequence la] ++ l'), (u ++ u'), k'. rewrite <- !app_assoc. repeat split; auto.
    destruct Hl as [(-> & ->)|(v & -> & Hl)]; cbn [app].
    - rewrite app_nil_r. constructor; auto.
    - constructor; auto.
  Qed.
End Seg.

(** ** Trees and documented expressions *)
Definition same_lang (t : regex_tree) (e : doc_regex) : Prop := forall w, matches t w <-> doc_lang e w.

Lemma matches_wrap_seq l w : l <> [] -> (matches (wrap RSequence l) w <-> matches (RSequence l) w).
Proof.
  intros Hl. destruct l as [|x [|y l]]; [congruence| |reflexivity]. simpl. split.
  - intros H. constructor. rewrite <- (app_nil_r w). constructor; auto. constructor.
  - intros H. inversion H as [| |? ? H'| | |]; subst. inversion H' as [|? ? w1 w2 H1 H2]; subst. inversion H2; subst. rewrite app_nil_r. auto.
Qed.
Lemma matches_alt l w : matches (RAlt l) w <-> exists r, In r l /\ matches r w.
Proof.
  split.
  - intros H. inversion H; subst. eauto.
  - intros (r & Hr & H). econstructor; eauto.
Qed.
Lemma matches_wrap_alt l w : l <> [] -> (matches (wrap RAlt l) w <-> matches (RAlt l) w).
Proof.
  intros Hl. destruct l as [|x [|y l]]; [congruence| |reflexivity]. simpl. rewrite matches_alt. split.
  - intros H. exists x. split; auto. left; auto.
  - intros (r & [<- |[]] & H). auto.
Qed.
Lemma matches_seq_app l1 l2 w : matches_seq (l1 ++ l2) w <-> exists w1 w2, w = w1 ++ w2 /\ matches_seq l1 w1 /\ matches_seq l2 w2.
Proof.
  revert w. induction l1 as [|x l1 IH]; intros w; simpl.
  - split.
    + intros H. exists [], w. repeat split; auto. constructor.
    + intros (w1 & w2 & -> & H1 & H2). inversion H1; subst. auto.
  - split.
    + intros H. inversion H as [|? ? w1 w2 H1 H2]; subst. apply IH in H2 as (w3 & w4 & -> & H3 & H4).
      exists (w1 ++ w3), w4. rewrite app_assoc. repeat split; auto. constructor; auto.
    + intros (w1 & w2 & -> & H1 & H2). inversion H1 as [|? ? w3 w4 H3 H4]; subst. rewrite <- app_assoc. constructor; auto. apply IH. eauto.
Qed.
Lemma matches_seq_iff l w : matches (RSequence l) w <-> matches_seq l w.
Proof. split; intros H; [inversion H; auto|constructor; auto]. Qed.
Lemma matches_seq_one t w : matches_seq [t] w <-> matches t w.
Proof. rewrite <- matches_seq_iff. symmetry. apply (matches_wrap_seq [t] w). discriminate. Qed.

Lemma repeat_iff t w : matches (RRepeat t) w <-> exists ws, Forall (matches t) ws /\ w = concat ws.
Proof.
  split; [apply matches_repeat|]. intros (ws & HF & ->). induction HF as [|x ws Hx HF IH]; simpl; constructor; auto.
Qed.
Lemma dstar_iff e w : doc_lang (DStar e) w <-> exists ws, Forall (doc_lang e) ws /\ w = concat ws.
Proof.
  split.
  - intros H. remember (DStar e) as d eqn:Ed. induction H; try discriminate.
    + exists []. auto.
    + injection Ed as ->. destruct (IHdoc_lang2 eq_refl) as (ws & HF & ->). exists (w1 :: ws). auto.
  - intros (ws & HF & ->). induction HF as [|x ws Hx HF IH]; simpl; constructor; auto.
Qed.
Lemma star_same t e : same_lang t e -> same_lang (RRepeat t) (DStar e).
Proof.
  intros H w. rewrite repeat_iff, dstar_iff. split; intros (ws & HF & ->); exists ws; split; auto; revert HF; apply Forall_impl; apply H.
Qed.
Lemma plus_same t e : same_lang t e -> same_lang (RSequence [t; RRepeat t]) (DPlus e).
Proof.
  intros H w. rewrite matches_seq_iff. split.
  - intros Hm. inversion Hm as [|? ? w1 w2 H1 H2]; subst. apply matches_seq_one in H2. constructor; [apply H; auto|].
    apply star_same in H. apply H. auto.
  - intros Hm. inversion Hm; subst. constructor; [apply H; auto|]. apply matches_seq_one. apply star_same in H. apply H. auto.
Qed.

Lemma alts_app l1 u : alts l1 u -> forall l2 v, alts l2 v -> alts (l1 ++ l2) (u ++ [124%N] :: v).
Proof.
  induction 1 as [l u Ha|l u ls v Ha Hl IH]; intros l2 v' H2; simpl.
  - constructor; auto.
  - rewrite <- app_assoc. simpl. constructor; auto.
Qed.
Lemma atoms_app l1 u : atoms l1 u -> forall l2 v, atoms l2 v -> atoms (l1 ++ l2) (u ++ v).
Proof.
  induction 1 as [t u k Hp|t u k l v Hp Hl IH]; intros l2 v' H2; simpl.
  - constructor; auto.
  - rewrite <- (app_assoc (u ++ ktoks k)). constructor; auto.
Qed.

Lemma shows_toks n e gs : shows n e gs ->
  match n with
  | 0 => exists l, alts l gs /\ forall w, matches (RAlt l) w <-> doc_lang e w
  | 1 => exists l, atoms l gs /\ forall w, matches_seq l w <-> doc_lang e w
  | 2 => exists t u k, prim t u /\ gs = u ++ ktoks k /\ same_lang (kapply k t) e
  | 3 => exists t, prim t gs /\ same_lang t e
  | _ => False
  end.
Proof.
  induction 1 as [g Hg|g Hg| | |e u H IH|e u H IH|e u H IH|a b u v H1 IH1 H2 IH2|a b u v H1 IH1 H2 IH2|n e u H IH].
  - exists (RChar (RGrapheme g)). split; [constructor; constructor; auto|]. intros w. split; intros Hm; inversion Hm; subst; constructor.
  - exists (RChar (RGrapheme g)). split; [constructor; constructor; auto|]. intros w. split; intros Hm; inversion Hm; subst; constructor.
  - exists (RChar REpsilon). split; [constructor; constructor; auto|]. intros w. split; intros Hm; inversion Hm; subst; constructor.
  - exists (RChar REmpty). split; [constructor; constructor; auto|]. intros w. split; intros Hm; inversion Hm; subst; constructor.
  - destruct IH as (l & Hl & He). exists (wrap RAlt l). split; [constructor; auto|]. intros w. rewrite <- He.
    apply matches_wrap_alt. eapply alts_nonempty; eauto.
  - destruct IH as (t & Ht & He). exists t, u, KStar. repeat split; auto; apply star_same; auto.
  - destruct IH as (t & Ht & He). exists t, u, KPlus. repeat split; auto; apply plus_same; auto.
  - destruct IH1 as (l1 & Ha1 & E1), IH2 as (l2 & Ha2 & E2). exists (l1 ++ l2). split; [apply atoms_app; auto|].
    intros w. rewrite matches_seq_app. split.
    + intros (w1 & w2 & -> & M1 & M2). constructor; [apply E1|apply E2]; auto.
    + intros M. inversion M as [| |? ? w1 w2 M1 M2| | | | |]; subst. exists w1, w2. split; auto. split; [apply E1|apply E2]; auto.
  - destruct IH1 as (l1 & Ha1 & E1), IH2 as (l2 & Ha2 & E2). exists (l1 ++ l2). split; [apply alts_app; auto|].
    intros w. rewrite matches_alt. split.
    + intros (r & Hr & M). apply in_app_iff in Hr as [Hr|Hr].
      * apply dl_alt_l. apply E1. apply matches_alt. eauto.
      * apply dl_alt_r. apply E2. apply matches_alt. eauto.
    + intros M. inversion M as [| | |? ? ? M'|? ? ? M'| | |]; subst.
      * apply E1, matches_alt in M' as (r & Hr & M'). exists r. split; auto. apply in_app_iff. auto.
      * apply E2, matches_alt in M' as (r & Hr & M'). exists r. split; auto. apply in_app_iff. auto.
  - destruct n as [|[|[|n]]].
    + destruct IH as (l & Ha & E). exists [wrap RSequence l]. split; [constructor; auto|]. intros w. rewrite <- E, matches_alt.
      rewrite <- matches_seq_iff, <- (matches_wrap_seq l) by (eapply atoms_nonempty; eauto). split.
      * intros (r & [<- |[]] & M). auto.
      * intros M. eexists. split; [left; reflexivity|auto].
    + destruct IH as (t & u' & k & Hp & -> & E). exists [kapply k t]. split; [constructor; auto|]. intros w. rewrite matches_seq_one. apply E.
    + destruct IH as (t & Hp & E). exists t, u, KNone. simpl. rewrite app_nil_r. auto.
    + destruct IH.
Qed.

Lemma toks_shows :
  (forall t u, prim t u -> exists e, shows 3 e u /\ same_lang t e) /\
  (forall l u, atoms l u -> exists e, shows 1 e u /\ forall w, matches_seq l w <-> doc_lang e w) /\
  (forall l u, alts l u -> exists e, shows 0 e u /\ forall w, matches (RAlt l) w <-> doc_lang e w).
Proof.
  assert (Hk : forall t u k e, shows 3 e u -> same_lang t e -> exists e', shows 1 e' (u ++ ktoks k) /\ same_lang (kapply k t) e').
  { intros t u k e Hs He. destruct k; simpl.
    - exists e. rewrite app_nil_r. split; [apply sh_up, sh_up; auto|auto].
    - exists (DStar e). split; [apply sh_up, sh_star; auto|apply star_same; auto].
    - exists (DPlus e). split; [apply sh_up, sh_plus; auto|apply plus_same; auto]. }
  apply toks_mind.
  - intros c u Hc. inversion Hc; subst.
    + exists DEmpty. split; [constructor|]. intros w. split; intros Hm; inversion Hm; subst; constructor.
    + exists DEps. split; [constructor|]. intros w. split; intros Hm; inversion Hm; subst; constructor.
    + exists (DSym g). split; [constructor; auto|]. intros w. split; intros Hm; inversion Hm; subst; constructor.
    + exists (DSym g). split; [constructor; auto|]. intros w. split; intros Hm; inversion Hm; subst; constructor.
  - intros l u Ha (e & Hs & He). exists e. split; [constructor; auto|]. intros w. rewrite <- He.
    apply matches_wrap_alt. eapply alts_nonempty; eauto.
  - intros t u k Hp (e & Hs & He). destruct (Hk t u k e Hs He) as (e' & Hs' & He'). exists e'. split; auto.
    intros w. rewrite matches_seq_one. apply He'.
  - intros t u k l v Hp (e & Hs & He) Ha (e2 & Hs2 & He2). destruct (Hk t u k e Hs He) as (e' & Hs' & He').
    exists (DSeq e' e2). split; [apply sh_seq; auto|]. intros w. split.
    + intros M. inversion M as [|? ? w1 w2 M1 M2]; subst. constructor; [apply He'|apply He2]; auto.
    + intros M. inversion M; subst. constructor; [apply He'|apply He2]; auto.
  - intros l u Ha (e & Hs & He). exists e. split; [apply sh_up; auto|]. intros w. rewrite <- He, matches_alt, <- matches_seq_iff.
    rewrite <- (matches_wrap_seq l) by (eapply atoms_nonempty; eauto). split.
    + intros (r & [<- |[]] & M). auto.
    + intros M. eexists. split; [left; reflexivity|auto].
  - intros l u ls v Ha (e & Hs & He) Hl (e2 & Hs2 & He2). exists (DAlt e e2). split; [apply sh_alt; auto; apply sh_up; auto|].
    intros w. rewrite matches_alt. split.
    + intros (r & [<- |Hr] & M).
      * apply dl_alt_l. apply He. apply matches_seq_iff. apply matches_wrap_seq; auto. eapply atoms_nonempty; eauto.
      * apply dl_alt_r. apply He2. apply matches_alt. eauto.
    + intros M. inversion M as [| | |? ? ? M'|? ? ? M'| | |]; subst.
      * exists (wrap RSequence l). split; [left; auto|]. apply matches_wrap_seq; [eapply atoms_nonempty; eauto|].
        apply matches_seq_iff. apply He. auto.
      * apply He2, matches_alt in M' as (r & Hr & M'). exists r. split; auto. right; auto.
Qed.

(** ** Trimming *)
Lemma span_all f u : (forall c, In c u -> f c = true) -> span f u = (u, []).
Proof. intros H. pose proof (span_app f u [] H I) as E. rewrite app_nil_r in E. auto. Qed.
Lemma trim_start_app w v : (forall c, In c w -> whitespace c) -> (forall c v', v = c :: v' -> ~ whitespace c) -> trim_start (w ++ v) = v.
Proof.
  intros Hw Hv. unfold trim_start. rewrite span_app; auto.
  - intros c Hc. apply is_whitespace_spec. auto.
  - destruct v as [|c v]; auto. apply not_true_iff_false. rewrite is_whitespace_spec. apply (Hv c v). reflexivity.
Qed.
Lemma trim_start_inv u : exists w, u = w ++ trim_start u /\ (forall c, In c w -> whitespace c) /\
  forall c v', trim_start u = c :: v' -> ~ whitespace c.
Proof.
  unfold trim_start. pose proof (span_spec is_whitespace u) as H. destruct (span is_whitespace u) as [w v]. destruct H as (E & H1 & H2).
  simpl. exists w. split; auto. split.
  - intros c Hc. apply is_whitespace_spec. auto.
  - intros c v' ->. rewrite <- is_whitespace_spec, H2. discriminate.
Qed.
Lemma trim_spec u v : trims_to u v <-> trim u = v.
Proof.
  split.
  - intros (w1 & w2 & -> & Hw & H1 & H2). unfold trim. destruct v as [|c v].
    + assert (E : trim_start (w1 ++ [] ++ w2) = []).
      { rewrite <- (app_nil_r (w1 ++ [] ++ w2)). apply trim_start_app; [|discriminate]. simpl. intros c Hc. apply in_app_iff in Hc as [Hc|Hc]; auto. }
      rewrite E. reflexivity.
    + rewrite trim_start_app.
      * rewrite rev_app_distr. rewrite trim_start_app.
        -- apply rev_involutive.
        -- intros x Hx. apply Hw. right. apply in_rev. auto.
        -- intros x v' E. apply (H2 x (rev v')). apply (f_equal (@rev N)) in E. rewrite rev_involutive in E. simpl in E. auto.
      * auto.
      * intros x v' E. apply (H1 x v). simpl in E. congruence.
  - intros <-. unfold trim. destruct (trim_start_inv u) as (w1 & E1 & Hw1 & Hn1).
    destruct (trim_start_inv (rev (trim_start u))) as (w2 & E2 & Hw2 & Hn2).
    set (v := trim_start (rev (trim_start u))) in *.
    assert (E3 : trim_start u = rev v ++ rev w2).
    { rewrite <- rev_app_distr, <- E2. symmetry. apply rev_involutive. }
    exists w1, (rev w2). split; [rewrite E1 at 1; rewrite E3; auto|]. split; [|split].
    + intros c [Hc|Hc]; auto. apply Hw2. apply in_rev. auto.
    + intros c v' E. apply (Hn1 c (v' ++ rev w2)). rewrite E3, E. reflexivity.
    + intros c v' E. apply (Hn2 c (rev v')). apply (f_equal (@rev N)) in E. rewrite rev_involutive, rev_app_distr in E. auto.
Qed.

(** ** The parser *)
Lemma parse_regex_complete seg e gs u : shows 0 e gs -> divides seg -> tokens seg gs -> trims_to u (concat gs) ->
  exists t, parse_regex seg u = Ret (Some t) /\ same_lang t e.
Proof.
  intros Hs Hseg Hr Ht. apply trim_spec in Ht. destruct (shows_toks 0 e gs Hs) as (l & Ha & He).
  exists (wrap RAlt l). split.
  - unfold parse_regex, parse_with, all_consuming. cbv zeta. rewrite Ht.
    pose proof (expression_complete seg Hseg l gs (S (length (concat gs))) Ha Hr) as H. unfold ok in H. rewrite H by lia. reflexivity.
  - intros w. rewrite <- He. apply matches_wrap_alt. eapply alts_nonempty; eauto.
Qed.
Lemma parse_regex_sound seg t gs u : divides seg -> tokens seg gs -> trims_to u (concat gs) -> parse_regex seg u = Ret (Some t) ->
  exists e, shows 0 e gs /\ same_lang t e.
Proof.
  intros Hseg Hr Ht H. apply trim_spec in Ht. unfold parse_regex, parse_with, all_consuming in H. cbv zeta in H. rewrite Ht in H.
  apply bind_Ret_inv in H as (r & H & E). apply bind_Ret_inv in H as ([[[|c i] t']|] & H & E'); injection E' as <-; try discriminate.
  injection E as ->. destruct (expression_sound seg Hseg _ gs [] t Hr H) as (l & v & k & -> & Hk & Ha & ->).
  assert (k = []).
  { destruct k as [|g k]; auto. assert (Hg : g <> []) by (apply (good_nonempty seg Hseg _ Hr); apply in_app_iff; right; left; auto).
    simpl in Hk. symmetry in Hk. apply app_eq_nil in Hk as (Hk & _). congruence. }
  subst k. rewrite app_nil_r in *. destruct (proj2 (proj2 toks_shows) l v Ha) as (e & Hs & He). exists e. split; auto.
  intros w. rewrite <- He. apply matches_wrap_alt. eapply alts_nonempty; eauto.
Qed.
