(** * KleeneProofs: expressions for automata, putting expressions for symbols, and ways to type expressions *)
From Coq Require Import List NArith Arith Bool Lia.
From Verif Require Import Base Spec LayoutSpec RegexSpec LawSpec LawProofs RegexModel RegexParserModel RegexParserProofs RegexSymbols.
Import ListNotations.

(** ** From automata to expressions *)

(** [w] leads from [i] to [j], with all states in between below [k] *)
Inductive route (d : dfa) (k : nat) : nat -> word -> nat -> Prop :=
| route_nil i : route d k i [] i
| route_one i a j : dfa_edge d i a j -> route d k i [a] j
| route_cons i a m w j : dfa_edge d i a m -> m < k -> route d k m w j -> route d k i (a :: w) j.

Lemma route_app d k i u m v j : route d k i u m -> m < k -> route d k m v j -> route d k i (u ++ v) j.
Proof.
  induction 1; intros L H'; cbn [app]; auto.
  - eapply route_cons; eauto.
  - eapply route_cons; eauto.
Qed.

Lemma route_mono d k i w j : route d k i w j -> route d (S k) i w j.
Proof. induction 1; [ constructor | constructor; auto | apply (route_cons d (S k) i a m); auto ]. Qed.

Lemma route_split d k i w j : route d (S k) i w j ->
  forall e, (forall v, doc_lang e v <-> route d k k v k) ->
  route d k i w j \/ exists w1 ws w2, w = w1 ++ ws ++ w2 /\ route d k i w1 k /\ doc_lang (DStar e) ws /\ route d k k w2 j.
Proof.
  intros H e He. induction H as [ i | i a j H | i a m w j H L H' IH ].
  - left. constructor.
  - left. constructor. auto.
  - destruct (Nat.eq_dec m k) as [-> | N].
    + right. destruct IH as [IH | (w1 & ws & w2 & -> & H1 & H2 & H3)].
      * exists [a], [], w. repeat split; auto; [ constructor; auto | constructor ].
      * exists [a], (w1 ++ ws), w2. rewrite <- app_assoc. repeat split; auto; [ constructor; auto |]. constructor; auto. apply He. auto.
    + assert (L' : m < k) by lia. destruct IH as [IH | (w1 & ws & w2 & -> & H1 & H2 & H3)].
      * left. apply (route_cons d k i a m); auto.
      * right. exists (a :: w1), ws, w2. repeat split; auto. apply (route_cons d k i a m); auto.
Qed.

Lemma route_star d k e : (forall v, doc_lang e v <-> route d k k v k) -> forall ws, doc_lang (DStar e) ws -> route d (S k) k ws k.
Proof.
  intros He. apply (star_ind e (fun ws => route d (S k) k ws k)); [ constructor |].
  intros w1 w2 H1 H2 IH. apply (route_app d (S k) k w1 k); auto. apply route_mono, He. auto.
Qed.

Lemma edge_dec d i a j : {dfa_edge d i a j} + {~ dfa_edge d i a j}.
Proof.
  destruct (nth_error (dfa_states d) i) as [s |] eqn:Es.
  - assert (D : {k | nth_error (dfa_alphabet d) k = Some a /\ nth_error (ds_transitions s) k = Some j} +
                {forall k, nth_error (dfa_alphabet d) k = Some a -> nth_error (ds_transitions s) k = Some j -> False}).
    { generalize (dfa_alphabet d) as al, (ds_transitions s) as ts. induction al as [| b al IH]; intros ts.
      - right. intros [|] E; discriminate E.
      - destruct ts as [| t ts]; [ right; intros [| k] _ E; discriminate E |].
        destruct (IH ts) as [(k & E1 & E2) | N]; [ left; exists (S k); auto |].
        destruct (str_dec b a) as [-> | N1]; [| right; intros [| k] E1 E2; [ cbn in E1; congruence | eauto ] ].
        destruct (Nat.eq_dec t j) as [-> | N2]; [ left; exists 0; auto | right; intros [| k] E1 E2; [ cbn in E2; congruence | eauto ] ]. }
    destruct D as [(k & E1 & E2) | N]; [ left; exists k, s; auto | right ].
    intros (k & s' & E1 & E & E2). rewrite Es in E. injection E as <-. eauto.
  - right. intros (k & s & _ & E & _). congruence.
Qed.

Lemma edge_in d i a j : dfa_edge d i a j -> In a (dfa_alphabet d).
Proof. intros (k & s & E & _). eapply nth_error_In. eauto. Qed.

Lemma route_expression d k : forall i j, exists e, forall w, doc_lang e w <-> route d k i w j.
Proof.
  induction k as [| k IH]; intros i j.
  - exists (DAlt (if Nat.eq_dec i j then DEps else DEmpty)
                 (sum (map DSym (filter (fun a => if edge_dec d i a j then true else false) (dfa_alphabet d))))).
    intros w. rewrite lang_alt, lang_sum. split.
    + intros [H | (e & H & D)].
      * destruct (Nat.eq_dec i j) as [-> |]; [ apply lang_eps in H; subst; constructor | inversion H ].
      * apply in_map_iff in H as (a & <- & H). apply filter_In in H as [_ H]. apply lang_sym in D. subst.
        destruct (edge_dec d i a j); [ constructor; auto | discriminate ].
    + inversion 1; subst.
      * left. destruct (Nat.eq_dec j j); [ constructor | congruence ].
      * right. exists (DSym a). split; [| constructor ]. apply in_map, filter_In. split; [ eapply edge_in; eauto |].
        destruct (edge_dec d i a j); auto.
      * lia.
  - destruct (IH i j) as (e1 & H1), (IH i k) as (e2 & H2), (IH k k) as (e3 & H3), (IH k j) as (e4 & H4).
    exists (DAlt e1 (DSeq e2 (DSeq (DStar e3) e4))). intros w. rewrite lang_alt, H1, lang_seq. split.
    + intros [H | (w1 & w2 & -> & D1 & D2)]; [ apply route_mono; auto |].
      apply lang_seq in D2 as (ws & w3 & -> & D2 & D3). apply H2, route_mono in D1. apply H4, route_mono in D3.
      apply (route_app d (S k) i w1 k); auto. apply (route_app d (S k) k ws k); auto. apply (route_star d k e3); auto.
    + intros H. apply (route_split d k i w j H e3) in H3 as [D | (w1 & ws & w2 & -> & D1 & D2 & D3)]; auto.
      right. exists w1, (ws ++ w2). repeat split; [ apply H2; auto |]. apply lang_seq. exists ws, w2. repeat split; auto. apply H4. auto.
Qed.

Lemma edge_range d i a j : dfa_valid d -> dfa_edge d i a j -> j < length (dfa_states d).
Proof. intros V (k & s & _ & E1 & E2). eapply (dv_range d V); eauto. eapply nth_error_In. eauto. Qed.

Lemma route_path d i w j : dfa_valid d -> (route d (length (dfa_states d)) i w j <-> dfa_path d i w j).
Proof.
  intros V. split.
  - induction 1; [ constructor | econstructor; [ eauto | constructor ] | econstructor; eauto ].
  - induction 1 as [ p | p a q w r H H' IH ]; [ constructor |]. apply (route_cons d _ p a q); auto. eapply edge_range; eauto.
Qed.

Fixpoint spell (l : list str) : doc_regex := match l with [] => DEmpty | g :: l => DSeq (DSym g) (spell l) end.

Lemma spell_lang l w : ~ doc_lang (spell l) w.
Proof.
  revert w. induction l as [| g l IH]; intros w; cbn [spell]; [ inversion 1 |].
  rewrite lang_seq. intros (w1 & w2 & _ & _ & H). apply (IH w2 H).
Qed.

Lemma spell_symbols l : doc_symbols (spell l) = l.
Proof. induction l as [| g l IH]; cbn; congruence. Qed.

(** symbols outside [al] do not occur in the words; put the empty language in their place *)
Fixpoint only (al : list str) (e : doc_regex) : doc_regex :=
  match e with
  | DSym g => if in_dec str_dec g al then DSym g else DEmpty
  | DSeq a b => DSeq (only al a) (only al b)
  | DAlt a b => DAlt (only al a) (only al b)
  | DStar a => DStar (only al a)
  | DPlus a => DPlus (only al a)
  | e => e
  end.

Lemma over_app al (u v : word) : over al (u ++ v) <-> over al u /\ over al v.
Proof. apply Forall_app. Qed.

Lemma only_lang al e : forall w, doc_lang (only al e) w <-> doc_lang e w /\ over al w.
Proof.
  induction e as [ | | g | a IHa b IHb | a IHa b IHb | a IHa | a IHa ]; cbn [only]; intros w.
  - rewrite lang_empty. tauto.
  - rewrite lang_eps. split; [ intros ->; split; auto; constructor | tauto ].
  - destruct (in_dec str_dec g al) as [I | I].
    + rewrite lang_sym. split; [ intros ->; split; auto; repeat constructor; auto | tauto ].
    + rewrite lang_empty, lang_sym. split; [ tauto |]. intros [-> H]. inversion H; auto.
  - rewrite !lang_seq. split.
    + intros (w1 & w2 & -> & H1 & H2). apply IHa in H1 as [H1 O1]. apply IHb in H2 as [H2 O2]. split; [ eauto 8 | apply over_app; auto ].
    + intros [(w1 & w2 & -> & H1 & H2) O]. apply over_app in O as [O1 O2]. exists w1, w2. rewrite IHa, IHb. auto.
  - rewrite !lang_alt, IHa, IHb. tauto.
  - split.
    + revert w. apply star_ind; [ split; constructor |]. intros w1 w2 H1 H2 [IH O2]. apply IHa in H1 as [H1 O1].
      split; [ constructor; auto | apply over_app; auto ].
    + intros [H O]. revert w H O. apply (star_ind a (fun w => over al w -> doc_lang (DStar (only al a)) w)); [ constructor |].
      intros w1 w2 H1 H2 IH O. apply over_app in O as [O1 O2]. constructor; [ apply IHa; auto | auto ].
  - rewrite !lang_plus, !lang_seq.
    assert (S : forall w, doc_lang (DStar (only al a)) w <-> doc_lang (DStar a) w /\ over al w).
    { clear w. intros w. split.
      + revert w. apply star_ind; [ split; constructor |]. intros w1 w2 H1 H2 [IH O2]. apply IHa in H1 as [H1 O1].
        split; [ constructor; auto | apply over_app; auto ].
      + intros [H O]. revert w H O. apply (star_ind a (fun w => over al w -> doc_lang (DStar (only al a)) w)); [ constructor |].
        intros w1 w2 H1 H2 IH O. apply over_app in O as [O1 O2]. constructor; [ apply IHa; auto | auto ]. }
    split.
    + intros (w1 & w2 & -> & H1 & H2). apply IHa in H1 as [H1 O1]. apply S in H2 as [H2 O2]. split; [ eauto 8 | apply over_app; auto ].
    + intros [(w1 & w2 & -> & H1 & H2) O]. apply over_app in O as [O1 O2]. exists w1, w2. rewrite IHa, S. auto.
Qed.

Lemma only_symbols al e g : In g (doc_symbols (only al e)) -> In g al.
Proof.
  induction e as [ | | g' | a IHa b IHb | a IHa b IHb | a IHa | a IHa ]; cbn [only]; cbn; auto; try contradiction;
    try (rewrite in_app_iff; intros [H | H]; auto; fail).
  destruct (in_dec str_dec g' al); cbn; [ intros [<- | []]; auto | contradiction ].
Qed.

Lemma path_over d i w j : dfa_path d i w j -> over (dfa_alphabet d) w.
Proof. induction 1; constructor; auto. eapply edge_in; eauto. Qed.

Theorem kleene d : dfa_valid d -> exists e, (forall w, doc_lang e w <-> dfa_lang d w) /\ same_set (doc_symbols e) (dfa_alphabet d).
Proof.
  intros V.
  assert (S : forall qs, exists e, forall w, doc_lang e w <-> exists q, In q qs /\ dfa_path d (dfa_initial d) w q /\ dfa_accepting d q).
  { induction qs as [| q qs (e & He)].
    - exists DEmpty. intros w. rewrite lang_empty. split; [ tauto | intros (q & [] & _) ].
    - destruct (route_expression d (length (dfa_states d)) (dfa_initial d) q) as (e' & He').
      destruct (nth_error (dfa_states d) q) as [s |] eqn:Es.
      + destruct (ds_accepting s) eqn:Ea.
        * exists (DAlt e' e). intros w. rewrite lang_alt, He, He', (route_path d _ _ _ V). split.
          { intros [H | (q' & H & H')]; [ exists q; split; [ left; auto |]; split; auto; exists s; auto | exists q'; cbn; auto ]. }
          { intros (q' & [<- | H] & H' & A); [ auto | right; eauto ]. }
        * exists e. intros w. rewrite He. split; [ intros (q' & H & H'); exists q'; cbn; auto |].
          intros (q' & [<- | H] & H' & A); [| eauto ]. destruct A as (s' & E & A). congruence.
      + exists e. intros w. rewrite He. split; [ intros (q' & H & H'); exists q'; cbn; auto |].
        intros (q' & [<- | H] & H' & A); [| eauto ]. destruct A as (s' & E & A). congruence. }
  destruct (S (seq 0 (length (dfa_states d)))) as (e & He).
  exists (DAlt (only (dfa_alphabet d) e) (spell (dfa_alphabet d))). split.
  - intros w. rewrite lang_alt, only_lang, He. split.
    + intros [[(q & _ & H & A) _] | H]; [ exists q; auto | destruct (spell_lang _ _ H) ].
    + intros (q & H & A). left. split; [| eapply path_over; eauto ]. exists q. split; auto.
      destruct A as (s & E & _). apply in_seq. split; [ lia |]. cbn. apply nth_error_Some. congruence.
  - intros g. cbn [doc_symbols]. rewrite in_app_iff, spell_symbols. split; [ intros [H | H]; auto; eapply only_symbols; eauto | auto ].
Qed.

(** ** Putting expressions for symbols *)

(** the words made from [w] by putting a word of [f g] for every symbol [g] *)
Fixpoint spread (f : str -> doc_regex) (v : word) (w : word) : Prop :=
  match v with
  | [] => w = []
  | g :: v => exists w1 w2, w = w1 ++ w2 /\ doc_lang (f g) w1 /\ spread f v w2
  end.

Lemma spread_app f v1 v2 w : spread f (v1 ++ v2) w <-> exists w1 w2, w = w1 ++ w2 /\ spread f v1 w1 /\ spread f v2 w2.
Proof.
  revert w. induction v1 as [| g v1 IH]; intros w; cbn [app spread].
  - split; [ intros H; exists [], w; auto | intros (w1 & w2 & -> & -> & H); auto ].
  - split.
    + intros (w1 & w2 & -> & H1 & H2). apply IH in H2 as (u1 & u2 & -> & H2 & H3). exists (w1 ++ u1), u2.
      rewrite <- app_assoc. repeat split; auto. eauto.
    + intros (w1 & w2 & -> & (u1 & u2 & -> & H1 & H2) & H3). exists u1, (u2 ++ w2). rewrite <- app_assoc. repeat split; auto.
      apply IH. eauto.
Qed.

Lemma put_star f a : (forall w, doc_lang (put f a) w <-> exists v, doc_lang a v /\ spread f v w) ->
  forall w, doc_lang (DStar (put f a)) w <-> exists v, doc_lang (DStar a) v /\ spread f v w.
Proof.
  intros IHa w. split.
  - revert w. apply star_ind; [ exists []; split; [ constructor | reflexivity ] |].
    intros w1 w2 H1 H2 (v2 & D2 & S2). apply IHa in H1 as (v1 & D1 & S1). exists (v1 ++ v2). split; [ constructor; auto |].
    apply spread_app. eauto.
  - intros (v & H & S). revert v H w S.
    apply (star_ind a (fun v => forall w, spread f v w -> doc_lang (DStar (put f a)) w)); [ intros w ->; constructor |].
    intros v1 v2 H1 H2 IH w S. apply spread_app in S as (w1 & w2 & -> & S1 & S2). constructor; [ apply IHa; eauto | auto ].
Qed.

Lemma put_lang f e : forall w, doc_lang (put f e) w <-> exists v, doc_lang e v /\ spread f v w.
Proof.
  induction e as [ | | g | a IHa b IHb | a IHa b IHb | a IHa | a IHa ]; cbn [put]; intros w.
  - rewrite lang_empty. split; [ tauto | intros (v & H & _); inversion H ].
  - rewrite lang_eps. split; [ intros ->; exists []; split; [ constructor | reflexivity ] |].
    intros (v & H & S). apply lang_eps in H. subst. auto.
  - split.
    + intros H. exists [g]. split; [ constructor |]. exists w, []. rewrite app_nil_r. repeat split; auto.
    + intros (v & H & S). apply lang_sym in H. subst. destruct S as (w1 & w2 & -> & H & ->). rewrite app_nil_r. auto.
  - rewrite lang_seq. split.
    + intros (w1 & w2 & -> & H1 & H2). apply IHa in H1 as (v1 & D1 & S1). apply IHb in H2 as (v2 & D2 & S2).
      exists (v1 ++ v2). split; [ constructor; auto |]. apply spread_app. eauto.
    + intros (v & H & S). apply lang_seq in H as (v1 & v2 & -> & D1 & D2). apply spread_app in S as (w1 & w2 & -> & S1 & S2).
      exists w1, w2. rewrite IHa, IHb. eauto 8.
  - rewrite lang_alt, IHa, IHb. split.
    + intros [(v & D & S) | (v & D & S)]; exists v; split; auto; apply lang_alt; auto.
    + intros (v & D & S). apply lang_alt in D as [D | D]; eauto.
  - apply put_star. auto.
  - rewrite lang_plus, lang_seq. split.
    + intros (w1 & w2 & -> & H1 & H2). apply IHa in H1 as (v1 & D1 & S1). apply (put_star f a IHa) in H2 as (v2 & D2 & S2).
      exists (v1 ++ v2). split; [ constructor; auto |]. apply spread_app. eauto.
    + intros (v & H & S). apply lang_plus, lang_seq in H as (v1 & v2 & -> & D1 & D2). apply spread_app in S as (w1 & w2 & -> & S1 & S2).
      exists w1, w2. rewrite IHa, (put_star f a IHa). eauto 8.
Qed.

Lemma put_law f a b : law a b -> law (put f a) (put f b).
Proof.
  intros H. apply law_complete. intros w. rewrite !put_lang. pose proof (law_sound _ _ H) as G.
  split; intros (v & D & S); exists v; split; auto; apply G; auto.
Qed.

Lemma put_symbols f e : forall g, In g (doc_symbols (put f e)) <-> exists g', In g' (doc_symbols e) /\ In g (doc_symbols (f g')).
Proof.
  induction e as [ | | g' | a IHa b IHb | a IHa b IHb | a IHa | a IHa ]; intros g; cbn [put doc_symbols]; auto;
    try (split; [ contradiction | intros (g' & [] & _) ]; fail);
    try (rewrite in_app_iff, IHa, IHb; setoid_rewrite in_app_iff; firstorder; fail).
  split; [ intros H; exists g'; cbn; auto | intros (g'' & [<- | []] & H); auto ].
Qed.

Lemma put_law_in f f' e : (forall g, In g (doc_symbols e) -> law (f g) (f' g)) -> law (put f e) (put f' e).
Proof.
  induction e as [ | | g | a IHa b IHb | a IHa b IHb | a IHa | a IHa ]; cbn [put doc_symbols]; intros H; try apply law_refl.
  - apply H. left. auto.
  - apply law_in_seq; [ apply IHa | apply IHb ]; intros; apply H, in_app_iff; auto.
  - apply law_in_alt; [ apply IHa | apply IHb ]; intros; apply H, in_app_iff; auto.
  - apply law_in_star; auto.
  - eapply law_trans; [ apply law_plus |]. eapply law_trans; [| apply law_sym, law_plus ].
    apply law_in_seq; [| apply law_in_star ]; auto.
Qed.

(** ** Typing expressions *)

Fixpoint written (e : doc_regex) : list str :=
  match e with
  | DEmpty => [[8709%N]]
  | DEps => [[949%N]]
  | DSym g => [92%N :: g]
  | DSeq a b => [40%N] :: (written a ++ written b) ++ [[41%N]]
  | DAlt a b => [40%N] :: (written a ++ [124%N] :: written b) ++ [[41%N]]
  | DStar a => [40%N] :: (written a ++ [[42%N]]) ++ [[41%N]]
  | DPlus a => [40%N] :: (written a ++ [[43%N]]) ++ [[41%N]]
  end.

Lemma written_shows e : (forall g, In g (doc_symbols e) -> g <> []) -> shows 3 e (written e).
Proof.
  induction e as [ | | g | a IHa b IHb | a IHa b IHb | a IHa | a IHa ]; cbn [written doc_symbols]; intros H.
  - constructor.
  - constructor.
  - apply sh_escape, H. left. auto.
  - apply sh_group, sh_up, sh_seq; apply sh_up, sh_up; [ apply IHa | apply IHb ]; intros; apply H, in_app_iff; auto.
  - apply sh_group, sh_alt; apply sh_up, sh_up, sh_up; [ apply IHa | apply IHb ]; intros; apply H, in_app_iff; auto.
  - apply sh_group, sh_up, sh_up, sh_star; auto.
  - apply sh_group, sh_up, sh_up, sh_plus; auto.
Qed.

Lemma apart_nonempty seg al : divides seg -> apart seg al -> forall g, In g al -> g <> [].
Proof.
  intros Hd H g Hg ->. assert (S : segmented seg [[]]) by (apply H; intros g [<- | []]; auto).
  inversion S as [| ? ? E _]. apply (proj2 (Hd (concat [[]]))). rewrite E. left. auto.
Qed.

Inductive piece (al : list str) : str -> Prop :=
| piece_escape g : In g al -> piece al (92%N :: g)
| piece_char c : syntax_char c -> c <> 92%N -> piece al [c].

Lemma pieces_tokens seg al gs : apart seg al -> (forall g, In g gs -> piece al g) -> tokens seg gs.
Proof.
  intros A. induction gs as [| g gs IH]; intros H; [ constructor |].
  assert (T : tokens seg gs) by (apply IH; intros x Hx; apply H; right; auto).
  destruct (H g (or_introl eq_refl)) as [g' Hg | c Hc N]; [| constructor; auto ].
  assert (P : exists hs, concat hs = concat gs /\ forall x, In x hs -> In x al \/ exists c, syntax_char c /\ x = [c]).
  { assert (H' : forall x, In x gs -> piece al x) by (intros x Hx; apply H; right; auto). clear -H'.
    induction gs as [| x gs IH]; [ exists []; split; [ auto | contradiction ] |].
    destruct IH as (hs & E & Hh); [ intros y Hy; apply H'; right; auto |].
    destruct (H' x (or_introl eq_refl)) as [g Hg | c Hc N].
    - exists ([92%N] :: g :: hs). split; [ cbn; rewrite E; auto |]. intros y [<- | [<- | Hy]]; auto.
      right. exists 92%N. split; auto. cbv. auto 10.
    - exists ([c] :: hs). split; [ cbn; rewrite E; auto |]. intros y [<- | Hy]; auto. right. eauto. }
  destruct P as (hs & E & Hh). apply (tk_escape seg g' hs); auto.
  assert (S : segmented seg (g' :: hs)). { apply A. intros x [<- | Hx]; auto. }
  inversion S as [| ? ? E' _]. cbn [concat] in E'. rewrite <- E. auto.
Qed.

Lemma written_pieces al e : incl (doc_symbols e) al -> forall g, In g (written e) -> piece al g.
Proof.
  intros I g. induction e as [ | | g' | a IHa b IHb | a IHa b IHb | a IHa | a IHa ]; cbn [written doc_symbols] in *; intros H.
  - destruct H as [<- | []]. constructor; [ cbv; auto 10 | discriminate ].
  - destruct H as [<- | []]. constructor; [ cbv; auto 10 | discriminate ].
  - destruct H as [<- | []]. constructor. apply I. left. auto.
  - destruct H as [<- | H]; [ constructor; [ cbv; auto 10 | discriminate ] |].
    rewrite !in_app_iff in H. destruct H as [[H | H] | [<- | []]]; [ apply IHa | apply IHb | constructor; [ cbv; auto 10 | discriminate ] ]; auto;
      intros x Hx; apply I, in_app_iff; auto.
  - destruct H as [<- | H]; [ constructor; [ cbv; auto 10 | discriminate ] |].
    rewrite !in_app_iff in H. destruct H as [[H | [<- | H]] | [<- | []]];
      [ apply IHa | constructor; [ cbv; auto 10 | discriminate ] | apply IHb | constructor; [ cbv; auto 10 | discriminate ] ]; auto;
      intros x Hx; apply I, in_app_iff; auto.
  - destruct H as [<- | H]; [ constructor; [ cbv; auto 10 | discriminate ] |].
    rewrite !in_app_iff in H. destruct H as [[H | [<- | []]] | [<- | []]]; auto; constructor; try (cbv; auto 10); discriminate.
  - destruct H as [<- | H]; [ constructor; [ cbv; auto 10 | discriminate ] |].
    rewrite !in_app_iff in H. destruct H as [[H | [<- | []]] | [<- | []]]; auto; constructor; try (cbv; auto 10); discriminate.
Qed.

Lemma not_white c : In c [40%N; 41%N] -> ~ whitespace c.
Proof. intros [<- | [<- | []]]; cbv; intuition discriminate. Qed.

Lemma typed seg e : divides seg -> apart seg (doc_symbols e) -> exists u, types seg u e.
Proof.
  intros Hd A. exists (concat ([40%N] :: written e ++ [[41%N]])), ([40%N] :: written e ++ [[41%N]]). split; [| split ].
  - apply (pieces_tokens seg (doc_symbols e)); auto. intros g [<- | H]; [ constructor; [ cbv; auto 10 | discriminate ] |].
    apply in_app_iff in H as [H | [<- | []]]; [ apply (written_pieces _ e); auto using incl_refl | constructor; [ cbv; auto 10 | discriminate ] ].
  - exists [], []. rewrite app_nil_r. split; [ auto |]. split; [ intros c [[] | []] |]. split.
    + intros c v E. cbn in E. injection E as <- _. apply not_white. left. auto.
    + intros c v E. cbn [concat] in E. rewrite concat_app in E. cbn [concat] in E. rewrite app_nil_r, app_assoc in E.
      apply app_inj_tail in E as [_ <-]. apply not_white. right. left. auto.
  - do 3 apply sh_up. apply sh_group. do 3 apply sh_up. apply written_shows. apply apart_nonempty with (seg := seg); auto.
Qed.

(** the symbols of a typed expression are graphemes *)
Lemma shown_symbols n e gs : shows n e gs -> forall g, In g (doc_symbols e) -> In (92%N :: g) gs \/ In g gs /\ ~ syntax_head g.
Proof.
  induction 1; cbn [doc_symbols]; intros g' Hg; try contradiction.
  - destruct Hg as [<- | []]. right. split; [ left; auto | auto ].
  - destruct Hg as [<- | []]. left. left. auto.
  - apply IHshows in Hg. cbn. rewrite !in_app_iff. tauto.
  - apply IHshows in Hg. rewrite !in_app_iff. tauto.
  - apply IHshows in Hg. rewrite !in_app_iff. tauto.
  - rewrite in_app_iff in Hg. rewrite !in_app_iff. destruct Hg as [Hg | Hg]; [ apply IHshows1 in Hg | apply IHshows2 in Hg ]; tauto.
  - rewrite in_app_iff in Hg. rewrite !in_app_iff. cbn. destruct Hg as [Hg | Hg]; [ apply IHshows1 in Hg | apply IHshows2 in Hg ]; tauto.
  - auto.
Qed.

Lemma tokens_graphemes seg gs : tokens seg gs -> forall g, In (92%N :: g) gs /\ g <> [] \/ In g gs /\ ~ syntax_head g -> exists v l, seg (g ++ v) = g :: l.
Proof.
  induction 1 as [ | c gs Hc N T IH | | g l gs E T IH | g l gs N E T IH ]; intros g' [[H Ne] | [H Ns]]; try contradiction.
  - destruct H as [H | H]; [ injection H as H1 H2; congruence | eauto ].
  - destruct H as [<- | H]; [| eauto ]. destruct Ns. exists c, []. auto.
  - destruct H as [H | []]. injection H as H1. congruence.
  - destruct H as [<- | []]. destruct Ns. exists 92%N, []. split; auto. cbv. auto 10.
  - destruct H as [H | H]; [ injection H as <-; eauto | eauto ].
  - destruct H as [<- | H]; [| eauto ]. destruct Ns. exists 92%N, g. split; auto. cbv. auto 10.
  - destruct H as [H | H]; [| eauto ]. subst. destruct N. exists 92%N, g'. split; auto. cbv. auto 10.
  - destruct H as [<- | H]; eauto.
Qed.

Lemma shown_nonempty n e gs : shows n e gs -> forall g, In g (doc_symbols e) -> In [] gs \/ g <> [].
Proof.
  induction 1; cbn [doc_symbols]; intros g' Hg; try contradiction; rewrite ?in_app_iff in *; cbn [In] in *; try (destruct Hg as [<- | []]).
  - destruct g; [ left; auto | right; discriminate ].
  - auto.
  - apply IHshows in Hg. rewrite in_app_iff. tauto.
  - apply IHshows in Hg. tauto.
  - apply IHshows in Hg. tauto.
  - destruct Hg as [Hg | Hg]; [ apply IHshows1 in Hg | apply IHshows2 in Hg ]; tauto.
  - destruct Hg as [Hg | Hg]; [ apply IHshows1 in Hg | apply IHshows2 in Hg ]; tauto.
  - auto.
Qed.

Lemma tokens_nonempty seg gs : divides seg -> tokens seg gs -> ~ In [] gs.
Proof.
  intros Hd. induction 1 as [ | c gs Hc N T IH | | g l gs E T IH | g l gs N E T IH ]; intros H; cbn in H; try contradiction;
    destruct H as [H | H]; try discriminate H; try contradiction; auto.
  subst. apply (proj2 (Hd (concat gs))). cbn in E. rewrite E. left. auto.
Qed.

Lemma typed_graphemes seg u e : divides seg -> types seg u e -> forall g, In g (doc_symbols e) -> exists v l, seg (g ++ v) = g :: l.
Proof.
  intros Hd (gs & T & _ & S) g Hg. apply (tokens_graphemes seg gs T).
  destruct (shown_nonempty _ _ _ S g Hg) as [H | Ne]; [ destruct (tokens_nonempty seg gs Hd T H) |].
  destruct (shown_symbols _ _ _ S g Hg) as [H | H]; auto.
Qed.
