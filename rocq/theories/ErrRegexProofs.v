(** * ErrRegexProofs: the errors of the expression parser are those of ErrSpec *)
From Coq Require Import List NArith Arith Bool Lia.
From Verif Require Import Base BaseLemmas Spec TableSpec LayoutSpec RegexSpec ErrSpec ParserModel ParserBasics FaParserProofs RegexModel RegexProofs
  RegexParserModel RegexParserProofs ErrModel ErrBasics.
Import ListNotations.

Section Longest.
  Ltac synch := unfold syntax_char; simpl; tauto.
  Context (seg : str -> list str) (Hdiv : divides seg).
  Local Notation good := (tokens seg).
  Local Notation p_atom := (p_atom seg).

  Lemma totalN_atom f : totalN (S f) (p_atom f).
  Proof.
    unfold RegexParserProofs.p_atom. apply totalN_palt.
    - apply totalN_par_expr, totalN_expression.
    - apply totalN_combinated.
  Qed.
  Lemma pieces_pos u : (forall g : str, In g u -> g <> []) -> u <> [] -> 0 < length (concat u).
  Proof.
    destruct u as [|g u]; [congruence|]. intros H _. pose proof (H g (or_introl eq_refl)) as Hg. simpl. rewrite app_length.
    destruct g; [congruence|simpl; lia].
  Qed.

  (** The loops always end, at some suffix *)
  Lemma many_some f : forall fuel gs acc, good gs -> length (concat gs) < fuel -> length (concat gs) <= f ->
    exists i l, many_loop fuel (p_atom f) acc (concat gs) = Ret (Some (i, l)) /\ length i <= length (concat gs).
  Proof.
    induction fuel as [|fuel IH]; intros gs acc Hg Hl Hf; [lia|]. cbn [many_loop].
    destruct (totalN_atom f (concat gs)) as (r & E & Hr); [lia|]. rewrite E. cbn [bind]. destruct r as [[i1 t]|]; [|eauto].
    destruct (atom_sound seg Hdiv f gs i1 t (expression_sound seg Hdiv f) Hg E) as (t0 & u & kl & k & -> & -> & Hp & ->).
    pose proof (good_app _ _ _ (good_app _ _ _ Hg)) as Hgk.
    assert (Hlt : length (concat k) < length (concat (u ++ ktoks kl ++ k))).
    { rewrite app_assoc. apply (shorter_app seg Hdiv); [rewrite <- app_assoc; auto|]. destruct (prim_head _ _ Hp) as (g & u' & -> & _). discriminate. }
    destruct (Nat.eqb_spec (length (concat k)) (length (concat (u ++ ktoks kl ++ k)))) as [C|_]; [lia|].
    destruct (IH k (acc ++ [kapply kl t0]) Hgk) as (i & l & E1 & Hi); [lia|lia|]. exists i, l. split; auto. lia.
  Qed.
  Lemma totalN_seq f : totalN (S f) (p_sequence seg (expression seg f)).
  Proof. apply totalN_sequence, totalN_atom. Qed.
  Lemma sep_some f : forall fuel gs acc, good gs -> length (concat gs) < fuel -> length (concat gs) <= f ->
    exists i l, sep_loop fuel (tag [124%N]) (p_sequence seg (expression seg f)) acc (concat gs) = Ret (Some (i, l)) /\
      length i <= length (concat gs).
  Proof.
    induction fuel as [|fuel IH]; intros gs acc Hg Hl Hf; [lia|]. cbn [sep_loop].
    destruct (good_tag seg Hdiv 124%N gs ltac:(synch) ltac:(discriminate) Hg) as [(gs' & -> & H)|(H & _)]; unfold ok, bad in H; rewrite H; cbn [bind]; [|eauto].
    change (concat ([124%N] :: gs')) with (124%N :: concat gs') in *. cbn [length] in *.
    destruct (Nat.eqb_spec (length (concat gs')) (S (length (concat gs')))) as [C|_]; [lia|]. pose proof (good_tail _ _ _ Hg) as Hg'.
    destruct (totalN_seq f (concat gs')) as (r & E & Hr); [lia|]. rewrite E. cbn [bind]. destruct r as [[i1 t]|]; [|eauto].
    destruct (sequence_sound seg Hdiv f gs' i1 t (expression_sound seg Hdiv f) Hg' E) as (l1 & u & k & -> & -> & Ha & ->).
    pose proof (good_app _ _ _ Hg') as Hgk. rewrite concat_app, app_length in *.
    destruct (IH k (acc ++ [wrap RSequence l1]) Hgk) as (i & l & E1 & Hi); [lia|lia|]. exists i, l. split; auto. lia.
  Qed.

  (** What begins with an expression is read at least that far *)
  Lemma prim_least t u f kl k : prim t u -> good (u ++ ktoks kl ++ k) -> length (concat (u ++ ktoks kl ++ k)) <= f ->
    exists k' t', ok (p_atom f) (concat (u ++ ktoks kl ++ k)) (concat k') t' /\ good k' /\ length (concat k') <= length (concat k).
  Proof.
    intros Hp Hg Hf. pose proof (good_app _ _ _ (good_app _ _ _ Hg)) as Hgk.
    assert (D : (kl = KNone -> no_kleene k) \/ exists kl' k', kl = KNone /\ k = ktoks kl' ++ k' /\ kl' <> KNone).
    { destruct kl; [|left; discriminate|left; discriminate].
      destruct (good_one_of seg Hdiv k Hgk) as [(c & gs' & [-> | ->] & -> & _)|(_ & Hn)].
      - right. exists KPlus, gs'. repeat split; auto. discriminate.
      - right. exists KStar, gs'. repeat split; auto. discriminate.
      - left. intros _ c k' Hc E. exact (Hn c k' Hc E). }
    destruct D as [Hk|(kl' & k' & -> & -> & Hn)].
    - exists k, (kapply kl t). split; [|split; auto]. apply (proj1 (toks_complete seg Hdiv) t u Hp); auto.
    - exists k', (kapply kl' t). cbn [ktoks app] in *. split; [|split].
      + apply (proj1 (toks_complete seg Hdiv) t u Hp); auto. congruence.
      + eapply good_app; eauto.
      + rewrite concat_app, app_length. lia.
  Qed.
  Definition L_atoms (u : list str) : Prop := forall f k, good (u ++ k) -> length (concat (u ++ k)) <= f ->
    (forall acc fuel, length (concat (u ++ k)) < fuel -> exists i l,
       many_loop fuel (p_atom f) acc (concat (u ++ k)) = Ret (Some (i, l)) /\ length i <= length (concat k)) /\
    (exists i l, ok (many1 (p_atom f)) (concat (u ++ k)) i l /\ length i <= length (concat k)).
  Lemma atoms_least : forall l u, atoms l u -> L_atoms u.
  Proof.
    intros l u H. induction H as [t u kl Hp|t u kl l v Hp Ha IH]; intros f k Hg Hf; rewrite <- !app_assoc in *.
    - destruct (prim_least t u f kl k Hp Hg Hf) as (k' & t' & Hok & Hgk & Hle).
      assert (Hlt : length (concat k) < length (concat (u ++ ktoks kl ++ k))).
      { rewrite app_assoc. apply (shorter_app seg Hdiv); [rewrite <- app_assoc; auto|]. destruct (prim_head _ _ Hp) as (g & u' & -> & _). discriminate. }
      split.
      + intros acc fuel Hfu. destruct fuel as [|fuel]; [lia|]. rewrite (many_step seg f _ _ _ _ _ Hok) by lia.
        destruct (many_some f fuel k' (acc ++ [t']) Hgk) as (i & l & E & Hi); [lia|lia|]. exists i, l. split; auto. lia.
      + destruct (many_some f (S (length (concat k'))) k' [t'] Hgk) as (i & l & E & Hi); [lia|lia|].
        exists i, l. split; [|lia]. eapply pbind_ok; [exact Hok|]. exact E.
    - pose proof (good_app _ _ _ (good_app _ _ _ Hg)) as Hgv.
      assert (Hk : no_kleene (v ++ k)).
      { destruct (atoms_head _ _ Ha) as (g & v' & -> & Hh). intros c k' Hc E. injection E as E _. apply (Hh c); tauto. }
      pose proof (proj1 (toks_complete seg Hdiv) t u Hp f kl (v ++ k) Hg (fun _ => Hk) Hf) as Hok.
      assert (Hlt : length (concat (v ++ k)) < length (concat (u ++ ktoks kl ++ v ++ k))).
      { rewrite app_assoc. apply (shorter_app seg Hdiv); [rewrite <- app_assoc; auto|]. destruct (prim_head _ _ Hp) as (g & u' & -> & _). discriminate. }
      destruct (IH f k Hgv) as (Hloop & _); [lia|]. split.
      + intros acc fuel Hfu. destruct fuel as [|fuel]; [lia|]. rewrite (many_step seg f _ _ _ _ _ Hok Hlt). apply Hloop. lia.
      + destruct (Hloop [kapply kl t] (S (length (concat (v ++ k))))) as (i & l' & E & Hi); [lia|].
        exists i, l'. split; auto. eapply pbind_ok; [exact Hok|]. exact E.
  Qed.
  Lemma sequence_least l u f k : atoms l u -> good (u ++ k) -> length (concat (u ++ k)) <= f ->
    exists k' t, ok (p_sequence seg (expression seg f)) (concat (u ++ k)) (concat k') t /\ good k' /\ length (concat k') <= length (concat k).
  Proof.
    intros Ha Hg Hf. destruct (atoms_least l u Ha f k Hg Hf) as (_ & i & l' & Hok & Hi).
    destruct (totalN_seq f (concat (u ++ k))) as (r & E & _); [lia|].
    assert (Hw : r <> None).
    { intros ->. revert E. unfold p_sequence, pmapR, pbind. unfold ok in Hok.
      change (many1 (palt (par_expr (expression seg f)) (combinated_char seg))) with (many1 (p_atom f)).
      rewrite Hok. cbn [bind]. destruct (wrap_multiple RSequence l') as [t| |]; cbn [bind]; discriminate. }
    destruct r as [[i' t]|]; [|congruence].
    destruct (sequence_sound seg Hdiv f (u ++ k) i' t (expression_sound seg Hdiv f) Hg E) as (l2 & u2 & k2 & E2 & -> & _ & _).
    assert (i = concat k2).
    { revert E. unfold p_sequence, pmapR, pbind. unfold ok in Hok.
      change (many1 (palt (par_expr (expression seg f)) (combinated_char seg))) with (many1 (p_atom f)).
      rewrite Hok. cbn [bind]. destruct (wrap_multiple RSequence l') as [t'| |]; cbn [bind]; try discriminate. intros [= -> _]. auto. }
    subst i. exists k2, t. split; auto. split; auto. rewrite E2 in Hg. eapply good_app; eauto.
  Qed.
  Definition L_alts (u : list str) : Prop := forall f k, good (u ++ k) -> length (concat (u ++ k)) <= f ->
    (forall acc fuel, length (concat ([124%N] :: u ++ k)) < fuel -> good ([124%N] :: u ++ k) -> exists i l,
       sep_loop fuel (tag [124%N]) (p_sequence seg (expression seg f)) acc (concat ([124%N] :: u ++ k)) = Ret (Some (i, l)) /\
       length i <= length (concat k)) /\
    (exists i l, ok (separated_list1 (tag [124%N]) (p_sequence seg (expression seg f))) (concat (u ++ k)) i l /\ length i <= length (concat k)).
  Lemma bar_step f fuel acc gs k' t : good ([124%N] :: gs) -> ok (p_sequence seg (expression seg f)) (concat gs) (concat k') t ->
    sep_loop (S fuel) (tag [124%N]) (p_sequence seg (expression seg f)) acc (concat ([124%N] :: gs)) =
    sep_loop fuel (tag [124%N]) (p_sequence seg (expression seg f)) (acc ++ [t]) (concat k').
  Proof.
    intros Hg Hok. cbn [sep_loop].
    destruct (good_tag seg Hdiv 124%N _ ltac:(synch) ltac:(discriminate) Hg) as [(gs' & E & H)|(_ & H)]; [|destruct (H _ eq_refl)]. injection E as <-.
    unfold ok in H, Hok. rewrite H. cbn [bind]. change (concat ([124%N] :: gs)) with (124%N :: concat gs). cbn [length].
    destruct (Nat.eqb_spec (length (concat gs)) (S (length (concat gs)))) as [C|_]; [lia|].
    rewrite Hok. reflexivity.
  Qed.
  Lemma alts_least : forall l u, alts l u -> L_alts u.
  Proof.
    intros l u H. induction H as [l u Ha|l u ls v Ha Hl IH]; intros f k Hg Hf; rewrite <- ?app_assoc in *.
    - destruct (sequence_least l u f k Ha Hg Hf) as (k' & t & Hok & Hgk & Hle).
      assert (Hlk : length (concat k) <= length (concat (u ++ k))) by (rewrite concat_app, app_length; lia). split.
      + intros acc fuel Hfu Hg'. destruct fuel as [|fuel]; [lia|]. rewrite (bar_step f fuel acc _ k' t Hg' Hok).
        change (concat ([124%N] :: u ++ k)) with (124%N :: concat (u ++ k)) in Hfu. cbn [length] in Hfu.
        destruct (sep_some f fuel k' (acc ++ [t]) Hgk) as (i & l' & E & Hi); [lia|lia|]. exists i, l'. split; auto. lia.
      + destruct (sep_some f (S (length (concat k'))) k' [t] Hgk) as (i & l' & E & Hi); [lia|lia|].
        exists i, l'. split; [|lia]. eapply pbind_ok; [exact Hok|]. exact E.
    - cbn [app] in *.
      assert (Hs' : stop [41; 124]%N ([124%N] :: v ++ k)). { intros g k' E. injection E as <- <-. exists 124%N. split; auto. simpl; tauto. }
      pose proof (atoms_sequence seg l u f _ (proj1 (proj2 (toks_complete seg Hdiv)) l u Ha) (atoms_nonempty _ _ Ha) Hg Hs' Hf) as Hok.
      pose proof (good_app _ _ _ Hg) as Hgk. pose proof (good_tail _ _ _ Hgk) as Hgv.
      assert (Hlt : length (concat ([124%N] :: v ++ k)) < length (concat (u ++ [124%N] :: v ++ k))).
      { apply (shorter_app seg Hdiv); auto. destruct (atoms_head _ _ Ha) as (g & u' & -> & _). discriminate. }
      assert (Hv : length (concat ([124%N] :: v ++ k)) = S (length (concat (v ++ k)))) by reflexivity.
      assert (Hle : length (concat (v ++ k)) <= f).
      { rewrite Hv in Hlt. eapply Nat.le_trans; [|exact Hf]. apply Nat.lt_le_incl, Nat.lt_succ_l. exact Hlt. }
      destruct (IH f k Hgv Hle) as (Hloop & _). split.
      + intros acc fuel Hfu Hg'. destruct fuel as [|fuel]; [lia|]. rewrite (bar_step f fuel acc _ _ _ Hg' Hok). apply Hloop; auto.
        change (concat ([124%N] :: u ++ [124%N] :: v ++ k)) with (124%N :: concat (u ++ [124%N] :: v ++ k)) in Hfu. cbn [length] in Hfu. lia.
      + destruct (Hloop [wrap RSequence l] (S (length (concat ([124%N] :: v ++ k))))) as (i & l' & E & Hi); [lia|auto|].
        exists i, l'. split; auto. eapply pbind_ok; [exact Hok|]. exact E.
  Qed.

  Lemma suffix_shorter (u k v k2 : list str) : (forall g, In g (u ++ k) -> g <> []) -> u ++ k = v ++ k2 -> length (concat k2) <= length (concat k) -> length u <= length v.
  Proof.
    intros Hr E Hl. apply app_eq_app in E as (x & [(-> & ->)|(-> & ->)]).
    - rewrite concat_app, app_length in Hl. destruct x as [|g x]; [rewrite app_nil_r; auto|].
      assert (0 < length (concat (g :: x))); [|lia]. apply pieces_pos; [|discriminate].
      intros h Hh. apply Hr. apply in_app_iff. left. apply in_app_iff. auto.
    - rewrite app_length. lia.
  Qed.
  (** A beginning that is an expression is read, and what is read is the longest *)
  Lemma expression_least l u k f : alts l u -> good (u ++ k) -> length (concat (u ++ k)) < f ->
    exists i t, ok (expression seg f) (concat (u ++ k)) i t.
  Proof.
    intros Ha Hg Hf. destruct f as [|f]; [lia|]. destruct (alts_least l u Ha f k Hg) as (_ & i & l' & Hok & _); [lia|].
    destruct (totalN_expression seg (S f) (concat (u ++ k))) as (r & E & _); [lia|].
    destruct r as [[i' t]|]; [exists i', t; exact E|]. exfalso. revert E. cbn [expression]. unfold p_alternation, pmapR, pbind.
    unfold ok in Hok. rewrite Hok. cbn [bind]. destruct (wrap_multiple RAlt l') as [t'| |]; cbn [bind]; discriminate.
  Qed.
  Lemma expression_longest l u k f i t v k2 : alts l u -> good (u ++ k) -> length (concat (u ++ k)) < f ->
    ok (expression seg f) (concat (u ++ k)) i t -> u ++ k = v ++ k2 -> i = concat k2 -> length u <= length v.
  Proof.
    intros Ha Hg Hf E Ev ->. destruct f as [|f]; [lia|]. destruct (alts_least l u Ha f k Hg) as (_ & i & l' & Hok & Hi); [lia|].
    apply (suffix_shorter u k v k2); auto; [apply (good_nonempty seg Hdiv _ Hg)|]. revert E. unfold ok. cbn [expression]. unfold p_alternation, pmapR, pbind.
    unfold ok in Hok. rewrite Hok. cbn [bind]. destruct (wrap_multiple RAlt l') as [t'| |]; cbn [bind]; try discriminate.
    intros [= <- _]. auto.
  Qed.
End Longest.

(** ** Failures *)
Lemma mapR_fail {A B} (f : A -> R B) (e : E A) p i k a : erases e p -> (forall i' x, ok p i i' x -> exists y, f x = Ret y) ->
  (efail (e_mapR f e) i k a <-> efail e i k a).
Proof.
  intros Hp Hf. unfold e_mapR. rewrite (bind_fail e p Hp). split; auto. intros [H|(i1 & x & H1 & H)]; auto. exfalso.
  destruct (Hf i1 x H1) as (y & Ey). unfold efail in H. rewrite Ey in H. discriminate.
Qed.
Lemma kleene_fail (e : E regex_tree) p i k a : erases e p ->
  (efail (e_mapR apply_kleene (e_pair e (e_opt (e_one_of [43; 42]%N)))) i k a <-> efail e i k a).
Proof.
  intros Hp. rewrite (mapR_fail _ _ (ppair p (popt (one_of [43; 42]%N)))) by
    (auto with er || (intros i' x H; apply ppair_inv in H as (i1 & t & o & _ & H & ->); apply apply_kleene_total;
       apply popt_inv in H; destruct o as [c|]; auto; destruct (one_of_spec [43; 42]%N i1) as (r & E & Hr);
       unfold ok in H; rewrite H in E; injection E as <-; apply Hr)).
  rewrite (pair_fail e p) by auto. split; auto. intros [H|(i1 & x & _ & H)]; auto. exfalso. exact (opt_fail _ _ _ _ H).
Qed.

Section Errors.
  Context (seg : str -> list str) (Hdiv : divides seg).
  Local Notation good := (tokens seg).
  Local Notation p_atom := (p_atom seg).
  Definition e_atom (f : nat) : E regex_tree := e_alt (e_par_expr (e_expression seg f)) (e_combinated_char seg).

  Lemma er_one_cluster : erases (e_one_cluster seg) (one_cluster seg).
  Proof. apply er_basic. Qed.
  Lemma er_combinated : erases (e_combinated_char seg) (combinated_char seg).
  Proof.
    pose proof er_one_cluster.
    unfold e_combinated_char, combinated_char, e_regex_char, p_regex_char, e_normal_char, normal_char, e_escaped_char, escaped_char,
      e_empty_lang, empty_lang, e_empty_str, empty_str. auto 25 with er.
  Qed.
  Lemma er_par f : erases (e_par_expr (e_expression seg f)) (par_expr (expression seg f)).
  Proof. pose proof (er_expression seg f). unfold e_par_expr, par_expr. auto 25 with er. Qed.
  Lemma er_atom f : erases (e_atom f) (p_atom f).
  Proof. apply er_alt; [apply er_par|apply er_combinated]. Qed.
  Lemma er_sequence f : erases (e_sequence seg (e_expression seg f)) (p_sequence seg (expression seg f)).
  Proof. unfold e_sequence, p_sequence. apply er_mapR, er_many1, er_atom. Qed.

  (** An atom fails where it starts: at the end of the text, or at a character that starts none *)
  Lemma char_fail i k a : efail (e_regex_char seg) i k a ->
    a = i /\ (k = KFail /\ seg i = [] \/ k = KVerify /\ seg i <> []).
  Proof.
    pose proof er_one_cluster as Hc. unfold e_regex_char. intros H.
    assert (H0 : efail (e_normal_char seg) i k a).
    { revert H. unfold efail, e_alt. intros H.
      apply bind_Ret_inv in H as ([x|x] & _ & H); [discriminate|]. apply bind_Ret_inv in H as ([y|y] & _ & H); [discriminate|].
      apply bind_Ret_inv in H as ([z|z] & _ & H); [discriminate|]. exact H. }
    apply (verify_fail _ _ Hc) in H0 as [H0|(-> & -> & i' & x & H0 & _)].
    - apply basic_fail in H0 as (H0 & -> & ->). split; auto. left. split; auto. unfold bad, one_cluster in H0.
      destruct (seg i); [auto|discriminate].
    - split; auto. right. split; auto. unfold ok, one_cluster in H0. destruct (seg i); discriminate.
  Qed.
  Lemma atom_fail f i k a : efail (e_atom f) i k a -> a = i /\ (k = KFail /\ seg i = [] \/ k = KVerify /\ seg i <> []).
  Proof.
    intros H. apply (alt_fail _ _ (er_par f) _ _ er_combinated) in H as (_ & H). unfold e_combinated_char in H.
    apply (fun Hp => proj1 (kleene_fail _ (pmap RChar (p_regex_char seg)) i k a Hp)) in H.
    - apply map_fail' in H. apply char_fail. auto.
    - pose proof er_one_cluster. unfold e_regex_char, p_regex_char, e_normal_char, normal_char, e_escaped_char, escaped_char,
        e_empty_lang, empty_lang, e_empty_str, empty_str. auto 25 with er.
  Qed.
  Lemma sequence_fail f gs k a : good gs -> length (concat gs) <= f -> efail (e_sequence seg (e_expression seg f)) (concat gs) k a ->
    a = concat gs /\ (k = KFail /\ seg (concat gs) = [] \/ k = KVerify /\ seg (concat gs) <> []).
  Proof.
    intros Hg Hf H. unfold e_sequence, e_mapR in H. apply (bind_fail _ _ (er_many1 _ _ (er_atom f))) in H as [H|(i1 & x & H1 & H)].
    - unfold e_many1 in H. apply (bind_fail _ _ (er_atom f)) in H as [H|(i1 & x & H1 & H)]; [eapply atom_fail; eauto|]. exfalso.
      destruct (atom_sound seg Hdiv f gs i1 x (expression_sound seg Hdiv f) Hg H1) as (t0 & u & kl & k1 & -> & -> & Hp & ->).
      pose proof (good_app _ _ _ (good_app _ _ _ Hg)) as Hgk. rewrite !concat_app, !app_length in Hf.
      destruct (many_some seg Hdiv f (S (length (concat k1))) k1 [kapply kl t0] Hgk) as (i & l & E & _); [lia|lia|].
      unfold efail in H. rewrite (er_many_loop KMany1 (e_atom f) _ (er_atom f)) in E. unfold erase in E.
      match type of H with ?t = _ => match type of E with context [bind ?t' _] => change t' with t in E end end.
      rewrite H in E. discriminate.
    - exfalso. unfold efail in H. destruct (wrap_multiple RSequence x); discriminate.
  Qed.
  Lemma expression_fail f gs k a : good gs -> length (concat gs) < f -> efail (e_expression seg f) (concat gs) k a ->
    a = concat gs /\ (k = KFail /\ seg (concat gs) = [] \/ k = KVerify /\ seg (concat gs) <> []).
  Proof.
    intros Hg Hf H. destruct f as [|f]; [lia|]. cbn [e_expression] in H. unfold e_alternation, e_mapR in H.
    pose proof (er_sequence f) as Hs.
    apply (bind_fail _ _ (er_separated_list1 _ _ _ _ (er_char 124%N) Hs)) in H as [H|(i1 & x & H1 & H)].
    - unfold e_separated_list1 in H. apply (bind_fail _ _ Hs) in H as [H|(i1 & x & H1 & H)]; [apply (sequence_fail f gs k a Hg); [lia|exact H]|]. exfalso.
      apply (sep_loop_nofail (e_char 124%N) (tag [124%N]) _ (er_char 124%N)) in H; auto.
      intros i i' y Hy. destruct (tag_spec [124%N] i) as [(k0 & -> & E)|(E & _)]; unfold ok, bad in *; rewrite E in Hy; [|discriminate].
      injection Hy as <- <-. simpl. lia.
    - exfalso. unfold efail in H. destruct (wrap_multiple RAlt x); discriminate.
  Qed.
  Lemma good_seg gs : good gs -> (seg (concat gs) = [] <-> gs = []).
  Proof.
    intros Hg. split.
    - intros E. destruct (Hdiv (concat gs)) as (Ec & _). rewrite E in Ec. destruct gs as [|g gs]; auto.
      pose proof (good_nonempty seg Hdiv _ Hg g (or_introl eq_refl)) as Hne. destruct g; [congruence|discriminate].
    - intros ->. apply (seg_empty seg Hdiv).
  Qed.
  Lemma an_expression_iff gs : an_expression gs <-> exists l, alts l gs.
  Proof.
    split.
    - intros (e & H). destruct (shows_toks 0 e gs H) as (l & Ha & _). eauto.
    - intros (l & H). destruct (proj2 (proj2 toks_shows) l gs H) as (e & Hs & _). exists e. auto.
  Qed.

  Lemma error_sound gs k a f : good gs -> length (concat gs) < f ->
    efail (e_expression seg f) (concat gs) k a \/ k = KEof /\ a <> [] /\ (exists x, ok (expression seg f) (concat gs) a x) ->
    regex_error gs k a.
  Proof.
    intros Hg Hf [H|(-> & Hn & x & H)].
    - pose proof (expression_fail f gs k a Hg Hf H) as (-> & D). rewrite good_seg in D by auto. unfold regex_error.
      destruct D as [(-> & ->)|(-> & Hn)]; [left; auto|]. right; left. repeat split; auto.
      intros g1 g2 -> He. apply an_expression_iff in He as (l & Ha).
      destruct (expression_least seg Hdiv l g1 g2 f Ha Hg Hf) as (i & t & E).
      apply (erases_ok (e_expression seg f)) in E; [|apply er_expression]. unfold eok, efail in *. congruence.
    - unfold regex_error. right; right. split; auto.
      destruct (expression_sound seg Hdiv f gs a x Hg H) as (l & u & k & -> & -> & Ha & ->). exists u, k. repeat split; auto.
      + intros ->. apply Hn. reflexivity.
      + apply an_expression_iff. eauto.
      + intros h1 h2 E He. apply an_expression_iff in He as (l' & Ha'). rewrite E in Hg, Hf, H.
        eapply (expression_longest seg Hdiv l' h1 h2 f _ _ u k); eauto.
  Qed.
  Lemma regex_error_det gs k a k' a' : regex_error gs k a -> regex_error gs k' a' -> k = k' /\ a = a'.
  Proof.
    unfold regex_error. intros [(-> & -> & ->)|[(Hn & -> & -> & H)|(-> & g1 & g2 & -> & Hn & -> & He & Hl)]].
    - intros [(_ & -> & ->)|[(Hn & _)|(_ & g1 & g2 & E & Hn & _)]]; auto; [congruence|].
      symmetry in E. apply app_eq_nil in E as (_ & E). congruence.
    - intros [(-> & _)|[(_ & -> & -> & _)|(_ & g1 & g2 & E & _ & _ & He & _)]]; auto; [congruence|]. destruct (H _ _ E He).
    - intros [(E & _)|[(_ & _ & _ & H)|(-> & h1 & h2 & E & _ & -> & He' & Hl')]].
      + apply app_eq_nil in E as (_ & E). congruence.
      + destruct (H _ _ eq_refl He).
      + split; auto. pose proof (Hl _ _ E He') as L1. pose proof (Hl' _ _ eq_refl He) as L2.
        apply app_eq_app in E as (x & [(-> & ->)|(-> & ->)]); rewrite app_length in *; destruct x; simpl in *; auto; lia.
  Qed.
  Lemma regex_error_no gs k a : regex_error gs k a -> ~ an_expression gs.
  Proof.
    unfold regex_error. intros [(-> & _)|[(_ & _ & _ & H)|(_ & g1 & g2 & -> & Hn & _ & _ & Hl)]] He.
    - apply an_expression_iff in He as (l & H). inversion H as [l' u Ha|l' u ls v Ha Hl]; subst.
      + destruct (atoms_head _ _ Ha) as (g & u' & E & _). discriminate.
      + destruct u; discriminate.
    - apply (H gs []); [symmetry; apply app_nil_r|auto].
    - specialize (Hl (g1 ++ g2) []). rewrite app_nil_r in Hl. specialize (Hl eq_refl He). rewrite app_length in Hl.
      destruct g2; [congruence|simpl in Hl; lia].
  Qed.

  Lemma er_regex : erases (fun i => let t := trim i in e_expression seg (S (length t)) t) (fun i => let t := trim i in expression seg (S (length t)) t).
  Proof. intros i. apply er_expression. Qed.
  Lemma try_regex_total u : exists r, try_regex seg u = Ret r.
  Proof.
    destruct (parse_regex_total seg u) as (r & H). unfold parse_regex in H. rewrite (try_with_erase _ _ er_regex) in H.
    unfold try_regex. destruct (try_with _ u) as [r'| |]; eauto; discriminate.
  Qed.
  Theorem try_regex_fail gs u k a : tokens seg gs -> trims_to u (concat gs) ->
    (try_regex seg u = Ret (Err (mk_error k a)) <-> regex_error gs k a).
  Proof.
    intros Hr Ht. pose proof (proj1 (trim_spec _ _) Ht) as Et.
    assert (D : forall k a, try_regex seg u = Ret (Err (mk_error k a)) -> regex_error gs k a).
    { intros k' a' H. unfold try_regex in H. apply (try_with_fail _ _ _ _ _ er_regex) in H. unfold efail, ok in H. cbv zeta in H.
      rewrite Et in H. apply (error_sound gs k' a' (S (length (concat gs)))); [auto|lia|exact H]. }
    split; [apply D|]. intros H. destruct (try_regex_total u) as ([t|[k' a']] & E).
    - exfalso. apply (regex_error_no gs k a H). pose proof E as E'. unfold try_regex in E'.
      destruct (parse_regex_sound seg t gs u Hdiv Hr Ht) as (e & He & _); [|exists e; exact He].
      unfold parse_regex. rewrite (try_with_erase _ _ er_regex). cbv zeta in *. rewrite E'. reflexivity.
    - destruct (regex_error_det gs k a k' a' H (D _ _ E)) as (-> & ->). exact E.
  Qed.
End Errors.
