(** * ErrCliProofs: totality, names and positions of syntax errors *)
From Coq Require Import String List NArith Arith Bool Lia.
From Verif Require Import Base BaseLemmas Spec TableSpec LayoutSpec RegexSpec ErrSpec ParserModel ParserBasics FaParserProofs RegexModel RegexParserModel
  RegexParserProofs Messages CliModel CliSpec CliProofs ErrModel ErrBasics ErrProofs ErrRegexProofs ErrCliModel.
Import ListNotations.
Close Scope string_scope.
Open Scope list_scope.

Lemma try_dfa_ok u p : try_dfa u = Ret (Ok p) <-> dfa_text p u.
Proof.
  rewrite <- parse_dfa_iff. unfold parse_dfa, try_dfa. rewrite (try_with_erase _ _ er_full_dfa).
  destruct (try_with e_full_dfa u) as [[x|x]| |]; cbn [bind]; split; congruence.
Qed.
Lemma try_nfa_ok u p : try_nfa u = Ret (Ok p) <-> nfa_text p u.
Proof.
  rewrite <- parse_nfa_iff. unfold parse_nfa, try_nfa. rewrite (try_with_erase _ _ er_full_nfa).
  destruct (try_with e_full_nfa u) as [[x|x]| |]; cbn [bind]; split; congruence.
Qed.
Lemma try_regex_ok seg u t : try_regex seg u = Ret (Ok t) <-> parse_regex seg u = Ret (Some t).
Proof.
  unfold parse_regex, try_regex. rewrite (try_with_erase _ _ (er_regex seg)). cbv zeta.
  destruct (try_with _ u) as [[x|x]| |]; cbn [bind]; split; congruence.
Qed.
Lemma try_dfa_total u : exists r, try_dfa u = Ret r.
Proof.
  destruct (parse_dfa_total u) as (r & H). unfold parse_dfa in H. rewrite (try_with_erase _ _ er_full_dfa) in H.
  unfold try_dfa. destruct (try_with e_full_dfa u) as [r'| |]; eauto; discriminate.
Qed.
Lemma try_nfa_total u : exists r, try_nfa u = Ret r.
Proof.
  destruct (parse_nfa_total u) as (r & H). unfold parse_nfa in H. rewrite (try_with_erase _ _ er_full_nfa) in H.
  unfold try_nfa. destruct (try_with e_full_nfa u) as [r'| |]; eauto; discriminate.
Qed.

(** ** A text has a meaning or exactly one error *)
Lemma dfa_one_error u : (exists p, dfa_text p u) /\ (forall k a, ~ dfa_error u k a) \/
  (forall p, ~ dfa_text p u) /\ exists k a, dfa_error u k a /\ forall k' a', dfa_error u k' a' -> k' = k /\ a' = a.
Proof.
  destruct (try_dfa_total u) as ([p|[k a]] & E); [left|right]; split.
  - exists p. apply try_dfa_ok. auto.
  - intros k a H. apply try_dfa_fail in H. congruence.
  - intros p H. apply try_dfa_ok in H. congruence.
  - exists k, a. split; [apply try_dfa_fail; auto|]. intros k' a' H. apply try_dfa_fail in H. rewrite H in E. injection E as -> ->. auto.
Qed.
Lemma nfa_one_error u : (exists p, nfa_text p u) /\ (forall k a, ~ nfa_error u k a) \/
  (forall p, ~ nfa_text p u) /\ exists k a, nfa_error u k a /\ forall k' a', nfa_error u k' a' -> k' = k /\ a' = a.
Proof.
  destruct (try_nfa_total u) as ([p|[k a]] & E); [left|right]; split.
  - exists p. apply try_nfa_ok. auto.
  - intros k a H. apply try_nfa_fail in H. congruence.
  - intros p H. apply try_nfa_ok in H. congruence.
  - exists k, a. split; [apply try_nfa_fail; auto|]. intros k' a' H. apply try_nfa_fail in H. rewrite H in E. injection E as -> ->. auto.
Qed.

(** ** Positions and names *)
Ltac suffix := match goal with |- exists v, _ = v ++ ?a => repeat rewrite <- ?app_assoc; repeat rewrite app_assoc; eexists; reflexivity end.
Lemma sfx (p u a v : str) : u = p ++ v -> (exists q, v = q ++ a) -> exists q, u = q ++ a.
Proof. intros -> (q & ->). exists (p ++ q). rewrite app_assoc. auto. Qed.
Lemma sfx0 (a : str) : exists q, a = q ++ a.
Proof. exists []. auto. Qed.
Lemma skipped_sfx u v a : skipped u v -> (exists q, v = q ++ a) -> exists q, u = q ++ a.
Proof. intros (j & t & -> & _) H. apply (sfx (j ++ t) _ _ v); [rewrite app_assoc; auto|auto]. Qed.

Lemma no_token_named k v : no_token k v -> exists n, kind_name k n.
Proof. intros [(-> & _)|(-> & _)]; eexists; constructor. Qed.
Section Table.
  Context (head : str -> Prop) (no_head : str -> kind -> str -> Prop) (no_entry : str -> str -> Prop)
    (body : str -> Prop) (no_cell : str -> kind -> str -> Prop) (a_cell : str -> Prop) (no_more : str -> str -> Prop)
    (H1 : forall v k a, no_head v k a -> (exists q, v = q ++ a) /\ exists n, kind_name k n)
    (H2 : forall v k a, no_cell v k a -> (exists q, v = q ++ a) /\ exists n, kind_name k n).
  Lemma line_error_sfx v k a : line_error no_cell v k a -> (exists q, v = q ++ a) /\ exists n, kind_name k n.
  Proof.
    intros (b & w & -> & _ & _ & [(m & -> & _ & _ & Hk)|[(i & ac & nm & st & -> & _ & _ & _ & ->)|(i & ac & nm & st & b1 & x & -> & _ & _ & _ & Hc)]]).
    - split; [exists (b ++ m); rewrite app_assoc; auto|]. eapply no_token_named; eauto.
    - split; [exists (b ++ st); rewrite app_assoc; auto|]. eexists; constructor.
    - apply H2 in Hc as (Hq & Hk). split; auto. apply (sfx (b ++ st ++ b1) _ _ x); auto. rewrite <- !app_assoc. auto.
  Qed.
  Lemma table_error_sfx u k a : table_error head no_head no_entry body no_cell a_cell no_more u k a ->
    (exists q, u = q ++ a) /\ exists n, kind_name k n.
  Proof.
    intros (v & Hs & [H|(h & t & v1 & -> & _ & _ & [(-> & -> & _)|(e & w & v2 & -> & _ & Hs2 & [H|(ls & t' & v3 & -> & _ & _ & -> & _ & D)])])]).
    - apply H1 in H as (Hq & Hk). split; auto. eapply skipped_sfx; eauto.
    - split; [|eexists; constructor]. eapply skipped_sfx; eauto. exists (h ++ t). rewrite app_assoc. auto.
    - apply line_error_sfx in H as (Hq & Hk). split; auto. eapply skipped_sfx; eauto. apply (sfx (h ++ t ++ e) _ _ w); [rewrite <- !app_assoc; auto|].
      eapply skipped_sfx; eauto.
    - split; [|eexists; constructor]. eapply skipped_sfx; eauto. apply (sfx (h ++ t ++ e) _ _ w); [rewrite <- !app_assoc; auto|].
      eapply skipped_sfx; eauto. apply (sfx (ls ++ t') _ _ v3); [rewrite app_assoc; auto|]. destruct D as [(-> & _)|(e' & w' & -> & _ & Hs3 & _)].
      + apply sfx0.
      + apply (sfx e' _ _ w'); auto. eapply skipped_sfx; eauto. apply sfx0.
  Qed.
End Table.
Lemma dfa_error_sfx u k a : dfa_error u k a -> (exists q, u = q ++ a) /\ exists n, kind_name k n.
Proof.
  apply table_error_sfx.
  - intros v k' a' (b & -> & _ & _ & H). split; [exists b; auto|]. eapply no_token_named; eauto.
  - intros v k' a' (-> & H). split; [apply sfx0|]. eapply no_token_named; eauto.
Qed.
Lemma nfa_error_sfx u k a : nfa_error u k a -> (exists q, u = q ++ a) /\ exists n, kind_name k n.
Proof.
  apply table_error_sfx.
  - intros v k' a' (b & -> & _ & _ & _ & ->). split; [exists b; auto|]. eexists; constructor.
  - intros v k' a' (-> & [(-> & _)|(b & ns & t & -> & _)]); (split; [|eexists; constructor]); [apply sfx0|].
    exists ([123%N] ++ b ++ ns ++ t). rewrite <- !app_assoc. auto.
Qed.
Lemma regex_error_sfx gs k a : regex_error gs k a -> (exists q, concat gs = q ++ a) /\ exists n, kind_name k n.
Proof.
  intros [(-> & -> & ->)|[(_ & -> & -> & _)|(-> & g1 & g2 & -> & _ & -> & _)]]; (split; [|eexists; constructor]); try apply sfx0.
  exists (concat g1). apply concat_app.
Qed.

(** ** Messages *)
Lemma display_shown k a : (exists n, kind_name k n) -> shown_error k a (error_display (mk_error k a)).
Proof. intros (n & H). exists n. split; auto. destruct H; reflexivity. Qed.
Lemma debug_shown quote k a : (exists n, kind_name k n) -> debug_error k (quote a) (error_debug quote (mk_error k a)).
Proof. intros (n & H). exists n. split; auto. destruct H; reflexivity. Qed.

Lemma nom_texts quote env ty u :
  (ty = TRegex -> divides (ce_seg env)) ->
  ~ text_parses (ce_seg env) ty u ->
  exists k a, syntax_error (ce_seg env) ty u k a /\ shown_error k a (ce_nom_display (with_nom quote env) ty u) /\
    debug_error k (quote a) (ce_nom_debug (with_nom quote env) ty u).
Proof.
  intros Hr Hn. destruct ty; simpl in *.
  - destruct (try_dfa_total u) as ([p|[k a]] & E); [destruct Hn; exists p; apply try_dfa_ok; auto|]. rewrite E.
    apply try_dfa_fail in E. exists k, a. split; auto. apply dfa_error_sfx in E as (_ & E). split; [apply display_shown|apply debug_shown]; auto.
  - destruct (try_nfa_total u) as ([p|[k a]] & E); [destruct Hn; exists p; apply try_nfa_ok; auto|]. rewrite E.
    apply try_nfa_fail in E. exists k, a. split; auto. apply nfa_error_sfx in E as (_ & E). split; [apply display_shown|apply debug_shown]; auto.
  - specialize (Hr eq_refl). destruct (tokens_exist (ce_seg env) Hr (trim u)) as (gs & H1 & H2).
    assert (H3 : trims_to u (concat gs)) by (apply trim_spec; auto).
    destruct (try_regex_total (ce_seg env) u) as ([p|[k a]] & E); [destruct Hn; exists p; apply try_regex_ok; auto|]. rewrite E.
    exists k, a. split; [intros gs' H1' H3'; apply (try_regex_fail (ce_seg env) Hr gs' u); auto|].
    apply (try_regex_fail (ce_seg env) Hr gs u k a H1 H3) in E. apply regex_error_sfx in E as (_ & E).
    split; [apply display_shown|apply debug_shown]; auto.
Qed.

Lemma parse_regex_none seg u : ~ (exists t, parse_regex seg u = Ret (Some t)) -> parse_regex seg u = Ret None.
Proof. intros H. destruct (parse_regex_total seg u) as ([t|] & E); auto. destruct H. eauto. Qed.
Lemma parse_dfa_none u : ~ (exists t, dfa_text t u) -> parse_dfa u = Ret None.
Proof. intros H. destruct (parse_dfa_total u) as ([t|] & E); auto. destruct H. exists t. apply parse_dfa_iff. auto. Qed.
Lemma parse_nfa_none u : ~ (exists t, nfa_text t u) -> parse_nfa u = Ret None.
Proof. intros H. destruct (parse_nfa_total u) as ([t|] & E); auto. destruct H. exists t. apply parse_nfa_iff. auto. Qed.
Lemma error_messages quote env0 ty u :
  let env := with_nom quote env0 in
  (ty = TRegex -> divides (ce_seg env)) ->
  ~ text_parses (ce_seg env) ty u ->
  exists k a m d, syntax_error (ce_seg env) ty u k a /\ shown_error k a m /\ debug_error k (quote a) d /\
    cli_load env u ty = Ret (Err (of_string (match ty with TRegex => "Error parsing Regex: " | _ => "Error parsing DFA: " end) ++ m)) /\
    forall hs,
      load_test env hs u ty = Ret (Err (FailedToParse m)) /\
      tester_load env hs u ty =
        Ret (Err (of_string match ty with
                            | TDfa => "Error parsing DFA: " | TNfa => "Error parsing NFA: " | TRegex => "Error parsing regular expression: "
                            end ++ d)) /\
      (ty = TRegex -> forall n, enumerate_regex env hs u n = Ret ([], Err m)).
Proof.
  intros env Hr Hn. destruct (nom_texts quote env0 ty u Hr Hn) as (k & a & H1 & H2 & H3).
  fold env in H2, H3. exists k, a, (ce_nom_display env ty u), (ce_nom_debug env ty u). split; [exact H1|]. split; [exact H2|]. split; [exact H3|].
  destruct ty; unfold text_parses in Hn.
  - apply parse_dfa_none in Hn. split; [unfold cli_load; rewrite Hn; reflexivity|]. intros hs.
    split; [unfold load_test; rewrite Hn; reflexivity|]. split; [unfold tester_load; rewrite Hn; reflexivity|]. discriminate.
  - apply parse_nfa_none in Hn. split; [unfold cli_load; rewrite Hn; reflexivity|]. intros hs.
    split; [unfold load_test; rewrite Hn; reflexivity|]. split; [unfold tester_load; rewrite Hn; reflexivity|]. discriminate.
  - apply parse_regex_none in Hn. split; [unfold cli_load; rewrite Hn; reflexivity|]. intros hs.
    split; [unfold load_test; rewrite Hn; reflexivity|]. split; [unfold tester_load; rewrite Hn; reflexivity|].
    intros _ n. unfold enumerate_regex. rewrite Hn. reflexivity.
Qed.

(** The texts thrown by the wasm bindings *)
Lemma wasm_texts seg quote ty u : (ty = TRegex -> divides seg) -> ~ text_parses seg ty u ->
  exists k a d, syntax_error seg ty u k a /\ debug_error k (quote a) d /\
    wasm_syntax seg quote ty u =
      of_string (match ty with TDfa => "Error parsing DFA: " | TNfa => "Error parsing NFA: " | TRegex => "Error parsing Regex: " end) ++ d.
Proof.
  intros Hr Hn. pose (env := mk_cli_env (fun _ => Err []) (fun _ _ => []) (fun _ _ => []) seg false false 0).
  destruct (nom_texts quote env ty u Hr Hn) as (k & a & H1 & _ & H3). exists k, a, (ce_nom_debug (with_nom quote env) ty u).
  split; [exact H1|]. split; [exact H3|]. reflexivity.
Qed.
