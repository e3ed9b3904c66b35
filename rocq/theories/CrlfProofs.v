(** * CrlfProofs: line feeds may be replaced by CRLF *)
From Coq Require Import List NArith Arith Bool Lia.
From Verif Require Import Base BaseLemmas Spec TableSpec LayoutSpec.
Import ListNotations.
Local Open Scope N_scope.

Lemma crlf_app u v : crlf (u ++ v) = crlf u ++ crlf v.
Proof. induction u as [|c u IH]; simpl; auto. destruct (c =? 10); simpl; rewrite IH; auto. Qed.
Lemma crlf_id u : ~ In 10 u -> crlf u = u.
Proof.
  induction u as [|c u IH]; intros H; simpl; auto. destruct (N.eqb_spec c 10) as [-> |_]; [destruct H; left; auto|].
  rewrite IH; auto. intros C. apply H. right; auto.
Qed.

Lemma blank_lf b : blank b -> ~ In 10 b.
Proof. intros H C. destruct (H _ C); discriminate. Qed.
Lemma token_lf t : legal_token t -> ~ In 10 t.
Proof. intros (_ & H & _) C. destruct (H _ C) as (W & _). apply W. left. lia. Qed.
Lemma arrow_lf u : arrow_text u -> ~ In 10 u.
Proof. intros [-> | ->] C; simpl in C; intuition discriminate. Qed.
Lemma trail_lf t : trail t -> ~ In 10 t.
Proof.
  intros (b & c & -> & Hb & Hc) C. apply in_app_iff in C as [C|C]; [exact (blank_lf b Hb C)|].
  destruct Hc as [-> |(t & -> & Ht)]; [destruct C|]. destruct C as [C|C]; [discriminate|]. destruct (Ht _ C). auto.
Qed.
Lemma eol_crlf e : eol e -> ~ In 13 e -> eol (crlf e).
Proof. intros [-> | ->] H; [right; auto|]. destruct H. left; auto. Qed.
Lemma junk_line_crlf l : junk_line l -> ~ In 13 l -> junk_line (crlf l).
Proof.
  intros (t & e & -> & Ht & He) Hn. exists t, (crlf e). rewrite crlf_app, (crlf_id t) by (apply trail_lf; auto).
  split; auto. split; auto. apply eol_crlf; auto. intros C. apply Hn. apply in_app_iff. auto.
Qed.
Lemma junk_lines_crlf ls : Forall junk_line ls -> ~ In 13 (concat ls) -> exists ls', crlf (concat ls) = concat ls' /\ Forall junk_line ls'.
Proof.
  intros HF. induction HF as [|l ls Hl HF IH]; intros Hn; simpl in *.
  - exists []. auto.
  - destruct IH as (ls' & E & H'). { intros C. apply Hn. apply in_app_iff. auto. }
    exists (crlf l :: ls'). rewrite crlf_app, E. split; auto. constructor; auto. apply junk_line_crlf; auto.
    intros C. apply Hn. apply in_app_iff. auto.
Qed.
Lemma junk_crlf j : junk j -> ~ In 13 j -> junk (crlf j).
Proof. intros (ls & -> & H) Hn. destruct (junk_lines_crlf ls H Hn) as (ls' & -> & H'). exists ls'. auto. Qed.
Lemma junk1_crlf j : junk1 j -> ~ In 13 j -> junk1 (crlf j).
Proof.
  intros (l & ls & -> & Hl & H) Hn. destruct (junk_lines_crlf ls H) as (ls' & E & H').
  { intros C. apply Hn. apply in_app_iff. auto. }
  exists (crlf l), ls'. rewrite crlf_app, E. split; auto. split; auto. apply junk_line_crlf; auto.
  intros C. apply Hn. apply in_app_iff. auto.
Qed.

Lemma sep_by_lf {A} (sep : str -> Prop) (item : A -> str -> Prop) l u :
  (forall s, sep s -> ~ In 10 s) -> (forall a v, item a v -> ~ In 10 v) -> sep_by sep item l u -> ~ In 10 u.
Proof.
  intros Hs Hi H. induction H as [a u Hu|a u s l v Hu Hsep H IH]; [eauto|].
  intros C. apply in_app_iff in C as [C|C]; [exact (Hi _ _ Hu C)|]. apply in_app_iff in C as [C|C]; [exact (Hs _ Hsep C)|auto].
Qed.
Lemma sep_by_crlf {A} (item : A -> str -> Prop) l u : (forall a v, item a v -> ~ In 10 v) ->
  sep_by junk1 item l u -> ~ In 13 u -> sep_by junk1 item l (crlf u).
Proof.
  intros Hi H. induction H as [a u Hu|a u s l v Hu Hsep H IH]; intros Hn.
  - rewrite crlf_id by eauto. constructor; auto.
  - rewrite !crlf_app, (crlf_id u) by eauto. constructor; auto.
    + apply junk1_crlf; auto. intros C. apply Hn. rewrite !in_app_iff. auto.
    + apply IH. intros C. apply Hn. rewrite !in_app_iff. auto.
Qed.

Lemma blank1_lf b : blank1 b -> ~ In 10 b.
Proof. intros (H & _). apply blank_lf; auto. Qed.
Lemma token_text_lf t u : token_text t u -> ~ In 10 u.
Proof. intros (H & ->). apply token_lf; auto. Qed.
Lemma line_start_lf i a nm u : line_start i a nm u -> ~ In 10 u.
Proof.
  intros (w & s & -> & Hi & Ha & Hn) C. apply in_app_iff in C as [C|C]; [|apply in_app_iff in C as [C|C]].
  - destruct i; [|subst; destruct C]. destruct Hi as (w' & b & -> & Hw & Hb). apply in_app_iff in C as [C|C].
    + exact (arrow_lf _ Hw C).
    + exact (blank1_lf _ Hb C).
  - destruct a; [|subst; destruct C]. destruct Ha as (b & -> & Hb). destruct C as [C|C]; [discriminate|]. exact (blank1_lf _ Hb C).
  - exact (token_lf _ Hn C).
Qed.
Lemma set_text_lf ts u : set_text ts u -> ~ In 10 u.
Proof.
  intros (b1 & v & b2 & -> & H1 & H2 & Hv) C. rewrite !in_app_iff in C. destruct C as [C|[C|[C|[C|C]]]].
  - destruct C as [C|[]]. discriminate.
  - exact (blank_lf _ H1 C).
  - destruct Hv as [(_ & ->)|Hv]; [destruct C|].
    exact (sep_by_lf _ _ _ _ blank1_lf token_text_lf Hv C).
  - exact (blank_lf _ H2 C).
  - destruct C as [C|[]]. discriminate.
Qed.
Lemma entry_text_lf e u : entry_text e u -> ~ In 10 u.
Proof.
  destruct e; simpl.
  - apply token_text_lf.
  - intros [-> | ->] C; simpl in C; intuition discriminate.
Qed.
Lemma dfa_line_text_lf s u : dfa_line_text s u -> ~ In 10 u.
Proof.
  intros (b0 & st & b & ts & -> & H0 & Hb & Hst & Hts) C. rewrite !in_app_iff in C. destruct C as [C|[C|[C|C]]].
  - exact (blank_lf _ H0 C).
  - exact (line_start_lf _ _ _ _ Hst C).
  - exact (blank1_lf _ Hb C).
  - exact (sep_by_lf _ _ _ _ blank1_lf token_text_lf Hts C).
Qed.
Lemma nfa_line_text_lf s u : nfa_line_text s u -> ~ In 10 u.
Proof.
  intros (b0 & st & b & ts & -> & H0 & Hb & Hst & Hts) C. rewrite !in_app_iff in C. destruct C as [C|[C|[C|C]]].
  - exact (blank_lf _ H0 C).
  - exact (line_start_lf _ _ _ _ Hst C).
  - exact (blank1_lf _ Hb C).
  - exact (sep_by_lf _ _ _ _ blank1_lf set_text_lf Hts C).
Qed.
Lemma dfa_head_text_lf h u : dfa_head_text h u -> ~ In 10 u.
Proof.
  intros (b & ts & -> & Hb & Hts) C. apply in_app_iff in C as [C|C]; [exact (blank_lf _ Hb C)|].
  exact (sep_by_lf _ _ _ _ blank1_lf token_text_lf Hts C).
Qed.
Lemma nfa_head_text_lf h u : nfa_head_text h u -> ~ In 10 u.
Proof.
  intros (b & ts & -> & Hb & Hts) C. apply in_app_iff in C as [C|C]; [exact (blank_lf _ Hb C)|].
  exact (sep_by_lf _ _ _ _ blank1_lf entry_text_lf Hts C).
Qed.

Lemma dfa_text_crlf p u : dfa_text p u -> ~ In 13 u -> dfa_text p (crlf u).
Proof.
  intros (j0 & h & j1 & body & j2 & t & -> & H0 & Hh & H1 & Hbody & H2 & Ht) Hn. rewrite !in_app_iff in Hn.
  exists (crlf j0), h, (crlf j1), (crlf body), (crlf j2), t. rewrite !crlf_app, (crlf_id h), (crlf_id t).
  2:{ apply trail_lf; auto. } 2:{ eapply dfa_head_text_lf; eauto. }
  split; auto. split; [apply junk_crlf; tauto|]. split; auto. split; [apply junk1_crlf; tauto|].
  split; [apply sep_by_crlf; auto; [apply dfa_line_text_lf|tauto]|]. split; auto. apply junk_crlf; tauto.
Qed.
Lemma nfa_text_crlf p u : nfa_text p u -> ~ In 13 u -> nfa_text p (crlf u).
Proof.
  intros (j0 & h & j1 & body & j2 & t & -> & H0 & Hh & H1 & Hbody & H2 & Ht) Hn. rewrite !in_app_iff in Hn.
  exists (crlf j0), h, (crlf j1), (crlf body), (crlf j2), t. rewrite !crlf_app, (crlf_id h), (crlf_id t).
  2:{ apply trail_lf; auto. } 2:{ eapply nfa_head_text_lf; eauto. }
  split; auto. split; [apply junk_crlf; tauto|]. split; auto. split; [apply junk1_crlf; tauto|].
  split; [apply sep_by_crlf; auto; [apply nfa_line_text_lf|tauto]|]. split; auto. apply junk_crlf; tauto.
Qed.

(** ** Junk before and after *)
Lemma junk_app a b : junk a -> junk b -> junk (a ++ b).
Proof.
  intros (l1 & -> & H1) (l2 & -> & H2). exists (l1 ++ l2). rewrite concat_app. split; auto. apply Forall_app. auto.
Qed.
Lemma junk_one l : junk_line l -> junk l.
Proof. intros H. exists [l]. simpl. rewrite app_nil_r. split; auto. Qed.

Lemma dfa_text_before p j u : junk j -> dfa_text p u -> dfa_text p (j ++ u).
Proof.
  intros Hj (j0 & h & j1 & body & j2 & t & -> & H0 & Hh & H1 & Hbody & H2 & Ht).
  exists (j ++ j0), h, j1, body, j2, t. rewrite <- app_assoc. split; auto. split; [apply junk_app; auto|auto].
Qed.
Lemma nfa_text_before p j u : junk j -> nfa_text p u -> nfa_text p (j ++ u).
Proof.
  intros Hj (j0 & h & j1 & body & j2 & t & -> & H0 & Hh & H1 & Hbody & H2 & Ht).
  exists (j ++ j0), h, j1, body, j2, t. rewrite <- app_assoc. split; auto. split; [apply junk_app; auto|auto].
Qed.
Lemma dfa_text_after p e j t' u : eol e -> junk j -> trail t' -> dfa_text p u -> dfa_text p (u ++ e ++ j ++ t').
Proof.
  intros He Hj Ht' (j0 & h & j1 & body & j2 & t & -> & H0 & Hh & H1 & Hbody & H2 & Ht).
  exists j0, h, j1, body, (j2 ++ (t ++ e) ++ j), t'. rewrite <- !app_assoc. split; auto. split; auto. split; auto. split; auto.
  split; auto. split; auto. replace (j2 ++ t ++ e ++ j) with (j2 ++ (t ++ e) ++ j) by (rewrite <- app_assoc; reflexivity).
  apply junk_app; auto. apply junk_app; auto. apply junk_one. exists t, e. auto.
Qed.
Lemma nfa_text_after p e j t' u : eol e -> junk j -> trail t' -> nfa_text p u -> nfa_text p (u ++ e ++ j ++ t').
Proof.
  intros He Hj Ht' (j0 & h & j1 & body & j2 & t & -> & H0 & Hh & H1 & Hbody & H2 & Ht).
  exists j0, h, j1, body, (j2 ++ (t ++ e) ++ j), t'. rewrite <- !app_assoc. split; auto. split; auto. split; auto. split; auto.
  split; auto. split; auto. replace (j2 ++ t ++ e ++ j) with (j2 ++ (t ++ e) ++ j) by (rewrite <- app_assoc; reflexivity).
  apply junk_app; auto. apply junk_app; auto. apply junk_one. exists t, e. auto.
Qed.
