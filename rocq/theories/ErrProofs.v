(** * ErrProofs: the errors of the table parsers are those of ErrSpec *)
From Coq Require Import List NArith Arith Bool Lia.
From Verif Require Import Base BaseLemmas Spec TableSpec LayoutSpec ErrSpec ParserModel ParserBasics FaParserProofs RegexModel RegexParserModel
  ErrModel ErrBasics.
Import ListNotations.

(** ** Beginnings of texts *)
Lemma token_stop_iff v : token_stop v <-> stop_tok v.
Proof. destruct v as [|c v]; simpl; [tauto|]. rewrite token_end_spec. tauto. Qed.
Lemma no_blank_iff v : no_blank v <-> nonspace v.
Proof. destruct v as [|c v]; simpl; [tauto|]. rewrite <- not_true_iff_false, is_space_spec. tauto. Qed.
Lemma line_over_iff v : line_over v <-> line_rest v.
Proof.
  unfold line_over, line_rest, starts_eol. split; (intros [H|(e & w & H1 & H2)]; [left; auto|right; exists e, w; auto]).
Qed.

Lemma ok_det {A} (p : P A) i i1 i2 a b : ok p i i1 a -> ok p i i2 b -> i1 = i2 /\ a = b.
Proof. unfold ok. intros H1 H2. rewrite H1 in H2. injection H2 as -> ->. auto. Qed.
Lemma ok_not_bad {A} (p : P A) i i1 a : ok p i i1 a -> bad p i -> False.
Proof. unfold ok, bad. congruence. Qed.

Lemma name_fail i k a : efail e_state_name i k a <-> a = i /\ no_token k i.
Proof.
  unfold e_state_name. rewrite (verify_fail _ (take_till1 token_end)) by auto with er. unfold e_take_till1. rewrite basic_fail.
  unfold no_token. rewrite token_stop_iff. split.
  - intros [(Hb & -> & ->)|(-> & -> & i' & t & Ht & Hr)]; split; auto.
    + left. split; auto. unfold bad, take_till1 in Hb. pose proof (span_spec (fun c => negb (token_end c)) i) as Hs.
      destruct (span (fun c => negb (token_end c)) i) as [u v]. destruct Hs as (-> & _ & H2). destruct u; [|discriminate].
      simpl. destruct v as [|c v]; simpl; auto. apply negb_false_iff in H2. auto.
    + right. split; auto. apply take_till1_inv in Ht as (-> & H1 & H2 & H3). exists t, i'. split; auto. split.
      * apply negb_false_iff in Hr. apply mem_In. auto.
      * apply token_stop_iff. auto.
  - intros (-> & [(-> & H)|(-> & w & v & -> & Hw & Hv)]).
    + left. split; auto. unfold bad, take_till1. destruct i as [|c i]; simpl; auto. simpl in H. rewrite H. reflexivity.
    + right. split; auto. split; auto. exists v, w. apply token_stop_iff in Hv. split.
      * unfold ok, take_till1. rewrite span_app.
        -- destruct w; [|reflexivity]. vm_compute in Hw. intuition discriminate.
        -- intros c Hc. assert (E : token_end c = false); [|rewrite E; reflexivity].
           simpl in Hw. destruct Hw as [<- |[<- |[<- |[<- |[<- |[]]]]]]; simpl in Hc; intuition (subst; reflexivity).
        -- destruct v as [|c v]; auto. simpl in Hv. rewrite Hv. reflexivity.
      * apply negb_false_iff. apply mem_In. auto.
Qed.
Lemma name_bad_iff i : bad state_name i <-> exists k, no_token k i.
Proof.
  rewrite (erases_bad _ _ i er_state_name). split.
  - intros (k & a & H). apply name_fail in H as (_ & H). eauto.
  - intros (k & H). exists k, i. apply name_fail. auto.
Qed.
Lemma no_token_stop v : stop_tok v -> exists k, no_token k v.
Proof. intros H. exists KTakeTill1. left. split; auto. apply token_stop_iff. auto. Qed.
Lemma a_token_iff v : a_token v <-> exists w t, ok state_name v w t.
Proof.
  split.
  - intros (t & w & -> & Ht & Hw). exists w, t. apply state_name_ok; auto. apply token_stop_iff. auto.
  - intros (w & t & H). apply state_name_inv in H as (-> & H1 & H2). exists t, w. split; auto. split; auto. apply token_stop_iff. auto.
Qed.

(** ** Strictness *)
Lemma length_app_ne (u v : str) : u <> [] -> length v <> length (u ++ v).
Proof. intros H. rewrite app_length. destruct u; [congruence|simpl; lia]. Qed.
Lemma strict_space1 : strict space1.
Proof. intros i i' x H. apply space1_inv in H as (-> & (_ & H) & _). apply length_app_ne. auto. Qed.
Lemma strict_scl : strict space_comment_line.
Proof.
  intros i i' x H. apply scl_inv in H as [(l & Hl & ->)|(-> & _ & H)].
  - apply length_app_ne. apply junk_line_nonempty. auto.
  - destruct i; [congruence|simpl; lia].
Qed.
Lemma strict_many1_scl : strict (many1 space_comment_line).
Proof.
  intros i i' x H. apply pbind_inv in H as (i1 & a & H1 & H2).
  assert (L : length i1 < length i).
  { pose proof (strict_scl _ _ _ H1). destruct (total_scl i) as (r & E & Hr). unfold ok in H1. rewrite H1 in E. injection E as <-.
    destruct Hr as (u & ->). rewrite app_length in *. lia. }
  unfold ok in H2. destruct (many_loop_total _ total_scl (S (length i1)) [a] i1) as (r & E & Hr); [lia|]. rewrite H2 in E.
  injection E as <-. destruct Hr as (u & ->). rewrite app_length in *. lia.
Qed.

(** ** Skipping lines *)
Lemma starts_junk_nil : starts_junk [].
Proof. left. apply trail_nil. Qed.
Lemma scl_bad_iff v : bad space_comment_line v <-> v = [] \/ ~ starts_junk v.
Proof.
  split.
  - intros H. destruct v as [|c v]; auto. right. intros [Ht|(l & w & E & Hl)].
    + refine (ok_not_bad _ _ _ _ (scl_ok_end (c :: v) Ht _) H). discriminate.
    + rewrite E in H. exact (ok_not_bad _ _ _ _ (scl_ok_line l w Hl) H).
  - intros [->|H]; [apply scl_bad_nil|]. destruct (total_ok_or_bad _ v total_scl) as [(i' & x & H1)|H1]; auto.
    exfalso. apply H. apply scl_inv in H1 as [(l & Hl & ->)|(_ & H1 & _)]; [right|left]; eauto.
Qed.
Lemma many_loop_bad : forall fuel acc i i' l, many_loop fuel space_comment_line acc i = Ret (Some (i', l)) -> bad space_comment_line i'.
Proof.
  induction fuel as [|fuel IH]; intros acc i i' l; cbn [many_loop]; [discriminate|].
  intros E. apply bind_Ret_inv in E as ([[i1 o]|] & E1 & E2).
  - destruct (length i1 =? length i); [discriminate|]. eauto.
  - injection E2 as <- <-. exact E1.
Qed.
Lemma skip_loop fuel acc i i' : length i < fuel ->
  ((exists l, many_loop fuel space_comment_line acc i = Ret (Some (i', l))) <-> skipped i i').
Proof.
  intros Hf. split.
  - intros (l & H). pose proof (many_loop_bad _ _ _ _ _ H) as Hb. apply many_loop_inv in H as (ls & t & -> & HF & Ht & Hc).
    exists (concat ls), t. split; auto. split; [exists ls; auto|]. apply scl_bad_iff in Hb as [->|Hb]; [right; auto|].
    destruct Hc as [-> | ->]; [left; auto|]. exfalso. apply Hb, starts_junk_nil.
  - intros (j & t & -> & (ls & -> & HF) & H). destruct (many_loop_lines ls fuel acc (t ++ i') HF Hf) as (f & acc' & Hf' & ->).
    destruct H as [(-> & H)|(Ht & ->)].
    + exists acc'. apply many_loop_stop; auto. apply scl_bad_iff. auto.
    + rewrite app_nil_r in *. destruct (many_loop_end t f acc' Ht Hf') as (l & ->). eauto.
Qed.
Lemma skip_iff i i' : (exists l, ok (many0 space_comment_line) i i' l) <-> skipped i i'.
Proof. apply skip_loop. lia. Qed.
Lemma skip1_iff e w i' : eol e -> ((exists l, ok (many1 space_comment_line) (e ++ w) i' l) <-> skipped w i').
Proof.
  intros He. assert (H0 : ok space_comment_line (e ++ w) w tt).
  { apply scl_ok_line. exists [], e. split; auto. split; auto. apply trail_nil. }
  rewrite <- (skip_loop (S (length w)) [tt]) by lia. unfold many1, ok, pbind. unfold ok in H0. rewrite H0. cbn [bind]. reflexivity.
Qed.
Lemma skipped_eol e w v : eol e -> (skipped (e ++ w) v <-> skipped w v).
Proof.
  intros He. assert (H0 : ok space_comment_line (e ++ w) w tt).
  { apply scl_ok_line. exists [], e. split; auto. split; auto. apply trail_nil. }
  pose proof (eol_nonempty e He) as Hn.
  rewrite <- (skip_loop (S (length (e ++ w))) []) by lia. cbn [many_loop]. unfold ok in H0. rewrite H0. cbn [bind].
  destruct (Nat.eqb_spec (length w) (length (e ++ w))) as [E|_]; [exfalso; revert E; apply length_app_ne; auto|].
  apply skip_loop. rewrite app_length. destruct e; [congruence|simpl; lia].
Qed.
Lemma skipped_det u v w : skipped u v -> skipped u w -> v = w.
Proof. intros H1 H2. apply skip_iff in H1 as (l1 & H1), H2 as (l2 & H2). apply (ok_det _ _ _ _ _ _ H1 H2). Qed.
Lemma skipped_total u : exists v, skipped u v.
Proof.
  destruct (total_many0 _ total_scl u) as (r & E & _). destruct r as [[v l]|].
  - exists v. apply skip_iff. exists l. exact E.
  - exfalso. assert (H : bad (many0 space_comment_line) u) by exact E.
    apply (erases_bad _ _ u (er_many0 _ _ er_scl)) in H as (k & a & H). revert H. apply (many0_nofail _ space_comment_line); auto with er.
    apply strict_scl.
Qed.

(** ** The rest of a line *)
Lemma comment_ok_iff i i' : ok p_comment i i' tt <-> exists c, i = c ++ i' /\ comment c /\ line_over i'.
Proof.
  split.
  - intros H. apply p_comment_inv in H as (c & -> & H1 & H2). exists c. split; auto. split; auto. apply line_over_iff. auto.
  - intros (c & -> & H1 & H2). apply p_comment_ok; auto. apply line_over_iff. auto.
Qed.
Lemma comment_bad_iff i : bad p_comment i <-> ~ starts_comment i.
Proof.
  split.
  - intros H (c & w & -> & H1). refine (ok_not_bad _ _ _ _ (p_comment_ok c w _ _) H); [tauto|]. apply line_over_iff. tauto.
  - intros H. destruct (total_ok_or_bad _ i total_p_comment) as [(i' & [] & H1)|]; auto. exfalso. apply H.
    apply comment_ok_iff in H1 as (c & -> & H1). exists c, i'. auto.
Qed.
Lemma space_comment_iff i i' : ok space_comment i i' tt <-> exists t, i = t ++ i' /\ line_tail (fun _ _ => True) t i'.
Proof.
  split.
  - intros H. apply pmap_inv in H as (ab & H & _). apply ppair_inv in H as (i1 & b & o & H1 & H2 & _).
    apply space0_inv in H1 as (-> & Hb & Hn). apply popt_inv in H2. destruct o as [[]|].
    + apply comment_ok_iff in H2 as (c & -> & Hc & Hl). exists (b ++ c). rewrite <- app_assoc. split; auto. left. exists b, c. auto.
    + destruct H2 as [H2 ->]. exists b. split; auto. right. split; auto. split; [apply no_blank_iff; auto|]. split; auto.
      apply comment_bad_iff. auto.
  - intros (t & -> & [(b & c & -> & Hb & Hc & Hl)|(Hb & Hn & Hc & _)]).
    + apply space_comment_ok; [exists b, c; auto|apply line_over_iff; auto].
    + apply (pmap_ok (fun _ => tt) _ _ _ (t, None)). eapply ppair_ok.
      * apply space0_ok; auto. apply no_blank_iff; auto.
      * apply popt_none. apply comment_bad_iff. auto.
Qed.
Lemma line_tail_trail nm t v : line_tail nm t v -> trail t.
Proof. intros [(b & c & -> & Hb & Hc & _)|(Hb & _)]; [exists b, c; auto|apply trail_blank; auto]. Qed.
Lemma line_tail_stay nm t v : line_tail nm t v -> ok space_comment v v tt.
Proof.
  intros H. apply space_comment_iff. exists []. split; auto. right. split; [apply blank_nil|].
  destruct H as [(b & c & _ & _ & _ & H)|(_ & H1 & H2 & _)]; auto.
  apply line_over_iff in H. split; [apply no_blank_iff, line_rest_nonspace; auto|]. split; auto.
  apply comment_bad_iff, line_rest_no_comment. auto.
Qed.
Lemma line_tail_mono (nm nm' : str -> str -> Prop) t v : (nm t v -> nm' t v) -> line_tail nm t v -> line_tail nm' t v.
Proof. intros H [H1|(H1 & H2 & H3 & H4)]; [left; auto|right; auto]. Qed.

(** ** Lists *)
Section Lists.
  Context {A : Type} (p : P A) (Hp : total p) (I : A -> str -> Prop) (F : str -> Prop) (nm : str -> str -> Prop).
  Hypothesis HI : forall a u k, I a u -> F k -> ok p (u ++ k) k a.
  Hypothesis HIn : forall a u k, I a u -> nonspace (u ++ k).
  Hypothesis HIinv : forall i i' a, ok p i i' a -> exists u, i = u ++ i' /\ I a u /\ F i'.
  Hypothesis HF : forall s k, blank1 s -> F (s ++ k).
  Hypothesis HFc : forall k, F (35%N :: k).
  Hypothesis Hpc : forall k, bad p (35%N :: k).
  Hypothesis Hnm : forall t v, nm t v <-> (t = [] -> F v) /\ (t <> [] -> bad p v).

  Lemma stop_blank t v : blank t -> nonspace v -> (sep_stop space1 p F (t ++ v) <-> nm t v).
  Proof.
    intros Ht Hv. rewrite Hnm. destruct t as [|c t].
    - simpl. split.
      + intros (H & _). split; auto. congruence.
      + intros (H & _). split; auto. left. apply space1_bad. auto.
    - assert (Hb : blank1 (c :: t)) by (split; [auto|discriminate]). assert (Ho := space1_ok _ v Hb Hv). split.
      + intros (_ & [H|(i1 & b & H1 & _ & H3)]).
        * exfalso. exact (ok_not_bad _ _ _ _ Ho H).
        * destruct (ok_det _ _ _ _ _ _ Ho H1) as [<- _]. split; [discriminate|auto].
      + intros (_ & H). split; [apply HF; auto|]. right. exists v, (c :: t). split; auto. split; [|apply H; discriminate].
        apply length_app_ne. discriminate.
  Qed.
  Lemma stop_tail r i' : sep_stop space1 p F r /\ ok space_comment r i' tt <-> exists t, r = t ++ i' /\ line_tail nm t i'.
  Proof.
    split.
    - intros (H1 & H2). apply space_comment_iff in H2 as (t & -> & [H|(Ht & Hv & Hc & _)]).
      + exists t. split; auto. left. auto.
      + exists t. split; auto. right. split; auto. split; auto. split; auto. apply stop_blank; auto. apply no_blank_iff. auto.
    - intros (t & -> & H). split.
      + destruct H as [(b & c & -> & Hb & (c' & -> & _) & Hl)|(Ht & Hv & Hc & H)].
        * rewrite <- app_assoc. apply stop_blank; auto; [reflexivity|]. apply Hnm. simpl. auto.
        * apply stop_blank; auto. apply no_blank_iff. auto.
      + apply space_comment_iff. exists t. split; auto. revert H. apply line_tail_mono. auto.
  Qed.

  Lemma sep_loop_stops : forall fuel acc i i' l, F i -> sep_loop fuel space1 p acc i = Ret (Some (i', l)) -> sep_stop space1 p F i'.
  Proof.
    induction fuel as [|fuel IH]; intros acc i i' l Hi; cbn [sep_loop]; [discriminate|].
    intros E. apply bind_Ret_inv in E as ([[i1 b]|] & E1 & E2); [|injection E2 as <- <-; split; auto].
    destruct (Nat.eqb_spec (length i1) (length i)) as [|Hne]; [discriminate|].
    apply bind_Ret_inv in E2 as ([[i2 a]|] & E2 & E3).
    - apply IH in E3; auto. apply HIinv in E2 as (u & -> & _ & H). auto.
    - injection E3 as <- <-. split; auto. right. exists i1, b. auto.
  Qed.
  Lemma list1_iff i i' l : ok (separated_list1 space1 p) i i' l <->
    exists v, i = v ++ i' /\ sep_by blank1 I l v /\ sep_stop space1 p F i'.
  Proof.
    split.
    - intros H. assert (Hs : sep_stop space1 p F i').
      { apply pbind_inv in H as (i1 & a & H1 & H2). apply HIinv in H1 as (u & -> & _ & H1). exact (sep_loop_stops _ _ _ _ _ H1 H2). }
      apply (separated_list1_inv space1 p blank1 I) in H as (v & -> & Hv).
      + exists v. auto.
      + intros j j' a Ha. apply HIinv in Ha as (u & -> & Hu & _). eauto.
      + intros j j' b Hb. apply space1_inv in Hb as (-> & Hb & _). eauto.
    - intros (v & -> & Hv & Hs). apply (separated_list1_ok space1 p blank1 I F); auto.
      + intros s a u k Hs' Hu. exists s. apply space1_ok; auto. eapply HIn; eauto.
      + intros s (_ & H). auto.
  Qed.
End Lists.

Lemma nm_tokens t v : no_more_tokens t v <-> (t = [] -> stop_tok v) /\ (t <> [] -> bad state_name v).
Proof.
  unfold no_more_tokens. rewrite <- name_bad_iff, token_stop_iff. split; intros (H1 & H2); split; auto.
  destruct t as [|c t]; [|apply H2; discriminate]. apply state_name_bad. auto.
Qed.
Lemma tokens_ok a u k : token_text a u -> stop_tok k -> ok state_name (u ++ k) k a.
Proof. intros (Hl & ->) Hk. apply state_name_ok; auto. Qed.
Lemma tokens_nonspace a u k : token_text a u -> nonspace (u ++ k).
Proof. intros H. destruct (token_starts a u k H) as (c & k' & -> & Hc). simpl. apply starts_space; auto. Qed.
Lemma tokens_inv i i' a : ok state_name i i' a -> exists u, i = u ++ i' /\ token_text a u /\ stop_tok i'.
Proof. intros H. apply state_name_inv in H as (-> & Hl & Hs). exists a. split; auto. split; auto. split; auto. Qed.
Lemma hash_stop k : stop_tok (35%N :: k). Proof. reflexivity. Qed.
Lemma hash_name k : bad state_name (35%N :: k). Proof. apply state_name_bad. reflexivity. Qed.

Lemma tokens_iff i i' l : ok (separated_list1 space1 state_name) i i' l <->
  exists v, i = v ++ i' /\ sep_by blank1 token_text l v /\ sep_stop space1 state_name stop_tok i'.
Proof.
  apply list1_iff.
  - apply tokens_ok.
  - apply tokens_nonspace.
  - apply tokens_inv.
  - intros s k. apply blank1_stop.
Qed.
Lemma tokens_tail r i' : sep_stop space1 state_name stop_tok r /\ ok space_comment r i' tt <-> exists t, r = t ++ i' /\ line_tail no_more_tokens t i'.
Proof.
  apply stop_tail.
  - intros s k. apply blank1_stop.
  - apply hash_stop.
  - apply hash_name.
  - apply nm_tokens.
Qed.

(** ** Lines of states *)
Definition opt_arrow : P (option unit) := popt (terminated p_arrow space1).
Definition opt_star : P (option unit) := popt (terminated p_accepting space1).
Definition is_some (o : option unit) : bool := match o with Some _ => true | None => false end.

Lemma arrow1_iff i i' : ok (terminated p_arrow space1) i i' tt <-> exists w b, i = w ++ b ++ i' /\ arrow_text w /\ blank1 b /\ nonspace i'.
Proof.
  split.
  - intros H. apply terminated_inv in H as (i1 & b & H1 & H2). apply arrow_inv in H1 as (w & -> & Hw).
    apply space1_inv in H2 as (-> & Hb & Hn). exists w, b. auto.
  - intros (w & b & -> & Hw & Hb & Hn). eapply terminated_ok; [apply arrow_ok; auto|apply space1_ok; auto].
Qed.
Lemma star1_iff i i' : ok (terminated p_accepting space1) i i' tt <-> exists b, i = 42%N :: b ++ i' /\ blank1 b /\ nonspace i'.
Proof.
  split.
  - intros H. apply terminated_inv in H as (i1 & b & H1 & H2). apply pmap_inv in H1 as (y & H1 & _). apply tag_inv in H1 as ->.
    apply space1_inv in H2 as (-> & Hb & Hn). exists b. auto.
  - intros (b & -> & Hb & Hn). eapply terminated_ok; [reflexivity|apply space1_ok; auto].
Qed.
(** blanks can be extended to all of them *)
Lemma blank1_extend b x : blank1 b -> exists b' x', b ++ x = b' ++ x' /\ blank1 b' /\ nonspace x'.
Proof.
  intros (Hb & Hn). pose proof (span_spec is_space x) as Hs. destruct (span is_space x) as [u v]. destruct Hs as (-> & Hu & Hv).
  exists (b ++ u), v. rewrite <- app_assoc. split; auto. split; auto. split.
  - apply blank_spec. intros c Hc. apply in_app_iff in Hc as [Hc|Hc]; auto. apply blank_spec with (b := b); auto.
  - intros E. apply app_eq_nil in E as [E _]. auto.
Qed.
Lemma arrow1_bad i : bad (terminated p_arrow space1) i <-> ~ exists w b x, i = w ++ b ++ x /\ arrow_text w /\ blank1 b.
Proof.
  split.
  - intros H (w & b & x & -> & Hw & Hb). destruct (blank1_extend b x Hb) as (b' & x' & Ex & Hb' & Hx). rewrite Ex in H.
    refine (ok_not_bad _ _ _ _ (proj2 (arrow1_iff (w ++ b' ++ x') x') _) H). exists w, b'. auto.
  - intros H. destruct (total_ok_or_bad (terminated p_arrow space1) i) as [(i' & [] & H1)|]; auto with total.
    exfalso. apply H. apply arrow1_iff in H1 as (w & b & -> & Hw & Hb & _). eauto 6.
Qed.
Lemma star1_bad i : bad (terminated p_accepting space1) i <-> ~ exists b x, i = 42%N :: b ++ x /\ blank1 b.
Proof.
  split.
  - intros H (b & x & -> & Hb). destruct (blank1_extend b x Hb) as (b' & x' & Ex & Hb' & Hx). rewrite Ex in H.
    refine (ok_not_bad _ _ _ _ (proj2 (star1_iff (42%N :: b' ++ x') x') _) H). exists b'. auto.
  - intros H. destruct (total_ok_or_bad (terminated p_accepting space1) i) as [(i' & [] & H1)|]; auto with total.
    exfalso. apply H. apply star1_iff in H1 as (b & -> & Hb & _). eauto.
Qed.

Lemma markers_iff w v : nonspace w ->
  ((exists i1 oa os, ok opt_arrow w i1 oa /\ ok opt_star i1 v os) <-> exists m, w = m ++ v /\ markers m v /\ nonspace v).
Proof.
  intros Hw. split.
  - intros (i1 & oa & os & H1 & H2). apply popt_inv in H1, H2.
    assert (Hs : exists s, i1 = s ++ v /\ ((exists b, s = 42%N :: b /\ blank1 b) \/ s = [] /\ ~ exists b x, v = 42%N :: b ++ x /\ blank1 b) /\
                           (nonspace i1 -> nonspace v)).
    { destruct os as [[]|].
      - apply star1_iff in H2 as (b & -> & Hb & Hn). exists (42%N :: b). split; auto. split; auto. left. exists b. auto.
      - destruct H2 as (H2 & ->). exists []. split; auto. split; auto. right. split; auto. apply star1_bad. auto. }
    destruct Hs as (s & -> & Hs & Hn). destruct oa as [[]|].
    + apply arrow1_iff in H1 as (w0 & b & -> & Hw0 & Hb & Hn'). exists ((w0 ++ b) ++ s). rewrite <- !app_assoc. split; auto.
      split; auto. exists (w0 ++ b), s. split; [rewrite <- app_assoc; auto|]. split; auto. left. exists w0, b. auto.
    + destruct H1 as (H1 & <-). exists s. split; auto. split; auto. exists [], s. split; auto. split; auto. right. split; auto.
      apply arrow1_bad. auto.
  - intros (m & -> & (a & s & -> & Ha & Hs) & Hn). rewrite <- app_assoc in *.
    assert (H2 : exists os, ok opt_star (s ++ v) v os).
    { destruct Hs as [(b & -> & Hb)|(-> & Hs)].
      - exists (Some tt). apply popt_some. apply star1_iff. exists b. auto.
      - exists None. apply popt_none. apply star1_bad. auto. }
    destruct H2 as (os & H2). exists (s ++ v).
    assert (Hn' : nonspace (s ++ v)) by (destruct Hs as [(b & -> & Hb)|(-> & Hs)]; [reflexivity|auto]).
    destruct Ha as [(w0 & b & -> & Hw0 & Hb)|(-> & Ha)].
    + exists (Some tt), os. split; auto. apply popt_some. apply arrow1_iff. exists w0, b. rewrite <- app_assoc. auto.
    + exists None, os. split; auto. simpl. apply popt_none. apply arrow1_bad. auto.
Qed.

(** the beginning of a line up to its name *)
Lemma start_ok ini acc name st k : line_start ini acc name st -> stop_tok k ->
  exists i1 oa os, ok opt_arrow (st ++ k) i1 oa /\ ok opt_star i1 (name ++ k) os.
Proof.
  intros (a & s & -> & Ha & Hs & Hl) Hk. rewrite <- !app_assoc.
  assert (Hname : nonspace (name ++ k)).
  { destruct (legal_starts name Hl) as (c & t & -> & Hc). simpl. apply starts_space; auto. }
  assert (Hsn : nonspace (s ++ name ++ k)).
  { destruct acc; [|subst s; apply Hname]. destruct Hs as (b' & -> & _). reflexivity. }
  exists (s ++ name ++ k), (if ini then Some tt else None), (if acc then Some tt else None). split.
  - destruct ini.
    + destruct Ha as (w & b' & -> & Hw & Hb'). rewrite <- app_assoc. apply popt_some. apply arrow1_iff. exists w, b'. auto.
    + subst a. simpl. apply popt_none. destruct acc.
      * destruct Hs as (b' & -> & _). apply terminated_bad. reflexivity.
      * subst s. simpl. apply no_arrow; auto.
  - destruct acc.
    + destruct Hs as (b' & -> & Hb'). apply popt_some. apply star1_iff. exists b'. auto.
    + subst s. apply popt_none. apply no_accepting; auto.
Qed.
Lemma start_inv w i1 oa os name k : ok opt_arrow w i1 oa -> ok opt_star i1 (name ++ k) os -> legal_token name ->
  exists st, w = st ++ k /\ line_start (is_some oa) (is_some os) name st.
Proof.
  intros H1 H2 Hl. apply popt_inv in H1, H2.
  assert (Hs : exists s, i1 = s ++ name ++ k /\ if is_some os then exists b, s = 42%N :: b /\ blank1 b else s = []).
  { destruct os as [[]|]; simpl.
    - apply star1_iff in H2 as (b & -> & Hb & _). exists (42%N :: b). split; auto. exists b. auto.
    - destruct H2 as [_ ->]. exists []. auto. }
  destruct Hs as (s & -> & Hs).
  assert (Ha : exists a, w = a ++ s ++ name ++ k /\ if is_some oa then exists w b, a = w ++ b /\ arrow_text w /\ blank1 b else a = []).
  { destruct oa as [[]|]; simpl.
    - apply arrow1_iff in H1 as (w0 & b & -> & Hw & Hb & _). exists (w0 ++ b). split; [rewrite <- app_assoc; auto|]. exists w0, b. auto.
    - destruct H1 as [_ <-]. exists []. auto. }
  destruct Ha as (a & -> & Ha). exists (a ++ s ++ name). rewrite <- !app_assoc. split; auto. exists a, s. auto.
Qed.

Lemma space1_fail i k a : efail e_space1 i k a <-> nonspace i /\ k = KSpace /\ a = i.
Proof.
  unfold e_space1. rewrite basic_fail. split; intros (H & H1); split; auto.
  - unfold bad, space1 in H. destruct i as [|c i]; simpl; auto. simpl in H. destruct (is_space c) eqn:E; auto.
    destruct (span is_space i). discriminate.
  - apply space1_bad. auto.
Qed.

Section Lines.
  Context {A L : Type} (ec : E A) (pc : P A) (Hc : erases ec pc) (Hct : total pc) (build : bool * bool * str * list A -> L).
  Context (no_cell : str -> kind -> str -> Prop) (a_cell : str -> Prop).
  Hypothesis cell_fail : forall i k a, nonspace i -> (efail ec i k a <-> no_cell i k a).
  Hypothesis cell_ok : forall i, a_cell i <-> exists i' x, ok pc i i' x.
  Hypothesis cell_nonspace : forall i i' x, ok pc i i' x -> nonspace i.

  Definition e_line : E L := e_map build (e_delimited e_space0 (e_line_prefix (e_separated_list1 e_space1 ec)) e_space_comment).
  Definition p_line : P L := pmap build (delimited space0 (line_prefix (separated_list1 space1 pc)) space_comment).

  Lemma er_line : erases e_line p_line.
  Proof. unfold e_line, p_line. auto 10 with er. Qed.

  Lemma space_comment_nofail i k a : ~ efail e_space_comment i k a.
  Proof.
    unfold e_space_comment, e_value. rewrite map_fail'. rewrite (pair_fail _ space0) by auto with er.
    intros [H|(i1 & x & _ & H)].
    - unfold e_space0 in H. apply basic_fail in H as (H & _). unfold bad, space0 in H. destruct (span is_space i). discriminate.
    - revert H. apply opt_fail.
  Qed.
  Lemma space0_nofail i k a : ~ efail e_space0 i k a.
  Proof. intros H. apply basic_fail in H as (H & _). unfold bad, space0 in H. destruct (span is_space i). discriminate. Qed.

  Lemma prefix_fail w k a : nonspace w -> (efail (e_line_prefix (e_separated_list1 e_space1 ec)) w k a <->
    (exists m, w = m ++ a /\ markers m a /\ no_blank a /\ no_token k a) \/
    (exists ini acc name st, w = st ++ a /\ line_start ini acc name st /\ token_stop a /\ no_blank a /\ k = KSpace) \/
    (exists ini acc name st b1 x, w = st ++ b1 ++ x /\ line_start ini acc name st /\ blank1 b1 /\ no_blank x /\ no_cell x k a)).
  Proof.
    intros Hw. unfold e_line_prefix.
    assert (Ea : erases (e_opt (e_terminated e_arrow e_space1)) opt_arrow) by (unfold opt_arrow; auto with er).
    assert (Es : erases (e_opt (e_terminated e_accepting e_space1)) opt_star) by (unfold opt_star; auto with er).
    assert (En : erases (e_terminated e_state_name e_space1) (terminated state_name space1)) by auto with er.
    assert (Hm := markers_iff w a Hw). split.
    - intros H. apply (bind_fail _ _ Ea) in H as [H|(i1 & oa & H1 & H)]; [destruct (opt_fail _ _ _ _ H)|].
      apply (bind_fail _ _ Es) in H as [H|(i2 & os & H2 & H)]; [destruct (opt_fail _ _ _ _ H)|].
      apply (bind_fail _ _ En) in H as [H|(i3 & name & H3 & H)].
      + apply (terminated_fail _ state_name) in H as [H|(i3 & name & H3 & H)]; auto with er.
        * apply name_fail in H as (-> & H). left. destruct (proj1 Hm) as (m & -> & H3 & H4); [eauto|].
          exists m. split; auto. split; auto. split; auto. apply no_blank_iff. auto.
        * apply space1_fail in H as (Hn & -> & ->). apply state_name_inv in H3 as (-> & Hl & Hs).
          destruct (start_inv _ _ _ _ _ _ H1 H2 Hl) as (st & -> & Hst). right. left. exists (is_some oa), (is_some os), name, st.
          split; auto. split; auto. split; [apply token_stop_iff; auto|]. split; auto. apply no_blank_iff. auto.
      + apply map_fail' in H. apply (list1_fail _ space1 _ pc) in H; auto with er; [|apply strict_space1].
        apply terminated_inv in H3 as (i4 & b & H3 & H4). apply state_name_inv in H3 as (-> & Hl & Hs).
        apply space1_inv in H4 as (-> & Hb & Hn). destruct (start_inv _ _ _ _ _ _ H1 H2 Hl) as (st & -> & Hst).
        right. right. exists (is_some oa), (is_some os), name, st, b, i3. split; auto. split; auto. split; auto.
        split; [apply no_blank_iff; auto|]. apply cell_fail; auto.
    - intros [(m & -> & H1 & H2 & H3)|[(ini & acc & name & st & -> & Hst & Hs & Hn & ->)|(ini & acc & name & st & b & x & -> & Hst & Hb & Hn & Hx)]].
      + destruct (proj2 Hm) as (i1 & oa & os & Ha & Hs); [exists m; split; auto; split; auto; apply no_blank_iff; auto|].
        apply (bind_fail _ _ Ea). right. exists i1, oa. split; auto.
        apply (bind_fail _ _ Es). right. exists a, os. split; auto.
        apply (bind_fail _ _ En). left. apply (terminated_fail _ state_name); auto with er. left. apply name_fail. auto.
      + apply token_stop_iff in Hs. apply no_blank_iff in Hn.
        destruct (start_ok _ _ _ _ _ Hst Hs) as (i1 & oa & os & H1 & H2).
        apply (bind_fail _ _ Ea). right. exists i1, oa. split; auto.
        apply (bind_fail _ _ Es). right. exists (name ++ a), os. split; auto.
        apply (bind_fail _ _ En). left. apply (terminated_fail _ state_name); auto with er. right. exists a, name. split.
        * apply state_name_ok; auto. destruct Hst as (u & s & _ & _ & _ & Hl). auto.
        * apply space1_fail. auto.
      + apply no_blank_iff in Hn.
        destruct (start_ok _ _ _ _ (b ++ x) Hst (blank1_stop _ _ Hb)) as (i1 & oa & os & H1 & H2).
        apply (bind_fail _ _ Ea). right. exists i1, oa. split; auto.
        apply (bind_fail _ _ Es). right. exists (name ++ b ++ x), os. split; auto.
        apply (bind_fail _ _ En). right. exists x, name. split.
        * eapply terminated_ok.
          -- apply state_name_ok; [destruct Hst as (u & s & _ & _ & _ & Hl); exact Hl|apply blank1_stop; auto].
          -- apply space1_ok; auto.
        * apply map_fail'. apply (list1_fail _ space1 _ pc); auto with er; [apply strict_space1|]. apply cell_fail; auto.
  Qed.

  Lemma line_fail v k a : efail e_line v k a <-> line_error no_cell v k a.
  Proof.
    unfold e_line. rewrite map_fail'. unfold e_delimited. rewrite (preceded_fail _ space0) by auto with er. unfold line_error. split.
    - intros [H|(i1 & b & H1 & H)]; [destruct (space0_nofail _ _ _ H)|].
      apply (terminated_fail _ (line_prefix (separated_list1 space1 pc))) in H; auto with er.
      destruct H as [H|(i2 & x & _ & H)]; [|destruct (space_comment_nofail _ _ _ H)].
      apply space0_inv in H1 as (-> & Hb & Hn). exists b, i1. split; auto. split; auto. split; [apply no_blank_iff; auto|].
      apply prefix_fail; auto.
    - intros (b & w & -> & Hb & Hw & H). apply no_blank_iff in Hw. right. exists w, b. split; [apply space0_ok; auto|].
      apply (terminated_fail _ (line_prefix (separated_list1 space1 pc))); auto with er. left. apply prefix_fail; auto.
  Qed.
  Lemma starts_line_iff v : starts_line a_cell v <-> ~ bad p_line v.
  Proof.
    split.
    - intros (b & ini & acc & name & st & b1 & x & -> & Hb & Hst & Hb1 & Hx) Hbad.
      apply cell_ok in Hx as (x' & y & Hx). pose proof (cell_nonspace _ _ _ Hx) as Hn.
      destruct (total_ok_or_bad (separated_list1 space1 pc) x) as [(i' & l & Hl)|Hl]; auto with total.
      + destruct (total_ok_or_bad space_comment i' total_space_comment) as [(i2 & u & H2)|H2].
        * revert Hbad. apply ok_not_bad with (i1 := i2) (a := build (ini, acc, name, l)). unfold p_line. apply (pmap_ok build).
          eapply delimited_ok; [apply space0_ok; [auto|]| |exact H2].
          -- destruct (line_start_starts _ _ _ _ Hst) as (c & st' & -> & Hcs). simpl. apply starts_space; auto.
          -- apply line_prefix_ok; auto.
        * apply (erases_bad _ _ _ er_space_comment) in H2 as (k & a & H2). exact (space_comment_nofail _ _ _ H2).
      + apply (erases_bad _ _ _ (er_separated_list1 _ _ _ _ er_space1 Hc)) in Hl as (k & a & Hl).
        apply (list1_fail _ space1 _ pc) in Hl; auto with er; [|apply strict_space1].
        apply (ok_not_bad _ _ _ _ Hx). eapply efail_bad; eauto.
    - intros H. destruct (total_ok_or_bad p_line v) as [(v' & x & H1)|H1]; [unfold p_line; auto 10 with total| |tauto].
      apply pmap_inv in H1 as ([[[ini acc] nm] tr] & H1 & _). apply delimited_inv in H1 as (i1 & b & i2 & u & H1 & H2 & _).
      apply space0_inv in H1 as (-> & Hb & _). apply line_prefix_inv in H2 as (st & b' & k0 & -> & Hst & Hb' & H2).
      apply pbind_inv in H2 as (i3 & y & H2 & _). exists b, ini, acc, nm, st, b', k0. split; auto. split; auto. split; auto. split; auto.
      apply cell_ok. eauto.
  Qed.

  (** successful lines *)
  Context (CT : A -> str -> Prop) (LT : L -> str -> Prop) (F : str -> Prop) (nm : str -> str -> Prop).
  Hypothesis HCT : forall a u k, CT a u -> nonspace (u ++ k).
  Hypothesis Hlist : forall i i' l, ok (separated_list1 space1 pc) i i' l <->
    exists v, i = v ++ i' /\ sep_by blank1 CT l v /\ sep_stop space1 pc F i'.
  Hypothesis Htail : forall r i', sep_stop space1 pc F r /\ ok space_comment r i' tt <-> exists t, r = t ++ i' /\ line_tail nm t i'.
  Hypothesis HLT : forall s u, LT s u <-> exists ini acc name tr b0 st b ts, s = build (ini, acc, name, tr) /\ u = b0 ++ st ++ b ++ ts /\
    blank b0 /\ blank1 b /\ line_start ini acc name st /\ sep_by blank1 CT tr ts.

  Lemma line_iff v v' s : ok p_line v v' s <-> exists u t, v = u ++ t ++ v' /\ LT s u /\ line_tail nm t v'.
  Proof.
    split.
    - intros H. apply pmap_inv in H as ([[[ini acc] name] tr] & H & ->). apply delimited_inv in H as (i1 & b & i2 & [] & H1 & H2 & H3).
      apply space0_inv in H1 as (-> & Hb & _). apply line_prefix_inv in H2 as (st & b' & k0 & -> & Hst & Hb' & H2).
      apply Hlist in H2 as (ts & -> & Hts & Hs). destruct (proj1 (Htail i2 v') (conj Hs H3)) as (t & -> & Ht).
      exists (b ++ st ++ b' ++ ts), t. rewrite <- !app_assoc. split; auto. split; auto. apply HLT.
      exists ini, acc, name, tr, b, st, b', ts. auto 10.
    - intros (u & t & -> & Hu & Ht). apply HLT in Hu as (ini & acc & name & tr & b0 & st & b & ts & -> & -> & Hb0 & Hb & Hst & Hts).
      destruct (proj2 (Htail (t ++ v') v')) as (Hs & Hsc); [exists t; auto|].
      unfold p_line. apply (pmap_ok build _ _ _ (ini, acc, name, tr)). rewrite <- !app_assoc. eapply delimited_ok; [| |exact Hsc].
      + apply space0_ok; auto. destruct (line_start_starts _ _ _ _ Hst) as (c & st' & -> & Hcs). simpl. apply starts_space; auto.
      + apply line_prefix_ok; auto.
        * inversion Hts; subst; [|rewrite <- app_assoc]; eapply HCT; eauto.
        * apply Hlist. exists ts. auto.
  Qed.
End Lines.

(** ** Whole tables *)
Lemma line_ending_bad_iff v : bad line_ending v <-> ~ starts_eol v.
Proof.
  split.
  - intros H (e & w & -> & He). exact (ok_not_bad _ _ _ _ (line_ending_ok e w He) H).
  - intros H. destruct (total_ok_or_bad _ v total_line_ending) as [(i' & x & H1)|]; auto. exfalso. apply H.
    apply line_ending_inv in H1 as (e & -> & He). exists e, i'. auto.
Qed.

Section Tables.
  Context {H L C : Type} (he : E H) (hp : P H) (le : E L) (lp : P L) (Hh : erases he hp) (Hl : erases le lp) (Hlt : total lp).
  Context (HT : H -> str -> Prop) (LT : L -> str -> Prop) (build : H * list L -> C).
  Context (no_head : str -> kind -> str -> Prop) (ne : str -> str -> Prop).
  Context (no_cell : str -> kind -> str -> Prop) (a_cell : str -> Prop) (nm : str -> str -> Prop).
  Hypothesis head_fail : forall v k a, efail he v k a <-> no_head v k a.
  Hypothesis head_iff : forall v v' h, ok hp v v' h <-> exists u t, v = u ++ t ++ v' /\ HT h u /\ line_tail ne t v'.
  Hypothesis lines_fail : forall v k a, efail le v k a <-> line_error no_cell v k a.
  Hypothesis lines_iff : forall v v' s, ok lp v v' s <-> exists u t, v = u ++ t ++ v' /\ LT s u /\ line_tail nm t v'.
  Hypothesis starts_iff : forall v, starts_line a_cell v <-> ~ bad lp v.
  Hypothesis lp_starts : forall h u, LT h u -> exists b c u', u = b ++ c :: u' /\ blank b /\ starts c.
  Hypothesis lp_ok : forall h u t k, LT h u -> trail t -> line_rest k -> ok lp (u ++ t ++ k) k h.
  Hypothesis lp_nil : bad lp [].

  Definition e_full : E C :=
    e_map build (e_delimited (e_many0 e_space_comment_line)
                     (e_pair (e_terminated he e_line_ending)
                             (e_preceded (e_many0 e_space_comment_line) (e_separated_list1 (e_many1 e_space_comment_line) le)))
                     (e_many0 e_space_comment_line)).
  Definition p_full : P C :=
    pmap build (delimited (many0 space_comment_line)
                  (ppair (terminated hp line_ending)
                         (preceded (many0 space_comment_line) (separated_list1 (many1 space_comment_line) lp)))
                  (many0 space_comment_line)).
  Lemma er_full : erases e_full p_full.
  Proof. unfold e_full, p_full. auto 15 with er. Qed.

  (** the list of lines stops here *)
  Definition lines_stop (v : str) : Prop :=
    bad (many1 space_comment_line) v \/ exists w l, ok (many1 space_comment_line) v w l /\ bad lp w.

  Lemma lines_loop_inv : forall fuel acc i i' l, ok space_comment i i tt ->
    sep_loop fuel (many1 space_comment_line) lp acc i = Ret (Some (i', l)) ->
    lines_stop i' /\
    ((l = acc /\ i' = i) \/
     exists l2 e ls body t, l = acc ++ l2 /\ i = e ++ concat ls ++ body ++ t ++ i' /\ eol e /\ Forall junk_line ls /\
                            sep_by junk1 LT l2 body /\ line_tail nm t i').
  Proof.
    induction fuel as [|fuel IH]; intros acc i i' l Hs; cbn [sep_loop]; [discriminate|].
    intros E. apply bind_Ret_inv in E as ([[i1 b]|] & E1 & E2).
    2: { injection E2 as <- <-. split; [left; exact E1|auto]. }
    destruct (length i1 =? length i); [discriminate|].
    apply bind_Ret_inv in E2 as ([[i2 a]|] & E2 & E3).
    2: { injection E3 as <- <-. split; [right; exists i1, b; auto|auto]. }
    assert (Hne : i1 <> []).
    { intros ->. unfold bad in lp_nil. congruence. }
    destruct (proj1 (lines_iff _ _ _) E2) as (u & t & Ei1 & Hu & Ht). pose proof (line_tail_stay _ _ _ Ht) as Hs2.
    apply (many1_scl_inv_eol _ _ _ Hs) in E1 as (e & ls & -> & He & HF); auto. subst i1.
    apply (IH _ _ _ _ Hs2) in E3 as (Hs' & [(-> & ->)|(l2 & e' & ls' & body & t' & -> & -> & He' & HF' & Hbody & Ht')]); split; auto; right.
    - exists [a], e, ls, u, t. repeat (split; [now auto|]). split; [constructor; auto|auto].
    - exists (a :: l2), e, ls, (u ++ ((t ++ e') ++ concat ls') ++ body), t'.
      assert (sep_by junk1 LT (a :: l2) (u ++ ((t ++ e') ++ concat ls') ++ body)).
      { constructor; auto. exists (t ++ e'), ls'. split; auto. split; auto. exists t, e'. split; auto. split; auto.
        eapply line_tail_trail; eauto. }
      rewrite <- !app_assoc in *. repeat split; auto.
  Qed.

  Lemma lines_loop_ok l body : sep_by junk1 LT l body -> forall e ls t v acc fuel, eol e -> Forall junk_line ls -> line_tail nm t v ->
    lines_stop v -> length (e ++ concat ls ++ body ++ t ++ v) < fuel ->
    sep_loop fuel (many1 space_comment_line) lp acc (e ++ concat ls ++ body ++ t ++ v) = Ret (Some (v, acc ++ l)).
  Proof.
    assert (Hstop : forall v acc fuel, lines_stop v -> length v < fuel -> sep_loop fuel (many1 space_comment_line) lp acc v = Ret (Some (v, acc))).
    { intros v acc fuel Hv Hf. destruct fuel; [lia|]. cbn [sep_loop]. destruct Hv as [Hv|(w & l' & H1 & H2)].
      - unfold bad in Hv. rewrite Hv. reflexivity.
      - pose proof (strict_many1_scl _ _ _ H1) as Hn. apply Nat.eqb_neq in Hn. unfold ok, bad in *. rewrite H1. cbn [bind]. rewrite Hn, H2. reflexivity. }
    induction 1 as [a u Hu|a u s l body Hu Hs Hv IH]; intros e ls t v acc fuel He HF Ht Hst Hf;
      (destruct fuel as [|fuel]; [lia|]); cbn [sep_loop]; destruct (lp_starts _ _ Hu) as (b & c & u' & Eu & Hb & Hc).
    - destruct (many1_scl_ok e ls (u ++ t ++ v)) as (x & E); auto.
      { exists [], e. split; auto. split; auto. apply trail_nil. }
      { rewrite Eu, <- app_assoc. simpl. apply scl_bad_starts; auto. }
      pose proof (strict_many1_scl _ _ _ E) as Hn. apply Nat.eqb_neq in Hn. unfold ok in E. rewrite E. cbn [bind]. rewrite Hn.
      assert (E2 : ok lp (u ++ t ++ v) v a) by (apply lines_iff; exists u, t; auto). unfold ok in E2. rewrite E2. cbn [bind].
      apply Hstop; auto. rewrite !app_length in Hf. pose proof (eol_nonempty e He). destruct e; [congruence|]. simpl in Hf. lia.
    - destruct Hs as (j & ls' & -> & (t1 & e' & -> & Ht1 & He') & HF'). rewrite <- !app_assoc in *.
      destruct (many1_scl_ok e ls (u ++ t1 ++ e' ++ concat ls' ++ body ++ t ++ v)) as (x & E); auto.
      { exists [], e. split; auto. split; auto. apply trail_nil. }
      { rewrite Eu, <- app_assoc. simpl. apply scl_bad_starts; auto. }
      pose proof (strict_many1_scl _ _ _ E) as Hn. apply Nat.eqb_neq in Hn. unfold ok in E. rewrite E. cbn [bind]. rewrite Hn.
      assert (E2 : ok lp (u ++ t1 ++ e' ++ concat ls' ++ body ++ t ++ v) (e' ++ concat ls' ++ body ++ t ++ v) a).
      { apply lp_ok; auto. apply line_rest_eol; auto. }
      unfold ok in E2. rewrite E2. cbn [bind]. rewrite IH; auto.
      + rewrite <- app_assoc. reflexivity.
      + rewrite !app_length in *. pose proof (eol_nonempty e He). destruct e; [congruence|]. simpl in Hf. lia.
  Qed.

  Lemma body_iff v v' l : ok (separated_list1 (many1 space_comment_line) lp) v v' l <->
    exists body t, v = body ++ t ++ v' /\ sep_by junk1 LT l body /\ line_tail nm t v' /\ lines_stop v'.
  Proof.
    split.
    - intros E. apply pbind_inv in E as (i1 & a & E1 & E2). apply lines_iff in E1 as (u & t & -> & Hu & Ht).
      pose proof (line_tail_stay _ _ _ Ht) as Hs2. unfold ok in E2.
      apply (lines_loop_inv _ _ _ _ _ Hs2) in E2 as (Hst & [(-> & ->)|(l2 & e' & ls' & body & t' & -> & -> & He' & HF' & Hbody & Ht')]).
      + exists u, t. split; auto. split; [constructor; auto|auto].
      + exists (u ++ ((t ++ e') ++ concat ls') ++ body), t'. rewrite <- !app_assoc. split; auto. split; auto.
        rewrite !app_assoc. rewrite <- (app_assoc (u ++ t)), <- !app_assoc. rewrite (app_assoc t e'), (app_assoc (t ++ e')). simpl.
        constructor; auto. exists (t ++ e'), ls'. split; auto. split; auto. exists t, e'. split; auto. split; auto.
        eapply line_tail_trail; eauto.
    - intros (body & t & -> & Hb & Ht & Hst). unfold separated_list1. destruct Hb as [a u Hu|a u s l body Hu Hs Hb].
      + eapply pbind_ok; [apply lines_iff; exists u, t; eauto|].
        unfold ok. cbn [sep_loop]. destruct Hst as [Hv|(w & l' & H1 & H2)].
        * unfold bad in Hv. rewrite Hv. reflexivity.
        * pose proof (strict_many1_scl _ _ _ H1) as Hn. apply Nat.eqb_neq in Hn. unfold ok, bad in *. rewrite H1. cbn [bind]. rewrite Hn, H2. reflexivity.
      + destruct Hs as (j & ls' & -> & (t1 & e' & -> & Ht1 & He') & HF'). rewrite <- !app_assoc.
        eapply pbind_ok; [apply lp_ok; [exact Hu|auto|apply line_rest_eol; auto]|].
        unfold ok. rewrite (lines_loop_ok l body Hb); auto.
  Qed.

  (** after the last line *)
  Lemma stop_iff v3 t a : line_tail nm t v3 -> a <> [] ->
    (lines_stop v3 /\ skipped v3 a <->
     a = v3 /\ ~ starts_eol v3 \/ exists e w, v3 = e ++ w /\ eol e /\ skipped w a /\ ~ starts_line a_cell a).
  Proof.
    intros Ht Ha. pose proof (line_tail_stay _ _ _ Ht) as Hst. split.
    - intros (Hs & Hk). destruct (total_ok_or_bad _ v3 total_line_ending) as [(w & x & H1)|H1].
      + right. apply line_ending_inv in H1 as (e & -> & He). exists e, w. split; auto. split; auto.
        apply skipped_eol in Hk; auto. split; auto. rewrite starts_iff. intros Hb.
        destruct Hs as [Hs|(w' & l & H1 & H2)].
        * destruct (proj2 (skip1_iff e w a He) Hk) as (l & H1). exact (ok_not_bad _ _ _ _ H1 Hs).
        * apply Hb. assert (w' = a) by (apply (skipped_det w); auto; apply (skip1_iff e w w' He); eauto). subst w'. auto.
      + left. apply line_ending_bad_iff in H1. split; auto. destruct Hk as (j & t' & E & (ls & -> & HF) & Hk).
        destruct Hk as [(-> & Hk)|(_ & Hk)]; [|congruence].
        destruct ls as [|l ls]; [auto|]. exfalso. pose proof (Forall_inv HF) as Hj. apply H1.
        simpl in E. rewrite <- app_assoc in E.
        destruct (scl_inv_eol v3 (concat ls ++ a) tt Hst) as (e & He & E'); [rewrite E; apply scl_ok_line; auto|].
        exists e, (concat ls ++ a). auto.
    - intros [(-> & Hn)|(e & w & -> & He & Hk & Hn)].
      + assert (Hb : bad space_comment_line v3).
        { destruct (total_ok_or_bad _ v3 total_scl) as [(i' & x & H1)|]; auto. exfalso. apply Hn.
          apply (scl_inv_eol _ _ _ Hst) in H1 as (e & He & ->). exists e, i'. auto. }
        split; [left; apply pbind_bad; auto|]. exists [], []. split; auto. split; [exists []; auto|]. left. split; auto.
        apply scl_bad_iff in Hb as [->|Hb]; [congruence|auto].
      + split; [|apply skipped_eol; auto]. right. destruct (proj2 (skip1_iff e w a He) Hk) as (l & H1). exists a, l. split; auto.
        destruct (total_ok_or_bad lp a Hlt) as [(i' & x & H2)|]; auto. exfalso. apply Hn. apply starts_iff. intros Hb.
        exact (ok_not_bad _ _ _ _ H2 Hb).
  Qed.

  Definition the_head (u : str) : Prop := exists h, HT h u.
  Definition the_body (u : str) : Prop := exists l, sep_by junk1 LT l u.

  Lemma full_fail u k a : try_with e_full u = Ret (Err (mk_error k a)) <-> table_error the_head no_head ne the_body no_cell a_cell nm u k a.
  Proof.
    assert (Em := er_many0 _ _ er_scl).
    assert (Eb : erases (e_separated_list1 (e_many1 e_space_comment_line) le) (separated_list1 (many1 space_comment_line) lp)) by auto with er.
    assert (Nm : forall i k a, ~ efail (e_many0 e_space_comment_line) i k a).
    { intros i k' a'. apply (many0_nofail _ space_comment_line); auto with er. apply strict_scl. }
    rewrite (try_with_fail _ p_full) by apply er_full. unfold table_error. split.
    - intros [Hf|(-> & Ha & x & Ho)].
      + unfold e_full in Hf. apply map_fail' in Hf. unfold e_delimited in Hf.
        apply (preceded_fail _ _ _ _ _ _ Em) in Hf as [Hf|(v & x & H0 & Hf)]; [destruct (Nm _ _ _ Hf)|].
        exists v. split; [apply skip_iff; eauto|].
        apply (terminated_fail _ (ppair (terminated hp line_ending) (preceded (many0 space_comment_line) (separated_list1 (many1 space_comment_line) lp)))) in Hf;
          [|auto 10 with er].
        destruct Hf as [Hf|(i2 & y & _ & Hf)]; [|destruct (Nm _ _ _ Hf)].
        apply (pair_fail _ (terminated hp line_ending)) in Hf; [|auto with er].
        destruct Hf as [Hf|(w & h & H1 & Hf)].
        * apply (terminated_fail _ hp) in Hf; auto. destruct Hf as [Hf|(v1 & h & H1 & Hf)].
          -- left. apply head_fail. auto.
          -- right. apply head_iff in H1 as (uh & t & -> & Hu & Ht). exists uh, t, v1. split; auto. split; [exists h; auto|]. split; auto.
             left. unfold e_line_ending in Hf. apply basic_fail in Hf as (Hf & -> & ->). apply line_ending_bad_iff in Hf. auto.
        * right. apply terminated_inv in H1 as (v1 & z & H1 & H2). apply head_iff in H1 as (uh & t & -> & Hu & Ht).
          exists uh, t, v1. split; auto. split; [exists h; auto|]. split; auto. right.
          apply line_ending_inv in H2 as (e & -> & He).
          apply (preceded_fail _ _ _ _ _ _ Em) in Hf as [Hf|(v2 & y & H3 & Hf)]; [destruct (Nm _ _ _ Hf)|].
          exists e, w, v2. split; auto. split; auto. split; [apply skip_iff; eauto|]. left.
          apply (list1_fail _ (many1 space_comment_line) _ lp) in Hf; auto with er; [|apply strict_many1_scl]. apply lines_fail. auto.
      + unfold p_full in Ho. apply pmap_inv in Ho as (hl & Ho & _). apply delimited_inv in Ho as (v & x0 & v3 & x3 & H0 & Ho & H3).
        apply ppair_inv in Ho as (w & h & l & H1 & H2 & _). apply terminated_inv in H1 as (v1 & z & H1 & He).
        apply preceded_inv in H2 as (v2 & y & H2 & Hb). apply line_ending_inv in He as (e & -> & He).
        exists v. split; [apply skip_iff; eauto|]. right. apply head_iff in H1 as (uh & t & -> & Hu & Ht). exists uh, t, (e ++ w).
        split; auto. split; [exists h; auto|]. split; auto. right. exists e, w, v2. split; auto. split; auto. split; [apply skip_iff; eauto|].
        right. apply body_iff in Hb as (ls & t' & -> & Hls & Ht' & Hst). exists ls, t', v3. split; auto. split; [exists l; auto|]. split; auto.
        split; auto. split; auto. apply (stop_iff v3 t' a Ht' Ha). split; auto. apply skip_iff. eauto.
    - intros (v & H0 & H1). apply skip_iff in H0 as (x0 & H0).
      destruct H1 as [H1|(uh & t & v1 & -> & (h & Hu) & Ht & H1)].
      + left. unfold e_full. apply map_fail'. unfold e_delimited.
        apply (preceded_fail _ _ _ _ _ _ Em). right. exists v, x0. split; auto.
        apply (terminated_fail _ (ppair (terminated hp line_ending) (preceded (many0 space_comment_line) (separated_list1 (many1 space_comment_line) lp))));
          [auto 10 with er|]. left. apply (pair_fail _ (terminated hp line_ending)); [auto with er|]. left.
        apply (terminated_fail _ hp); auto. left. apply head_fail. auto.
      + assert (Hh1 : ok hp (uh ++ t ++ v1) v1 h) by (apply head_iff; exists uh, t; auto).
        destruct H1 as [(-> & -> & H1)|(e & w & v2 & -> & He & H2 & H1)].
        * left. unfold e_full. apply map_fail'. unfold e_delimited.
          apply (preceded_fail _ _ _ _ _ _ Em). right. exists (uh ++ t ++ v1), x0. split; auto.
          apply (terminated_fail _ (ppair (terminated hp line_ending) (preceded (many0 space_comment_line) (separated_list1 (many1 space_comment_line) lp))));
            [auto 10 with er|]. left. apply (pair_fail _ (terminated hp line_ending)); [auto with er|]. left.
          apply (terminated_fail _ hp); auto. right. exists v1, h. split; auto. unfold e_line_ending. apply basic_fail.
          split; auto. apply line_ending_bad_iff. auto.
        * apply skip_iff in H2 as (x2 & H2).
          assert (Ho : ok (terminated hp line_ending) (uh ++ t ++ e ++ w) w h) by (eapply terminated_ok; [exact Hh1|apply line_ending_ok; auto]).
          destruct H1 as [H1|(ls & t' & v3 & -> & (l & Hls) & Ht' & -> & Ha & H1)].
          -- left. unfold e_full. apply map_fail'. unfold e_delimited.
             apply (preceded_fail _ _ _ _ _ _ Em). right. exists (uh ++ t ++ e ++ w), x0. split; auto.
             apply (terminated_fail _ (ppair (terminated hp line_ending) (preceded (many0 space_comment_line) (separated_list1 (many1 space_comment_line) lp))));
               [auto 10 with er|]. left. apply (pair_fail _ (terminated hp line_ending)); [auto with er|]. right.
             exists w, h. split; auto. apply (preceded_fail _ _ _ _ _ _ Em). right. exists v2, x2. split; auto.
             apply (list1_fail _ (many1 space_comment_line) _ lp); auto with er; [apply strict_many1_scl|]. apply lines_fail. auto.
          -- right. split; auto. split; auto. apply (stop_iff v3 t' a Ht' Ha) in H1 as (Hst & Hk). apply skip_iff in Hk as (x3 & Hk).
             exists (build (h, l)). unfold p_full. apply (pmap_ok build). eapply delimited_ok; [exact H0| |exact Hk].
             eapply ppair_ok; [exact Ho|]. eapply preceded_ok; [exact H2|]. apply body_iff. exists ls, t'. auto.
  Qed.
End Tables.

(** ** DFA tables *)
Definition build_dfa_line (x : bool * bool * str * list str) : parsed_dfa_state :=
  let '(initial, accepting, name, transitions) := x in
  {| pds_name := name; pds_initial := initial; pds_accepting := accepting; pds_transitions := transitions |}.
Definition build_dfa (x : list str * list parsed_dfa_state) : parsed_dfa := let '(head, states) := x in {| pd_head := head; pd_states := states |}.

Lemma dfa_head_fail v k a : efail e_dfa_head v k a <-> dfa_no_head v k a.
Proof.
  unfold e_dfa_head, e_delimited. rewrite (preceded_fail _ space0) by auto with er. unfold dfa_no_head. split.
  - intros [H|(i1 & b & H1 & H)]; [destruct (space0_nofail _ _ _ H)|].
    apply (terminated_fail _ (separated_list1 space1 alphabet_elem)) in H; auto with er.
    destruct H as [H|(i2 & x & _ & H)]; [|destruct (space_comment_nofail _ _ _ H)].
    apply (list1_fail _ space1 _ alphabet_elem) in H; auto with er; [|apply strict_space1].
    apply name_fail in H as (-> & H). apply space0_inv in H1 as (-> & Hb & Hn). exists b. split; auto. split; auto.
    split; auto. apply no_blank_iff; auto.
  - intros (b & -> & Hb & Hn & H). apply no_blank_iff in Hn. right. exists a, b. split; [apply space0_ok; auto|].
    apply (terminated_fail _ (separated_list1 space1 alphabet_elem)); auto with er. left.
    apply (list1_fail _ space1 _ alphabet_elem); auto with er; [apply strict_space1|]. apply name_fail. auto.
Qed.
Lemma dfa_head_iff v v' h : ok dfa_head v v' h <-> exists u t, v = u ++ t ++ v' /\ dfa_head_text h u /\ line_tail no_more_tokens t v'.
Proof.
  split.
  - intros H. apply delimited_inv in H as (i1 & b & i2 & [] & H1 & H2 & H3).
    apply space0_inv in H1 as (-> & Hb & _). apply tokens_iff in H2 as (ts & -> & Hts & Hs).
    destruct (proj1 (tokens_tail i2 v') (conj Hs H3)) as (t & -> & Ht). exists (b ++ ts), t. rewrite <- app_assoc. split; auto.
    split; auto. exists b, ts. auto.
  - intros (u & t & -> & (b & ts & -> & Hb & Hts) & Ht). destruct (proj2 (tokens_tail (t ++ v') v')) as (Hs & Hsc); [exists t; auto|].
    rewrite <- app_assoc. unfold dfa_head. eapply delimited_ok; [| |exact Hsc].
    + apply space0_ok; auto. destruct (sep_by_starts _ _ token_text_starts _ _ Hts) as (c & w & -> & Hc). simpl. apply starts_space; auto.
    + apply tokens_iff. exists ts. auto.
Qed.
Lemma name_nonspace i i' x : ok state_name i i' x -> nonspace i.
Proof.
  intros H. apply state_name_inv in H as (-> & H & _). destruct (legal_starts x H) as (c & t & -> & Hc). simpl. apply starts_space; auto.
Qed.

Theorem try_dfa_fail u k a : try_dfa u = Ret (Err (mk_error k a)) <-> dfa_error u k a.
Proof.
  change (try_dfa u) with (try_with (e_full e_dfa_head (e_line e_state_name build_dfa_line) build_dfa) u).
  unfold dfa_error.
  apply (full_fail e_dfa_head dfa_head (e_line e_state_name build_dfa_line) (p_line state_name build_dfa_line) er_dfa_head
           (er_line _ _ er_state_name _) total_dfa_line dfa_head_text dfa_line_text build_dfa).
  - apply dfa_head_fail.
  - apply dfa_head_iff.
  - intros v k' a'. apply (line_fail _ state_name); [apply er_state_name|]. intros i k0 a0 _. apply name_fail.
  - intros v v' s. apply line_iff with (CT := token_text) (F := stop_tok).
    + apply tokens_nonspace.
    + apply tokens_iff.
    + apply tokens_tail.
    + intros [nm ini acc tr] w. unfold dfa_line_text. simpl. split.
      * intros (b0 & st & b & ts & H). exists ini, acc, nm, tr, b0, st, b, ts. split; [reflexivity|]. tauto.
      * intros (ini' & acc' & nm' & tr' & b0 & st & b & ts & [= -> -> -> ->] & H). exists b0, st, b, ts. tauto.
  - intros v. apply (starts_line_iff e_state_name); [apply er_state_name|apply total_state_name|apply a_token_iff|apply name_nonspace].
  - apply dfa_line_starts.
  - apply dfa_line_ok.
  - reflexivity.
Qed.

(** ** NFA tables *)
Definition build_nfa_line (x : bool * bool * str * list (list str)) : parsed_nfa_state :=
  let '(initial, accepting, name, transitions) := x in
  {| pns_name := name; pns_initial := initial; pns_accepting := accepting; pns_transitions := transitions |}.
Definition build_nfa (x : list nfa_entry * list parsed_nfa_state) : parsed_nfa := let '(head, states) := x in {| pn_head := head; pn_states := states |}.
Definition e_entry : E nfa_entry := e_alt (e_map Element e_alphabet_elem) (e_value Eps e_eps).
Lemma er_entry : erases e_entry entry_parser.
Proof. unfold e_entry, entry_parser. auto with er. Qed.

Lemma eps_bad_iff v : bad p_eps v <-> (forall w, v <> 949%N :: w) /\ (forall w, v <> [101; 112; 115]%N ++ w).
Proof.
  split.
  - intros H. apply (erases_bad _ _ _ er_eps) in H as (k & a & H). unfold e_eps in H. apply map_fail' in H.
    apply (alt_fail _ _ (er_tag _) _ _ (er_tag _)) in H as (H1 & H2). unfold e_tag in H2. apply basic_fail in H2 as (H2 & _).
    split; intros w; [apply (tag_bad_inv [949%N] v w H1)|apply (tag_bad_inv _ v w H2)].
  - intros (H1 & H2). apply pmap_bad, palt_bad; apply tag_bad; auto.
Qed.
Lemma no_entry_iff v : no_entry v <-> bad entry_parser v.
Proof.
  unfold no_entry. rewrite token_stop_iff. split.
  - intros [H|(w & v' & -> & Hw & Hv)]; [apply entry_bad; auto|]. apply token_stop_iff in Hv. apply palt_bad.
    + apply pmap_bad. apply state_name_bad_reserved; auto. simpl in Hw. simpl. tauto.
    + apply pmap_bad. apply eps_bad_iff. simpl in Hw.
      destruct Hw as [<- |[<- |[<- |[]]]]; split; intros w' E'; simpl in E'; discriminate.
  - intros H. apply (erases_bad _ _ _ er_entry) in H as (k & a & H). unfold e_entry in H.
    apply (alt_fail _ _ (er_map Element _ _ er_alphabet_elem) _ (pvalue Eps p_eps)) in H as (H1 & H2); [|auto with er].
    apply map_fail' in H2. apply (efail_bad _ _ _ _ _ er_eps) in H2. apply eps_bad_iff in H2 as (H2 & H3).
    assert (Hb : bad state_name v).
    { destruct (total_ok_or_bad _ v total_state_name) as [(i' & x & H)|]; auto. exfalso.
      exact (ok_not_bad _ _ _ _ (pmap_ok Element _ _ _ _ H) H1). }
    apply name_bad_iff in Hb as (k' & [(_ & Hk)|(_ & w & v' & -> & Hw & Hv)]); [left; apply token_stop_iff; auto|].
    right. exists w, v'. split; auto. split; auto. simpl in Hw. destruct Hw as [<- |[<- |Hw]].
    + destruct (H2 v'). reflexivity.
    + destruct (H3 v'). reflexivity.
    + exact Hw.
Qed.
Lemma entry_fail v k a : efail e_entry v k a <-> a = v /\ no_entry v /\ k = KTag.
Proof.
  rewrite no_entry_iff. split.
  - intros H. pose proof (efail_bad _ _ _ _ _ er_entry H) as Hb. unfold e_entry in H.
    apply (alt_fail _ _ (er_map Element _ _ er_alphabet_elem) _ (pvalue Eps p_eps)) in H as (H1 & H2); [|auto with er].
    apply map_fail' in H2. unfold e_eps in H2. apply map_fail' in H2.
    apply (alt_fail _ _ (er_tag _) _ _ (er_tag _)) in H2 as (_ & H2). apply basic_fail in H2 as (_ & -> & ->). auto.
  - intros (-> & H & ->). apply (erases_bad _ _ _ er_entry) in H as (k & a & H). pose proof H as H'. unfold e_entry in H.
    apply (alt_fail _ _ (er_map Element _ _ er_alphabet_elem) _ (pvalue Eps p_eps)) in H as (H1 & H2); [|auto with er].
    apply map_fail' in H2. unfold e_eps in H2. apply map_fail' in H2.
    apply (alt_fail _ _ (er_tag _) _ _ (er_tag _)) in H2 as (_ & H2). apply basic_fail in H2 as (_ & -> & ->). auto.
Qed.
Lemma nfa_head_fail v k a : efail e_nfa_head v k a <-> nfa_no_head v k a.
Proof.
  change e_nfa_head with (e_delimited e_space0 (e_separated_list1 e_space1 e_entry) e_space_comment).
  unfold e_delimited. rewrite (preceded_fail _ space0) by auto with er. unfold nfa_no_head.
  assert (Ee := er_entry). assert (El : erases (e_separated_list1 e_space1 e_entry) (separated_list1 space1 entry_parser)) by auto with er.
  split.
  - intros [H|(i1 & b & H1 & H)]; [destruct (space0_nofail _ _ _ H)|].
    apply (terminated_fail _ _ _ _ _ _ El) in H.
    destruct H as [H|(i2 & x & _ & H)]; [|destruct (space_comment_nofail _ _ _ H)].
    apply (list1_fail _ space1 _ entry_parser) in H; auto with er; [|apply strict_space1].
    apply entry_fail in H as (-> & H & ->). apply space0_inv in H1 as (-> & Hb & Hn). exists b. split; auto. split; auto.
    split; auto. apply no_blank_iff; auto.
  - intros (b & -> & Hb & Hn & H & ->). apply no_blank_iff in Hn. right. exists a, b. split; [apply space0_ok; auto|].
    apply (terminated_fail _ _ _ _ _ _ El). left.
    apply (list1_fail _ space1 _ entry_parser); auto with er; [apply strict_space1|]. apply entry_fail. auto.
Qed.
Lemma eps_stop v v' : bad state_name v -> ok p_eps v v' tt -> stop_tok v'.
Proof.
  intros H1 H2. apply name_bad_iff in H1 as (k & [(_ & H)|(_ & w & v0 & -> & Hw & Hv)]).
  - apply token_stop_iff in H. apply pmap_inv in H2 as (y & H2 & _).
    apply palt_inv in H2 as [H2|[_ H2]]; apply tag_inv in H2 as ->; simpl in H; vm_compute in H; discriminate.
  - apply token_stop_iff in Hv. apply pmap_inv in H2 as (y & H2 & _). apply palt_inv in H2 as [H2|[_ H2]]; apply tag_inv in H2;
    simpl in Hw; destruct Hw as [<- |[<- |[<- |[<- |[<- |[]]]]]]; simpl in H2; try discriminate H2; injection H2 as <-; exact Hv.
Qed.
Lemma entry_inv_stop i i' e : ok entry_parser i i' e -> exists u, i = u ++ i' /\ entry_text e u /\ stop_tok i'.
Proof.
  intros H. destruct (entry_inv _ _ _ H) as (u & -> & Hu). exists u. split; auto. split; auto.
  apply palt_inv in H as [H|[Hb H]].
  - apply pmap_inv in H as (a & H & _). apply state_name_inv in H as (_ & _ & H). auto.
  - apply pmap_inv in H as ([] & H & _). apply (eps_stop (u ++ i')); auto.
    destruct (total_ok_or_bad _ (u ++ i') total_state_name) as [(i2 & x & H1)|]; auto. exfalso.
    exact (ok_not_bad _ _ _ _ (pmap_ok Element _ _ _ _ H1) Hb).
Qed.
Lemma entry_nonspace a u k : entry_text a u -> nonspace (u ++ k).
Proof. intros H. destruct (entry_starts _ _ H) as (c & u' & -> & Hc). simpl. apply starts_space; auto. Qed.
Lemma nm_entries t v : no_more_entries t v <-> (t = [] -> stop_tok v) /\ (t <> [] -> bad entry_parser v).
Proof.
  unfold no_more_entries. rewrite no_entry_iff, token_stop_iff. split; intros (H1 & H2); split; auto.
  destruct t as [|c t]; [|apply H2; discriminate]. apply entry_bad. auto.
Qed.
Lemma entries_iff i i' l : ok (separated_list1 space1 entry_parser) i i' l <->
  exists v, i = v ++ i' /\ sep_by blank1 entry_text l v /\ sep_stop space1 entry_parser stop_tok i'.
Proof.
  apply list1_iff.
  - apply entry_ok.
  - apply entry_nonspace.
  - apply entry_inv_stop.
  - intros s k. apply blank1_stop.
Qed.
Lemma entries_tail r i' : sep_stop space1 entry_parser stop_tok r /\ ok space_comment r i' tt <-> exists t, r = t ++ i' /\ line_tail no_more_entries t i'.
Proof.
  apply stop_tail.
  - intros s k. apply blank1_stop.
  - apply hash_stop.
  - intros k. apply entry_bad. reflexivity.
  - apply nm_entries.
Qed.
Lemma nfa_head_iff v v' h : ok nfa_head v v' h <-> exists u t, v = u ++ t ++ v' /\ nfa_head_text h u /\ line_tail no_more_entries t v'.
Proof.
  change nfa_head with (delimited space0 (separated_list1 space1 entry_parser) space_comment). split.
  - intros H. apply delimited_inv in H as (i1 & b & i2 & [] & H1 & H2 & H3).
    apply space0_inv in H1 as (-> & Hb & _). apply entries_iff in H2 as (ts & -> & Hts & Hs).
    destruct (proj1 (entries_tail i2 v') (conj Hs H3)) as (t & -> & Ht). exists (b ++ ts), t. rewrite <- app_assoc. split; auto.
    split; auto. exists b, ts. auto.
  - intros (u & t & -> & (b & ts & -> & Hb & Hts) & Ht). destruct (proj2 (entries_tail (t ++ v') v')) as (Hs & Hsc); [exists t; auto|].
    rewrite <- app_assoc. eapply delimited_ok; [| |exact Hsc].
    + apply space0_ok; auto. destruct (sep_by_starts _ _ entry_starts _ _ Hts) as (c & w & -> & Hc). simpl. apply starts_space; auto.
    + apply entries_iff. exists ts. auto.
Qed.

(** sets *)
Lemma a_set_iff v : a_set v <-> exists w ts, ok state_set v w ts.
Proof.
  split.
  - intros (ts & s & w & -> & H). exists w, ts. apply set_ok. auto.
  - intros (w & ts & H). apply set_inv in H as (s & -> & H). exists ts, s, w. auto.
Qed.
Lemma set_bad_iff v : bad state_set v <-> ~ a_set v.
Proof.
  rewrite a_set_iff. split.
  - intros H (w & ts & H1). exact (ok_not_bad _ _ _ _ H1 H).
  - intros H. destruct (total_ok_or_bad _ v total_state_set) as [(w & ts & H1)|]; auto. destruct H. eauto.
Qed.
Lemma list0_iff i i' l : ok (separated_list0 space1 state_name) i i' l <->
  l = [] /\ i' = i /\ bad state_name i \/ ok (separated_list1 space1 state_name) i i' l.
Proof.
  unfold ok, separated_list0, separated_list1, pbind, bad. destruct (state_name i) as [[[i1 a]|]| |]; cbn [bind]; split; try tauto; try discriminate.
  - intros [(_ & _ & ?)|?]; [discriminate|auto].
  - intros [= <- <-]. auto.
  - intros [(-> & -> & _)|?]; [auto|discriminate].
  - intros [(_ & _ & ?)|?]; discriminate.
  - intros [(_ & _ & ?)|?]; discriminate.
Qed.
Lemma tag_fail_iff c i k a : efail (e_tag [c]) i k a <-> k = KTag /\ a = i /\ forall w, i <> c :: w.
Proof.
  unfold e_tag. rewrite basic_fail. split.
  - intros (H & -> & ->). split; auto. split; auto. intros w. exact (tag_bad_inv [c] i w H).
  - intros (-> & -> & H). split; auto. apply tag_bad. exact H.
Qed.
Lemma set_fail v k a : efail e_state_set v k a <-> nfa_no_cell v k a.
Proof.
  unfold e_state_set, e_delimited at 1. rewrite (preceded_fail _ (tag [123%N])) by auto with er. rewrite tag_fail_iff.
  assert (Ei : erases (e_delimited e_space0 (e_separated_list0 e_space1 e_state_name) e_space0) (delimited space0 (separated_list0 space1 state_name) space0))
    by auto with er.
  assert (Hs : forall b t x, blank t -> nonspace x -> blank b -> (sep_stop space1 state_name stop_tok (t ++ x) <-> no_more_tokens t x)).
  { intros b t x Ht Hx _. apply stop_blank; auto; [intros s k'; apply blank1_stop|apply nm_tokens]. }
  unfold nfa_no_cell. split.
  - intros [(-> & -> & H)|(v1 & [] & H1 & H)]; [split; auto|].
    apply tag_inv in H1 as ->. apply (terminated_fail _ _ _ _ _ _ Ei) in H as [H|(a' & l & H1 & H)].
    + exfalso. unfold e_delimited in H. apply (preceded_fail _ space0) in H; auto with er.
      destruct H as [H|(i1 & b & _ & H)]; [exact (space0_nofail _ _ _ H)|].
      apply (terminated_fail _ (separated_list0 space1 state_name)) in H; auto with er.
      destruct H as [H|(i2 & x & _ & H)]; [|exact (space0_nofail _ _ _ H)]. revert H. apply (list0_nofail _ space1); auto with er. apply strict_space1.
    + apply tag_fail_iff in H as (-> & -> & Hc). split; auto. right.
      apply delimited_inv in H1 as (x & b & y & t & H1 & H2 & H3). apply space0_inv in H1 as (-> & Hb & Hx).
      apply space0_inv in H3 as (-> & Ht & Ha). apply list0_iff in H2 as [(-> & E & Hbad)|H2].
      * subst x. destruct t as [|c t].
        -- exists b, [], []. simpl in *. split; auto. split; auto. split; auto. split; [apply no_blank_iff; auto|]. split; auto. left. split; auto. split; auto.
           apply name_bad_iff. auto.
        -- exfalso. simpl in Hx. rewrite (proj1 (blank_spec (c :: t)) Ht c) in Hx; [discriminate|left; auto].
      * apply tokens_iff in H2 as (ns & -> & Hns & Hst). apply (Hs [] t a') in Hst; auto; [|apply blank_nil].
        exists b, ns, t. split; auto. split; auto. split; auto. split; [apply no_blank_iff; auto|]. split; auto. right. split; eauto.
  - intros (-> & [(-> & H)|(b & ns & t & -> & Hb & Ht & Ha & Hc & H)]); [left; auto|]. right.
    apply no_blank_iff in Ha. exists (b ++ ns ++ t ++ a), tt. split; [apply (tag_ok [123%N])|].
    apply (terminated_fail _ _ _ _ _ _ Ei). right. destruct H as [(-> & -> & H)|((names & Hns) & H)].
    + exists a, []. split; [|apply tag_fail_iff; auto]. simpl. eapply delimited_ok.
      * apply space0_ok; auto.
      * apply list0_iff. left. split; auto. split; auto. apply name_bad_iff. auto.
      * exact (space0_ok [] a blank_nil Ha).
    + exists a, names. split; [|apply tag_fail_iff; auto]. eapply delimited_ok with (i2 := t ++ a).
      * apply space0_ok; auto. destruct (sep_by_starts _ _ token_text_starts _ _ Hns) as (c & v' & -> & Hcs). simpl.
        apply starts_space; auto.
      * apply list0_iff. right. apply tokens_iff. exists ns. split; auto. split; auto. apply (Hs [] t a); auto. apply blank_nil.
      * apply space0_ok; auto.
Qed.
Lemma set_nonspace a u k : set_text a u -> nonspace (u ++ k).
Proof. intros H. destruct (set_starts _ _ H) as (u' & ->). reflexivity. Qed.
Lemma hash_set k : bad state_set (35%N :: k).
Proof. apply set_bad_iff. intros (ts & s & w & E & H). destruct (set_starts _ _ H) as (u' & ->). discriminate. Qed.
Lemma nm_sets t v : no_more_sets t v <-> (t = [] -> True) /\ (t <> [] -> bad state_set v).
Proof. unfold no_more_sets. rewrite set_bad_iff. tauto. Qed.

Theorem try_nfa_fail u k a : try_nfa u = Ret (Err (mk_error k a)) <-> nfa_error u k a.
Proof.
  change (try_nfa u) with (try_with (e_full e_nfa_head (e_line e_state_set build_nfa_line) build_nfa) u).
  unfold nfa_error.
  apply (full_fail e_nfa_head nfa_head (e_line e_state_set build_nfa_line) (p_line state_set build_nfa_line) er_nfa_head
           (er_line _ _ er_state_set _) total_nfa_line nfa_head_text nfa_line_text build_nfa).
  - apply nfa_head_fail.
  - apply nfa_head_iff.
  - intros v k' a'. apply (line_fail _ state_set); [apply er_state_set|]. intros i k0 a0 _. apply set_fail.
  - intros v v' s. apply line_iff with (CT := set_text) (F := fun _ => True).
    + apply set_nonspace.
    + apply list1_iff; auto.
      * intros a0 u0 k0 H _. apply set_ok. auto.
      * apply set_nonspace.
      * intros i i' a0 H. apply set_inv in H as (u0 & -> & H). eauto.
    + apply stop_tail; auto; [apply hash_set|apply nm_sets].
    + intros [nm ini acc tr] w. unfold nfa_line_text. simpl. split.
      * intros (b0 & st & b & ts & H). exists ini, acc, nm, tr, b0, st, b, ts. split; [reflexivity|]. tauto.
      * intros (ini' & acc' & nm' & tr' & b0 & st & b & ts & [= -> -> -> ->] & H). exists b0, st, b, ts. tauto.
  - intros v. apply (starts_line_iff e_state_set); [apply er_state_set|apply total_state_set|apply a_set_iff|].
    intros i i' x H. apply set_inv in H as (s & -> & H). eapply set_nonspace; eauto.
  - apply nfa_line_starts.
  - apply nfa_line_ok.
  - reflexivity.
Qed.
