(** * WordsProofs: word enumeration *)
From Coq Require Import List NArith Arith Bool Lia Sorted.
From Verif Require Import Base BaseLemmas Spec NfaModel WordsModel NfaBasics NfaUnion NfaEps.
Import ListNotations.

(** ** Loops over sets *)
Lemma any_R_total {A} (p : A -> R bool) (P : A -> Prop) l :
  (forall x, In x l -> exists b, p x = Ret b /\ (b = true <-> P x)) ->
  exists b, any_R p l = Ret b /\ (b = true <-> exists x, In x l /\ P x).
Proof.
  intros H. unfold any_R. destruct (mapR_total p (fun x b => b = true <-> P x) l) as (bs & -> & HF).
  { intros x Hx. destruct (H x Hx) as (b & Hb & Hi). exists b. auto. }
  cbn [bind]. eexists. split; [reflexivity|]. rewrite existsb_exists. split.
  - intros (b & Hb & ->). destruct (Forall2_In_r _ _ _ _ HF Hb) as (x & Hx & Hp). exists x. tauto.
  - intros (x & Hx & Hp). destruct (Forall2_In_l _ _ _ _ HF Hx) as (b & Hb & Hi). exists b. split; auto. apply Hi; auto.
Qed.

Lemma filterR_total {A} (p : A -> R bool) (P : A -> Prop) l :
  (forall x, In x l -> exists b, p x = Ret b /\ (b = true <-> P x)) ->
  exists r, filterR p l = Ret r /\ (forall x, In x r <-> In x l /\ P x) /\
            (forall rel, StronglySorted rel l -> StronglySorted rel r).
Proof.
  intros H. unfold filterR.
  destruct (mapR_total (fun x => b <- p x ;; Ret (x, b)) (fun x y => fst y = x /\ (snd y = true <-> P x)) l) as (bs & -> & HF).
  { intros x Hx. destruct (H x Hx) as (b & -> & Hi). exists (x, b). simpl. auto. }
  cbn [bind]. eexists. split; [reflexivity|]. clear H. induction HF as [|x y l bs [E Hi] HF [IH1 IH2]].
  - simpl. split; [intros x; tauto|]. intros; constructor.
  - simpl. destruct (snd y) eqn:Ey; simpl.
    + split.
      * intros z. rewrite E. split.
        -- intros [-> |Hz]; [split; [auto|apply Hi; auto]|apply IH1 in Hz; tauto].
        -- intros [[-> |Hz] Hp]; [auto|right; apply IH1; auto].
      * intros rel Hs. inversion Hs as [|? ? Hs' Hf]; subst. constructor; auto.
        apply Forall_forall. intros z Hz. apply IH1 in Hz. rewrite Forall_forall in Hf. apply Hf. tauto.
    + split.
      * intros z. rewrite IH1. split; [tauto|]. intros [[-> |Hz] Hp]; [apply Hi in Hp; discriminate|auto].
      * intros rel Hs. inversion Hs; subst; auto.
Qed.

Lemma find_R_total (p : nat -> R bool) (P : nat -> Prop) k : forall a,
  (forall x, a <= x < a + k -> exists b, p x = Ret b /\ (b = true <-> P x)) ->
  exists o, find_R p (seq a k) = Ret o /\
    match o with
    | Some c => P c /\ a <= c < a + k /\ forall c', a <= c' < c -> ~ P c'
    | None => forall c, a <= c < a + k -> ~ P c
    end.
Proof.
  induction k as [|k IH]; intros a H; simpl.
  - exists None. split; auto. intros; lia.
  - destruct (H a) as (b & -> & Hb); [lia|]. cbn [bind]. destruct b.
    + exists (Some a). split; auto. split; [apply Hb; auto|]. split; [lia|]. intros; lia.
    + destruct (IH (S a)) as (o & -> & Ho). { intros x Hx. apply H. lia. }
      exists o. split; auto. destruct o as [c|].
      * destruct Ho as (Hc & Hr & Hm). split; auto. split; [lia|]. intros c' Hc'. destruct (Nat.eq_dec c' a) as [-> |].
        -- intros Hp. apply Hb in Hp. discriminate.
        -- apply Hm. lia.
      * intros c Hc. destruct (Nat.eq_dec c a) as [-> |]; [intros Hp; apply Hb in Hp; discriminate|apply Ho; lia].
Qed.

(** ** Lists *)
Lemma nth_error_seq0 k p : p < k -> nth_error (seq 0 k) p = Some p.
Proof. intros H. rewrite (nth_error_nth' _ 0) by (rewrite seq_length; auto). rewrite seq_nth by auto. auto. Qed.
Lemma skipn_cons {A} (l : list A) : forall i x, nth_error l i = Some x -> skipn i l = x :: skipn (S i) l.
Proof. induction l as [|y l IH]; intros [|i] x H; try discriminate; [injection H as ->; auto|]. simpl in H. exact (IH i x H). Qed.
Lemma firstn_S {A} (l : list A) : forall i x, nth_error l i = Some x -> firstn (S i) l = firstn i l ++ [x].
Proof.
  induction l as [|y l IH]; intros [|i] x H; try discriminate; [injection H as ->; auto|].
  simpl in H. change (y :: firstn (S i) l = (y :: firstn i l) ++ [x]). rewrite (IH i x H). auto.
Qed.
Lemma find_min a x b : StronglySorted lt a -> find (fun y => x <? y) a = Some b -> forall y, In y a -> x < y -> b <= y.
Proof.
  induction 1 as [|z a Hs IH Hf]; simpl; [discriminate|]. rewrite Forall_forall in Hf. destruct (Nat.ltb_spec x z) as [L|L].
  - intros E y [<- |Hy] Hxy; injection E as <-; [lia|]. pose proof (Hf y Hy). lia.
  - intros E y [<- |Hy] Hxy; [lia|]. apply IH; auto.
Qed.

Lemma NoDup_or_repeat (l : list nat) :
  NoDup l \/ exists i j x, i < j /\ nth_error l i = Some x /\ nth_error l j = Some x.
Proof.
  induction l as [|y l [IH|(i & j & x & H1 & H2 & H3)]].
  - left. constructor.
  - destruct (in_dec Nat.eq_dec y l) as [Hy|Hy].
    + right. apply In_nth_error in Hy as [j Hj]. exists 0, (S j), y. split; [lia|]. auto.
    + left. constructor; auto.
  - right. exists (S i), (S j), x. split; [lia|]. auto.
Qed.
Lemma in_firstn {A} (x : A) k l : In x (firstn k l) -> In x l.
Proof. intros H. rewrite <- (firstn_skipn k l). apply in_or_app. auto. Qed.
Lemma nth_error_firstn {A} (l : list A) : forall k i, i < k -> nth_error (firstn k l) i = nth_error l i.
Proof. induction l as [|x l IH]; intros [|k] [|i] H; auto; try lia. simpl. apply IH. lia. Qed.

(** ** Lexicographic order *)
Lemma lex_lt_irrefl l : ~ lex_lt l l.
Proof. induction l; intros H; inversion H; subst; try lia; auto. Qed.
Lemma lex_lt_trans : forall a b c, lex_lt a b -> lex_lt b c -> lex_lt a c.
Proof.
  induction a as [|x a IH]; intros b c H1 H2; inversion H1; subst; inversion H2; subst; try (constructor; fail);
    try (apply lex_lt_head; lia).
  apply lex_lt_tail. eapply IH; eauto.
Qed.
Lemma lex_lt_total : forall a b, length a = length b -> a = b \/ lex_lt a b \/ lex_lt b a.
Proof.
  induction a as [|x a IH]; intros [|y b] Hl; simpl in Hl; try discriminate; auto.
  destruct (lt_eq_lt_dec x y) as [[Hxy| ->]|Hxy].
  - right. left. constructor; auto.
  - destruct (IH b) as [-> | [H|H]]; [lia|auto| |].
    + right. left. apply lex_lt_tail; auto.
    + right. right. apply lex_lt_tail; auto.
  - right. right. constructor; auto.
Qed.
Lemma lex_lt_app : forall u u' a b, length u = length u' ->
  (lex_lt (u ++ a) (u' ++ b) <-> lex_lt u u' \/ (u = u' /\ lex_lt a b)).
Proof.
  induction u as [|x u IH]; intros [|y u'] a b Hl; simpl in Hl; try discriminate.
  - simpl. split; [auto|]. intros [H|[_ H]]; auto. inversion H.
  - simpl. injection Hl as Hl. split.
    + intros H. inversion H; subst.
      * left. constructor; auto.
      * match goal with H : lex_lt (u ++ a) _ |- _ => apply (IH u' a b Hl) in H as [H|[-> H]] end.
        -- left. apply lex_lt_tail; auto.
        -- right. auto.
    + intros [H|[E H]].
      * inversion H; subst; [constructor; auto|]. apply lex_lt_tail. apply (IH u' a b Hl). auto.
      * injection E as -> ->. apply lex_lt_tail. apply (IH u' a b Hl). auto.
Qed.
Lemma shortlex_lt_trans a b c : shortlex_lt a b -> shortlex_lt b c -> shortlex_lt a c.
Proof.
  intros [H1|[H1 H1']] [H2|[H2 H2']]; [left; lia|left; lia|left; lia|].
  right. split; [lia|]. eapply lex_lt_trans; eauto.
Qed.
Lemma shortlex_lt_irrefl a : ~ shortlex_lt a a.
Proof. intros [H|[_ H]]; [lia|exact (lex_lt_irrefl a H)]. Qed.
Lemma shortlex_total a b : a = b \/ shortlex_lt a b \/ shortlex_lt b a.
Proof.
  destruct (lt_eq_lt_dec (length a) (length b)) as [[H|H]|H].
  - right. left. left. auto.
  - destruct (lex_lt_total a b H) as [-> | [H1|H1]]; auto.
    + right. left. right. auto.
    + right. right. right. auto.
  - right. right. left. auto.
Qed.

(** The first [k] words of a set are determined by the set *)
Lemma shortlex_prefix_unique (P : list nat -> Prop) k : forall l l',
  length l <= k -> StronglySorted shortlex_lt l -> (forall x, In x l -> P x) ->
  (forall x, P x -> In x l \/ (length l = k /\ forall y, In y l -> shortlex_lt y x)) ->
  length l' <= k -> StronglySorted shortlex_lt l' -> (forall x, In x l' -> P x) ->
  (forall x, P x -> In x l' \/ (length l' = k /\ forall y, In y l' -> shortlex_lt y x)) ->
  l = l'.
Proof.
  revert P. induction k as [|k IH]; intros P l l' H1 H2 H3 H4 H1' H2' H3' H4'.
  - destruct l, l'; simpl in *; auto; lia.
  - assert (Hhd : forall l l' x r, l = x :: r -> length l <= S k -> StronglySorted shortlex_lt l -> (forall x, In x l -> P x) ->
       (forall x, P x -> In x l' \/ (length l' = S k /\ forall y, In y l' -> shortlex_lt y x)) ->
       exists x' r', l' = x' :: r' /\ (x' = x \/ shortlex_lt x' x \/ In x l')).
    { intros l0 l0' x r -> A1 A2 A3 A4. destruct (A4 x) as [Hi|[Hk Hi]]; [apply A3; left; auto| |].
      - destruct l0' as [|x' r']; [destruct Hi|]. exists x', r'. auto.
      - destruct l0' as [|x' r']; [discriminate|]. exists x', r'. split; auto. right. left. apply Hi. left; auto. }
    destruct l as [|x r].
    { destruct l' as [|x' r']; auto. destruct (Hhd (x' :: r') [] x' r') as (? & ? & E & _); auto. discriminate. }
    destruct l' as [|x' r'].
    { destruct (Hhd (x :: r) [] x r) as (? & ? & E & _); auto. discriminate. }
    inversion H2 as [|? ? S1 F1]; subst. inversion H2' as [|? ? S2 F2]; subst. rewrite Forall_forall in F1, F2.
    assert (x = x').
    { destruct (shortlex_total x x') as [E|[L|L]]; auto; exfalso.
      - destruct (H4' x) as [[E|Hi]|[_ Hi]]; [apply H3; left; auto|subst; exact (shortlex_lt_irrefl _ L)| |].
        + apply F2 in Hi. exact (shortlex_lt_irrefl _ (shortlex_lt_trans _ _ _ L Hi)).
        + specialize (Hi x' (or_introl eq_refl)). exact (shortlex_lt_irrefl _ (shortlex_lt_trans _ _ _ L Hi)).
      - destruct (H4 x') as [[E|Hi]|[_ Hi]]; [apply H3'; left; auto|subst; exact (shortlex_lt_irrefl _ L)| |].
        + apply F1 in Hi. exact (shortlex_lt_irrefl _ (shortlex_lt_trans _ _ _ L Hi)).
        + specialize (Hi x (or_introl eq_refl)). exact (shortlex_lt_irrefl _ (shortlex_lt_trans _ _ _ L Hi)). }
    subst x'. f_equal. simpl in H1, H1'.
    apply (IH (fun y => P y /\ shortlex_lt x y)); auto; try lia.
    + intros y Hy. split; [apply H3; right; auto|apply F1; auto].
    + intros y [Hy Hxy]. destruct (H4 y Hy) as [[E|Hi]|[Hk Hi]]; [subst; destruct (shortlex_lt_irrefl _ Hxy)|auto|].
      right. simpl in Hk. split; [lia|]. intros z Hz. apply Hi. right; auto.
    + intros y Hy. split; [apply H3'; right; auto|apply F2; auto].
    + intros y [Hy Hxy]. destruct (H4' y Hy) as [[E|Hi]|[Hk Hi]]; [subst; destruct (shortlex_lt_irrefl _ Hxy)|auto|].
      right. simpl in Hk. split; [lia|]. intros z Hz. apply Hi. right; auto.
Qed.

(** ** Runs, as positions *)
Definition xedge (n : nfa) (p c q : nat) : Prop :=
  exists s ts, nth_error (nfa_states n) p = Some s /\ nth_error (ns_transitions s) c = Some ts /\ In q ts.
Inductive xpath (n : nfa) : nat -> list nat -> nat -> Prop :=
| xpath_nil p : xpath n p [] p
| xpath_cons p c q w r : xedge n p c q -> xpath n q w r -> xpath n p (c :: w) r.

Lemma xpath_nil_iff n p q : xpath n p [] q <-> p = q.
Proof. split; [intros H; inversion H; auto|intros ->; constructor]. Qed.
Lemma xpath_cons_iff n p c w r : xpath n p (c :: w) r <-> exists q, xedge n p c q /\ xpath n q w r.
Proof.
  split.
  - intros H. inversion H; subst. eauto.
  - intros (q & H1 & H2). econstructor; eauto.
Qed.
Lemma xpath_app n : forall u p v r, xpath n p (u ++ v) r <-> exists q, xpath n p u q /\ xpath n q v r.
Proof.
  induction u as [|c u IH]; intros p v r; simpl.
  - split; [intros H; exists p; split; [constructor|auto]|]. intros (q & H1 & H2). apply xpath_nil_iff in H1. subst. auto.
  - rewrite xpath_cons_iff. split.
    + intros (q & H1 & H2). apply IH in H2 as (q' & H2 & H3). exists q'. split; auto. econstructor; eauto.
    + intros (q & H1 & H2). apply xpath_cons_iff in H1 as (q' & H1 & H3). exists q'. split; auto. apply IH. eauto.
Qed.

Section Words.
  Variable n : nfa.
  Hypothesis V : nfa_valid n.
  Notation N := (length (nfa_states n)).

  Lemma xedge_src p c q : xedge n p c q -> p < N /\ c < length (nfa_alphabet n).
  Proof.
    intros (s & ts & H1 & H2 & _). split; [eapply nth_error_length; eauto|].
    rewrite <- (nv_width _ V _ _ H1). eapply nth_error_length; eauto.
  Qed.
  Lemma xedge_dst p c q : xedge n p c q -> q < N.
  Proof. intros (s & ts & H1 & H2 & H3). eapply (nv_range _ V); eauto. eapply nth_error_In; eauto. Qed.
  Lemma xpath_dst p w q : xpath n p w q -> p < N -> q < N.
  Proof. induction 1; auto. intros _. apply IHxpath. eapply xedge_dst; eauto. Qed.
  Lemma xpath_indices p w q : xpath n p w q -> Forall (fun c => c < length (nfa_alphabet n)) w.
  Proof. induction 1; constructor; auto. apply xedge_src in H. tauto. Qed.

  Definition compl (k v : nat) : Prop := exists w q, length w = k /\ xpath n v w q /\ nfa_accepting n q.
  Definition acc (w : list nat) : Prop := exists q, xpath n (nfa_initial n) w q /\ nfa_accepting n q.
  Definition acc_from (s : list nat) (w : list nat) : Prop := exists p q, In p s /\ xpath n p w q /\ nfa_accepting n q.

  Lemma compl_S k v : compl (S k) v <-> exists c q, xedge n v c q /\ compl k q.
  Proof.
    split.
    - intros (w & q & Hl & Hp & Ha). destruct w as [|c w]; [discriminate|]. apply xpath_cons_iff in Hp as (q' & H1 & H2).
      exists c, q'. split; auto. exists w, q. auto.
    - intros (c & q & He & w & q' & Hl & Hp & Ha). exists (c :: w), q'. simpl. split; [lia|]. split; auto. econstructor; eauto.
  Qed.
  Lemma compl_0 v : compl 0 v <-> nfa_accepting n v.
  Proof.
    split.
    - intros (w & q & Hl & Hp & Ha). destruct w; [|discriminate]. apply xpath_nil_iff in Hp. subst. auto.
    - intros H. exists [], v. split; auto. split; [constructor|auto].
  Qed.

  (** *** Sets of targets *)
  Lemma targets_on_spec s c : (forall p, In p s -> p < N) -> c < length (nfa_alphabet n) ->
    exists r, targets_on n s c = Ret r /\ forall q, In q r <-> exists p, In p s /\ xedge n p c q.
  Proof.
    intros Hs Hc. unfold targets_on.
    destruct (mapR_total (fun u => st <- index (nfa_states n) u ;; index (ns_transitions st) c)
               (fun u ts => exists st, nth_error (nfa_states n) u = Some st /\ nth_error (ns_transitions st) c = Some ts) s)
      as (tss & -> & HF).
    { intros u Hu. destruct (nth_error_lt _ _ (Hs u Hu)) as [st Hst].
      destruct (nth_error_lt (ns_transitions st) c) as [ts Hts]; [rewrite (nv_width _ V _ _ Hst); auto|].
      exists ts. rewrite (index_Some _ _ _ Hst). cbn [bind]. rewrite (index_Some _ _ _ Hts). eauto. }
    cbn [bind]. eexists. split; [reflexivity|]. intros q. rewrite hs_collect_In, in_concat_iff. split.
    - intros (ts & Hts & Hq). destruct (Forall2_In_r _ _ _ _ HF Hts) as (u & Hu & st & H1 & H2). exists u. split; auto.
      exists st, ts. auto.
    - intros (u & Hu & st & ts & H1 & H2 & H3). destruct (Forall2_In_l _ _ _ _ HF Hu) as (ts' & Hts & st' & H1' & H2').
      exists ts'. split; auto. congruence.
  Qed.

  Lemma successors_spec s : (forall p, In p s -> p < N) ->
    exists r, successors n s = Ret r /\ forall q, In q r <-> exists p c, In p s /\ xedge n p c q.
  Proof.
    intros Hs. unfold successors.
    destruct (mapR_total (fun u => st <- index (nfa_states n) u ;; Ret (concat (ns_transitions st)))
               (fun u ts => exists st, nth_error (nfa_states n) u = Some st /\ ts = concat (ns_transitions st)) s)
      as (tss & -> & HF).
    { intros u Hu. destruct (nth_error_lt _ _ (Hs u Hu)) as [st Hst]. rewrite (index_Some _ _ _ Hst). cbn [bind]. eauto. }
    cbn [bind]. eexists. split; [reflexivity|]. intros q. rewrite hs_collect_In, in_concat_iff. split.
    - intros (ts & Hts & Hq). destruct (Forall2_In_r _ _ _ _ HF Hts) as (u & Hu & st & H1 & ->).
      apply in_concat_iff in Hq as (ts' & Ht & Hq). apply In_nth_error in Ht as [c Hc]. exists u, c. split; auto.
      exists st, ts'. auto.
    - intros (u & c & Hu & st & ts & H1 & H2 & H3). destruct (Forall2_In_l _ _ _ _ HF Hu) as (ts' & Hts & st' & H1' & ->).
      exists (concat (ns_transitions st')). split; auto. apply in_concat_iff. exists ts. split; auto.
      replace st' with st by congruence. eapply nth_error_In; eauto.
  Qed.

  Lemma n_complete_spec k v : v < N -> exists b, n_complete n k v = Ret b /\ (b = true <-> compl k v).
  Proof.
    intros Hv. unfold n_complete.
    assert (H : forall k a s, (forall p, In p s -> p < N) ->
              exists r, foldR (fun s _ => successors n s) s (seq a k) = Ret r /\ (forall p, In p r -> p < N) /\
                ((exists q, In q r /\ nfa_accepting n q) <-> exists p, In p s /\ compl k p)).
    { clear k v Hv. induction k as [|k IH]; intros a s Hs.
      - exists s. split; auto. split; auto. split; intros (q & H1 & H2); exists q; split; auto; apply compl_0; auto.
      - cbn [seq foldR]. destruct (successors_spec s Hs) as (s' & -> & Hs'). cbn [bind].
        assert (Hb : forall p, In p s' -> p < N).
        { intros p Hp. apply Hs' in Hp as (p0 & c & _ & He). eapply xedge_dst; eauto. }
        destruct (IH (S a) s' Hb) as (r & -> & Hr & Hi). exists r. split; auto. split; auto. rewrite Hi. split.
        + intros (p & Hp & Hc). apply Hs' in Hp as (p0 & c & Hp0 & He). exists p0. split; auto. apply compl_S. eauto.
        + intros (p & Hp & Hc). apply compl_S in Hc as (c & q & He & Hc). exists q. split; auto. apply Hs'. eauto. }
    destruct (H k 0 [v]) as (r & -> & Hr & Hi). { intros p [-> | []]; auto. }
    cbn [bind].
    destruct (any_R_total (fun idx => st <- index (nfa_states n) idx ;; Ret (ns_accepting st)) (nfa_accepting n) r)
      as (b & -> & Hb).
    { intros q Hq. destruct (nth_error_lt _ _ (Hr q Hq)) as [st Hst]. rewrite (index_Some _ _ _ Hst). cbn [bind].
      exists (ns_accepting st). split; auto. split.
      - intros E. exists st. auto.
      - intros (st' & E1 & E2). congruence. }
    exists b. split; auto. rewrite Hb, Hi. split.
    - intros (p & [-> | []] & Hc). auto.
    - intros Hc. exists v. split; [left; auto|auto].
  Qed.

  (** *** Matrices *)
  Definition m_is (m : matrix) (P : nat -> nat -> Prop) : Prop :=
    forall p q, p < N -> q < N -> exists b, m_at m p q = Ret b /\ (b = true <-> P p q).

  Lemma m_from_fn_total f P : (forall i j, i < N -> j < N -> exists b, f i j = Ret b /\ (b = true <-> P i j)) ->
    exists m, m_from_fn N f = Ret m /\ m_is m P.
  Proof.
    intros H. unfold m_from_fn.
    destruct (mapR_total (fun i => mapR (fun j => f i j) (seq 0 N))
               (fun i row => length row = N /\ forall j b, nth_error row j = Some b -> (b = true <-> P i j)) (seq 0 N))
      as (m & -> & HF).
    { intros i Hi. apply in_seq in Hi.
      destruct (mapR_total (fun j => f i j) (fun j b => b = true <-> P i j) (seq 0 N)) as (row & -> & HF).
      { intros j Hj. apply in_seq in Hj. destruct (H i j) as (b & -> & Hb); [lia|lia|]. eauto. }
      exists row. split; auto. split; [rewrite <- (Forall2_len _ _ _ HF), seq_length; auto|].
      intros j b Hb. destruct (Forall2_nth_r _ _ _ HF _ _ Hb) as (j' & Hj' & Hp).
      assert (j' = j); [|subst; auto]. assert (Hlt : j < N) by (rewrite <- (seq_length N 0); eapply nth_error_length; eauto).
      rewrite nth_error_seq0 in Hj' by auto. congruence. }
    exists m. split; auto. intros p q Hp Hq. unfold m_at.
    assert (Hs : nth_error (seq 0 N) p = Some p) by (apply nth_error_seq0; auto).
    destruct (Forall2_nth _ _ _ HF _ _ Hs) as (row & Hrow & Hl & Hb). rewrite (index_Some _ _ _ Hrow). cbn [bind].
    destruct (nth_error_lt row q) as [b Hbq]; [lia|]. rewrite (index_Some _ _ _ Hbq). exists b. split; auto.
  Qed.

  Lemma m_mul_spec a b P Q : m_is a P -> m_is b Q ->
    exists m, m_mul N a b = Ret m /\ m_is m (fun i j => exists k, k < N /\ P i k /\ Q k j).
  Proof.
    intros Ha Hb. unfold m_mul. apply m_from_fn_total. intros i j Hi Hj.
    assert (H : forall len st acc, st + len <= N -> exists r,
              foldR (fun acc k => x <- m_at a i k ;; y <- m_at b k j ;; Ret (nb_add acc (nb_mul x y))) acc (seq st len) = Ret r /\
              (r = true <-> acc = true \/ exists k, st <= k < st + len /\ P i k /\ Q k j)).
    { induction len as [|len IH]; intros st acc0 Hst.
      - exists acc0. split; auto. split; [auto|]. intros [E|(k & Hk & _)]; [auto|lia].
      - cbn [seq foldR]. destruct (Ha i st) as (x & -> & Hx); [auto|lia|]. cbn [bind].
        destruct (Hb st j) as (y & -> & Hy); [lia|auto|]. cbn [bind].
        destruct (IH (S st) (nb_add acc0 (nb_mul x y))) as (r & -> & Hr); [lia|]. exists r. split; auto. rewrite Hr.
        assert (E : nb_add acc0 (nb_mul x y) = true <-> acc0 = true \/ (P i st /\ Q st j)).
        { rewrite <- Hx, <- Hy. destruct acc0, x, y; simpl; intuition congruence. }
        rewrite E. split.
        + intros [[E1|E1]|(k & Hk & E1)]; auto; right; [exists st|exists k]; split; auto; lia.
        + intros [E1|(k & Hk & E1)]; auto. destruct (Nat.eq_dec k st) as [-> |]; auto. right. exists k. split; auto. lia. }
    destruct (H N 0 nb_zero) as (r & -> & Hr); [lia|]. exists r. split; auto. rewrite Hr. split.
    - intros [E|(k & Hk & E)]; [discriminate|]. exists k. split; auto. lia.
    - intros (k & Hk & E). right. exists k. split; auto. lia.
  Qed.

  Definition reach_in (k p q : nat) : Prop := exists w, length w = k /\ xpath n p w q.
  Definition adj_ok (adj : list matrix) : Prop :=
    2 <= length adj /\ forall k m, nth_error adj k = Some m -> m_is m (reach_in k).

  Lemma m_is_ext m P Q : (forall i j, i < N -> j < N -> (P i j <-> Q i j)) -> m_is m P -> m_is m Q.
  Proof. intros H Hm p q Hp Hq. destruct (Hm p q Hp Hq) as (b & Hb & Hi). exists b. split; auto. rewrite Hi. auto. Qed.

  Lemma generate_matrices_spec k adj : adj_ok adj ->
    exists adj', generate_matrices_up_to N k adj = Ret adj' /\ adj_ok adj' /\ k < length adj'.
  Proof.
    intros H0. unfold generate_matrices_up_to.
    apply (while_total adj_ok (fun adj' => adj_ok adj' /\ k < length adj') (fun adj => S k - length adj)); auto.
    - intros a Ha. unfold generate_matrices_step. destruct (length a <=? k) eqn:E.
      + apply Nat.leb_le in E. destruct Ha as [Hl Hm].
        destruct (nth_error_lt a 1) as [m1 H1]; [lia|]. rewrite (index_Some _ _ _ H1). cbn [bind].
        destruct (pop a) as [[r lst]|] eqn:Ep; [|apply pop_None in Ep; subst; simpl in Hl; lia].
        apply pop_Some in Ep. cbn [option_map snd unwrap bind].
        assert (Hlst : nth_error a (length r) = Some lst) by (rewrite Ep, nth_error_app2, Nat.sub_diag by lia; auto).
        destruct (m_mul_spec m1 lst _ _ (Hm _ _ H1) (Hm _ _ Hlst)) as (m & -> & Hmm). cbn [bind].
        assert (Hlen : length a = S (length r)) by (rewrite Ep, app_length; simpl; lia).
        eexists. split; [reflexivity|]. split.
        * split; [rewrite app_length; lia|]. intros j mj Hj. destruct (lt_dec j (length a)) as [L|L].
          -- rewrite nth_error_app1 in Hj by auto. auto.
          -- rewrite nth_error_app2 in Hj by lia. destruct (j - length a) as [|d] eqn:Ed; [|destruct d; discriminate].
             injection Hj as <-. assert (j = S (length r)) by lia. subst j.
             apply (m_is_ext m (fun i j => exists k0, k0 < N /\ reach_in 1 i k0 /\ reach_in (length r) k0 j)); auto.
             intros x y Hx Hy. split.
             ++ intros (z & Hz & (w1 & L1 & P1) & w2 & L2 & P2). exists (w1 ++ w2). rewrite app_length. split; [lia|].
                apply xpath_app. eauto.
             ++ intros (w & Lw & Pw). destruct w as [|c w]; [discriminate|]. apply xpath_cons_iff in Pw as (z & He & Pw).
                exists z. split; [eapply xedge_dst; eauto|]. split.
                ** exists [c]. split; auto. econstructor; eauto. constructor.
                ** exists w. simpl in Lw. split; [lia|auto].
        * rewrite app_length. cbn [length]. lia.
      + apply Nat.leb_gt in E. eexists. split; [reflexivity|]. split; auto.
    - destruct H0 as [Hl _]. pose proof (pow2_gt (S k)). lia.
  Qed.

  (** *** The smallest word *)
  Variable final : list nat.
  Hypothesis Hfinal : forall q, In q final <-> nfa_accepting n q.

  Lemma final_lt q : In q final -> q < N.
  Proof. intros H. apply Hfinal in H as (s & H & _). eapply nth_error_length; eauto. Qed.

  Lemma any_final m k v : m_is m (reach_in k) -> v < N ->
    exists b, any_R (fun f => m_at m v f) final = Ret b /\ (b = true <-> compl k v).
  Proof.
    intros Hm Hv. destruct (any_R_total (fun f => m_at m v f) (reach_in k v) final) as (b & -> & Hb).
    { intros f Hf. apply Hm; auto. apply final_lt; auto. }
    exists b. split; auto. rewrite Hb. split.
    - intros (f & Hf & w & Hl & Hp). exists w, f. split; auto. split; auto. apply Hfinal; auto.
    - intros (w & f & Hl & Hp & Ha). exists f. split; [apply Hfinal; auto|exists w; auto].
  Qed.

  Lemma elem_completes_spec m k s c : m_is m (reach_in k) -> (forall p, In p s -> p < N) -> c < length (nfa_alphabet n) ->
    exists b, elem_completes n m final s c = Ret b /\ (b = true <-> exists p q, In p s /\ xedge n p c q /\ compl k q).
  Proof.
    intros Hm Hs Hc. unfold elem_completes.
    destruct (any_R_total (fun u => any_R (fun f => st <- index (nfa_states n) u ;; ts <- index (ns_transitions st) c ;;
                                  any_R (fun v => m_at m v f) ts) final)
                (fun u => exists q, xedge n u c q /\ compl k q) s) as (b & -> & Hb).
    { intros u Hu. destruct (nth_error_lt _ _ (Hs u Hu)) as [st Hst].
      destruct (nth_error_lt (ns_transitions st) c) as [ts Hts]; [rewrite (nv_width _ V _ _ Hst); auto|].
      destruct (any_R_total (fun f => st <- index (nfa_states n) u ;; ts <- index (ns_transitions st) c ;;
                                  any_R (fun v => m_at m v f) ts) (fun f => exists q, xedge n u c q /\ reach_in k q f) final)
        as (b & -> & Hb).
      { intros f Hf. rewrite (index_Some _ _ _ Hst). cbn [bind]. rewrite (index_Some _ _ _ Hts). cbn [bind].
        destruct (any_R_total (fun v => m_at m v f) (fun v => reach_in k v f) ts) as (b & -> & Hb).
        { intros v Hv. apply Hm; [|apply final_lt; auto]. eapply (nv_range _ V); eauto. eapply nth_error_In; eauto. }
        exists b. split; auto. rewrite Hb. split.
        - intros (v & Hv & Hr). exists v. split; auto. exists st, ts. auto.
        - intros (v & (st' & ts' & E1 & E2 & E3) & Hr). exists v. split; auto. congruence. }
      exists b. split; auto. rewrite Hb. split.
      - intros (f & Hf & q & He & w & Hl & Hp). exists q. split; auto. exists w, f. split; auto. split; auto. apply Hfinal; auto.
      - intros (q & He & w & f & Hl & Hp & Ha). exists f. split; [apply Hfinal; auto|]. exists q. split; auto. exists w; auto. }
    exists b. split; auto. rewrite Hb. split.
    - intros (p & Hp & q & H1 & H2). eauto.
    - intros (p & q & Hp & H1 & H2). eauto.
  Qed.

  Lemma acc_from_cons s s' c k w : (forall q, In q s' <-> (exists p, In p s /\ xedge n p c q) /\ compl k q) -> length w = k ->
    (acc_from s (c :: w) <-> acc_from s' w).
  Proof.
    intros H Hl. split.
    - intros (p & q & Hp & Hx & Ha). apply xpath_cons_iff in Hx as (p' & He & Hx). exists p', q. split; [|auto].
      apply H. split; [eauto|]. exists w, q. auto.
    - intros (p & q & Hp & Hx & Ha). apply H in Hp as [(p0 & Hp0 & He) _]. exists p0, q. split; auto. split; auto.
      econstructor; eauto.
  Qed.

  Lemma min_word_loop_spec adj : adj_ok adj -> forall k s, k <= length adj -> (forall p, In p s -> p < N) ->
    (exists p, In p s /\ compl k p) ->
    exists w pushed, min_word_loop n adj final k s = Ret (w, pushed) /\ length w = k /\ acc_from s w /\
      (forall w', length w' = k -> acc_from s w' -> w' = w \/ lex_lt w w') /\
      length pushed = k - 1 /\
      forall i t, nth_error pushed i = Some t ->
        forall q, In q t <-> (exists p, In p s /\ xpath n p (firstn (S i) w) q) /\ compl (k - S i) q.
  Proof.
    intros [Hlen Hadj]. induction k as [|k IH]; intros s Hk Hs (p0 & Hp0 & Hc0).
    - exists [], []. split; auto. split; auto. split.
      { apply compl_0 in Hc0. exists p0, p0. split; auto. split; [constructor|auto]. }
      split; [intros w' Hl _; left; destruct w'; [auto|discriminate]|]. split; auto. intros i t Hi. destruct i; discriminate.
    - cbn [min_word_loop]. destruct (nth_error_lt adj k) as [m Hm]; [lia|]. rewrite (index_Some _ _ _ Hm). cbn [bind].
      pose proof (Hadj _ _ Hm) as Hmi.
      destruct (find_R_total (elem_completes n m final s) (fun c => exists p q, In p s /\ xedge n p c q /\ compl k q)
                  (length (nfa_alphabet n)) 0) as (o & -> & Ho).
      { intros c Hc. apply elem_completes_spec; auto. lia. }
      cbn [bind]. apply compl_S in Hc0 as (c0 & q0 & He0 & Hc0).
      destruct o as [c|].
      2:{ exfalso. apply (Ho c0); [|eauto]. apply xedge_src in He0. lia. }
      cbn [unwrap bind]. destruct Ho as ((p1 & q1 & Hp1 & He1 & Hc1) & Hcr & Hmin).
      destruct (targets_on_spec s c Hs) as (t0 & Ht0 & Hin0); [lia|].
      destruct (filterR_total (fun v => any_R (fun f => m_at m v f) final) (compl k) t0) as (t & Ht & Hin & _).
      { intros v Hv. apply any_final; auto. apply Hin0 in Hv as (p & _ & He). eapply xedge_dst; eauto. }
      assert (Hin' : forall q, In q t <-> (exists p, In p s /\ xedge n p c q) /\ compl k q).
      { intros q. rewrite Hin, Hin0. reflexivity. }
      assert (Hcons : forall w, length w = k -> (acc_from s (c :: w) <-> acc_from t w)).
      { intros w Hw. apply (acc_from_cons s t c k); auto. }
      assert (Hfirst : forall c' w', length w' = k -> acc_from s (c' :: w') -> c <= c').
      { intros c' w' Hw (p & q & Hp & Hx & Ha). apply xpath_cons_iff in Hx as (p' & He & Hx).
        destruct (le_lt_dec c c') as [L|L]; auto. exfalso. apply (Hmin c'); [lia|]. exists p, p'. split; auto. split; auto.
        exists w', q. auto. }
      destruct k as [|k].
      + exists [c], []. split; auto. split; auto. split.
        { apply compl_0 in Hc1. exists p1, q1. split; auto. split; auto. econstructor; eauto. constructor. }
        split.
        { intros w' Hl Ha. destruct w' as [|c' [|]]; try discriminate. pose proof (Hfirst c' [] eq_refl Ha) as Hle.
          destruct (Nat.eq_dec c c') as [-> |]; auto. right. constructor. lia. }
        split; auto. intros i t' Hi. destruct i; discriminate.
      + rewrite Ht0. cbn [bind]. rewrite Ht. cbn [bind].
        destruct (IH t) as (w & pushed & -> & Hl & Ha & Hmw & Hlp & Hps); [lia| | |].
        { intros q Hq. apply Hin' in Hq as [(p & _ & He) _]. eapply xedge_dst; eauto. }
        { exists q1. split; auto. apply Hin'. eauto. }
        cbn [bind]. exists (c :: w), (t :: pushed). split; auto. split; [simpl; lia|]. split; [apply Hcons; auto|]. split.
        { intros w' Hl' Ha'. destruct w' as [|c' w']; [discriminate|]. simpl in Hl'. injection Hl' as Hl'.
          pose proof (Hfirst c' w' Hl' Ha') as Hle. destruct (Nat.eq_dec c c') as [<- |]; [|right; constructor; lia].
          apply Hcons in Ha'; auto. destruct (Hmw w' Hl' Ha') as [-> |Hlt]; auto. right. apply lex_lt_tail; auto. }
        split; [simpl in *; lia|]. intros i t' Hi q. destruct i as [|i].
        * injection Hi as <-. rewrite Hin'. cbn [firstn]. replace (S (S k) - 1) with (S k) by lia. split.
          -- intros [(p & Hp & He) Hc]. split; auto. exists p. split; auto. econstructor; eauto. constructor.
          -- intros [(p & Hp & Hx) Hc]. split; auto. apply xpath_cons_iff in Hx as (q' & He & Hx). apply xpath_nil_iff in Hx.
             subst. eauto.
        * simpl in Hi. rewrite (Hps _ _ Hi). change (firstn (S (S i)) (c :: w)) with (c :: firstn (S i) w).
          change (S (S k) - S (S i)) with (S k - S i). split.
          -- intros [(p & Hp & Hx) Hc]. split; auto. apply Hin' in Hp as [(p' & Hp' & He) _]. exists p'. split; auto.
             econstructor; eauto.
          -- intros [(p & Hp & Hx) Hc]. split; auto. apply xpath_cons_iff in Hx as (p' & He & Hx). exists p'. split; auto.
             apply Hin'. split; [eauto|]. destruct Hc as (v & f & Hv & Hpv & Hf). exists (firstn (S i) w ++ v), f.
             split; [|split; auto; apply xpath_app; eauto]. 
             assert (Hi' : i < length pushed) by (eapply nth_error_length; eauto).
             rewrite app_length, firstn_length. lia.
  Qed.

  Definition wi_ok (wi : words_iter) : Prop := wi_nfa wi = n /\ adj_ok (wi_adj wi) /\ wi_final wi = final.

  Lemma min_word_spec wi r s k : wi_ok wi -> wi_stack wi = r ++ [s] -> (forall p, In p s -> p < N) ->
    exists wi' o, min_word wi k = Ret (wi', o) /\ wi_ok wi' /\ wi_failed wi' = wi_failed wi /\ wi_last wi' = wi_last wi /\
      match o with
      | None => wi_stack wi' = wi_stack wi /\ forall w, length w = k -> ~ acc_from s w
      | Some w => length w = k /\ acc_from s w /\
          (forall w', length w' = k -> acc_from s w' -> w' = w \/ lex_lt w w') /\
          exists pushed, wi_stack wi' = wi_stack wi ++ pushed /\ length pushed = k - 1 /\
            forall i t, nth_error pushed i = Some t ->
              forall q, In q t <-> (exists p, In p s /\ xpath n p (firstn (S i) w) q) /\ compl (k - S i) q
      end.
  Proof.
    intros (Hn & Ha & Hf) Hst Hs. unfold min_word. rewrite Hn.
    destruct (generate_matrices_spec k _ Ha) as (adj & -> & Hadj & Hlen). cbn [bind].
    cbn [wi_stack wi_nfa wi_final wi_failed wi_last]. rewrite Hst, pop_snoc. cbn [option_map snd unwrap bind].
    destruct (nth_error_lt adj k Hlen) as [m Hm]. rewrite (index_Some _ _ _ Hm). cbn [bind]. rewrite Hf.
    destruct (any_R_total (fun from => any_R (fun to => m_at m from to) final) (compl k) s) as (b & -> & Hb).
    { intros p Hp. apply any_final; auto. apply (proj2 Hadj _ _ Hm). }
    cbn [bind]. destruct b; simpl negb; cbv iota.
    - destruct (min_word_loop_spec adj Hadj k s) as (w & pushed & -> & Hl & Hw & Hmin & Hlp & Hps); auto; [lia|apply Hb; auto|].
      cbn [bind]. eexists. exists (Some w). split; [reflexivity|]. split; [split; auto|]. split; auto. split; auto.
      split; auto. split; auto. split; auto. exists pushed. simpl. auto.
    - eexists. exists None. split; [reflexivity|]. split; [split; auto|]. split; auto. split; auto. simpl. split; auto.
      intros w Hw (p & q & Hp & Hx & Hacc). assert (X : false = true); [|discriminate]. apply Hb. exists p. split; auto.
      exists w, q. auto.
  Qed.

  (** *** The next word of the same length *)
  (** The first [i] sets of the stack belong to the word [w] *)
  Definition stack_ok (i : nat) (w : list nat) (stk : list (list nat)) : Prop :=
    length stk = i /\
    forall j t, nth_error stk j = Some t ->
      forall q, In q t <-> xpath n (nfa_initial n) (firstn j w) q /\ compl (length w - j) q.

  Lemma possible_elems_spec s k : (forall p, In p s -> p < N) ->
    exists a, possible_elems n s k = Ret a /\ StronglySorted lt a /\
      forall c, In c a <-> exists p q, In p s /\ xedge n p c q /\ compl k q.
  Proof.
    intros Hs. unfold possible_elems. destruct (successors_spec s Hs) as (r0 & -> & Hr0). cbn [bind].
    destruct (filterR_total (n_complete n k) (compl k) r0) as (r & -> & Hr & _).
    { intros v Hv. apply n_complete_spec. apply Hr0 in Hv as (p & c & _ & He). eapply xedge_dst; eauto. }
    cbn [bind].
    destruct (filterR_total (fun idx => lhs <- targets_on n s idx ;; Ret (negb (length (filter (fun x => mem x r) lhs) =? 0)))
                (fun c => exists p q, In p s /\ xedge n p c q /\ compl k q) (seq 0 (length (nfa_alphabet n)))) as (a & -> & Ha & Hso).
    { intros c Hc. apply in_seq in Hc. destruct (targets_on_spec s c Hs) as (lhs & -> & Hl); [lia|]. cbn [bind].
      eexists. split; [reflexivity|]. rewrite negb_true_iff, Nat.eqb_neq, length_zero_iff_nil. split.
      - intros Hne. destruct (filter (fun x => mem x r) lhs) as [|q l] eqn:E; [congruence|].
        assert (Hq : In q (filter (fun x => mem x r) lhs)) by (rewrite E; left; auto).
        apply filter_In in Hq as [H1 H2]. apply mem_In, Hr in H2. apply Hl in H1 as (p & Hp & He). exists p, q. tauto.
      - intros (p & q & Hp & He & Hc') E. assert (Hq : In q (filter (fun x => mem x r) lhs)); [|rewrite E in Hq; auto].
        apply filter_In. split; [apply Hl; eauto|]. apply mem_In, Hr. split; auto. apply Hr0. eauto. }
    exists a. split; auto. split; [apply Hso, seq_lt_sorted|]. intros c. rewrite Ha, in_seq. split; [tauto|].
    intros (p & q & H1 & H2 & H3). split; [|eauto]. apply xedge_src in H2. lia.
  Qed.

  Lemma acc_split u c v k s : (forall q, In q s <-> xpath n (nfa_initial n) u q /\ compl (S k) q) -> length v = k ->
    (acc (u ++ c :: v) <-> exists p q, In p s /\ xedge n p c q /\ exists f, xpath n q v f /\ nfa_accepting n f).
  Proof.
    intros Hs Hv. unfold acc. split.
    - intros (f & Hx & Ha). apply xpath_app in Hx as (p & H1 & H2). apply xpath_cons_iff in H2 as (q & He & H2).
      exists p, q. split; [|split; eauto]. apply Hs. split; auto. apply compl_S. exists c, q. split; auto. exists v, f. auto.
    - intros (p & q & Hp & He & f & Hx & Ha). exists f. split; auto. apply xpath_app. exists p. split; [apply Hs; auto|].
      econstructor; eauto.
  Qed.

  Lemma next_word_loop_spec w : forall i wi, wi_ok wi -> i <= length w -> (i = 0 \/ stack_ok i w (wi_stack wi)) ->
    (forall v', length v' = length w - i -> acc (firstn i w ++ v') -> ~ lex_lt (skipn i w) v') ->
    exists wi' o, next_word_loop wi w i = Ret (wi', o) /\ wi_ok wi' /\ wi_failed wi' = wi_failed wi /\
      wi_last wi' = wi_last wi /\
      match o with
      | None => forall w', length w' = length w -> acc w' -> ~ lex_lt w w'
      | Some w' => length w' = length w /\ acc w' /\ lex_lt w w' /\
          (forall x, length x = length w -> acc x -> lex_lt w x -> x = w' \/ lex_lt w' x) /\
          stack_ok (length w') w' (wi_stack wi')
      end.
  Proof.
    induction i as [|i IH]; intros wi Hok Hi Hst Hinv.
    - exists wi, None. simpl. split; auto. split; auto. split; auto. split; auto. intros w' Hl Ha. apply (Hinv w'); [lia|auto].
    - destruct Hst as [Hst|[Hsl Hst]]; [discriminate|]. cbn [next_word_loop]. destruct Hok as (Hn & Hadj & Hf). rewrite Hn.
      destruct (pop (wi_stack wi)) as [[rest s]|] eqn:Ep.
      2:{ apply pop_None in Ep. rewrite Ep in Hsl. discriminate. }
      apply pop_Some in Ep. cbn [unwrap bind].
      assert (Hlr : length rest = i) by (rewrite Ep, app_length in Hsl; simpl in Hsl; lia).
      assert (Hs : forall q, In q s <-> xpath n (nfa_initial n) (firstn i w) q /\ compl (S (length w - S i)) q).
      { intros q. rewrite (Hst i s).
        - replace (S (length w - S i)) with (length w - i) by lia. tauto.
        - rewrite Ep, nth_error_app2, Hlr, Nat.sub_diag by lia. auto. }
      assert (Hsb : forall p, In p s -> p < N).
      { intros p Hp. apply Hs in Hp as [Hp _]. eapply xpath_dst; eauto. apply (nv_initial _ V). }
      destruct (possible_elems_spec s (length w - S i) Hsb) as (a & -> & Hsort & Ha). cbn [bind].
      destruct (nth_error_lt w i) as [x Hx]; [lia|]. rewrite (index_Some _ _ _ Hx). cbn [bind].
      assert (Hw : w = firstn i w ++ x :: skipn (S i) w).
      { rewrite <- (firstn_skipn i w) at 1. f_equal. apply skipn_cons; auto. }
      assert (Hf1 : firstn (S i) w = firstn i w ++ [x]) by (apply firstn_S; auto).
      assert (Hi' : length (firstn i w) = i) by (rewrite firstn_length; lia).
      assert (Hapos : forall y v', length v' = length w - S i -> acc (firstn i w ++ y :: v') -> In y a).
      { intros y v' Hv' Hacc. apply (acc_split _ y v' _ s Hs Hv') in Hacc as (p & q & Hp & He & f & Hxf & Haf).
        apply Ha. exists p, q. split; auto. split; auto. exists v', f. auto. }
      destruct (forallb (fun y => y <=? x) a) eqn:Eall.
      + rewrite forallb_forall in Eall.
        destruct (IH (mk_words_iter n (wi_adj wi) (wi_final wi) rest (wi_failed wi) (wi_last wi))) as (wi' & o & HR); auto.
        { split; auto. }
        { lia. }
        { right. split; auto. intros j t Hj. apply Hst. cbn [wi_stack] in Hj. rewrite Ep, nth_error_app1; auto.
          eapply nth_error_length; eauto. }
        { intros v' Hl' Hacc Hlt. destruct v' as [|y v'].
          { rewrite (skipn_cons _ _ _ Hx) in Hlt. inversion Hlt. }
          simpl in Hl'. rewrite (skipn_cons _ _ _ Hx) in Hlt.
          assert (Hy : In y a) by (apply (Hapos y v'); auto; lia). apply Eall, Nat.leb_le in Hy.
          inversion Hlt; subst; [lia|]. apply (Hinv v'); [lia| |auto].
          rewrite Hf1, <- app_assoc. exact Hacc. }
        exists wi', o. exact HR.
      + destruct (find (fun y => x <? y) a) as [b|] eqn:Ef.
        2:{ exfalso. assert (forallb (fun y => y <=? x) a = true); [|congruence]. apply forallb_forall. intros y Hy.
            apply Nat.leb_le. pose proof (find_none _ _ Ef y Hy) as E. apply Nat.ltb_ge in E. auto. }
        cbn [unwrap bind]. pose proof (find_some _ _ Ef) as [Hba Hbx]. apply Nat.ltb_lt in Hbx.
        assert (Hbmin : forall y, In y a -> x < y -> b <= y) by (apply (find_min a x b Hsort Ef)).
        pose proof (proj1 (Ha b) Hba) as (pb & qb & Hpb & Heb & Hcb).
        assert (Hbr : b < length (nfa_alphabet n)) by (apply xedge_src in Heb; tauto).
        destruct (targets_on_spec s b Hsb Hbr) as (t0 & -> & Ht0). cbn [bind].
        destruct (filterR_total (n_complete n (length w - S i)) (compl (length w - S i)) t0) as (t & -> & Ht & _).
        { intros v Hv. apply n_complete_spec. apply Ht0 in Hv as (p & _ & He). eapply xedge_dst; eauto. }
        cbn [bind]. 
        assert (Htin : forall q, In q t <-> xpath n (nfa_initial n) (firstn i w ++ [b]) q /\ compl (length w - S i) q).
        { intros q. rewrite Ht, Ht0, xpath_app. split.
          - intros [(p & Hp & He) Hc]. split; auto. exists p. split; [apply Hs; auto|]. econstructor; eauto. constructor.
          - intros [(p & Hp & Hx') Hc]. split; auto. apply xpath_cons_iff in Hx' as (q' & He & Hq). apply xpath_nil_iff in Hq.
            subst q'. exists p. split; auto. apply Hs. split; auto. apply compl_S. eauto. }
        assert (Hacct : forall v', length v' = length w - S i -> (acc (firstn i w ++ b :: v') <-> acc_from t v')).
        { intros v' Hv'. rewrite (acc_split _ b v' _ s Hs Hv'). split.
          - intros (p & q & Hp & He & f & Hxf & Haf). exists q, f. split; auto. apply Ht. split; [apply Ht0; eauto|].
            exists v', f. auto.
          - intros (q & f & Hq & Hxf & Haf). apply Ht in Hq as [Hq _]. apply Ht0 in Hq as (p & Hp & He). eauto 7. }
        (* the order argument, for the smallest completion [m] of the new prefix *)
        assert (Hfin : forall m, length m = length w - S i -> acc_from t m ->
                  (forall m', length m' = length w - S i -> acc_from t m' -> m' = m \/ lex_lt m m') ->
                  let w' := (firstn i w ++ [b]) ++ m in
                  length w' = length w /\ acc w' /\ lex_lt w w' /\
                  (forall y, length y = length w -> acc y -> lex_lt w y -> y = w' \/ lex_lt w' y)).
        { intros m Hlm Ham Hmm. rewrite <- app_assoc. simpl. split; [rewrite app_length; simpl; lia|].
          split; [apply Hacct; auto|]. split.
          { rewrite Hw at 1. apply lex_lt_app; auto. right. split; auto. constructor; auto. }
          intros y Hly Hay Hlt.
          assert (Hy0 : y = firstn i y ++ skipn i y) by (symmetry; apply firstn_skipn).
          assert (Hlu : length (firstn i w) = length (firstn i y)) by (rewrite !firstn_length; lia).
          rewrite Hw, Hy0 in Hlt. apply lex_lt_app in Hlt; auto. destruct Hlt as [Hlt|[Eu Hlt]].
          { right. rewrite Hy0. apply lex_lt_app; auto. }
          rewrite Hy0, <- Eu in Hay |- *. destruct (skipn i y) as [|c v'] eqn:Es; [inversion Hlt|].
          assert (Hv' : length v' = length w - S i).
          { assert (length (skipn i y) = length y - i) by apply skipn_length. rewrite Es in H. simpl in H. lia. }
          inversion Hlt as [|x0 c0 l1 l2 Hxc|x0 l1 l2 Hvv]; subst.
          - pose proof (Hbmin c (Hapos c v' Hv' Hay) Hxc) as Hbc. destruct (Nat.eq_dec b c) as [-> |Hne].
            + apply Hacct in Hay; auto. destruct (Hmm v' Hv' Hay) as [-> |Hlt']; auto. right. apply lex_lt_app; auto. right.
              split; auto. apply lex_lt_tail; auto.
            + right. apply lex_lt_app; auto. right. split; auto. constructor. lia.
          - exfalso. apply (Hinv v' Hv'); auto. rewrite Hf1, <- app_assoc. exact Hay. }
        destruct (S i =? length w) eqn:Ei; simpl negb; cbv iota.
        * apply Nat.eqb_eq in Ei.
          assert (Hl0 : length w - S i = 0) by lia.
          destruct (Hfin []) as (F1 & F2 & F3 & F4).
          { simpl. lia. }
          { exists qb, qb. split; [apply Ht; split; [apply Ht0; eauto|rewrite Hl0 in Hcb |- *; auto]|].
            split; [constructor|]. rewrite Hl0 in Hcb. apply compl_0; auto. }
          { intros m' Hm' _. left. destruct m'; [auto|]. simpl in Hm'. lia. }
          rewrite app_nil_r in F1, F2, F3, F4.
          exists wi, (Some (firstn i w ++ [b])). split; auto. split; [split; auto|]. split; auto. split; auto.
          split; auto. split; auto. split; auto. split; auto. rewrite F1, <- Ei. split; auto.
          intros j t' Hj q. assert (Hjl : j < S i) by (rewrite <- Hsl; eapply nth_error_length; eauto).
          rewrite (Hst _ _ Hj), F1. rewrite firstn_app, Hi'. replace (j - i) with 0 by lia. rewrite firstn_O, app_nil_r.
          rewrite firstn_firstn. replace (Nat.min j i) with j by lia. tauto.
        * apply Nat.eqb_neq in Ei.
          destruct (min_word_spec (mk_words_iter n (wi_adj wi) (wi_final wi) (wi_stack wi ++ [t]) (wi_failed wi) (wi_last wi))
                      (wi_stack wi) t (length w - S i)) as (wi' & o & -> & Hok' & Hfl & Hla & Ho); auto.
          { split; auto. }
          { intros q Hq. apply Htin in Hq as [Hq _]. eapply xpath_dst; eauto. apply (nv_initial _ V). }
          cbn [bind]. destruct o as [m|].
          2:{ exfalso. destruct Hcb as (v & f & Hv & Hxv & Hav). apply (proj2 Ho v Hv). exists qb, f. split; auto.
              apply Ht. split; [apply Ht0; eauto|]. exists v, f. auto. }
          cbn [unwrap bind]. destruct Ho as (Hlm & Ham & Hmm & pushed & Hstk & Hlp & Hps).
          destruct (Hfin m Hlm Ham Hmm) as (F1 & F2 & F3 & F4).
          exists wi', (Some ((firstn i w ++ [b]) ++ m)). split; auto. split; auto. split; auto. split; auto.
          split; auto. split; auto. split; auto. split; auto. rewrite F1. rewrite Hstk. cbn [wi_stack]. split.
          { rewrite !app_length, Hlp. simpl. lia. }
          assert (Hlub : length (firstn i w ++ [b]) = S i) by (rewrite app_length; simpl; lia).
          intros j t' Hj q. rewrite F1. destruct (lt_dec j (S i)) as [L|L].
          -- rewrite <- app_assoc, nth_error_app1 in Hj by lia. rewrite (Hst _ _ Hj).
             rewrite <- app_assoc, firstn_app, Hi'. replace (j - i) with 0 by lia. rewrite firstn_O, app_nil_r.
             rewrite firstn_firstn. replace (Nat.min j i) with j by lia. tauto.
          -- rewrite firstn_app. rewrite Hlub. rewrite firstn_all2 by lia.
             rewrite <- app_assoc, nth_error_app2, Hsl in Hj by lia.
             destruct (j - S i) as [|j'] eqn:Ej.
             ++ simpl in Hj. injection Hj as <-. rewrite firstn_O, app_nil_r. replace j with (S i) by lia. apply Htin.
             ++ simpl in Hj. rewrite (Hps _ _ Hj). replace (length w - j) with (length w - S i - S j') by lia.
                rewrite xpath_app. split.
                ** intros [(p & Hp & Hxp) Hc]. split; auto. exists p. split; auto. apply Htin; auto.
                ** intros [(p & Hp & Hxp) Hc]. split; auto. exists p. split; auto. apply Htin. split; auto.
                   destruct Hc as (v & f & Hv & Hpv & Hfv). exists (firstn (S j') m ++ v), f.
                   assert (Hjp : j' < length pushed) by (eapply nth_error_length; eauto).
                   split; [rewrite app_length, firstn_length; lia|]. split; auto. apply xpath_app. eauto.
  Qed.

  (** *** Pumping down *)
  Lemma xpath_trace p w q : xpath n p w q ->
    exists qs, length qs = S (length w) /\
      forall j r, nth_error qs j = Some r -> xpath n p (firstn j w) r /\ xpath n r (skipn j w) q.
  Proof.
    induction 1 as [p|p c q w r He Hx (qs & Hl & Hqs)].
    - exists [p]. split; auto. intros [|j] r Hj; [injection Hj as <-; split; constructor|destruct j; discriminate].
    - exists (p :: qs). split; [simpl; lia|]. intros [|j] r' Hj.
      + injection Hj as <-. split; [constructor|]. econstructor; eauto.
      + simpl in Hj. apply Hqs in Hj as [H1 H2]. split; [econstructor; eauto|auto].
  Qed.

  Lemma pump_down p w q : p < N -> xpath n p w q -> N <= length w ->
    exists w', xpath n p w' q /\ length w' < length w /\ length w <= length w' + N.
  Proof.
    intros Hp Hx Hlen. destruct (xpath_trace _ _ _ Hx) as (qs & Hl & Hqs).
    destruct (NoDup_or_repeat (firstn (S N) qs)) as [Hnd|(i & j & r & Hij & Hi & Hj)].
    - exfalso. assert (HL : length (firstn (S N) qs) <= length (seq 0 N)).
      { apply NoDup_incl_length; auto. intros r Hr. apply in_seq. apply in_firstn, In_nth_error in Hr as [j Hj].
        apply Hqs in Hj as [Hj _]. pose proof (xpath_dst _ _ _ Hj Hp). lia. }
      rewrite seq_length, firstn_length in HL. lia.
    - assert (HjN : j < S N). { apply nth_error_length in Hj. rewrite firstn_length in Hj. lia. }
      rewrite nth_error_firstn in Hi by lia. rewrite nth_error_firstn in Hj by lia.
      pose proof (nth_error_length _ _ _ Hj) as Hjl.
      apply Hqs in Hi as [Hi _]. apply Hqs in Hj as [_ Hj]. exists (firstn i w ++ skipn j w).
      rewrite app_length, firstn_length, skipn_length. split; [apply xpath_app; eauto|]. lia.
  Qed.

  Lemma no_longer len0 : (forall w, acc w -> len0 <= length w < len0 + N -> False) ->
    forall w, acc w -> length w < len0.
  Proof.
    intros H w. remember (length w) as l eqn:El. revert w El. induction l as [l IH] using (well_founded_induction lt_wf).
    intros w -> Ha. destruct (lt_dec (length w) len0) as [L|L]; auto. exfalso.
    destruct (lt_dec (length w) (len0 + N)) as [L'|L']; [apply (H w Ha); lia|].
    destruct Ha as (q & Hx & Haq). destruct (pump_down _ _ _ (nv_initial _ V) Hx) as (w' & Hx' & H1 & H2); [lia|].
    assert (X : length w' < len0); [|lia]. eapply IH; eauto. exists q; auto.
  Qed.

  (** *** One call *)
  Definition word_state (wi : words_iter) (w : list nat) : Prop :=
    wi_failed wi = false /\ wi_last wi = Some w /\ acc w /\ (length w = 0 \/ stack_ok (length w) w (wi_stack wi)).

  Lemma acc_from_init w : acc_from [nfa_initial n] w <-> acc w.
  Proof.
    split.
    - intros (p & q & [<- |[]] & Hx & Ha). exists q. auto.
    - intros (q & Hx & Ha). exists (nfa_initial n), q. split; [left; auto|auto].
  Qed.

  Lemma put_next_loop_spec wi len0 : wi_ok wi -> wi_failed wi = false ->
    exists wi', while (S N) put_next_step (wi, 0, len0) = Ret wi' /\ wi_ok wi' /\
      ((exists w, word_state wi' w /\ len0 <= length w /\ forall x, acc x -> len0 <= length x -> x = w \/ shortlex_lt w x) \/
       (wi_failed wi' = true /\ wi_last wi' = None /\ forall x, acc x -> length x < len0)).
  Proof.
    intros Hok Hfl.
    apply (while_total (fun '(wi, num, len) => wi_ok wi /\ wi_failed wi = false /\ num <= N /\ len = len0 + num /\
                          forall x, acc x -> len0 <= length x < len -> False)
             (fun wi' => wi_ok wi' /\
      ((exists w, word_state wi' w /\ len0 <= length w /\ forall x, acc x -> len0 <= length x -> x = w \/ shortlex_lt w x) \/
       (wi_failed wi' = true /\ wi_last wi' = None /\ forall x, acc x -> length x < len0)))
             (fun '(wi, num, len) => N - num)).
    - clear wi Hok Hfl. intros [[wi num] len] (Hok & Hfl & Hnum & -> & Hno). unfold put_next_step.
      pose proof (proj1 Hok) as Hn. rewrite Hn. destruct (num <? N) eqn:E.
      + apply Nat.ltb_lt in E.
        destruct (min_word_spec (mk_words_iter n (wi_adj wi) (wi_final wi) [[nfa_initial n]] (wi_failed wi) (wi_last wi))
                    [] [nfa_initial n] (len0 + num)) as (wi' & o & -> & Hok' & Hfl' & Hla' & Ho); auto.
        { destruct Hok as (H1 & H2 & H3). split; auto. }
        { intros p [<- |[]]. apply (nv_initial _ V). }
        cbn [bind]. destruct o as [w|].
        * destruct Ho as (Hl & Ha & Hm & pushed & Hst & Hlp & Hps). eexists. split; [reflexivity|]. cbv iota beta.
          split. { destruct Hok' as (H1 & H2 & H3). split; auto. }
          left. exists w. split.
          { split; [simpl in *; congruence|]. split; auto. split; [apply acc_from_init; auto|].
            destruct (Nat.eq_dec (length w) 0) as [E0|E0]; auto. right. cbn [wi_stack]. rewrite Hst. cbn [wi_stack].
            split; [rewrite app_length; simpl; lia|]. intros j t Hj q. destruct j as [|j].
            - simpl in Hj. injection Hj as <-. cbn [firstn]. rewrite xpath_nil_iff, Nat.sub_0_r. split.
              + intros [<- |[]]. split; auto. apply acc_from_init in Ha as (q & Hx & Haq). exists w, q. auto.
              + intros [<- _]. left; auto.
            - simpl in Hj. rewrite (Hps _ _ Hj), Hl. split.
              + intros [(p & [<- |[]] & Hx) Hc]. auto.
              + intros [Hx Hc]. split; auto. exists (nfa_initial n). split; [left; auto|auto]. }
          split; [lia|]. intros x Hx Hlx. destruct (lt_eq_lt_dec (length x) (length w)) as [[L|L]|L].
          -- exfalso. apply (Hno x Hx). lia.
          -- destruct (Hm x) as [-> |Hlt]; [lia|apply acc_from_init; auto|auto|]. right. right. split; auto.
          -- right. left. auto.
        * eexists. split; [reflexivity|]. cbv iota beta. destruct Ho as [_ Ho]. split; [|lia].
          split; auto. split; [simpl in Hfl'; congruence|]. split; [lia|]. split; [lia|].
          intros x Hx Hlx. destruct (Nat.eq_dec (length x) (len0 + num)) as [El|El].
          -- apply (Ho x El). apply acc_from_init; auto.
          -- apply (Hno x Hx). lia.
      + apply Nat.ltb_ge in E. eexists. split; [reflexivity|]. cbv iota beta.
        split. { destruct Hok as (H1 & H2 & H3). split; auto. }
        right. split; auto. split; auto. apply no_longer. intros x Hx Hlx. apply (Hno x Hx). lia.
    - split; auto. split; auto. split; [lia|]. split; [lia|]. intros x _ Hx. lia.
    - pose proof (pow2_gt (S N)). lia.
  Qed.

  (** The iterator still has exactly the words [rem] to yield *)
  Definition iter_state (wi : words_iter) (rem : list nat -> Prop) : Prop :=
    wi_ok wi /\
    ((wi_failed wi = false /\ wi_last wi = None /\ forall x, rem x <-> acc x) \/
     (exists w, word_state wi w /\ forall x, rem x <-> acc x /\ shortlex_lt w x) \/
     (wi_failed wi = true /\ wi_last wi = None /\ forall x, ~ rem x)).

  Lemma put_next_spec wi rem : iter_state wi rem ->
    exists wi', put_next wi = Ret wi' /\ wi_nfa wi' = n /\
      match wi_last wi' with
      | Some w => rem w /\ acc w /\ (forall x, rem x -> x = w \/ shortlex_lt w x) /\
                  iter_state wi' (fun x => rem x /\ shortlex_lt w x)
      | None => (forall x, ~ rem x) /\ iter_state wi' rem
      end.
  Proof.
    intros [Hok H]. unfold put_next. destruct H as [(Hf & Hl & Hr)|[(w & (Hf & Hl & Ha & Hs) & Hr)|(Hf & Hl & Hr)]].
    - rewrite Hf, Hl. rewrite (proj1 Hok). destruct (put_next_loop_spec wi 0 Hok Hf) as (wi' & -> & Hok' & HR).
      exists wi'. split; auto. split; [apply Hok'|]. destruct HR as [(w & Hw & _ & Hm)|(H1 & H2 & H3)].
      + pose proof Hw as (_ & El & Ha & _). rewrite El. split; [apply Hr; auto|]. split; auto.
        split; [intros x Hx; apply Hm; [apply Hr; auto|lia]|]. split; auto. right. left. exists w. split; auto.
        intros x. rewrite Hr. tauto.
      + rewrite H2. assert (Hno : forall x, ~ rem x). { intros x Hx. apply Hr, H3 in Hx. lia. }
        split; auto. split; auto.
    - rewrite Hf, Hl. unfold next_word.
      destruct (next_word_loop_spec w (length w) wi Hok) as (wi1 & o & -> & Hok1 & Hf1 & Hl1 & Ho); auto.
      { intros v' Hv' _. rewrite Nat.sub_diag in Hv'. destruct v'; [|discriminate]. rewrite skipn_all. intros X; inversion X. }
      cbn [bind]. destruct o as [w'|].
      + destruct Ho as (Hlw & Haw & Hlt & Hmin & Hst). eexists. split; [reflexivity|]. cbn [wi_nfa wi_last].
        split; [apply Hok1|]. assert (Hsl : shortlex_lt w w') by (right; auto).
        assert (Hm : forall x, rem x -> x = w' \/ shortlex_lt w' x).
        { intros x Hx. apply Hr in Hx as [Hx [L|[L Hx']]].
          - right. left. lia.
          - destruct (Hmin x) as [-> |Hlt']; auto. right. right. split; [lia|auto]. }
        split; [apply Hr; auto|]. split; auto. split; auto. split.
        { destruct Hok1 as (H1 & H2 & H3). split; auto. }
        right. left. exists w'. split.
        { split; [simpl; congruence|]. split; auto. }
        intros x. rewrite Hr. split; [tauto|]. intros [Hx Hx']. split; auto. split; auto. eapply shortlex_lt_trans; eauto.
      + assert (Hf1' : wi_failed wi1 = false) by congruence. rewrite (proj1 Hok1).
        destruct (put_next_loop_spec wi1 (length w + 1) Hok1 Hf1') as (wi' & -> & Hok' & HR).
        exists wi'. split; auto. split; [apply Hok'|].
        assert (Hlong : forall x, rem x -> acc x /\ length w + 1 <= length x).
        { intros x Hx. apply Hr in Hx as [Hx [L|[L Hx']]]; [split; auto; lia|]. exfalso. apply (Ho x); auto. }
        destruct HR as [(w' & Hw & Hlw & Hm)|(H1 & H2 & H3)].
        * pose proof Hw as (_ & El & Ha' & _). rewrite El.
          assert (Hsl : shortlex_lt w w') by (left; lia).
          split; [apply Hr; auto|]. split; auto. split; [intros x Hx; apply Hm; apply Hlong; auto|]. split; auto.
          right. left. exists w'. split; auto. intros x. rewrite Hr. split; [tauto|]. intros [Hx Hx']. split; auto.
          split; auto. eapply shortlex_lt_trans; eauto.
        * rewrite H2. assert (Hno : forall x, ~ rem x). { intros x Hx. apply Hlong in Hx as [Hx Hx']. apply H3 in Hx. lia. }
          split; auto. split; auto.
    - rewrite Hf. exists wi. split; auto. split; [apply Hok|]. rewrite Hl. split; auto. split; auto.
  Qed.

  (** *** Any number of calls *)
  Lemma iter_calls_spec {A} (next : words_iter -> R (words_iter * option A)) (g : list nat -> A) :
    (forall wi wi', put_next wi = Ret wi' -> wi_nfa wi' = n -> (forall w, wi_last wi' = Some w -> acc w) ->
       next wi = Ret (wi', option_map g (wi_last wi'))) ->
    forall k wi rem, iter_state wi rem ->
      exists l, iter_calls next wi k = Ret (map (fun w => Some (g w)) l ++ repeat None (k - length l)) /\
        length l <= k /\ StronglySorted shortlex_lt l /\ (forall x, In x l -> rem x) /\
        (forall x, rem x -> In x l \/ (length l = k /\ forall y, In y l -> shortlex_lt y x)).
  Proof.
    intros Hnext. induction k as [|k IH]; intros wi rem Hst.
    - exists []. simpl. split; auto. split; auto. split; [constructor|]. split; [tauto|]. intros x _. right. split; auto. tauto.
    - cbn [iter_calls]. destruct (put_next_spec wi rem Hst) as (wi' & Hp & Hn & H).
      rewrite (Hnext wi wi' Hp Hn). 2:{ intros w Hw. rewrite Hw in H. tauto. }
      cbn [bind]. destruct (wi_last wi') as [w|]; cbn [option_map].
      + destruct H as (Hw & _ & Hm & Hst'). destruct (IH wi' _ Hst') as (l & -> & Hl & Hs & Hin & Hall). cbn [bind].
        exists (w :: l). split; auto. split; [simpl; lia|]. split.
        { constructor; auto. apply Forall_forall. intros x Hx. apply Hin in Hx. tauto. }
        split. { intros x [<- |Hx]; auto. apply Hin in Hx. tauto. }
        intros x Hx. destruct (Hm x Hx) as [-> |Hlt]; [left; left; auto|].
        destruct (Hall x (conj Hx Hlt)) as [Hi|[Hk Hi]]; [left; right; auto|]. right. split; [simpl; lia|].
        intros y [<- |Hy]; auto.
      + destruct H as (Hno & Hst'). destruct (IH wi' _ Hst') as (l & -> & Hl & Hs & Hin & Hall). cbn [bind].
        destruct l as [|x l].
        * exists []. simpl. rewrite Nat.sub_0_r. split; auto. split; [simpl; lia|]. split; auto. split; [tauto|]. intros x Hx. exfalso. eapply Hno; eauto.
        * exfalso. apply (Hno x). apply Hin. left; auto.
  Qed.
End Words.

(** ** A new iterator *)
Lemma words_new_spec n : nfa_valid n -> eps_free n ->
  exists wi, words_new n = Ret wi /\ (forall q, In q (wi_final wi) <-> nfa_accepting n q) /\
             iter_state n (wi_final wi) wi (acc n).
Proof.
  intros V Hef. unfold words_new.
  assert (He : nfa_has_epsilon_moves n = false) by (apply nfa_has_epsilon_moves_spec; auto). rewrite He.
  destruct (m_from_fn_total n (fun x y => Ret (x =? y)) (reach_in n 0)) as (id & Hid & Hidm).
  { intros i j _ _. exists (i =? j). split; auto. rewrite Nat.eqb_eq. split.
    - intros ->. exists []. split; auto. constructor.
    - intros (w & Hl & Hx). destruct w; [|discriminate]. apply xpath_nil_iff in Hx. auto. }
  unfold identity_matrix. rewrite Hid. cbn [bind].
  destruct (m_from_fn_total n (fun from to => is_reachable_in_one_step n from to) (reach_in n 1)) as (ad & Had & Hadm).
  { intros i j Hi Hj. unfold is_reachable_in_one_step. destruct (nth_error_lt _ _ Hi) as [s Hs].
    rewrite (index_Some _ _ _ Hs). cbn [bind]. eexists. split; [reflexivity|]. rewrite existsb_exists. split.
    - intros (ts & Hts & Hm). apply mem_In in Hm. apply In_nth_error in Hts as [c Hc]. exists [c]. split; auto.
      econstructor; [|constructor]. exists s, ts. auto.
    - intros (w & Hl & Hx). destruct w as [|c [|]]; try discriminate. apply xpath_cons_iff in Hx as (q & (s' & ts & E1 & E2 & E3) & Hx).
      apply xpath_nil_iff in Hx. subst q. exists ts. split; [|apply mem_In; auto]. replace s with s' by congruence.
      eapply nth_error_In; eauto. }
  unfold generate_adjacency_matrix. rewrite Had. cbn [bind]. eexists. split; [reflexivity|]. cbn [wi_final]. split.
  { intros q. rewrite in_map_iff. split.
    - intros ((q' & s) & <- & Hf). apply filter_In in Hf as [Hf Ha]. apply enumerate_In in Hf. exists s. auto.
    - intros (s & Hs & Ha). exists (q, s). split; auto. apply filter_In. split; auto. apply enumerate_In; auto. }
  split.
  { split; auto. split; auto. split; [simpl; lia|]. intros [|[|k]] m Hm; simpl in Hm.
    - injection Hm as <-. auto.
    - injection Hm as <-. auto.
    - destruct k; discriminate. }
  left. split; auto. split; auto. tauto.
Qed.

(** ** Positions and elements *)
Lemma spells_fun al idx w w' : spells al idx w -> spells al idx w' -> w = w'.
Proof.
  intros H. revert w'. induction H as [|i a idx w Hi H IH]; intros w' H'; inversion H'; subst; auto. f_equal; [congruence|auto].
Qed.

Lemma acc_lang n : nfa_valid n -> eps_free n -> forall idx,
  acc n idx <-> exists w, spells (nfa_alphabet n) idx w /\ nfa_lang n w.
Proof.
  intros V Hef idx. unfold acc, nfa_lang, nfa_state_lang.
  assert (H1 : forall p idx q, xpath n p idx q -> exists w, spells (nfa_alphabet n) idx w /\ nfa_path n p w q).
  { clear idx. induction 1 as [p|p c q idx r He Hx (w & Hw & Hp)].
    - exists []. split; constructor.
    - pose proof (xedge_src n V _ _ _ He) as [_ Hc]. destruct (nth_error_lt _ _ Hc) as [a Ha]. exists (a :: w).
      split; [constructor; auto|]. destruct He as (s & ts & E1 & E2 & E3). econstructor; [|exact Hp].
      exists c, s, ts. auto. }
  assert (H2 : forall p w q, nfa_path n p w q -> forall idx, spells (nfa_alphabet n) idx w -> xpath n p idx q).
  { clear idx. induction 1 as [p|p q w r He Hx IH|p a q w r He Hx IH]; intros idx Hs.
    - inversion Hs; subst. constructor.
    - exfalso. destruct He as (s & Es & Hq). rewrite (Hef _ _ Es) in Hq. destruct Hq.
    - inversion Hs as [|i a' idx' w' Hi Hs']; subst. destruct He as (c & s & ts & E1 & E2 & E3 & E4).
      econstructor; [|apply IH; eauto]. exists s, ts. split; auto. split; auto.
      replace i with c; auto. exact (NoDup_nth_error_inj _ _ _ _ (nv_alphabet _ V) E1 Hi). }
  split.
  - intros (q & Hx & Ha). destruct (H1 _ _ _ Hx) as (w & Hw & Hp). exists w. split; auto. exists q. auto.
  - intros (w & Hw & q & Hp & Ha). exists q. split; auto. eapply H2; eauto.
Qed.

(** *** The three iterators *)
Theorem word_component_indices_correct n k : nfa_valid n -> eps_free n ->
  exists l, word_component_indices_calls n k = Ret (map Some l ++ repeat None (k - length l)) /\
    length l <= k /\ StronglySorted shortlex_lt l /\
    (forall idx, In idx l -> exists w, spells (nfa_alphabet n) idx w /\ nfa_lang n w) /\
    (forall idx w, spells (nfa_alphabet n) idx w -> nfa_lang n w ->
       In idx l \/ (length l = k /\ forall idx', In idx' l -> shortlex_lt idx' idx)).
Proof.
  intros V Hef. unfold word_component_indices_calls. destruct (words_new_spec n V Hef) as (wi & -> & Hf & Hst). cbn [bind].
  destruct (iter_calls_spec n V (wi_final wi) Hf wci_next (fun w => w)) with (k := k) (wi := wi) (rem := acc n)
    as (l & -> & H1 & H2 & H3 & H4); auto.
  { intros wi0 wi' Hp _ _. unfold wci_next. rewrite Hp. cbn [bind]. destruct (wi_last wi'); auto. }
  exists l. split; auto. split; auto. split; auto. split.
  - intros idx Hi. apply acc_lang; auto.
  - intros idx w Hs Hw. apply H4. apply acc_lang; eauto.
Qed.

Definition elem_at (n : nfa) (i : nat) : str := nth i (nfa_alphabet n) [].
Lemma acc_spells n : nfa_valid n -> eps_free n -> forall idx, acc n idx -> spells (nfa_alphabet n) idx (map (elem_at n) idx).
Proof.
  intros V Hef idx H. apply acc_lang in H as (w & Hw & _); auto.
  assert (map (elem_at n) idx = w); [|congruence]. induction Hw as [|i a idx w Hi Hw IH]; simpl; auto. f_equal; auto.
  unfold elem_at. apply nth_error_nth; auto.
Qed.

Theorem word_components_correct n k : nfa_valid n -> eps_free n ->
  exists l ws, word_components_calls n k = Ret (map Some ws ++ repeat None (k - length ws)) /\
    length l <= k /\ StronglySorted shortlex_lt l /\ Forall2 (spells (nfa_alphabet n)) l ws /\
    (forall w, In w ws -> nfa_lang n w) /\
    (forall idx w, spells (nfa_alphabet n) idx w -> nfa_lang n w ->
       In w ws \/ (length ws = k /\ forall idx', In idx' l -> shortlex_lt idx' idx)).
Proof.
  intros V Hef. unfold word_components_calls. destruct (words_new_spec n V Hef) as (wi & -> & Hf & Hst). cbn [bind].
  destruct (iter_calls_spec n V (wi_final wi) Hf wc_next (map (elem_at n))) with (k := k) (wi := wi) (rem := acc n)
    as (l & -> & H1 & H2 & H3 & H4); auto.
  { intros wi0 wi' Hp Hn Ha. unfold wc_next. rewrite Hp. cbn [bind]. destruct (wi_last wi') as [w|]; auto.
    rewrite Hn. pose proof (acc_spells n V Hef w (Ha w eq_refl)) as Hs.
    rewrite (mapR_Forall2 _ _ (map (elem_at n) w)); auto. eapply Forall2_impl; [|exact Hs].
    intros i a Hi. apply index_Some; auto. }
  exists l, (map (map (elem_at n)) l). rewrite map_length, map_map. split; auto. split; auto. split; auto.
  assert (HF : Forall2 (spells (nfa_alphabet n)) l (map (map (elem_at n)) l)).
  { clear - H3 V Hef. induction l; simpl; constructor; auto.
    - apply acc_spells; auto. apply H3. left; auto.
    - apply IHl. intros; apply H3; right; auto. }
  split; auto. split.
  - intros w Hw. destruct (Forall2_In_r _ _ _ _ HF Hw) as (idx & Hi & Hs). apply H3 in Hi.
    apply acc_lang in Hi as (w' & Hs' & Hw'); auto. rewrite (spells_fun _ _ _ _ Hs Hs'). auto.
  - intros idx w Hs Hw. destruct (H4 idx) as [Hi|Hi]; [apply acc_lang; eauto| |auto].
    left. destruct (Forall2_In_l _ _ _ _ HF Hi) as (w' & Hi' & Hs'). rewrite (spells_fun _ _ _ _ Hs Hs'). auto.
Qed.

Theorem words_correct n k : nfa_valid n -> eps_free n ->
  exists ws, word_components_calls n k = Ret (map Some ws ++ repeat None (k - length ws)) /\
             words_calls n k = Ret (map (fun w => Some (concat w)) ws ++ repeat None (k - length ws)).
Proof.
  intros V Hef. unfold words_calls, word_components_calls. destruct (words_new_spec n V Hef) as (wi & -> & Hf & Hst).
  cbn [bind].
  assert (Hwc : forall wi0 wi', put_next wi0 = Ret wi' -> wi_nfa wi' = n -> (forall w, wi_last wi' = Some w -> acc n w) ->
            wc_next wi0 = Ret (wi', option_map (map (elem_at n)) (wi_last wi')) /\
            words_next wi0 = Ret (wi', option_map (fun w => concat (map (elem_at n) w)) (wi_last wi'))).
  { intros wi0 wi' Hp Hn Ha. unfold wc_next, words_next. rewrite Hp. cbn [bind]. destruct (wi_last wi') as [w|]; auto.
    rewrite Hn. pose proof (acc_spells n V Hef w (Ha w eq_refl)) as Hs. cbn [option_map]. split.
    - rewrite (mapR_Forall2 _ _ (map (elem_at n) w)); auto. eapply Forall2_impl; [|exact Hs].
      intros i a Hi. apply index_Some; auto.
    - assert (HH : forall w pre, spells (nfa_alphabet n) w (map (elem_at n) w) ->
                foldR (fun s c => e <- index (nfa_alphabet n) c ;; Ret (s ++ e)) pre w = Ret (pre ++ concat (map (elem_at n) w))).
      { clear. induction w as [|c w IH]; intros pre Hs; simpl; [rewrite app_nil_r; auto|].
        inversion Hs; subst. rewrite (index_Some _ _ _ H2). cbn [bind]. rewrite IH by auto. rewrite app_assoc. auto. }
      rewrite HH by auto. auto. }
  destruct (iter_calls_spec n V (wi_final wi) Hf wc_next (map (elem_at n))) with (k := k) (wi := wi) (rem := acc n)
    as (l & E1 & H1 & H2 & H3 & H4); auto.
  { intros; apply Hwc; auto. }
  destruct (iter_calls_spec n V (wi_final wi) Hf words_next (fun w => concat (map (elem_at n) w))) with (k := k) (wi := wi) (rem := acc n)
    as (l' & E2 & H1' & H2' & H3' & H4'); auto.
  { intros; apply Hwc; auto. }
  assert (l' = l).
  { apply (shortlex_prefix_unique (acc n) k); auto. }
  subst l'. exists (map (map (elem_at n)) l). rewrite map_length, !map_map. auto.
Qed.

Theorem words_new_panics n : nfa_valid n -> ~ eps_free n -> words_new n = Panic.
Proof.
  intros V H. unfold words_new. destruct (nfa_has_epsilon_moves n) eqn:E; auto. exfalso. apply H.
  apply nfa_has_epsilon_moves_spec; auto.
Qed.

(** ** Consequences *)
Lemma finitely_many k L : exists E, forall idx : list nat, length idx <= L -> Forall (fun c => c < k) idx -> In idx E.
Proof.
  induction L as [|L [E IH]].
  - exists [[]]. intros [|] H _; [left; auto|simpl in H; lia].
  - exists ([] :: flat_map (fun c => map (cons c) E) (seq 0 k)). intros [|c idx] H HF; [left; auto|]. right.
    inversion HF; subst. apply in_flat_map. exists c. split; [apply in_seq; lia|]. apply in_map. apply IH; auto. simpl in H. lia.
Qed.

Lemma shortlex_sorted_NoDup l : StronglySorted shortlex_lt l -> NoDup l.
Proof.
  induction 1 as [|x l Hs IH Hf]; constructor; auto. intros Hx. rewrite Forall_forall in Hf.
  exact (shortlex_lt_irrefl _ (Hf x Hx)).
Qed.

Lemma spells_range al idx w : spells al idx w -> Forall (fun c => c < length al) idx.
Proof. induction 1; constructor; auto. eapply nth_error_length; eauto. Qed.

Theorem word_eventually_listed n idx w : nfa_valid n -> eps_free n ->
  spells (nfa_alphabet n) idx w -> nfa_lang n w ->
  exists k outs, word_component_indices_calls n k = Ret outs /\ In (Some idx) outs.
Proof.
  intros V Hef Hs Hw. destruct (finitely_many (length (nfa_alphabet n)) (length idx)) as [E HE].
  destruct (word_component_indices_correct n (S (length E)) V Hef) as (l & Hc & Hl & Hso & Hsound & Hall).
  exists (S (length E)), (map Some l ++ repeat None (S (length E) - length l)). split; auto.
  destruct (Hall idx w Hs Hw) as [Hi|[Hk Hi]].
  - apply in_or_app. left. apply in_map; auto.
  - exfalso. assert (HL : length l <= length E); [|lia].
    apply NoDup_incl_length; [apply shortlex_sorted_NoDup; auto|]. intros x Hx. apply HE.
    + destruct (Hi x Hx) as [L|[L _]]; lia.
    + destruct (Hsound x Hx) as (v & Hv & _). eapply spells_range; eauto.
Qed.

(** In a list of the shape [map Some l ++ repeat None _], the first [None] comes after all of [l] *)
Lemma outputs_None {A} (l : list A) k i : nth_error (map Some l ++ repeat None k) i = Some None ->
  length l <= i /\ forall x, In x l -> In (Some x) (firstn i (map Some l ++ repeat None k)).
Proof.
  intros H. assert (Hi : length l <= i).
  { destruct (le_lt_dec (length l) i) as [L|L]; auto. exfalso.
    rewrite nth_error_app1 in H by (rewrite map_length; auto). rewrite nth_error_map in H.
    destruct (nth_error l i); discriminate. }
  split; auto. intros x Hx. rewrite firstn_app, firstn_all2 by (rewrite map_length; auto). apply in_or_app. left.
  apply in_map; auto.
Qed.
