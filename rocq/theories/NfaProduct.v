(** * Product construction of NFAs *)
From Coq Require Import List NArith Arith Bool Lia Permutation.
From Verif Require Import Base BaseLemmas Spec Search SearchProofs DfaModel DfaBasics DfaReach DfaEquiv NfaModel NfaBasics NfaUnion.
Import ListNotations.

(** ** Moves of pairs *)
Definition oedge (n : nfa) (s : option nat) (a : str) (t : nat) : Prop := exists q, s = Some q /\ nfa_edge n q a t.

Definition pair_edge (n1 n2 : nfa) (p : option nat * option nat) (a : str) (p' : option nat * option nat) : Prop :=
  match p' with
  | (Some t1, Some t2) => oedge n1 (fst p) a t1 /\ oedge n2 (snd p) a t2
  | (Some t1, None) => oedge n1 (fst p) a t1 /\ ~ exists t2, oedge n2 (snd p) a t2
  | (None, Some t2) => (~ exists t1, oedge n1 (fst p) a t1) /\ oedge n2 (snd p) a t2
  | (None, None) => False
  end.

Definition pair_eps (n1 n2 : nfa) (p p' : option nat * option nat) : Prop :=
  (exists q1 e1, fst p = Some q1 /\ nfa_eps_edge n1 q1 e1 /\ p' = (Some e1, snd p)) \/
  (exists q2 e2, snd p = Some q2 /\ nfa_eps_edge n2 q2 e2 /\ p' = (fst p, Some e2)).

Inductive ppath (n1 n2 : nfa) : word -> option nat * option nat -> Prop :=
| pp_nil : ppath n1 n2 [] (Some (nfa_initial n1), Some (nfa_initial n2))
| pp_eps w p p' : ppath n1 n2 w p -> pair_eps n1 n2 p p' -> ppath n1 n2 w p'
| pp_snoc w p a p' : ppath n1 n2 w p -> pair_edge n1 n2 p a p' -> ppath n1 n2 (w ++ [a]) p'.

Lemma nfa_path_eps_snoc n p w q r : nfa_path n p w q -> nfa_eps_edge n q r -> nfa_path n p w r.
Proof.
  intros H1 H2. rewrite <- (app_nil_r w). eapply nfa_path_app; eauto. eapply nfa_path_eps; eauto. constructor.
Qed.
Lemma nfa_path_edge_snoc n p w q a r : nfa_path n p w q -> nfa_edge n q a r -> nfa_path n p (w ++ [a]) r.
Proof. intros H1 H2. apply nfa_path_snoc. exists q, r. split; auto. split; auto. constructor. Qed.

Lemma nfa_stuck_app n w v : nfa_stuck n w -> nfa_stuck n (w ++ v).
Proof.
  intros (u & a & x & q & -> & H). exists u, a, (x ++ v), q. rewrite <- app_assoc. auto.
Qed.
Lemma nfa_stuck_snoc n w a q : nfa_path n (nfa_initial n) w q -> ~ (exists t, nfa_edge n q a t) -> nfa_stuck n (w ++ [a]).
Proof. intros H1 H2. exists w, a, [], q. auto. Qed.

Lemma ppath_sound n1 n2 w p : ppath n1 n2 w p -> nfa_pair_reached n1 n2 w (fst p) (snd p).
Proof.
  induction 1 as [|w p p' H IH He|w p a p' H IH He].
  - simpl. split; constructor.
  - destruct p as [s1 s2]; simpl in *.
    destruct He as [(q1 & e1 & E & He & ->)|(q2 & e2 & E & He & ->)]; simpl in *; subst.
    + destruct s2; simpl in *; destruct IH as [I1 I2]; split; auto; eapply nfa_path_eps_snoc; eauto.
    + destruct s1; simpl in *; destruct IH as [I1 I2]; split; auto; eapply nfa_path_eps_snoc; eauto.
  - destruct p as [s1 s2], p' as [[t1|] [t2|]]; simpl in *; try tauto.
    + destruct He as [(q1 & -> & E1) (q2 & -> & E2)]. simpl in IH. destruct IH. split; eapply nfa_path_edge_snoc; eauto.
    + destruct He as [(q1 & -> & E1) E2]. destruct s2 as [q2|]; simpl in IH; destruct IH as [I1 I2]; (split; [eapply nfa_path_edge_snoc; eauto|]).
      * eapply nfa_stuck_snoc; eauto. intros [t Ht]. apply E2. exists t, q2. auto.
      * apply nfa_stuck_app; auto.
    + destruct He as [E1 (q2 & -> & E2)]. destruct s1 as [q1|]; simpl in IH; destruct IH as [I1 I2]; (split; [|eapply nfa_path_edge_snoc; eauto]).
      * eapply nfa_stuck_snoc; eauto. intros [t Ht]. apply E1. exists t, q1. auto.
      * apply nfa_stuck_app; auto.
Qed.

Lemma ppath_eps1 n1 n2 w t1 q1 s2 : nfa_path n1 t1 [] q1 -> ppath n1 n2 w (Some t1, s2) -> ppath n1 n2 w (Some q1, s2).
Proof.
  intros H. remember [] as v eqn:Ev. revert Ev. induction H as [p|p q v r He H IH|]; intros Ev Hp; auto; [|discriminate].
  apply IH; auto. eapply pp_eps; eauto. left. exists p, q. auto.
Qed.
Lemma ppath_eps2 n1 n2 w s1 t2 q2 : nfa_path n2 t2 [] q2 -> ppath n1 n2 w (s1, Some t2) -> ppath n1 n2 w (s1, Some q2).
Proof.
  intros H. remember [] as v eqn:Ev. revert Ev. induction H as [p|p q v r He H IH|]; intros Ev Hp; auto; [|discriminate].
  apply IH; auto. eapply pp_eps; eauto. right. exists p, q. auto.
Qed.

Lemma ppath_both n1 n2 w : forall q1 q2, nfa_path n1 (nfa_initial n1) w q1 -> nfa_path n2 (nfa_initial n2) w q2 ->
  ppath n1 n2 w (Some q1, Some q2).
Proof.
  induction w as [|a w IH] using rev_ind; intros q1 q2 H1 H2.
  - eapply ppath_eps1; eauto. eapply ppath_eps2; eauto. constructor.
  - apply nfa_path_snoc in H1 as (p1 & t1 & P1 & E1 & F1). apply nfa_path_snoc in H2 as (p2 & t2 & P2 & E2 & F2).
    eapply ppath_eps1; eauto. eapply ppath_eps2; eauto. eapply pp_snoc; [apply IH; eauto|].
    split; [exists p1|exists p2]; auto.
Qed.

Lemma ppath_complete n1 n2 w s1 s2 : nfa_pair_reached n1 n2 w s1 s2 -> ppath n1 n2 w (s1, s2).
Proof.
  destruct s1 as [q1|], s2 as [q2|]; simpl.
  - intros []. apply ppath_both; auto.
  - intros [H (u & a & v & q & -> & Hu & Hn)]. revert q1 H. induction v as [|b v IH] using rev_ind; intros q1 H.
    + apply nfa_path_snoc in H as (p1 & t1 & P1 & E1 & F1). eapply ppath_eps1; eauto.
      eapply pp_snoc; [apply ppath_both; eauto|]. split; [exists p1; auto|].
      intros (t & x & [= <-] & Ht). apply Hn; eauto.
    + change (u ++ a :: v ++ [b]) with (u ++ (a :: v) ++ [b]) in *. rewrite app_assoc in *.
      apply nfa_path_snoc in H as (p1 & t1 & P1 & E1 & F1). eapply ppath_eps1; eauto.
      eapply pp_snoc; [apply IH; eauto|]. split; [exists p1; auto|]. intros (t & x & [=] & _).
  - intros [(u & a & v & q & -> & Hu & Hn) H]. revert q2 H. induction v as [|b v IH] using rev_ind; intros q2 H.
    + apply nfa_path_snoc in H as (p1 & t1 & P1 & E1 & F1). eapply ppath_eps2; eauto.
      eapply pp_snoc; [apply ppath_both; eauto|]. split; [|exists p1; auto].
      intros (t & x & [= <-] & Ht). apply Hn; eauto.
    + change (u ++ a :: v ++ [b]) with (u ++ (a :: v) ++ [b]) in *. rewrite app_assoc in *.
      apply nfa_path_snoc in H as (p1 & t1 & P1 & E1 & F1). eapply ppath_eps2; eauto.
      eapply pp_snoc; [apply IH; eauto|]. split; [|exists p1; auto]. intros (t & x & [=] & _).
  - tauto.
Qed.

Lemma ppath_iff n1 n2 w p : ppath n1 n2 w p <-> nfa_pair_reached n1 n2 w (fst p) (snd p).
Proof. split; [apply ppath_sound|]. destruct p. apply ppath_complete. Qed.

Lemma nfa_edge_dec n q a : (exists t, nfa_edge n q a t) \/ ~ exists t, nfa_edge n q a t.
Proof.
  destruct (nth_error (nfa_states n) q) as [s|] eqn:Es.
  2:{ right. intros (t & i & s & ts & _ & E & _). congruence. }
  enough (H : forall l k, (forall i x, nth_error l i = Some x -> nth_error (nfa_alphabet n) (k + i) = Some x) ->
            (exists t i ts, nth_error l i = Some a /\ nth_error (ns_transitions s) (k + i) = Some ts /\ In t ts) \/
            ~ exists t i ts, nth_error l i = Some a /\ nth_error (ns_transitions s) (k + i) = Some ts /\ In t ts).
  { destruct (H (nfa_alphabet n) 0) as [(t & i & ts & Hi & Hts & Ht)|Hn]; auto.
    - left. exists t, i, s, ts. auto.
    - right. intros (t & i & s' & ts & Hi & E & Hts & Ht). apply Hn. exists t, i, ts. assert (s' = s) by congruence. subst. auto. }
  induction l as [|x l IH]; intros k Hl.
  - right. intros (t & [|i] & ts & Hi & _); discriminate.
  - destruct (IH (S k)) as [(t & i & ts & Hi & Hts & Ht)|Hn].
    { intros i y Hi. replace (S k + i) with (k + S i) by lia. apply Hl; auto. }
    { left. exists t, (S i), ts. replace (k + S i) with (S k + i) by lia. auto. }
    destruct (eqb_spec x a) as [->|Hx].
    + destruct (nth_error (ns_transitions s) k) as [[|t ts]|] eqn:Et.
      * right. intros (t & [|i] & ts & Hi & Hts & Ht); rewrite ?Nat.add_0_r in *; [rewrite Et in Hts; injection Hts as <-; destruct Ht|].
        apply Hn. exists t, i, ts. replace (S k + i) with (k + S i) by lia. auto.
      * left. exists t, 0, (t :: ts). rewrite Nat.add_0_r. simpl. auto.
      * right. intros (t & [|i] & ts & Hi & Hts & Ht); rewrite ?Nat.add_0_r in *; [congruence|].
        apply Hn. exists t, i, ts. replace (S k + i) with (k + S i) by lia. auto.
    + right. intros (t & [|i] & ts & Hi & Hts & Ht); simpl in Hi; [congruence|].
      apply Hn. exists t, i, ts. replace (S k + i) with (k + S i) by lia. auto.
Qed.

Lemma nfa_path_or_stuck n w : (exists q, nfa_path n (nfa_initial n) w q) \/ nfa_stuck n w.
Proof.
  induction w as [|a w IH] using rev_ind.
  - left. exists (nfa_initial n). constructor.
  - destruct IH as [(q & Hq)|Hs].
    + destruct (nfa_edge_dec n q a) as [(t & Ht)|Hn].
      * left. exists t. eapply nfa_path_edge_snoc; eauto.
      * right. eapply nfa_stuck_snoc; eauto.
    + right. apply nfa_stuck_app; auto.
Qed.

(** ** The construction *)
Definition onm (n : nfa) (s : option nat) : str :=
  match nfa_at n s with Some st => ns_name st | None => none_name end.
Definition nfa_pair_name (n1 n2 : nfa) (p : option nat * option nat) : str := pair_name (onm n1 (fst p)) (onm n2 (snd p)).

Record nfa_is_product (comb : option nfa_state -> option nfa_state -> bool) (n1 n2 n : nfa) (ks : list (option nat * option nat)) : Prop := {
  np_alphabet : nfa_alphabet n = nfa_alphabet n1;
  np_nodup : NoDup ks;
  np_reach : forall p, In p ks <-> exists w, ppath n1 n2 w p;
  np_length : length (nfa_states n) = length ks;
  np_initial : nth_error ks (nfa_initial n) = Some (Some (nfa_initial n1), Some (nfa_initial n2));
  np_state : forall i p s, nth_error ks i = Some p -> nth_error (nfa_states n) i = Some s ->
      ns_accepting s = comb (nfa_at n1 (fst p)) (nfa_at n2 (snd p));
  np_edge : forall i p a j, nth_error ks i = Some p ->
      (nfa_edge n i a j <-> exists p', nth_error ks j = Some p' /\ pair_edge n1 n2 p a p');
  np_eps : forall i p j, nth_error ks i = Some p ->
      (nfa_eps_edge n i j <-> exists p', nth_error ks j = Some p' /\ pair_eps n1 n2 p p');
  np_names : (forall i p s, nth_error ks i = Some p -> nth_error (nfa_states n) i = Some s -> ns_name s = nfa_pair_name n1 n2 p) \/
             (~ NoDup (map (nfa_pair_name n1 n2) ks) /\
              forall s, In s (nfa_states n) -> exists i, i < length ks /\ ns_name s = dec i)
}.

Lemma elem_pairs_In on1 on2 p : In p (elem_pairs on1 on2) <->
  match p with
  | (Some t1, Some t2) => In t1 on1 /\ In t2 on2
  | (Some t1, None) => In t1 on1 /\ on2 = []
  | (None, Some t2) => on1 = [] /\ In t2 on2
  | (None, None) => False
  end.
Proof.
  unfold elem_pairs. destruct on1 as [|x on1], on2 as [|y on2].
  - destruct p as [[t1|] [t2|]]; simpl; tauto.
  - rewrite in_map_iff. destruct p as [[t1|] [t2|]].
    + split; [intros (z & [=] & _)|intros [[] _]].
    + split; [intros (z & [=] & _)|intros [[] _]].
    + split; [intros (z & [= <-] & H); auto|intros [_ H]; eauto].
    + split; [intros (z & [=] & _)|tauto].
  - rewrite in_map_iff. destruct p as [[t1|] [t2|]].
    + split; [intros (z & [=] & _)|intros [_ []]].
    + split; [intros (z & [= <-] & H); auto|intros [H _]; eauto].
    + split; [intros (z & [=] & _)|intros [_ []]].
    + split; [intros (z & [=] & _)|tauto].
  - rewrite in_flat_map. destruct p as [[t1|] [t2|]].
    + split.
      * intros (z & Hz & H). apply in_map_iff in H as (z2 & [= <- <-] & H2). auto.
      * intros [H1 H2]. exists t1. split; auto. apply in_map_iff. eauto.
    + split; [intros (z & Hz & H); apply in_map_iff in H as (z2 & [=] & _)|intros [_ [=]]].
    + split; [intros (z & Hz & H); apply in_map_iff in H as (z2 & [=] & _)|intros [[=] _]].
    + split; [intros (z & Hz & H); apply in_map_iff in H as (z2 & [=] & _)|tauto].
Qed.

Definition orange (n : nfa) (s : option nat) : Prop := forall q, s = Some q -> q < length (nfa_states n).

Lemma opt_targets_spec n s i a : nfa_valid n -> orange n s -> nth_error (nfa_alphabet n) i = Some a ->
  exists on, opt_targets (nfa_states n) s i = Ret on /\ forall t, In t on <-> oedge n s a t.
Proof.
  intros V Ho Hi. destruct s as [q|]; simpl.
  - destruct (nth_error_lt _ _ (Ho q eq_refl)) as [st Hst]. rewrite (index_Some _ _ _ Hst). simpl.
    destruct (nth_error_lt (ns_transitions st) i) as [ts Hts].
    { rewrite (nv_width _ V _ _ Hst). eapply nth_error_length; eauto. }
    rewrite (index_Some _ _ _ Hts). exists ts. split; auto. intros t. split.
    + intros Ht. exists q. split; auto. exists i, st, ts. auto.
    + intros (q' & [= <-] & (i' & st' & ts' & Hi' & Hst' & Hts' & Ht)).
      assert (i' = i) by exact (NoDup_nth_error_inj _ i' i a (nv_alphabet _ V) Hi' Hi). subst i'.
      rewrite Hst in Hst'. injection Hst' as <-. rewrite Hts in Hts'. injection Hts' as <-. auto.
  - exists []. split; auto. intros t. split; [intros []|intros (q & [=] & _)].
Qed.

Lemma opt_eps_spec n s : nfa_valid n -> orange n s ->
  exists e, opt_eps (nfa_states n) s = Ret e /\ forall t, In t e <-> exists q, s = Some q /\ nfa_eps_edge n q t.
Proof.
  intros V Ho. destruct s as [q|]; simpl.
  - destruct (nth_error_lt _ _ (Ho q eq_refl)) as [st Hst]. rewrite (index_Some _ _ _ Hst). simpl.
    exists (ns_eps st). split; auto. intros t. split.
    + intros Ht. exists q. split; auto. exists st. auto.
    + intros (q' & [= <-] & (st' & Hst' & Ht)). rewrite Hst in Hst'. injection Hst' as <-. auto.
  - exists []. split; auto. intros t. split; [intros []|intros (q & [=] & _)].
Qed.

Lemma opt_state_spec n s : orange n s -> opt_state (nfa_states n) s = Ret (nfa_at n s).
Proof.
  intros Ho. destruct s as [q|]; simpl; auto. destruct (nth_error_lt _ _ (Ho q eq_refl)) as [st Hst].
  rewrite (index_Some _ _ _ Hst), Hst. auto.
Qed.
Lemma opt_name_spec n s : orange n s -> opt_name (nfa_states n) s = Ret (onm n s).
Proof.
  intros Ho. destruct s as [q|]; simpl; auto. destruct (nth_error_lt _ _ (Ho q eq_refl)) as [st Hst].
  unfold onm. simpl. rewrite (index_Some _ _ _ Hst), Hst. auto.
Qed.

Lemma pair_edge_orange n1 n2 p a p' : nfa_valid n1 -> nfa_valid n2 -> pair_edge n1 n2 p a p' -> orange n1 (fst p') /\ orange n2 (snd p').
Proof.
  intros V1 V2. destruct p' as [[t1|] [t2|]]; simpl; try tauto.
  - intros [(q1 & _ & E1) (q2 & _ & E2)]. split; intros q [= <-]; eapply nfa_edge_dst; eauto.
  - intros [(q1 & _ & E1) _]. split; intros q [= <-]; eapply nfa_edge_dst; eauto.
  - intros [_ (q2 & _ & E2)]. split; intros q [= <-]; eapply nfa_edge_dst; eauto.
Qed.
Lemma pair_eps_orange n1 n2 p p' : nfa_valid n1 -> nfa_valid n2 -> orange n1 (fst p) -> orange n2 (snd p) -> pair_eps n1 n2 p p' ->
  orange n1 (fst p') /\ orange n2 (snd p').
Proof.
  intros V1 V2 O1 O2 [(q1 & e1 & _ & He & ->)|(q2 & e2 & _ & He & ->)]; simpl; split; auto; intros q [= <-]; eapply nfa_eps_dst; eauto.
Qed.
Lemma ppath_orange n1 n2 w p : nfa_valid n1 -> nfa_valid n2 -> ppath n1 n2 w p -> orange n1 (fst p) /\ orange n2 (snd p).
Proof.
  intros V1 V2. induction 1 as [|w p p' H IH He|w p a p' H IH He].
  - simpl. split; intros q [= <-]; apply nv_initial; auto.
  - destruct IH. eapply pair_eps_orange; eauto.
  - eapply pair_edge_orange; eauto.
Qed.

(** the visit of one pair *)
Definition nfa_product_visit (n1 n2 : nfa) (tr : list nat) (comb : option nfa_state -> option nfa_state -> bool) (p : option nat * option nat) :=
  let '(s1, s2) := p in
  transition_list <-
    mapR (fun elem =>
            other_elem <- index tr elem ;;
            on1 <- opt_targets (nfa_states n1) s1 elem ;;
            on2 <- opt_targets (nfa_states n2) s2 other_elem ;;
            Ret (elem_pairs on1 on2)) (seq 0 (length (nfa_alphabet n1))) ;;
  eps1 <- opt_eps (nfa_states n1) s1 ;;
  eps2 <- opt_eps (nfa_states n2) s2 ;;
  let eps := map (fun e1 => (Some e1, s2)) eps1 ++ map (fun e2 => (s1, Some e2)) eps2 in
  st1 <- opt_state (nfa_states n1) s1 ;;
  st2 <- opt_state (nfa_states n2) s2 ;;
  Ret (Some ((p, comb st1 st2, transition_list, eps), concat transition_list ++ eps)).

(** the pairs are the ones the search meets, in this order, and the same for every hash order *)
Theorem nfa_product_construction_search n1 n2 comb :
  nfa_valid n1 -> nfa_valid n2 -> same_set (nfa_alphabet n1) (nfa_alphabet n2) ->
  exists tr ks, alphabet_translation (nfa_alphabet n1) (nfa_alphabet n2) = Ret tr /\
    (exists seen out, search (fun p => p) (nfa_product_visit n1 n2 tr comb) (S (S (length (nfa_states n1)) * S (length (nfa_states n2))))
                             (Some (nfa_initial n1), Some (nfa_initial n2)) = Ret (Some (seen, out)) /\
                      map (fun o => fst (fst (fst o))) out = ks) /\
    hd_error ks = Some (Some (nfa_initial n1), Some (nfa_initial n2)) /\
    forall h, exists n, nfa_product_construction h n1 n2 comb = Ret (Some n) /\ nfa_valid n /\ nfa_is_product comb n1 n2 n ks.
Proof.
  intros V1 V2 Hs. unfold nfa_product_construction.
  destruct (alphabet_equal_spec _ _ (nv_alphabet _ V1) (nv_alphabet _ V2)) as [_|Hn]; [simpl negb; cbv iota|tauto].
  destruct (alphabet_translation_spec (nfa_alphabet n1) (nfa_alphabet n2)) as (tr & Htr & HFtr); [intros x Hx; apply Hs; auto|].
  rewrite Htr. cbn [bind].
  exists tr. set (visit := nfa_product_visit n1 n2 tr comb).
  set (q12 := (Some (nfa_initial n1), Some (nfa_initial n2))).
  assert (Hvisit : forall p, orange n1 (fst p) /\ orange n2 (snd p) -> exists tl eps,
     visit p = Ret (Some ((p, comb (nfa_at n1 (fst p)) (nfa_at n2 (snd p)), tl, eps), concat tl ++ eps)) /\
     Forall2 (fun a l => forall p', In p' l <-> pair_edge n1 n2 p a p') (nfa_alphabet n1) tl /\
     forall p', In p' eps <-> pair_eps n1 n2 p p').
  { intros [s1 s2] [O1 O2]. simpl in O1, O2. unfold visit, nfa_product_visit.
    match goal with |- context[mapR ?g (seq 0 _)] =>
      destruct (mapR_total g (fun i l => exists a, nth_error (nfa_alphabet n1) i = Some a /\
                  forall p', In p' l <-> pair_edge n1 n2 (s1, s2) a p') (seq 0 (length (nfa_alphabet n1)))) as (tl & Htl & HFl) end.
    { intros i Hi. apply in_seq in Hi. destruct (nth_error_lt (nfa_alphabet n1) i) as [a Ha]; [lia|].
      destruct (Forall2_nth _ _ _ HFtr _ _ Ha) as (j & Hj & Hja). rewrite (index_Some _ _ _ Hj). cbn [bind].
      destruct (opt_targets_spec n1 s1 i a V1 O1 Ha) as (on1 & -> & Hon1). cbn [bind].
      destruct (opt_targets_spec n2 s2 j a V2 O2 Hja) as (on2 & -> & Hon2). cbn [bind].
      eexists; split; [reflexivity|]. exists a. split; auto. intros p'. rewrite elem_pairs_In.
      assert (Hempty : forall (l : list nat), l = [] <-> ~ exists t, In t l).
      { intros [|t l]; split; auto; try discriminate; [intros _ [t []]|intros H; exfalso; apply H; exists t; left; auto]. }
      destruct p' as [[t1|] [t2|]]; simpl; rewrite ?Hon1, ?Hon2, ?Hempty; try tauto.
      - setoid_rewrite Hon2. tauto.
      - setoid_rewrite Hon1. tauto. }
    rewrite Htl. cbn [bind].
    destruct (opt_eps_spec n1 s1 V1 O1) as (e1 & -> & He1). cbn [bind].
    destruct (opt_eps_spec n2 s2 V2 O2) as (e2 & -> & He2). cbn [bind].
    rewrite (opt_state_spec n1 s1 O1), (opt_state_spec n2 s2 O2). cbn [bind].
    do 2 eexists. split; [reflexivity|]. split.
    - apply Forall2_of_nth.
      { rewrite <- (Forall2_len _ _ _ HFl), seq_length. auto. }
      intros i a l Ha Hl. destruct (Forall2_nth_r _ _ _ HFl _ _ Hl) as (x & Hx & a' & Ha' & HH).
      assert (Hil : i < length (nfa_alphabet n1)) by (eapply nth_error_length; eauto).
      rewrite nth_error_nth' with (d := 0) in Hx by (rewrite seq_length; auto). rewrite seq_nth in Hx by auto.
      injection Hx as <-. simpl in Ha'. rewrite Ha in Ha'. injection Ha' as <-. auto.
    - intros p'. rewrite in_app_iff, !in_map_iff. unfold pair_eps. simpl. split.
      + intros [(x & <- & Hx)|(x & <- & Hx)].
        * apply He1 in Hx as (q & -> & Hx). left. exists q, x. auto.
        * apply He2 in Hx as (q & -> & Hx). right. exists q, x. auto.
      + intros [(q & x & -> & Hx & ->)|(q & x & -> & Hx & ->)].
        * left. exists x. split; auto. apply He1. eauto.
        * right. exists x. split; auto. apply He2. eauto. }
  set (Good := fun p : option nat * option nat => orange n1 (fst p) /\ orange n2 (snd p)).
  set (U := list_prod (None :: map Some (seq 0 (length (nfa_states n1)))) (None :: map Some (seq 0 (length (nfa_states n2))))).
  assert (G0 : Good q12) by (split; intros q [= <-]; apply nv_initial; auto).
  destruct (search_spec (fun p => p) visit Good U) with (k := S (S (length (nfa_states n1)) * S (length (nfa_states n2)))) (t0 := q12)
    as (r & Hr & Hres).
  { intros [s1 s2] [O1 O2]. simpl in O1, O2. unfold U. apply in_prod.
    - destruct s1 as [q|]; [|left; auto]. right. apply in_map, in_seq. specialize (O1 q eq_refl). lia.
    - destruct s2 as [q|]; [|left; auto]. right. apply in_map, in_seq. specialize (O2 q eq_refl). lia. }
  { intros p Hp. destruct (Hvisit p Hp) as (tl & eps & Hv & HFl & He). rewrite Hv. eexists; split; [reflexivity|]. cbv beta iota.
    apply Forall_forall. intros p' Hin. destruct Hp as [O1 O2]. apply in_app_iff in Hin as [Hin|Hin].
    - apply in_concat in Hin as (l & Hl & Hin). destruct (Forall2_In_r _ _ _ _ HFl Hl) as (a & _ & HH).
      eapply pair_edge_orange; eauto. apply HH; eauto.
    - eapply pair_eps_orange; [auto|auto| exact O1 | exact O2 |]. apply He; auto. }
  { auto. }
  { unfold U. rewrite list_prod_length. cbn [length]. rewrite !map_length, !seq_length. apply two_mul_le_pow. }
  destruct r as [[seen out]|].
  2:{ exfalso. destruct Hres as (p & Hp & Hv).
      assert (Gp : Good p).
      { eapply (reach_Good visit Good); [|exact G0|exact Hp]. intros t Ht. destruct (Hvisit t Ht) as (tl & eps & Hv' & HFl & He).
        rewrite Hv'. eexists; split; [reflexivity|]. cbv beta iota. apply Forall_forall. intros p' Hin. destruct Ht as [O1 O2].
        apply in_app_iff in Hin as [Hin|Hin].
        - apply in_concat in Hin as (l & Hl & Hin). destruct (Forall2_In_r _ _ _ _ HFl Hl) as (a & _ & HH).
          eapply pair_edge_orange; eauto. apply HH; eauto.
        - eapply pair_eps_orange; [auto|auto| exact O1 | exact O2 |]. apply He; auto. }
      destruct (Hvisit p Gp) as (tl & eps & Hv' & _). congruence. }
  destruct Hres as (ks & Hhd & Hnd & Hperm & Hreach & HF). rewrite map_id in *. exists ks. split; [reflexivity|].
  assert (Hvrange : forall p o su, Good p -> visit p = Ret (Some (o, su)) -> forall p', In p' su <-> (exists a, pair_edge n1 n2 p a p') \/ pair_eps n1 n2 p p').
  { intros p o su Hp Hv p'. destruct (Hvisit p Hp) as (tl & eps & Hv' & HFl & He). rewrite Hv in Hv'. injection Hv' as -> ->.
    rewrite in_app_iff, in_concat, He. split; (intros [H|H]; [left|right; auto]).
    - destruct H as (l & Hl & Hin). destruct (Forall2_In_r _ _ _ _ HFl Hl) as (a & _ & HH). exists a. apply HH; auto.
    - destruct H as (a & Ha). assert (Hin : In a (nfa_alphabet n1)).
      { destruct p' as [[t1|] [t2|]]; simpl in Ha; try tauto.
        - destruct Ha as [(q & _ & E) _]. eapply nfa_edge_elem; eauto.
        - destruct Ha as [(q & _ & E) _]. eapply nfa_edge_elem; eauto.
        - destruct Ha as [_ (q & _ & E)]. apply Hs. eapply nfa_edge_elem; eauto. }
      destruct (Forall2_In_l _ _ _ _ HFl Hin) as (l & Hl & HH). exists l. split; auto. apply HH; auto. }
  assert (Hgood : forall p, In p ks -> Good p /\ exists w, ppath n1 n2 w p).
  { intros p Hp. rewrite Forall_forall in Hreach. specialize (Hreach p Hp). clear Hp.
    induction Hreach as [|p o su p' Hp [IHg [w IHw]] Hv Hin].
    - split; auto. exists []. constructor.
    - apply (Hvrange _ _ _ IHg Hv) in Hin as [[a Ha]|He].
      + split; [eapply pair_edge_orange; eauto|]. exists (w ++ [a]). eapply pp_snoc; eauto.
      + split; [destruct IHg; eapply pair_eps_orange; eauto|]. exists w. eapply pp_eps; eauto. }
  assert (Hinit : In q12 ks).
  { destruct ks; simpl in Hhd; [discriminate|]. injection Hhd as ->. left; auto. }
  assert (Hclosed : forall p p', In p ks -> (exists a, pair_edge n1 n2 p a p') \/ pair_eps n1 n2 p p' -> In p' ks).
  { intros p p' Hp He. destruct (Forall2_In_l _ _ _ _ HF Hp) as (o & _ & su & Hv & Hsu). apply Hsu.
    apply (Hvrange _ _ _ (proj1 (Hgood _ Hp)) Hv); auto. }
  assert (Hks : forall p, In p ks <-> exists w, ppath n1 n2 w p).
  { intros p. split; [intros Hp; apply Hgood; auto|]. intros [w Hw].
    induction Hw as [|w p p' Hw IH He|w p a p' Hw IH He]; auto; eapply Hclosed; eauto. }
  (* the collected data *)
  set (proj := fun o : option nat * option nat * bool * list (list (option nat * option nat)) * list (option nat * option nat) =>
                 fst (fst (fst o))).
  assert (HD : Forall2 (fun k o => exists tl eps, o = (k, comb (nfa_at n1 (fst k)) (nfa_at n2 (snd k)), tl, eps) /\
                Forall2 (fun a l => forall p', In p' l <-> pair_edge n1 n2 k a p') (nfa_alphabet n1) tl /\
                forall p', In p' eps <-> pair_eps n1 n2 k p') ks out).
  { apply Forall2_of_nth; [eapply Forall2_len; eauto|]. intros i k o Hi Ho.
    destruct (Forall2_nth _ _ _ HF _ _ Hi) as (o' & Ho' & su & Hv & _). rewrite Ho in Ho'. injection Ho' as <-.
    destruct (Hvisit k) as (tl & eps & Hv' & HFl & He); [apply Hgood; eapply nth_error_In; eauto|].
    rewrite Hv in Hv'. injection Hv' as -> _. exists tl, eps. auto. }
  assert (Hproj : map proj out = ks).
  { clear - HD. induction HD as [|k o ks out (tl & eps & -> & _) HD IH]; simpl; auto. rewrite IH; auto. }
  assert (Hlen : length out = length ks) by (rewrite <- Hproj, map_length; auto).
  split; [exists seen, out; split; [exact Hr|exact Hproj]|]. split; [exact Hhd|]. intros h.
  unfold visit, nfa_product_visit in Hr. fold q12. rewrite Hr. cbn [bind].
  set (order := ho h [41] seen).
  assert (Horder : Permutation order ks) by (unfold order; rewrite ho_perm; auto).
  assert (Hndo : NoDup order) by (eapply Permutation_NoDup; [symmetry; exact Horder|auto]).
  assert (Hino : forall p, In p order <-> In p ks) by (intros p; split; apply Permutation_in; [|symmetry]; auto).
  cbv zeta. fold order.
  match goal with |- context[product_names ?f [] order] => set (namef := f) end.
  destruct (product_names_spec namef (nfa_pair_name n1 n2) order) as (named & f & Hnamed & Hget & Hinj & Hnames).
  { intros [q1 q2] Hin. apply Hino in Hin. destruct (proj1 (Hgood _ Hin)) as [R1 R2]. simpl in R1, R2.
    unfold namef, nfa_pair_name. rewrite (opt_name_spec _ _ R1), (opt_name_spec _ _ R2). reflexivity. }
  { auto. }
  rewrite Hnamed. cbn [bind].
  replace (length out) with (length order) by (rewrite (Permutation_length Horder); auto).
  fold (product_name_map named order (length order)).
  set (names := product_name_map named order (length order)) in *.
  match goal with |- context[hm_collect (map ?g (enumerate out))] => set (idxf := g) end.
  set (rmap := hm_collect (map idxf (enumerate out))).
  assert (Hrmap : forall p i, hm_get p rmap = Some i <-> nth_error ks i = Some p).
  { intros p i. unfold rmap. rewrite <- Hproj. apply idx_map_get; [|rewrite Hproj; auto].
    intros [idx [[[p' b] l] e]]. reflexivity. }
  assert (Hin_rmap : forall p, In p ks -> exists i, unwrap (hm_get p rmap) = Ret i /\ nth_error ks i = Some p).
  { intros p Hp. apply In_nth_error in Hp as [i Hi]. exists i. split; auto. apply Hrmap in Hi. rewrite Hi. auto. }
  destruct (Hin_rmap _ Hinit) as (init & Hgi & Hni). rewrite Hgi. cbn [bind].
  match goal with |- context[mapR ?g out] => set (mk := g) end.
  destruct (mapR_total mk (fun o s => 
      ns_name s = f (proj o) /\ ns_initial s = eqb (proj o) q12 /\
      ns_accepting s = comb (nfa_at n1 (fst (proj o))) (nfa_at n2 (snd (proj o))) /\
      Forall2 (fun a js => exists l, (forall p', In p' l <-> pair_edge n1 n2 (proj o) a p') /\ Forall2 (fun p j => nth_error ks j = Some p) l js)
              (nfa_alphabet n1) (ns_transitions s) /\
      exists l, (forall p', In p' l <-> pair_eps n1 n2 (proj o) p') /\ Forall2 (fun p j => nth_error ks j = Some p) l (ns_eps s)) out)
    as (states & Hst & HS).
  { intros o Ho. destruct (Forall2_In_r _ _ _ _ HD Ho) as (k & Hk & tl & eps & -> & HFl & He).
    unfold proj. cbn [fst snd]. unfold mk. rewrite (Hget k) by (apply Hino; auto). cbn [unwrap bind].
    match goal with |- context[mapR (mapR ?g) tl] =>
      destruct (mapR_total (mapR g) (fun l js => Forall2 (fun p j => nth_error ks j = Some p) l js) tl) as (ts & Hts & HFt) end.
    { intros l Hl. apply mapR_total. intros p Hp. destruct (Forall2_In_r _ _ _ _ HFl Hl) as (a & _ & HH). apply Hin_rmap.
      apply (Hclosed k); auto. left. exists a. apply HH; auto. }
    rewrite Hts. cbn [bind].
    match goal with |- context[mapR ?g eps] =>
      destruct (mapR_total g (fun p j => nth_error ks j = Some p) eps) as (es & Hes & HFe) end.
    { intros p Hp. apply Hin_rmap. apply (Hclosed k); auto. right. apply He; auto. }
    rewrite Hes. cbn [bind]. eexists; split; [reflexivity|]. cbn [ns_name ns_initial ns_accepting ns_transitions ns_eps].
    split; auto. split; auto. split; auto. split.
    - apply Forall2_of_nth; [rewrite (Forall2_len _ _ _ HFl), (Forall2_len _ _ _ HFt); auto|].
      intros i a js Ha Hjs. destruct (Forall2_nth _ _ _ HFl _ _ Ha) as (l & Hl & HH).
      destruct (Forall2_nth _ _ _ HFt _ _ Hl) as (js' & Hjs' & HJ). rewrite Hjs in Hjs'. injection Hjs' as <-. exists l. auto.
    - exists eps. auto. }
  rewrite Hst. cbn [bind]. eexists. split; [reflexivity|].
  set (n := {| nfa_alphabet := nfa_alphabet n1; nfa_states := states; nfa_initial := init |}).
  assert (Hlen' : length states = length ks) by (rewrite <- (Forall2_len _ _ _ HS); auto).
  assert (HN : forall i p s, nth_error ks i = Some p -> nth_error states i = Some s -> 
      ns_name s = f p /\ ns_initial s = eqb p q12 /\
      ns_accepting s = comb (nfa_at n1 (fst p)) (nfa_at n2 (snd p)) /\
      Forall2 (fun a js => exists l, (forall p', In p' l <-> pair_edge n1 n2 p a p') /\ Forall2 (fun p j => nth_error ks j = Some p) l js)
              (nfa_alphabet n1) (ns_transitions s) /\
      exists l, (forall p', In p' l <-> pair_eps n1 n2 p p') /\ Forall2 (fun p j => nth_error ks j = Some p) l (ns_eps s)).
  { intros i p s Hi Hsi. destruct (Forall2_nth_r _ _ _ HS _ _ Hsi) as (o & Ho & HH).
    rewrite <- Hproj, nth_error_map, Ho in Hi. injection Hi as Hi. rewrite Hi in HH. exact HH. }
  assert (Hbk : forall i s, nth_error states i = Some s -> exists p, nth_error ks i = Some p).
  { intros i s Hi. apply nth_error_length in Hi. rewrite Hlen' in Hi. apply nth_error_lt; auto. }
  assert (Hfw : forall i p, nth_error ks i = Some p -> exists s, nth_error states i = Some s).
  { intros i s Hi. apply nth_error_length in Hi. rewrite <- Hlen' in Hi. apply nth_error_lt; auto. }
  assert (Hnks : forall i p, nth_error ks i = Some p -> In p order).
  { intros i p Hi. apply Hino. eapply nth_error_In; eauto. }
  split.
  - constructor; simpl.
    + apply nv_alphabet; auto.
    + apply NoDup_nth_error. intros i j Hi Hij. rewrite map_length in Hi. destruct (nth_error_lt _ _ Hi) as [s Hsi].
      rewrite !nth_error_map, Hsi in Hij. simpl in Hij. destruct (nth_error states j) as [s'|] eqn:Es'; [|discriminate].
      simpl in Hij. destruct (Hbk _ _ Hsi) as (p & Hp). destruct (Hbk _ _ Es') as (p' & Hp').
      destruct (HN _ _ _ Hp Hsi) as (En & _). destruct (HN _ _ _ Hp' Es') as (En' & _).
      assert (Hpq : p = p') by (apply Hinj; [eauto|eauto|congruence]). subst p'.
      exact (NoDup_nth_error_inj ks i j _ Hnd Hp Hp').
    + rewrite Hlen'. eapply nth_error_length; eauto.
    + intros i s Hi. destruct (Hbk _ _ Hi) as (p & Hp). destruct (HN _ _ _ Hp Hi) as (_ & Ei & _).
      rewrite Ei, eqb_true. split.
      * intros Heq. rewrite Heq in Hp. exact (NoDup_nth_error_inj ks i init _ Hnd Hp Hni).
      * intros ->. congruence.
    + intros i s Hi. destruct (Hbk _ _ Hi) as (p & Hp). destruct (HN _ _ _ Hp Hi) as (_ & _ & _ & HFt & _).
      symmetry. eapply Forall2_len; eauto.
    + intros i s ts t Hi Hts Ht. destruct (Hbk _ _ Hi) as (p & Hp). destruct (HN _ _ _ Hp Hi) as (_ & _ & _ & HFt & _).
      destruct (Forall2_In_r _ _ _ _ HFt Hts) as (a & _ & l & _ & HFl). destruct (Forall2_In_r _ _ _ _ HFl Ht) as (p' & _ & Hp').
      rewrite Hlen'. eapply nth_error_length; eauto.
    + intros i s t Hi Ht. destruct (Hbk _ _ Hi) as (p & Hp). destruct (HN _ _ _ Hp Hi) as (_ & _ & _ & _ & l & _ & HFl).
      destruct (Forall2_In_r _ _ _ _ HFl Ht) as (p' & _ & Hp'). rewrite Hlen'. eapply nth_error_length; eauto.
  - constructor; simpl; auto.
    + intros i p s Hi Hsi. apply (HN _ _ _ Hi Hsi).
    + intros i p a j Hi. split.
      * intros (c & s & ts & Hc & Hsi & Hts & Hj). simpl in *. destruct (HN _ _ _ Hi Hsi) as (_ & _ & _ & HFt & _).
        destruct (Forall2_nth _ _ _ HFt _ _ Hc) as (ts' & Hts' & l & HH & HFl). rewrite Hts in Hts'. injection Hts' as <-.
        destruct (Forall2_In_r _ _ _ _ HFl Hj) as (p' & Hp' & Hj'). exists p'. split; auto. apply HH; auto.
      * intros (p' & Hj & He). destruct (Hfw _ _ Hi) as [s Hsi]. destruct (HN _ _ _ Hi Hsi) as (_ & _ & _ & HFt & _).
        assert (Hin : In a (nfa_alphabet n1)).
        { clear - He Hs. destruct p' as [[t1|] [t2|]]; simpl in He; try tauto.
          - destruct He as [(q & _ & E) _]. eapply nfa_edge_elem; eauto.
          - destruct He as [(q & _ & E) _]. eapply nfa_edge_elem; eauto.
          - destruct He as [_ (q & _ & E)]. apply Hs. eapply nfa_edge_elem; eauto. }
        apply In_nth_error in Hin as [c Hc]. destruct (Forall2_nth _ _ _ HFt _ _ Hc) as (ts & Hts & l & HH & HFl).
        apply HH in He. destruct (Forall2_In_l _ _ _ _ HFl He) as (j' & Hj' & Hp').
        rewrite <- (NoDup_nth_error_inj ks j' j _ Hnd Hp' Hj). exists c, s, ts. auto.
    + intros i p j Hi. split.
      * intros (s & Hsi & Hj). simpl in *. destruct (HN _ _ _ Hi Hsi) as (_ & _ & _ & _ & l & HH & HFl).
        destruct (Forall2_In_r _ _ _ _ HFl Hj) as (p' & Hp' & Hj'). exists p'. split; auto. apply HH; auto.
      * intros (p' & Hj & He). destruct (Hfw _ _ Hi) as [s Hsi]. destruct (HN _ _ _ Hi Hsi) as (_ & _ & _ & _ & l & HH & HFl).
        apply HH in He. destruct (Forall2_In_l _ _ _ _ HFl He) as (j' & Hj' & Hp').
        rewrite <- (NoDup_nth_error_inj ks j' j _ Hnd Hp' Hj). exists s. auto.
    + destruct Hnames as [[_ Hf]|[Hnn Hf]].
      * left. intros i p s Hi Hsi. destruct (HN _ _ _ Hi Hsi) as (En & _). rewrite En. apply Hf. eauto.
      * right. split.
        -- intros Hx. apply Hnn. eapply Permutation_NoDup; [|exact Hx]. apply Permutation_map. symmetry; auto.
        -- intros s Hs'. apply In_nth_error in Hs' as [i Hi]. destruct (Hbk _ _ Hi) as (p & Hp).
           destruct (HN _ _ _ Hp Hi) as (En & _). destruct (Hf p) as (k & Hk & Hk'); [eauto|].
           exists k. rewrite (Permutation_length Horder) in Hk. split; auto. congruence.
Qed.

Theorem nfa_product_construction_uniform n1 n2 comb :
  nfa_valid n1 -> nfa_valid n2 -> same_set (nfa_alphabet n1) (nfa_alphabet n2) ->
  exists ks, forall h, exists n, nfa_product_construction h n1 n2 comb = Ret (Some n) /\ nfa_valid n /\ nfa_is_product comb n1 n2 n ks.
Proof. intros V1 V2 Hs. destruct (nfa_product_construction_search n1 n2 comb V1 V2 Hs) as (tr & ks & _ & _ & _ & H). eauto. Qed.

Theorem nfa_product_construction_struct h n1 n2 comb :
  nfa_valid n1 -> nfa_valid n2 -> same_set (nfa_alphabet n1) (nfa_alphabet n2) ->
  exists n ks, nfa_product_construction h n1 n2 comb = Ret (Some n) /\ nfa_valid n /\ nfa_is_product comb n1 n2 n ks.
Proof.
  intros V1 V2 Hs. destruct (nfa_product_construction_uniform n1 n2 comb V1 V2 Hs) as (ks & H).
  destruct (H h) as (n & Hn). exists n, ks. exact Hn.
Qed.

(** ** Language *)
Lemma product_path comb n1 n2 n ks w j : nfa_is_product comb n1 n2 n ks ->
  (nfa_path n (nfa_initial n) w j <-> exists p, nth_error ks j = Some p /\ ppath n1 n2 w p).
Proof.
  intros P. split.
  - enough (H : forall i v j, nfa_path n i v j -> forall u p, nth_error ks i = Some p -> ppath n1 n2 u p ->
                  exists p', nth_error ks j = Some p' /\ ppath n1 n2 (u ++ v) p').
    { intros Hp. destruct (H _ _ _ Hp [] _ (np_initial _ _ _ _ _ P)) as (p' & Hj & Hp'); [constructor|]. eauto. }
    induction 1 as [i|i k v j' He Hp IH|i a k v j' He Hp IH]; intros u p Hi Hu.
    + exists p. rewrite app_nil_r. auto.
    + apply (np_eps _ _ _ _ _ P _ _ _ Hi) in He as (p' & Hk & He). apply (IH u p'); auto. eapply pp_eps; eauto.
    + apply (np_edge _ _ _ _ _ P _ _ _ _ Hi) in He as (p' & Hk & He). change (a :: v) with ([a] ++ v). rewrite app_assoc.
      apply (IH (u ++ [a]) p'); auto. eapply pp_snoc; eauto.
  - intros (p & Hj & Hp). revert j Hj. induction Hp as [|w p p' Hp IH He|w p a p' Hp IH He]; intros j Hj.
    + rewrite (NoDup_nth_error_inj ks j (nfa_initial n) _ (np_nodup _ _ _ _ _ P) Hj (np_initial _ _ _ _ _ P)). constructor.
    + assert (Hin : In p ks) by (apply (np_reach _ _ _ _ _ P); eauto). apply In_nth_error in Hin as [i Hi].
      eapply nfa_path_eps_snoc; [apply IH; eauto|]. apply (np_eps _ _ _ _ _ P _ _ _ Hi). eauto.
    + assert (Hin : In p ks) by (apply (np_reach _ _ _ _ _ P); eauto). apply In_nth_error in Hin as [i Hi].
      eapply nfa_path_edge_snoc; [apply IH; eauto|]. apply (np_edge _ _ _ _ _ P _ _ _ _ Hi). eauto.
Qed.

Lemma product_lang comb n1 n2 n ks w : nfa_is_product comb n1 n2 n ks ->
  (nfa_lang n w <-> exists s1 s2, nfa_pair_reached n1 n2 w s1 s2 /\ comb (nfa_at n1 s1) (nfa_at n2 s2) = true).
Proof.
  intros P. split.
  - intros (j & Hp & (s & Hs & Ha)). apply (product_path _ _ _ _ _ _ _ P) in Hp as ([s1 s2] & Hj & Hp).
    exists s1, s2. split; [apply ppath_iff in Hp; auto|]. pose proof (np_state _ _ _ _ _ P _ _ _ Hj Hs) as E. simpl in E. congruence.
  - intros (s1 & s2 & Hr & Hc). assert (Hp : ppath n1 n2 w (s1, s2)) by (apply ppath_iff; auto).
    assert (Hin : In (s1, s2) ks) by (apply (np_reach _ _ _ _ _ P); eauto). apply In_nth_error in Hin as [j Hj].
    exists j. split; [apply (product_path _ _ _ _ _ _ _ P); eauto|].
    destruct (nth_error_lt (nfa_states n) j) as [s Hs]; [rewrite (np_length _ _ _ _ _ P); eapply nth_error_length; eauto|].
    exists s. split; auto. rewrite (np_state _ _ _ _ _ P _ _ _ Hj Hs). auto.
Qed.

Lemma product_all_reachable comb n1 n2 n ks i : nfa_is_product comb n1 n2 n ks -> i < length (nfa_states n) -> nfa_reachable n i.
Proof.
  intros P Hi. rewrite (np_length _ _ _ _ _ P) in Hi. destruct (nth_error_lt _ _ Hi) as [p Hp].
  assert (Hin : In p ks) by (eapply nth_error_In; eauto). apply (np_reach _ _ _ _ _ P) in Hin as [w Hw].
  exists w. apply (product_path _ _ _ _ _ _ _ P). eauto.
Qed.

Lemma nfa_product_none h n1 n2 comb : nfa_valid n1 -> nfa_valid n2 -> ~ same_set (nfa_alphabet n1) (nfa_alphabet n2) ->
  nfa_product_construction h n1 n2 comb = Ret None.
Proof.
  intros V1 V2 Hs. unfold nfa_product_construction.
  destruct (alphabet_equal_spec _ _ (nv_alphabet _ V1) (nv_alphabet _ V2)); [tauto|reflexivity].
Qed.

Lemma nfa_pair_lang_and n1 n2 w f :
  (forall s1 s2, f s1 s2 = match s1, s2 with Some s1, Some s2 => ns_accepting s1 && ns_accepting s2 | _, _ => false end) ->
  (exists s1 s2, nfa_pair_reached n1 n2 w s1 s2 /\ f (nfa_at n1 s1) (nfa_at n2 s2) = true) <-> nfa_lang n1 w /\ nfa_lang n2 w.
Proof.
  intros Hf. setoid_rewrite Hf. clear f Hf. split.
  - intros ([q1|] & [q2|] & Hr & Hc); simpl in *; try discriminate;
      try (destruct (nth_error (nfa_states n1) q1); discriminate).
    destruct (nth_error (nfa_states n1) q1) as [s1|] eqn:E1; [|discriminate].
    destruct (nth_error (nfa_states n2) q2) as [s2|] eqn:E2; [|discriminate]. apply andb_true_iff in Hc as [A1 A2].
    destruct Hr as [P1 P2]. split; [exists q1|exists q2]; split; auto; eexists; eauto.
  - intros [(q1 & P1 & s1 & E1 & A1) (q2 & P2 & s2 & E2 & A2)]. exists (Some q1), (Some q2). simpl. rewrite E1, E2, A1, A2. auto.
Qed.

Lemma nfa_pair_lang_or n1 n2 w f : nfa_valid n1 -> nfa_valid n2 ->
  (forall s1 s2, f s1 s2 = match s1 with Some s => ns_accepting s | None => false end ||
                           match s2 with Some s => ns_accepting s | None => false end) ->
  (exists s1 s2, nfa_pair_reached n1 n2 w s1 s2 /\ f (nfa_at n1 s1) (nfa_at n2 s2) = true) <-> nfa_lang n1 w \/ nfa_lang n2 w.
Proof.
  intros V1 V2 Hf. setoid_rewrite Hf. clear f Hf. split.
  - intros (s1 & s2 & Hr & Hc). apply orb_true_iff in Hc as [Hc|Hc].
    + left. destruct s1 as [q1|]; [simpl in Hc|discriminate]. destruct (nth_error (nfa_states n1) q1) as [s|] eqn:E; [|discriminate].
      exists q1. split; [destruct s2; apply Hr|exists s; auto].
    + right. destruct s2 as [q2|]; [simpl in Hc|discriminate]. destruct (nth_error (nfa_states n2) q2) as [s|] eqn:E; [|discriminate].
      exists q2. split; [destruct s1; apply Hr|exists s; auto].
  - intros [(q1 & P1 & s1 & E1 & A1)|(q2 & P2 & s2 & E2 & A2)].
    + destruct (nfa_path_or_stuck n2 w) as [(q2 & P2)|St].
      * exists (Some q1), (Some q2). simpl. rewrite E1, A1. auto.
      * exists (Some q1), None. simpl. rewrite E1, A1. auto.
    + destruct (nfa_path_or_stuck n1 w) as [(q1 & P1)|St].
      * exists (Some q1), (Some q2). simpl. rewrite E2, A2, orb_true_r. auto.
      * exists None, (Some q2). simpl. rewrite E2, A2. auto.
Qed.
