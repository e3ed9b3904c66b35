(** * ReproProofs: what the results owe to the iteration order of hash tables *)
From Coq Require Import List NArith Arith Bool Permutation Sorted Lia.
From Verif Require Import Base BaseLemmas Spec ReproSpec DfaModel NfaModel RegexModel.
From Verif Require Import DfaBasics DfaReach DfaEquiv NfaBasics NfaReach NfaEquiv NfaToDfa NfaProduct NfaUnion NfaEps RegexProofs DfaMinimize.
Import ListNotations.

(** ** Regular expressions and the subset construction: the order is undone by sorting *)
Lemma regex_to_nfa_order h h' t : regex_to_nfa h t = regex_to_nfa h' t.
Proof.
  unfold regex_to_nfa. cbn [counter_next rs_counter rs_map rs_idx].
  destruct (tree_to_nfa t _ 0) as [st sts] eqn:E.
  assert (Hok0 : rs_ok (mk_regex_st 2 [] 0)). { split; [constructor|]. split; auto. }
  destruct (tree_to_nfa_ok t _ 0 st sts Hok0 E) as [F1 _ _ _ _ _ _]. destruct F1 as (_ & Hsnd & _).
  assert (Hsort : forall g, sort_by_snd (ho g [51] (rs_map st)) = rs_map st).
  { intros g. apply sort_by_snd_numbered; auto. apply ho_perm. }
  rewrite !Hsort. reflexivity.
Qed.

Lemma nfa_to_dfa_order h h' n : nfa_valid n -> nfa_to_dfa h n = nfa_to_dfa h' n.
Proof.
  intros V. unfold nfa_to_dfa. destruct (nfa_evaluator_at n V) as (e0 & -> & He0). simpl.
  destruct (ne_is_accepting_at n [] false e0 V He0) as (b & -> & Hb). simpl. fold (ekey e0).
  destruct (to_dfa_loop n e0 b V He0) as (s & -> & Hi & Hex); [rewrite Hb, nfa_lang_at; tauto|]. simpl.
  destruct Hi as [I1 _ _ _ _ _ _ _ _].
  assert (Hsort : forall g, sort_by_snd (ho g [42] (td_map s)) = td_map s).
  { intros g. apply sort_by_snd_numbered; auto. apply ho_perm. }
  rewrite !Hsort. reflexivity.
Qed.

(** ** Restrictions are determined by the states kept *)
Lemma forall2_fun {A B} (R : A -> B -> Prop) l : (forall a b b', R a b -> R a b' -> b = b') ->
  forall m m', Forall2 R l m -> Forall2 R l m' -> m = m'.
Proof.
  intros HR. induction l as [|a l IH]; intros m m' H H'; inversion H; inversion H'; subst; auto. f_equal; eauto.
Qed.

Lemma dfa_restriction_fun k d d1 d2 : NoDup k -> dfa_restriction k d d1 -> dfa_restriction k d d2 -> d1 = d2.
Proof.
  intros Hk (A1 & I1 & S1) (A2 & I2 & S2). destruct d1 as [al1 st1 i1], d2 as [al2 st2 i2]. simpl in *.
  f_equal; [congruence| |exact (NoDup_nth_error_inj _ _ _ _ Hk I1 I2)].
  refine (forall2_fun _ _ _ _ _ S1 S2). intros q s1 s2 (s & Hs & n1 & i1' & a1 & t1) (s' & Hs' & n2 & i2' & a2 & t2).
  rewrite Hs in Hs'. injection Hs' as <-. destruct s1, s2. simpl in *.
  f_equal; [congruence|congruence|congruence|]. refine (forall2_fun _ _ _ _ _ t1 t2).
  intros x y z Hy Hz. exact (NoDup_nth_error_inj _ _ _ _ Hk Hy Hz).
Qed.

Lemma nfa_restriction_fun k d d1 d2 : NoDup k -> nfa_restriction k d d1 -> nfa_restriction k d d2 -> d1 = d2.
Proof.
  intros Hk (A1 & I1 & S1) (A2 & I2 & S2). destruct d1 as [al1 st1 i1], d2 as [al2 st2 i2]. simpl in *.
  assert (F : forall m m' l, Forall2 (fun t t' => nth_error k t' = Some t) l m -> Forall2 (fun t t' => nth_error k t' = Some t) l m' -> m = m').
  { intros m m' l. apply forall2_fun. intros x y z Hy Hz. exact (NoDup_nth_error_inj _ _ _ _ Hk Hy Hz). }
  f_equal; [congruence| |exact (NoDup_nth_error_inj _ _ _ _ Hk I1 I2)].
  refine (forall2_fun _ _ _ _ _ S1 S2). intros q s1 s2 (s & Hs & n1 & i1' & a1 & e1 & t1) (s' & Hs' & n2 & i2' & a2 & e2 & t2).
  rewrite Hs in Hs'. injection Hs' as <-. destruct s1, s2. simpl in *.
  f_equal; [congruence|congruence|congruence|eauto|]. refine (forall2_fun _ _ _ _ _ t1 t2). eauto.
Qed.

Lemma dfa_remove_unreachable_order h h' dbg dbg' d : dfa_valid d ->
  dfa_remove_unreachable_states h dbg d = dfa_remove_unreachable_states h' dbg' d.
Proof.
  intros V. destruct (dfa_remove_unreachable_states_correct h dbg d V) as (d1 & -> & _ & k1 & S1 & I1 & R1).
  destruct (dfa_remove_unreachable_states_correct h' dbg' d V) as (d2 & -> & _ & k2 & S2 & I2 & R2).
  assert (k1 = k2) by (apply lt_sorted_eq; auto; intros x; rewrite I1, I2; tauto). subst k2.
  f_equal. exact (dfa_restriction_fun k1 d d1 d2 (lt_sorted_NoDup _ S1) R1 R2).
Qed.

Lemma nfa_remove_unreachable_order h h' dbg dbg' n : nfa_valid n ->
  nfa_remove_unreachable_states h dbg n = nfa_remove_unreachable_states h' dbg' n.
Proof.
  intros V. destruct (nfa_remove_unreachable_states_correct h dbg n V) as (d1 & -> & _ & k1 & S1 & I1 & R1).
  destruct (nfa_remove_unreachable_states_correct h' dbg' n V) as (d2 & -> & _ & k2 & S2 & I2 & R2).
  assert (k1 = k2) by (apply lt_sorted_eq; auto; intros x; rewrite I1, I2; tauto). subst k2.
  f_equal. exact (nfa_restriction_fun k1 n d1 d2 (lt_sorted_NoDup _ S1) R1 R2).
Qed.

(** ** Products *)

Lemma mapR_rel {A B} (F F' : A -> R B) (rel : B -> B -> Prop) :
  (forall x y y', F x = Ret y -> F' x = Ret y' -> rel y y') ->
  forall l r r', mapR F l = Ret r -> mapR F' l = Ret r' -> Forall2 rel r r'.
Proof.
  intros Hrel. induction l as [|x l IH]; intros r r' H H'; simpl in H, H'.
  - injection H as <-. injection H' as <-. constructor.
  - destruct (F x) as [y| |] eqn:Ey; try discriminate H. destruct (F' x) as [y'| |] eqn:Ey'; try discriminate H'.
    simpl in H, H'. destruct (mapR F l) as [t| |]; try discriminate H. destruct (mapR F' l) as [t'| |]; try discriminate H'.
    simpl in H, H'. injection H as <-. injection H' as <-. constructor; eauto.
Qed.


Lemma dfa_product_but_names h h' d1 d2 c d d' :
  dfa_product_construction h d1 d2 c = Ret (Some d) -> dfa_product_construction h' d1 d2 c = Ret (Some d') -> dfa_same_but_names d d'.
Proof.
  unfold dfa_product_construction. intros H H'. destruct (negb _); [discriminate H|].
  match type of H with context[bind ?s _] => destruct s as [[[seen out]|]| |] end; try discriminate H.
  cbn [bind] in H, H'.
  match type of H with context[product_names ?f [] ?o] => destruct (product_names f [] o) as [nm| |] end; try discriminate H.
  match type of H' with context[product_names ?f [] ?o] => destruct (product_names f [] o) as [nm'| |] end; try discriminate H'.
  cbn [bind] in H, H'. cbv zeta in H, H'.
  match type of H with context[bind (unwrap ?s) _] => destruct (unwrap s) as [init| |] end; try discriminate H.
  cbn [bind] in H, H'.
  match type of H with context[mapR ?f out] => destruct (mapR f out) as [r| |] eqn:E end; try discriminate H.
  match type of H' with context[mapR ?f out] => destruct (mapR f out) as [r'| |] eqn:E' end; try discriminate H'.
  cbn [bind] in H, H'. injection H as <-. injection H' as <-. split; auto. split; auto. simpl.
  refine (mapR_rel _ _ _ _ _ _ _ E E'). intros [[p acc] ts] y y' Hy Hy'.
  match type of Hy with context[bind (unwrap ?s) _] => destruct (unwrap s) as [x| |] end; try discriminate Hy.
  match type of Hy' with context[bind (unwrap ?s) _] => destruct (unwrap s) as [x'| |] end; try discriminate Hy'.
  cbn [bind] in Hy, Hy'. match type of Hy with context[mapR ?f ts] => destruct (mapR f ts) as [z| |] end; try discriminate Hy.
  cbn [bind] in Hy, Hy'. injection Hy as <-. injection Hy' as <-. auto.
Qed.

Lemma nfa_product_but_names h h' d1 d2 c d d' :
  nfa_product_construction h d1 d2 c = Ret (Some d) -> nfa_product_construction h' d1 d2 c = Ret (Some d') -> nfa_same_but_names d d'.
Proof.
  unfold nfa_product_construction. intros H H'. destruct (negb _); [discriminate H|].
  destruct (alphabet_translation _ _) as [tr| |]; try discriminate H. cbn [bind] in H, H'. cbv zeta in H, H'.
  match type of H with context[bind ?s _] => destruct s as [[[seen out]|]| |] end; try discriminate H.
  cbn [bind] in H, H'.
  match type of H with context[product_names ?f [] ?o] => destruct (product_names f [] o) as [nm| |] end; try discriminate H.
  match type of H' with context[product_names ?f [] ?o] => destruct (product_names f [] o) as [nm'| |] end; try discriminate H'.
  cbn [bind] in H, H'. cbv zeta in H, H'.
  match type of H with context[bind (unwrap ?s) _] => destruct (unwrap s) as [init| |] end; try discriminate H.
  cbn [bind] in H, H'.
  match type of H with context[mapR ?f out] => destruct (mapR f out) as [r| |] eqn:E end; try discriminate H.
  match type of H' with context[mapR ?f out] => destruct (mapR f out) as [r'| |] eqn:E' end; try discriminate H'.
  cbn [bind] in H, H'. injection H as <-. injection H' as <-. split; auto. split; auto. simpl.
  refine (mapR_rel _ _ _ _ _ _ _ E E'). intros [[[p acc] ts] es] y y' Hy Hy'.
  match type of Hy with context[bind (unwrap ?s) _] => destruct (unwrap s) as [x| |] end; try discriminate Hy.
  match type of Hy' with context[bind (unwrap ?s) _] => destruct (unwrap s) as [x'| |] end; try discriminate Hy'.
  cbn [bind] in Hy, Hy'. match type of Hy with context[mapR ?f ts] => destruct (mapR f ts) as [z| |] end; try discriminate Hy.
  cbn [bind] in Hy, Hy'. match type of Hy with context[mapR ?f es] => destruct (mapR f es) as [z2| |] end; try discriminate Hy.
  cbn [bind] in Hy, Hy'. injection Hy as <-. injection Hy' as <-. auto.
Qed.

(** with distinct pair names the products are equal *)
Lemma dfa_product_order h h' d1 d2 c : dfa_valid d1 -> dfa_valid d2 ->
  (forall p q, dfa_pair_name d1 d2 p = dfa_pair_name d1 d2 q ->
     fst p < length (dfa_states d1) -> snd p < length (dfa_states d2) ->
     fst q < length (dfa_states d1) -> snd q < length (dfa_states d2) -> p = q) ->
  dfa_product_construction h d1 d2 c = dfa_product_construction h' d1 d2 c.
Proof.
  intros V1 V2 Hinj. destruct (alphabet_equal_spec _ _ (dv_alphabet _ V1) (dv_alphabet _ V2)) as [Hs|Hs].
  2:{ rewrite !dfa_product_none by auto. reflexivity. }
  destruct (dfa_product_construction_uniform d1 d2 c V1 V2 Hs) as (ks & H).
  destruct (H h) as (d & Hd & V & P). destruct (H h') as (d' & Hd' & V' & P'). rewrite Hd, Hd'. f_equal. f_equal.
  destruct (dfa_product_but_names _ _ _ _ _ _ _ Hd Hd') as (Ha & Hi & HF).
  assert (Hr : forall p, In p ks -> fst p < length (dfa_states d1) /\ snd p < length (dfa_states d2)).
  { intros [p q] Hin. apply (dp_reach _ _ _ _ _ P) in Hin as (w & P1 & P2).
    split; eapply dfa_path_range; eauto; apply dv_initial; auto. }
  assert (Hnd : NoDup (map (dfa_pair_name d1 d2) ks)).
  { pose proof (dp_nodup _ _ _ _ _ P) as Hk. clear - Hk Hr Hinj. induction Hk as [|x l Hx Hk IH]; simpl; constructor.
    - intros Hin. apply in_map_iff in Hin as (y & E & Hy). apply Hx. rewrite (Hinj x y); auto; apply Hr; simpl; auto.
    - apply IH. intros; apply Hr; simpl; auto. }
  assert (HN : forall e, dfa_is_product c d1 d2 e ks -> forall i p s, nth_error ks i = Some p -> nth_error (dfa_states e) i = Some s ->
            ds_name s = dfa_pair_name d1 d2 p).
  { intros e Pe. destruct (dp_names _ _ _ _ _ Pe) as [Hn|[Hn _]]; auto. tauto. }
  destruct d as [al st ini], d' as [al' st' ini']. simpl in *. f_equal; auto.
  apply nth_error_ext. intros i. destruct (nth_error st i) as [s|] eqn:E.
  - destruct (Forall2_nth _ _ _ HF _ _ E) as (s' & E' & F1 & F2 & F3). rewrite E'. f_equal.
    assert (Hl : i < length ks) by (rewrite <- (dp_length _ _ _ _ _ P); simpl; eapply nth_error_length; eauto).
    destruct (nth_error_lt _ _ Hl) as [p Hp]. pose proof (HN _ P _ _ _ Hp E) as N1. pose proof (HN _ P' _ _ _ Hp E') as N2.
    destruct s, s'. simpl in *. congruence.
  - symmetry. apply nth_error_None. apply nth_error_None in E. rewrite <- (Forall2_len _ _ _ HF). auto.
Qed.

Lemma nfa_product_order h h' n1 n2 c : nfa_valid n1 -> nfa_valid n2 ->
  (forall p q, nfa_pair_name n1 n2 p = nfa_pair_name n1 n2 q ->
     orange n1 (fst p) -> orange n2 (snd p) -> orange n1 (fst q) -> orange n2 (snd q) -> p = q) ->
  nfa_product_construction h n1 n2 c = nfa_product_construction h' n1 n2 c.
Proof.
  intros V1 V2 Hinj. destruct (alphabet_equal_spec _ _ (nv_alphabet _ V1) (nv_alphabet _ V2)) as [Hs|Hs].
  2:{ rewrite !nfa_product_none by auto. reflexivity. }
  destruct (nfa_product_construction_uniform n1 n2 c V1 V2 Hs) as (ks & H).
  destruct (H h) as (d & Hd & V & P). destruct (H h') as (d' & Hd' & V' & P'). rewrite Hd, Hd'. f_equal. f_equal.
  destruct (nfa_product_but_names _ _ _ _ _ _ _ Hd Hd') as (Ha & Hi & HF).
  assert (Hr : forall p, In p ks -> orange n1 (fst p) /\ orange n2 (snd p)).
  { intros p Hin. apply (np_reach _ _ _ _ _ P) in Hin as (w & Hw). exact (ppath_orange _ _ _ _ V1 V2 Hw). }
  assert (Hnd : NoDup (map (nfa_pair_name n1 n2) ks)).
  { pose proof (np_nodup _ _ _ _ _ P) as Hk. clear - Hk Hr Hinj. induction Hk as [|x l Hx Hk IH]; simpl; constructor.
    - intros Hin. apply in_map_iff in Hin as (y & E & Hy). apply Hx. rewrite (Hinj x y); auto; apply Hr; simpl; auto.
    - apply IH. intros; apply Hr; simpl; auto. }
  assert (HN : forall e, nfa_is_product c n1 n2 e ks -> forall i p s, nth_error ks i = Some p -> nth_error (nfa_states e) i = Some s ->
            ns_name s = nfa_pair_name n1 n2 p).
  { intros e Pe. destruct (np_names _ _ _ _ _ Pe) as [Hn|[Hn _]]; auto. tauto. }
  destruct d as [al st ini], d' as [al' st' ini']. simpl in *. f_equal; auto.
  apply nth_error_ext. intros i. destruct (nth_error st i) as [s|] eqn:E.
  - destruct (Forall2_nth _ _ _ HF _ _ E) as (s' & E' & F1 & F2 & F3 & F4). rewrite E'. f_equal.
    assert (Hl : i < length ks) by (rewrite <- (np_length _ _ _ _ _ P); simpl; eapply nth_error_length; eauto).
    destruct (nth_error_lt _ _ Hl) as [p Hp]. pose proof (HN _ P _ _ _ Hp E) as N1. pose proof (HN _ P' _ _ _ Hp E') as N2.
    destruct s, s'. simpl in *. congruence.
  - symmetry. apply nth_error_None. apply nth_error_None in E. rewrite <- (Forall2_len _ _ _ HF). auto.
Qed.

(** ** Epsilon removal: only the order inside the target sets depends on the hash order *)

Lemma same_but_order_intro n n' : nfa_valid n -> nfa_valid n' -> eps_free n -> eps_free n' ->
  nfa_alphabet n = nfa_alphabet n' -> nfa_initial n = nfa_initial n' ->
  map ns_name (nfa_states n) = map ns_name (nfa_states n') ->
  (forall i, i < length (nfa_states n) -> (nfa_accepting n i <-> nfa_accepting n' i)) ->
  (forall i a j, i < length (nfa_states n) -> (nfa_edge n i a j <-> nfa_edge n' i a j)) ->
  nfa_same_but_order n n'.
Proof.
  intros V V' F F' Ha Hi Hn Hacc He. split; auto. split; auto.
  assert (Hl : length (nfa_states n) = length (nfa_states n')) by (rewrite <- (map_length ns_name), Hn, map_length; auto).
  apply Forall2_of_nth; auto. intros i s s' Hs Hs'.
  assert (Hlt : i < length (nfa_states n)) by (eapply nth_error_length; eauto).
  split.
  { assert (E : nth_error (map ns_name (nfa_states n)) i = nth_error (map ns_name (nfa_states n')) i) by congruence.
    rewrite !nth_error_map, Hs, Hs' in E. injection E as E. auto. }
  split.
  { apply Bool.eq_iff_eq_true. rewrite (nv_flag _ V _ _ Hs), (nv_flag _ V' _ _ Hs'), Hi. tauto. }
  split.
  { apply Bool.eq_iff_eq_true. specialize (Hacc i Hlt). unfold nfa_accepting in Hacc. split; intros E.
    - destruct (proj1 Hacc) as (x & Hx & Ex); [eauto|]. congruence.
    - destruct (proj2 Hacc) as (x & Hx & Ex); [eauto|]. congruence. }
  split; [rewrite (F _ _ Hs), (F' _ _ Hs'); auto|].
  apply Forall2_of_nth; [rewrite (nv_width _ V _ _ Hs), (nv_width _ V' _ _ Hs'), Ha; auto|].
  intros c ts ts' Hc Hc' t.
  assert (Hcl : c < length (nfa_alphabet n)) by (rewrite <- (nv_width _ V _ _ Hs); eapply nth_error_length; eauto).
  destruct (nth_error_lt _ _ Hcl) as [a Hca].
  assert (G : forall m x xs y, nfa_valid m -> nth_error (nfa_states m) i = Some x -> nth_error (nfa_alphabet m) c = Some a ->
              nth_error (ns_transitions x) c = Some xs -> (In y xs <-> nfa_edge m i a y)).
  { intros m x xs y Vm Hx Hxa Hxs. split.
    - intros Hin. exists c, x, xs. auto.
    - intros (c' & x' & xs' & H1 & H2 & H3 & H4). rewrite Hx in H2. injection H2 as <-.
      assert (c' = c) by exact (NoDup_nth_error_inj _ _ _ _ (nv_alphabet _ Vm) H1 Hxa). subst. rewrite Hxs in H3. injection H3 as <-. auto. }
  rewrite (G n s ts t V Hs Hca Hc), (He i a t Hlt), <- (G n' s' ts' t V' Hs'); [tauto|congruence|auto].
Qed.

Lemma chosen_name_fun names wanted x y : chosen_name names wanted x -> chosen_name names wanted y -> x = y.
Proof.
  intros [H1 [->|(H2 & i & -> & Hi)]] [H3 [->|(H4 & j & -> & Hj)]]; auto; try tauto.
  f_equal. destruct (Nat.lt_trichotomy i j) as [H|[H|H]]; auto; exfalso; [apply H1, Hj|apply H3, Hi]; auto.
Qed.

Lemma eps_removed_fun n n1 n2 k1 k2 : nfa_valid n -> eps_removed n n1 k1 -> eps_removed n n2 k2 -> nfa_same_but_order n1 n2.
Proof.
  intros V E1 E2.
  assert (K : (~ another_live n \/ another_live n) /\ k1 = k2 /\ nfa_initial n1 = nfa_initial n2 /\
              map ns_name (nfa_states n1) = map ns_name (nfa_states n2) /\
              (length (nfa_states n1) = length k1 \/ (another_live n /\ length (nfa_states n1) = S (length k1)))).
  { pose proof (er_sorted _ _ _ E1) as S1. pose proof (er_sorted _ _ _ E2) as S2.
    destruct (er_cases _ _ _ E1) as [(L1 & K1 & _ & N1 & I1)|(L1 & K1 & D1 & I1 & m1 & N1 & A1 & B1)],
             (er_cases _ _ _ E2) as [(L2 & K2 & _ & N2 & I2)|(L2 & K2 & D2 & I2 & m2 & N2 & A2 & B2)]; try tauto.
    - assert (k1 = k2) by (apply lt_sorted_eq; auto; intros x; rewrite K1, K2; tauto). subst k2.
      split; auto. split; auto. split; [exact (NoDup_nth_error_inj _ _ _ _ (lt_sorted_NoDup _ S1) I1 I2)|]. split; [congruence|].
      left. rewrite <- (map_length ns_name), N1, map_length. auto.
    - assert (k1 = k2) by (apply lt_sorted_eq; auto; intros x; rewrite K1, K2; tauto). subst k2.
      split; auto. split; auto. split; [congruence|]. split.
      + rewrite N1, N2. f_equal. f_equal. destruct (D1 (nfa_initial n) (nv_initial _ V)) as [Hd|Hd].
        * apply K1 in Hd as [_ Hd]. exact (chosen_name_fun _ _ _ _ (B1 Hd) (B2 Hd)).
        * rewrite A1, A2; auto.
      + right. split; auto. rewrite <- (map_length ns_name), N1, app_length, map_length. simpl. lia. }
  destruct K as (_ & <- & Hi & Hn & Hl).
  apply same_but_order_intro; try apply E1; try apply E2; auto.
  - rewrite (er_alphabet _ _ _ E1), (er_alphabet _ _ _ E2). auto.
  - intros i Hlt. destruct (Nat.lt_ge_cases i (length k1)) as [H|H].
    + destruct (nth_error_lt _ _ H) as [q Hq]. destruct (er_state _ _ _ E1 _ _ Hq) as (A1 & _). destruct (er_state _ _ _ E2 _ _ Hq) as (A2 & _).
      rewrite A1, A2. tauto.
    + destruct Hl as [Hl|[Hal Hl]]; [lia|]. assert (i = length k1) by lia. subst i.
      destruct (er_new _ _ _ E1 Hal) as [A1 _]. destruct (er_new _ _ _ E2 Hal) as [A2 _]. rewrite A1, A2. tauto.
  - intros i a j Hlt. destruct (Nat.lt_ge_cases i (length k1)) as [H|H].
    + destruct (nth_error_lt _ _ H) as [q Hq]. rewrite (er_edges _ _ _ E1 _ _ a j Hq), (er_edges _ _ _ E2 _ _ a j Hq). tauto.
    + destruct Hl as [Hl|[Hal Hl]]; [lia|]. assert (i = length k1) by lia. subst i.
      destruct (er_new _ _ _ E1 Hal) as [_ A1]. destruct (er_new _ _ _ E2 Hal) as [_ A2]. rewrite A1, A2. tauto.
Qed.

Lemma remove_epsilon_order h h' dbg dbg' n : nfa_valid n ->
  exists n1 n2, nfa_remove_epsilon_moves h dbg n = Ret n1 /\ nfa_remove_epsilon_moves h' dbg' n = Ret n2 /\ nfa_same_but_order n1 n2.
Proof.
  intros V. destruct (nfa_has_epsilon_moves n) eqn:E.
  - destruct (nfa_remove_epsilon_moves_correct h dbg n V E) as (n1 & k1 & H1 & E1).
    destruct (nfa_remove_epsilon_moves_correct h' dbg' n V E) as (n2 & k2 & H2 & E2).
    exists n1, n2. split; auto. split; auto. exact (eps_removed_fun _ _ _ _ _ V E1 E2).
  - exists n, n. unfold nfa_remove_epsilon_moves. rewrite E. split; auto. split; auto. split; auto. split; auto.
    apply Forall2_of_nth; auto. intros i s s' Hs Hs'. rewrite Hs in Hs'. injection Hs' as <-. repeat split; auto.
    apply Forall2_of_nth; auto. intros j t t' Ht Ht'. rewrite Ht in Ht'. injection Ht' as <-. intros x. tauto.
Qed.

(** ** Pair names without ambiguous commas *)
Lemma comma_split (a a' b b' : str) : ~ In 44%N a -> ~ In 44%N a' -> a ++ 44%N :: b = a' ++ 44%N :: b' -> a = a' /\ b = b'.
Proof.
  revert a'. induction a as [|x a IH]; intros [|x' a'] Ha Ha' E; simpl in E.
  - injection E as E. auto.
  - injection E as E1 _. exfalso. apply Ha'. left; auto.
  - injection E as E1 _. exfalso. apply Ha. left; auto.
  - injection E as -> E. destruct (IH a') as [-> ->]; auto; intros H; [apply Ha|apply Ha']; right; auto.
Qed.

Lemma comma_split_r (a a' b b' : str) : ~ In 44%N b -> ~ In 44%N b' -> a ++ 44%N :: b = a' ++ 44%N :: b' -> a = a' /\ b = b'.
Proof.
  intros Hb Hb' E. apply (f_equal (@rev N)) in E. rewrite !rev_app_distr in E. simpl in E. rewrite <- !app_assoc in E. simpl in E.
  apply comma_split in E as [E1 E2]; [|rewrite <- in_rev; auto|rewrite <- in_rev; auto].
  apply (f_equal (@rev N)) in E1, E2. rewrite !rev_involutive in E1, E2. auto.
Qed.

Lemma pair_name_inj a a' b b' :
  (~ In 44%N a /\ ~ In 44%N a') \/ (~ In 44%N b /\ ~ In 44%N b') -> pair_name a b = pair_name a' b' -> a = a' /\ b = b'.
Proof.
  intros H E. unfold pair_name in E. simpl in E. injection E as E. destruct H as [[H H']|[H H']].
  - apply comma_split in E as [-> E]; auto. apply app_inj_tail in E as [-> _]. auto.
  - apply comma_split_r in E as [-> E]; [apply app_inj_tail in E as [-> _]; auto| |];
      rewrite in_app_iff; simpl; intros [X|[X|[]]]; auto; discriminate.
Qed.

Lemma dfa_product_order_comma h h' d1 d2 c : dfa_valid d1 -> dfa_valid d2 ->
  no_comma (map ds_name (dfa_states d1)) \/ no_comma (map ds_name (dfa_states d2)) ->
  dfa_product_construction h d1 d2 c = dfa_product_construction h' d1 d2 c.
Proof.
  intros V1 V2 Hc. apply dfa_product_order; auto. intros [p1 p2] [q1 q2] E Hp1 Hp2 Hq1 Hq2. simpl in *. unfold dfa_pair_name in E. simpl in E.
  destruct (nth_error_lt _ _ Hp1) as [s1 Hs1]. destruct (nth_error_lt _ _ Hp2) as [s2 Hs2].
  destruct (nth_error_lt _ _ Hq1) as [s3 Hs3]. destruct (nth_error_lt _ _ Hq2) as [s4 Hs4]. rewrite Hs1, Hs2, Hs3, Hs4 in E.
  assert (I : forall d q s, nth_error (dfa_states d) q = Some s -> In (ds_name s) (map ds_name (dfa_states d))).
  { intros d q s H. apply in_map. eapply nth_error_In; eauto. }
  apply pair_name_inj in E as [E1 E2].
  - assert (U : forall d q q' s s', dfa_valid d -> nth_error (dfa_states d) q = Some s -> nth_error (dfa_states d) q' = Some s' ->
                ds_name s = ds_name s' -> q = q').
    { intros d q q' s s' V H H' En. apply (NoDup_nth_error_inj _ _ _ (ds_name s) (dv_names _ V)); rewrite nth_error_map, ?H, ?H'; simpl; congruence. }
    f_equal; eauto.
  - destruct Hc as [Hc|Hc]; [left|right]; split; apply Hc; eauto.
Qed.

Lemma nfa_product_order_comma h h' n1 n2 c : nfa_valid n1 -> nfa_valid n2 ->
  no_comma (map ns_name (nfa_states n1)) \/ no_comma (map ns_name (nfa_states n2)) ->
  not_none (map ns_name (nfa_states n1)) -> not_none (map ns_name (nfa_states n2)) ->
  nfa_product_construction h n1 n2 c = nfa_product_construction h' n1 n2 c.
Proof.
  intros V1 V2 Hc N1 N2. apply nfa_product_order; auto. intros [p1 p2] [q1 q2] E Hp1 Hp2 Hq1 Hq2. simpl in *. unfold nfa_pair_name in E. simpl in E.
  assert (O : forall n o, orange n o -> onm n o = none_name \/ In (onm n o) (map ns_name (nfa_states n))).
  { intros n [q|] Ho; [|left; auto]. right. destruct (nth_error_lt _ _ (Ho q eq_refl)) as [s Hs]. unfold onm, nfa_at. simpl. rewrite Hs.
    apply in_map. eapply nth_error_In; eauto. }
  assert (C : forall n o, orange n o -> no_comma (map ns_name (nfa_states n)) -> ~ In 44%N (onm n o)).
  { intros n o Ho Hn. destruct (O n o Ho) as [->|H]; [|exact (Hn _ H)]. intros X. repeat (destruct X as [X|X]; [discriminate|]). destruct X. }
  assert (U : forall n o o', nfa_valid n -> not_none (map ns_name (nfa_states n)) -> orange n o -> orange n o' -> onm n o = onm n o' -> o = o').
  { intros n o o' V Hn Ho Ho' En. destruct o as [q|], o' as [q'|]; auto.
    - destruct (nth_error_lt _ _ (Ho q eq_refl)) as [s Hs]. destruct (nth_error_lt _ _ (Ho' q' eq_refl)) as [s' Hs'].
      unfold onm, nfa_at in En. simpl in En. rewrite Hs, Hs' in En. f_equal.
      apply (NoDup_nth_error_inj _ _ _ (ns_name s) (nv_names _ V)); rewrite nth_error_map, ?Hs, ?Hs'; simpl; congruence.
    - exfalso. apply Hn. change (onm n None) with none_name in En. destruct (nth_error_lt _ _ (Ho q eq_refl)) as [s Hs].
      change (In none_name (map ns_name (nfa_states n))). rewrite <- En. unfold onm, nfa_at. simpl. rewrite Hs. apply in_map. eapply nth_error_In; eauto.
    - exfalso. apply Hn. change (onm n None) with none_name in En. destruct (nth_error_lt _ _ (Ho' q' eq_refl)) as [s Hs].
      change (In none_name (map ns_name (nfa_states n))). rewrite En. unfold onm, nfa_at. simpl. rewrite Hs. apply in_map. eapply nth_error_In; eauto. }
  apply pair_name_inj in E as [E1 E2].
  - f_equal; eauto.
  - destruct Hc as [Hc|Hc]; [left|right]; split; apply C; auto.
Qed.
