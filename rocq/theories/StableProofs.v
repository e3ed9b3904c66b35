(** * StableProofs: operations that have nothing left to do return their argument *)
From Coq Require Import List NArith Arith Bool Lia Sorted.
From Verif Require Import Base BaseLemmas Spec Search DfaModel NfaModel Examples DfaBasics NfaBasics DfaReach NfaReach DfaEquiv DfaMinimize NfaToDfa ReproProofs.
Import ListNotations.

Lemma seq_sorted n i : StronglySorted lt (seq i n).
Proof.
  revert i. induction n as [|n IH]; intros i; simpl; constructor; auto. apply Forall_forall. intros x Hx. apply in_seq in Hx. lia.
Qed.
Lemma seq_nth_error n i : i < n -> nth_error (seq 0 n) i = Some i.
Proof. intros H. rewrite nth_error_nth' with (d := 0) by (rewrite seq_length; auto). rewrite seq_nth by auto. auto. Qed.
Lemma all_below_seq k n : StronglySorted lt k -> (forall q, In q k <-> q < n) -> k = seq 0 n.
Proof. intros S H. apply lt_sorted_eq; auto; [apply seq_sorted|]. intros x. rewrite H, in_seq. lia. Qed.

Lemma forall2_seq {A} (P : nat -> A -> Prop) l : (forall i x, nth_error l i = Some x -> P i x) -> Forall2 P (seq 0 (length l)) l.
Proof.
  assert (K : forall i, (forall j x, nth_error l j = Some x -> P (i + j) x) -> Forall2 P (seq i (length l)) l).
  { induction l as [|a l IH]; intros i H; simpl; constructor.
    - specialize (H 0 a eq_refl). rewrite Nat.add_0_r in H. auto.
    - apply IH. intros j x Hj. specialize (H (S j) x Hj). rewrite <- plus_n_Sm in H. auto. }
  intros H. apply K. auto.
Qed.
Lemma forall2_same {A} (P : A -> A -> Prop) l : (forall x, In x l -> P x x) -> Forall2 P l l.
Proof. induction l; intros H; constructor; auto with datatypes. Qed.

Lemma dfa_restriction_id d : dfa_valid d -> dfa_restriction (seq 0 (length (dfa_states d))) d d.
Proof.
  intros V. split; [reflexivity|]. split; [apply seq_nth_error, V|]. apply forall2_seq. intros q s Hs. exists s. repeat (split; auto).
  apply forall2_same. intros t Ht. apply seq_nth_error. eapply (dv_range _ V); eauto.
Qed.
Lemma nfa_restriction_id n : nfa_valid n -> nfa_restriction (seq 0 (length (nfa_states n))) n n.
Proof.
  intros V. split; [reflexivity|]. split; [apply seq_nth_error, V|]. apply forall2_seq. intros q s Hs. exists s. repeat (split; auto).
  - apply forall2_same. intros t Ht. apply seq_nth_error. eapply (nv_eps_range _ V); eauto.
  - apply forall2_same. intros ts Hts. apply forall2_same. intros t Ht. apply seq_nth_error.
    eapply (nv_range _ V); eauto.
Qed.

Lemma dfa_remove_unreachable_id h dbg d : dfa_valid d -> (forall q, q < length (dfa_states d) -> dfa_reachable d q) ->
  dfa_remove_unreachable_states h dbg d = Ret d.
Proof.
  intros V H. destruct (dfa_remove_unreachable_states_correct h dbg d V) as (d' & -> & _ & k & S & I & R).
  assert (k = seq 0 (length (dfa_states d))).
  { apply all_below_seq; auto. intros q. rewrite I. split; auto. apply dfa_reachable_range; auto. }
  subst k. f_equal. exact (dfa_restriction_fun _ d d' d (seq_NoDup _ _) R (dfa_restriction_id d V)).
Qed.
Lemma nfa_remove_unreachable_id h dbg n : nfa_valid n -> (forall q, q < length (nfa_states n) -> nfa_reachable n q) ->
  nfa_remove_unreachable_states h dbg n = Ret n.
Proof.
  intros V H. destruct (nfa_remove_unreachable_states_correct h dbg n V) as (n' & -> & _ & k & S & I & R).
  assert (k = seq 0 (length (nfa_states n))).
  { apply all_below_seq; auto. intros q. rewrite I. split; auto. apply nfa_reachable_range; auto. }
  subst k. f_equal. exact (nfa_restriction_fun _ n n' n (seq_NoDup _ _) R (nfa_restriction_id n V)).
Qed.

Lemma dfa_remove_unreachable_reach h dbg d d' : dfa_valid d -> dfa_remove_unreachable_states h dbg d = Ret d' ->
  forall q, q < length (dfa_states d') -> dfa_reachable d' q.
Proof.
  intros V E. destruct (dfa_remove_unreachable_states_correct h dbg d V) as (d2 & E2 & _ & k & S & I & R). rewrite E in E2. injection E2 as <-.
  apply (dfa_restriction_reach k d d' R (lt_sorted_NoDup _ S)). intros q. apply I.
Qed.
Lemma nfa_remove_unreachable_reach h dbg n n' : nfa_valid n -> nfa_remove_unreachable_states h dbg n = Ret n' ->
  forall q, q < length (nfa_states n') -> nfa_reachable n' q.
Proof.
  intros V E j Hj. destruct (nfa_remove_unreachable_states_correct h dbg n V) as (n2 & E2 & _ & k & S & I & R). rewrite E in E2. injection E2 as <-.
  rewrite (nfa_restriction_length _ _ _ R) in Hj. destruct (nth_error_lt _ _ Hj) as [q Hq].
  destruct (proj1 (I q)) as [w Hw]; [eapply nth_error_In; eauto|].
  destruct (nfa_restriction_path_l k n n' w (nfa_initial n') (nfa_initial n) q R) as (r' & Hp & Hr'); [apply R|auto|].
  exists w. rewrite (NoDup_nth_error_inj k j r' q (lt_sorted_NoDup _ S) Hq Hr'). auto.
Qed.

Lemma forall2_eq {A} (l l' : list A) : Forall2 eq l l' -> l = l'.
Proof. induction 1; congruence. Qed.
Lemma dfa_merge_id h dbg d : dfa_valid d ->
  (forall p q, p < length (dfa_states d) -> q < length (dfa_states d) -> dfa_indist d p q -> p = q) ->
  dfa_merge_nondistinguishable_states h dbg d = Ret d.
Proof.
  intros V H. destruct (dfa_merge_correct h dbg d V) as (d' & k & -> & V' & M). f_equal.
  assert (k = seq 0 (length (dfa_states d))).
  { apply all_below_seq; [apply M|]. intros q. split; [apply M|]. intros Hq. destruct (mg_rep _ _ _ M q Hq) as (r & Hr & Hi).
    rewrite (H q r); auto. apply (mg_range _ _ _ M). auto. }
  subst k. pose proof (mg_length _ _ _ M) as L. rewrite seq_length in L.
  assert (I : dfa_initial d' = dfa_initial d).
  { destruct (mg_initial _ _ _ M) as (q & Hq & Hi). rewrite seq_nth_error in Hq by (rewrite <- L; apply V'). injection Hq as <-.
    apply H; auto; [rewrite <- L; apply V'|apply V]. }
  assert (S : dfa_states d' = dfa_states d).
  { apply nth_error_ext. intros i. destruct (nth_error (dfa_states d') i) as [s'|] eqn:E'.
    2:{ symmetry. apply nth_error_None. apply nth_error_None in E'. lia. }
    assert (Hi : i < length (dfa_states d)) by (rewrite <- L; eapply nth_error_length; eauto).
    destruct (mg_state _ _ _ M i i s' (seq_nth_error _ _ Hi) E') as (s & Es & En & Ea & Et). rewrite Es. f_equal.
    destruct s as [nm ini acc tr], s' as [nm' ini' acc' tr']. simpl in *. f_equal; auto.
    - pose proof (dv_flag _ V i _ Es) as F. pose proof (dv_flag _ V' i _ E') as F'. simpl in F, F'. rewrite I in F'.
      destruct ini, ini'; auto; [assert (false = true); [apply F'; apply F; auto|discriminate]|assert (false = true); [apply F; apply F'; auto|discriminate]].
    - assert (Rg : forall t, In t tr -> t < length (dfa_states d)) by (intros t Ht; exact (dv_range _ V i _ t Es Ht)).
      assert (Rg' : forall t, In t tr' -> t < length (dfa_states d)) by (intros t Ht; rewrite <- L; exact (dv_range _ V' i _ t E' Ht)).
      clear - Et Rg Rg' H. induction Et as [|t t' l l' (r & Hr & Hi) Et IH]; auto. f_equal.
      + rewrite seq_nth_error in Hr by (apply Rg'; left; auto). injection Hr as <-. symmetry. apply H; auto with datatypes.
      + apply IH; auto with datatypes. }
  destruct d, d'. simpl in *. pose proof (mg_alphabet _ _ _ M). simpl in *. congruence.
Qed.

Lemma dfa_minimize_id h dbg d : dfa_valid d -> dfa_trim d -> dfa_minimize h dbg d = Ret d.
Proof.
  intros V T. unfold dfa_minimize. rewrite dfa_remove_unreachable_id by (auto; apply T). cbn [bind]. apply dfa_merge_id; auto. apply T.
Qed.

(** ** The subset construction identifies exactly the words that reach the same states *)
Lemma nfa_to_dfa_words h n d : nfa_valid n -> nfa_to_dfa h n = Ret d ->
  forall u v i j, dfa_path d (dfa_initial d) u i -> dfa_path d (dfa_initial d) v j ->
    (i = j <-> forall q, nfa_path n (nfa_initial n) u q <-> nfa_path n (nfa_initial n) v q).
Proof.
  intros V E. destruct (nfa_to_dfa_subset h n V) as (d' & ks & E' & S). rewrite E in E'. injection E' as <-.
  assert (K : forall u i, dfa_path d (dfa_initial d) u i -> exists k, nth_error ks i = Some k /\ key_at n u k).
  { intros u. induction u as [|a u IH] using rev_ind; intros i Hp.
    - inversion Hp; subst. rewrite (sb_initial _ _ _ S). apply (sb_key0 _ _ _ S).
    - apply dfa_path_app_inv in Hp as (p & Hp & He). destruct (IH p Hp) as (k & Hk & Ku). inversion He as [|? ? p' ? ? He' Hn]; subst.
      inversion Hn; subst. destruct He' as (c & s & Hc & Hs & Ht). rewrite (sb_alphabet _ _ _ S) in Hc.
      destruct (Forall2_nth _ _ _ (sb_trans _ _ _ S p k s Hk Hs) _ _ Hc) as (x & Hx & k' & Hk' & KK).
      rewrite Ht in Hx. injection Hx as <-. exists k'. split; auto. }
  intros u v i j Hu Hv. destruct (K u i Hu) as (k & Hk & S1 & I1), (K v j Hv) as (k' & Hk' & S2 & I2). split.
  - intros <-. rewrite Hk in Hk'. injection Hk' as <-. intros q. rewrite <- I1, <- I2. tauto.
  - intros H. assert (k = k') by (apply lt_sorted_eq; auto; intros x; rewrite I1, I2; auto). subst k'.
    exact (NoDup_nth_error_inj ks i j k (sb_nodup _ _ _ S) Hk Hk').
Qed.

(** ** Automata whose words lead to the same states are isomorphic *)
Lemma corresponds_iso d1 d2 : dfa_valid d1 -> dfa_valid d2 -> same_set (dfa_alphabet d1) (dfa_alphabet d2) ->
  (forall w, dfa_lang d1 w <-> dfa_lang d2 w) ->
  (forall q, q < length (dfa_states d1) -> dfa_reachable d1 q) -> (forall q, q < length (dfa_states d2) -> dfa_reachable d2 q) ->
  (forall p q r, corresponds d1 d2 p r -> corresponds d1 d2 q r -> p = q) ->
  (forall p r r', corresponds d1 d2 p r -> corresponds d1 d2 p r' -> r = r') -> exists f, dfa_iso d1 d2 f.
Proof.
  intros V1 V2 Hs Hl T1 T2 CI CF.
  assert (Hc : forall qs, (forall q, In q qs -> q < length (dfa_states d1)) -> exists l, Forall2 (corresponds d1 d2) qs l).
  { induction qs as [|q qs IH]; intros Hq.
    - exists []; constructor.
    - destruct IH as [l Hl']; [intros; apply Hq; right; auto|]. destruct (T1 q) as [w Hw]; [apply Hq; left; auto|].
      destruct (dfa_path_total d2 (dfa_initial d2) w V2 (dv_initial _ V2)) as (r & Hr & _).
      { eapply over_ext; [exact Hs|]. eapply dfa_path_over; eauto. }
      exists (r :: l). constructor; auto. exists w; auto. }
  destruct (Hc (seq 0 (length (dfa_states d1)))) as [l HF]; [intros q Hq; apply in_seq in Hq; lia|].
  exists (fun q => nth q l 0).
  assert (Hf : forall q, q < length (dfa_states d1) -> corresponds d1 d2 q (nth q l 0)).
  { intros q Hq. destruct (Forall2_nth _ _ _ HF _ _ (seq_nth_error _ _ Hq)) as (r & Hr & Hcr). rewrite (nth_error_nth _ _ _ Hr). auto. }
  assert (Hrange : forall q, q < length (dfa_states d1) -> nth q l 0 < length (dfa_states d2)).
  { intros q Hq. destruct (Hf q Hq) as (w & _ & P2). eapply dfa_path_range; eauto. apply dv_initial; auto. }
  constructor.
  - auto.
  - intros p q Hp Hq Heq. assert (C1 := Hf p Hp). assert (C2 := Hf q Hq). rewrite Heq in C1. exact (CI _ _ _ C1 C2).
  - intros r Hr. destruct (T2 r Hr) as [w Hw].
    destruct (dfa_path_total d1 (dfa_initial d1) w V1 (dv_initial _ V1)) as (p & Hp & Hpr).
    { eapply over_ext; [apply same_set_sym; exact Hs|]. eapply dfa_path_over; eauto. }
    exists p. split; auto. apply (CF p); auto. exists w; auto.
  - apply (CF (dfa_initial d1)); auto; [apply Hf, dv_initial; auto|]. exists []. split; constructor.
  - intros q Hq. rewrite <- !dfa_state_lang_nil. apply corresponds_lang; auto.
  - intros p a q Hp Hq. destruct (Hf p Hp) as (w & P1 & P2). split.
    + intros He. destruct (dfa_edge_total d2 (nth p l 0) a V2) as (t & Ht & _); [auto| |].
      { apply Hs. eapply dfa_edge_elem; eauto. }
      replace (nth q l 0) with t; auto. apply (CF q); auto. exists (w ++ [a]). split; eapply dfa_path_snoc; eauto.
    + intros He. destruct (dfa_edge_total d1 p a V1 Hp) as (t & Ht & _).
      { apply Hs. eapply dfa_edge_elem; eauto. }
      replace q with t; auto. apply (CI t q (nth q l 0)); auto. exists (w ++ [a]). split; eapply dfa_path_snoc; eauto.
Qed.

Lemma dfa_restriction_corresponds k d d' : NoDup k -> dfa_restriction k d d' ->
  forall w, (forall q, dfa_path d (dfa_initial d) w q -> exists j, dfa_path d' (dfa_initial d') w j /\ nth_error k j = Some q) /\
            (forall j, dfa_path d' (dfa_initial d') w j -> exists q, dfa_path d (dfa_initial d) w q /\ nth_error k j = Some q).
Proof. intros Hk R w. apply (dfa_restriction_path k d d' w (dfa_initial d') (dfa_initial d) R Hk (proj1 (proj2 R))). Qed.

Lemma round_trip_iso h1 h2 dbg d d1 d2 : dfa_valid d -> dfa_remove_unreachable_states h1 dbg d = Ret d1 ->
  nfa_to_dfa h2 (dfa_to_nfa d) = Ret d2 -> exists f, dfa_iso d1 d2 f.
Proof.
  intros V E1 E2. pose proof (dfa_to_nfa_valid d V) as VN.
  destruct (dfa_remove_unreachable_states_correct h1 dbg d V) as (x & Ex & V1 & k & S & I & R). rewrite E1 in Ex. injection Ex as <-.
  destruct (nfa_to_dfa_correct h2 _ VN) as (y & Ey & V2 & A2 & _ & _ & R2 & L2). rewrite E2 in Ey. injection Ey as <-.
  pose proof (lt_sorted_NoDup _ S) as Hk. pose proof (dfa_restriction_corresponds k d d1 Hk R) as C.
  assert (W : forall u v i j i' j', dfa_path d1 (dfa_initial d1) u i -> dfa_path d1 (dfa_initial d1) v j ->
              dfa_path d2 (dfa_initial d2) u i' -> dfa_path d2 (dfa_initial d2) v j' -> (i = j <-> i' = j')).
  { intros u v i j i' j' Pi Pj Qi Qj. rewrite (nfa_to_dfa_words h2 _ d2 VN E2 u v i' j' Qi Qj). change (nfa_initial (dfa_to_nfa d)) with (dfa_initial d).
    destruct (proj2 (C u) i Pi) as (p & Pp & Kp), (proj2 (C v) j Pj) as (q & Pq & Kq).
    assert (F : forall w p q, dfa_path d (dfa_initial d) w p -> dfa_path d (dfa_initial d) w q -> p = q)
      by (intros w a b; apply dfa_path_fun, V).
    split.
    - intros <-. assert (p = q) by congruence. subst q. intros x. rewrite !dfa_to_nfa_path.
      split; intros Hx; [rewrite <- (F _ _ _ Pp Hx)|rewrite <- (F _ _ _ Pq Hx)]; auto.
    - intros H. assert (p = q) by (apply (F v); auto; apply dfa_to_nfa_path, H, dfa_to_nfa_path; auto). subst q.
      exact (NoDup_nth_error_inj k i j p Hk Kp Kq). }
  apply corresponds_iso; auto.
  - rewrite A2. destruct R as (-> & _). intros x. reflexivity.
  - intros w. rewrite L2, dfa_to_nfa_lang. symmetry. apply (dfa_restriction_lang k d d1 w R Hk).
  - exact (dfa_remove_unreachable_reach h1 dbg d d1 V E1).
  - intros p q r (u & P1 & P2) (v & Q1 & Q2). apply (W u v p q r r); auto.
  - intros p r r' (u & P1 & P2) (v & Q1 & Q2). apply (W u v p p r r'); auto.
Qed.

Lemma iso_length d1 d2 f : dfa_iso d1 d2 f -> length (dfa_states d1) = length (dfa_states d2).
Proof.
  intros I. apply Nat.le_antisymm.
  - rewrite <- (seq_length (length (dfa_states d1)) 0), <- (map_length f), <- (seq_length (length (dfa_states d2)) 0).
    apply NoDup_incl_length.
    + assert (K : forall l, NoDup l -> (forall q, In q l -> q < length (dfa_states d1)) -> NoDup (map f l)).
      { induction 1 as [|x l Hx Hl IH]; intros R; simpl; constructor.
        - intros Hi. apply in_map_iff in Hi as (y & Hy & Hyl). apply Hx. replace x with y; auto. apply (iso_inj _ _ _ I); auto with datatypes.
        - apply IH. auto with datatypes. }
      apply K; [apply seq_NoDup|]. intros q Hq. apply in_seq in Hq. lia.
    + intros x Hx. apply in_map_iff in Hx as (q & <- & Hq). apply in_seq in Hq. apply in_seq. pose proof (iso_range _ _ _ I q). lia.
  - rewrite <- (seq_length (length (dfa_states d2)) 0), <- (seq_length (length (dfa_states d1)) 0), <- (map_length f (seq 0 (length (dfa_states d1)))).
    apply NoDup_incl_length; [apply seq_NoDup|]. intros q Hq. apply in_seq in Hq. destruct (iso_surj _ _ _ I q) as (p & Hp & <-); [lia|].
    apply in_map. apply in_seq. lia.
Qed.

(** a smallest automaton for its language has reachable and distinguishable states only *)
Lemma minimal_trim d : dfa_valid d ->
  (forall d', dfa_valid d' -> same_set (dfa_alphabet d') (dfa_alphabet d) -> (forall w, dfa_lang d' w <-> dfa_lang d w) ->
              length (dfa_states d) <= length (dfa_states d')) -> dfa_trim d.
Proof.
  intros V M. assert (R : forall q, q < length (dfa_states d) -> dfa_reachable d q).
  { destruct (dfa_remove_unreachable_states_correct id_order false d V) as (d1 & E1 & V1 & k & S & I & R).
    assert (L : length (dfa_states d) <= length (dfa_states d1)).
    { apply M; auto; [destruct R as (-> & _); intros x; tauto|]. intros w. symmetry. apply (dfa_restriction_lang k d d1 w R (lt_sorted_NoDup _ S)). }
    rewrite (dfa_restriction_length _ _ _ R) in L. intros q Hq. apply I.
    assert (P : incl (seq 0 (length (dfa_states d))) k).
    { apply NoDup_length_incl; [apply lt_sorted_NoDup; auto|rewrite seq_length; auto|]. intros x Hx. apply I in Hx.
      apply in_seq. pose proof (dfa_reachable_range d x V Hx). lia. }
    apply P. apply in_seq. lia. }
  constructor; auto. destruct (dfa_merge_correct id_order false d V) as (d1 & k & E1 & V1 & Mg).
  assert (L : length (dfa_states d) <= length (dfa_states d1)).
  { apply M; auto; [rewrite (mg_alphabet _ _ _ Mg); intros x; tauto|]. intros w. apply (dfa_merged_lang d d1 k w Mg). }
  rewrite (mg_length _ _ _ Mg) in L. intros p q Hp Hq Hi.
  assert (P : incl (seq 0 (length (dfa_states d))) k).
  { apply NoDup_length_incl; [apply Mg|rewrite seq_length; auto|]. intros x Hx. apply (mg_range _ _ _ Mg) in Hx. apply in_seq. lia. }
  apply (mg_distinct _ _ _ Mg); auto; apply P, in_seq; lia.
Qed.

Lemma restriction_eps_free k n n' : eps_free n -> nfa_restriction k n n' -> eps_free n'.
Proof.
  intros F (_ & _ & S) i s' Hs'. destruct (Forall2_nth_r _ _ _ S _ _ Hs') as (q & Hq & s & Hs & _ & _ & _ & He & _).
  rewrite (F _ _ Hs) in He. inversion He. auto.
Qed.
