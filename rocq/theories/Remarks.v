(** * Remarks: proofs for the remarks of the documentation about growth, order and minimality *)
From Coq Require Import List NArith Arith Bool Lia Sorted.
From Verif Require Import Base BaseLemmas Spec DfaModel NfaModel WordsModel Examples DfaBasics NfaBasics DfaReach WordsProofs SizeProofs NfaBoolean.
Import ListNotations.

(** ** Growth: the words over a and b whose [m]-th element from the end is an a *)
Definition nth_last_state (m i : nat) : nfa_state :=
  mk_nfa_state (dec i) (i =? 0) (i =? m) []
    (if i =? 0 then [[0; 1]; [0]] else if i <? m then [[S i]; [S i]] else [[]; []]).
Definition nth_last (m : nat) : nfa :=
  {| nfa_alphabet := [el_a; el_b]; nfa_states := map (nth_last_state m) (seq 0 (S m)); nfa_initial := 0 |}.

Lemma seq_at m q : q < m -> nth_error (seq 0 m) q = Some q.
Proof. intros L. rewrite (nth_error_nth' _ 0) by (rewrite seq_length; lia). rewrite seq_nth by lia. reflexivity. Qed.
Lemma nth_last_at m q s : nth_error (nfa_states (nth_last m)) q = Some s <-> q <= m /\ s = nth_last_state m q.
Proof.
  simpl nfa_states. change (nth_last_state m 0 :: map (nth_last_state m) (seq 1 m)) with (map (nth_last_state m) (seq 0 (S m))). rewrite nth_error_map. split.
  - destruct (nth_error (seq 0 (S m)) q) as [x|] eqn:E; [|discriminate]. intros [= <-]. pose proof (nth_error_length _ _ _ E) as L. rewrite seq_length in L.
    split; [lia|]. rewrite seq_at in E by lia. injection E as <-. reflexivity.
  - intros [L ->]. rewrite seq_at by lia. reflexivity.
Qed.
Lemma nth_last_valid m : 1 <= m -> nfa_valid (nth_last m).
Proof.
  intros Hm. constructor.
  - repeat constructor; simpl; intuition discriminate.
  - simpl nfa_states. change (nth_last_state m 0 :: map (nth_last_state m) (seq 1 m)) with (map (nth_last_state m) (seq 0 (S m))). rewrite map_map. simpl ns_name. apply FinFun.Injective_map_NoDup; [|apply seq_NoDup].
    intros x y. apply dec_inj.
  - simpl. lia.
  - intros q s H. apply nth_last_at in H as [_ ->]. simpl. apply Nat.eqb_eq.
  - intros q s H. apply nth_last_at in H as [_ ->]. simpl. destruct (q =? 0); [reflexivity|destruct (q <? m); reflexivity].
  - intros q s ts t H H1 H2. apply nth_last_at in H as [L ->]. simpl in H1. simpl nfa_states. simpl length. rewrite map_length, seq_length.
    destruct (q =? 0); [|destruct (q <? m) eqn:E; [apply Nat.ltb_lt in E|]]; simpl in H1; intuition (subst; simpl in H2; intuition lia).
  - intros q s t H H1. apply nth_last_at in H as [_ ->]. destruct H1.
Qed.
Lemma nth_last_eps m p q : ~ nfa_eps_edge (nth_last m) p q.
Proof. intros (s & H & H1). apply nth_last_at in H as [_ ->]. destruct H1. Qed.
Lemma nth_last_edge m p c q : nfa_edge (nth_last m) p c q <->
  (p = 0 /\ q = 0 /\ (c = el_a \/ c = el_b)) \/ (p = 0 /\ q = 1 /\ c = el_a) \/ (1 <= p < m /\ q = S p /\ (c = el_a \/ c = el_b)).
Proof.
  split.
  - intros (i & s & ts & Ha & H & Ht & Hi). apply nth_last_at in H as [L ->]. simpl in Ht.
    assert (Hc : i = 0 /\ c = el_a \/ i = 1 /\ c = el_b) by (destruct i as [|[|i]]; simpl in Ha; [left|right|destruct i; discriminate]; split; congruence).
    destruct p as [|p]; simpl in Ht.
    + destruct Hc as [[-> ->]|[-> ->]]; simpl in Ht; injection Ht as <-; simpl in Hi; intuition.
    + destruct (S p <? m) eqn:E; [apply Nat.ltb_lt in E|]; destruct Hc as [[-> ->]|[-> ->]]; simpl in Ht; injection Ht as <-; simpl in Hi; intuition.
  - assert (K : forall i s ts, nth_error [el_a; el_b] i = Some c -> p <= m -> s = nth_last_state m p -> nth_error (ns_transitions s) i = Some ts -> In q ts -> nfa_edge (nth_last m) p c q).
    { intros i s ts H1 H2 H3 H4 H5. exists i, s, ts. split; [exact H1|]. split; [apply nth_last_at; auto|]. auto. }
    intros [(-> & -> & [-> | ->])|[(-> & -> & ->)|(L & -> & [-> | ->])]].
    + eapply (K 0 _ [0; 1]); [reflexivity|lia|reflexivity|reflexivity|simpl; auto].
    + eapply (K 1 _ [0]); [reflexivity|lia|reflexivity|reflexivity|simpl; auto].
    + eapply (K 0 _ [0; 1]); [reflexivity|lia|reflexivity|reflexivity|simpl; auto].
    + eapply (K 0 _ [S p]); [reflexivity|lia|reflexivity| |left; reflexivity]. destruct p; [lia|]. simpl. replace (S p <? m) with true by (symmetry; apply Nat.ltb_lt; lia). reflexivity.
    + eapply (K 1 _ [S p]); [reflexivity|lia|reflexivity| |left; reflexivity]. destruct p; [lia|]. simpl. replace (S p <? m) with true by (symmetry; apply Nat.ltb_lt; lia). reflexivity.
Qed.
Lemma nth_last_later m p w q : nfa_path (nth_last m) p w q -> 1 <= p -> q = p + length w.
Proof.
  induction 1 as [p|p q w r He Hp IH|p a q w r He Hp IH]; intros L.
  - simpl. lia.
  - destruct (nth_last_eps _ _ _ He).
  - apply nth_last_edge in He. simpl. destruct He as [(-> & _)|[(-> & _)|(_ & -> & _)]]; try lia; try (rewrite IH by lia); lia.
Qed.
Lemma nth_last_first m p w q : nfa_path (nth_last m) p w q -> p = 0 -> q = 0 \/ exists u v, w = u ++ el_a :: v /\ q = S (length v).
Proof.
  induction 1 as [p|p q w r He Hp IH|p a q w r He Hp IH]; intros Z; auto.
  - destruct (nth_last_eps _ _ _ He).
  - apply nth_last_edge in He. destruct He as [(_ & -> & _)|[(_ & -> & ->)|(L & _)]]; [| |lia].
    + destruct (IH eq_refl) as [->|(u & v & -> & ->)]; auto. right. exists (a :: u), v. auto.
    + right. exists [], w. split; auto. apply nth_last_later in Hp; lia.
Qed.
Lemma nth_last_zero m w : over [el_a; el_b] w -> nfa_path (nth_last m) 0 w 0.
Proof.
  induction 1 as [|c w Hc Hw IH]; [constructor|]. apply (nfa_path_cons _ 0 c 0); auto. apply nth_last_edge. left. simpl in Hc. intuition.
Qed.
Lemma nth_last_walk m w : over [el_a; el_b] w -> forall p, 1 <= p -> p + length w <= m -> nfa_path (nth_last m) p w (p + length w).
Proof.
  induction 1 as [|c w Hc Hw IH]; intros p L1 L2; simpl in *.
  - rewrite Nat.add_0_r. constructor.
  - replace (p + S (length w)) with (S p + length w) by lia. apply (nfa_path_cons _ p c (S p)); [|apply IH; lia]. apply nth_last_edge. right. right. split; [lia|]. split; auto. simpl in Hc. intuition.
Qed.
Lemma nth_last_over m p w q : nfa_path (nth_last m) p w q -> over [el_a; el_b] w.
Proof.
  induction 1 as [p|p q w r He Hp IH|p a q w r He Hp IH]; auto; constructor; auto.
  apply nth_last_edge in He. simpl. destruct He as [(_ & _ & H)|[(_ & _ & H)|(_ & _ & H)]]; intuition.
Qed.
Lemma nth_last_path_app n p u q v r : nfa_path n p u q -> nfa_path n q v r -> nfa_path n p (u ++ v) r.
Proof. induction 1; intros H1; simpl; auto; [eapply nfa_path_eps|eapply nfa_path_cons]; eauto. Qed.
Lemma nth_last_lang m w : 1 <= m -> (nfa_lang (nth_last m) w <-> over [el_a; el_b] w /\ exists u v, w = u ++ el_a :: v /\ S (length v) = m).
Proof.
  intros Hm. split.
  - intros (q & P & (s & Hs & A)). split; [exact (nth_last_over _ _ _ _ P)|]. apply nth_last_at in Hs as [L ->]. simpl in A. apply Nat.eqb_eq in A. subst q.
    destruct (nth_last_first _ _ _ _ P eq_refl) as [->|(u & v & -> & E)]; [lia|]. eauto.
  - intros (O & u & v & -> & E). unfold over in O. rewrite Forall_app in O. destruct O as [O1 O2]. inversion O2 as [|? ? _ O3]; subst.
    exists (S (length v)). split.
    + apply (nth_last_path_app _ _ _ 0); [apply nth_last_zero; auto|]. apply (nfa_path_cons _ 0 el_a 1); [apply nth_last_edge; auto|].
      apply (nth_last_walk _ _ O3 1); simpl; lia.
    + eexists. split; [apply nth_last_at; split; [lia|reflexivity]|]. simpl. apply Nat.eqb_refl.
Qed.

(** ** All words of [m] elements end in different states of every DFA for that language *)
Fixpoint ab_words (m : nat) : list word :=
  match m with O => [[]] | S m => map (cons el_a) (ab_words m) ++ map (cons el_b) (ab_words m) end.
Lemma ab_words_length m : length (ab_words m) = 2 ^ m.
Proof. induction m as [|m IH]; auto. simpl. unfold word in *. rewrite app_length, !map_length, IH. lia. Qed.
Lemma ab_words_in m w : In w (ab_words m) -> length w = m /\ over [el_a; el_b] w.
Proof.
  revert w. induction m as [|m IH]; intros w H; simpl in H.
  - destruct H as [<-|[]]. split; auto. constructor.
  - apply in_app_or in H as [H|H]; apply in_map_iff in H as (x & <- & Hx); destruct (IH x Hx) as [L O]; simpl; (split; [auto|constructor; simpl; auto]).
Qed.
Lemma ab_words_nodup m : NoDup (ab_words m).
Proof.
  induction m as [|m IH]; simpl; [repeat constructor; auto|]. apply NoDup_app_iff. split; [|split].
  - apply FinFun.Injective_map_NoDup; auto. intros x y. congruence.
  - apply FinFun.Injective_map_NoDup; auto. intros x y. congruence.
  - intros x H1 H2. apply in_map_iff in H1 as (y & <- & _). apply in_map_iff in H2 as (z & H2 & _). discriminate.
Qed.
Lemma first_difference (x : word) : forall y, length x = length y -> over [el_a; el_b] x -> over [el_a; el_b] y -> x <> y ->
  exists p p' x' y', length p = length p' /\ length x' = length y' /\
    ((x = p ++ el_a :: x' /\ y = p' ++ el_b :: y') \/ (x = p ++ el_b :: x' /\ y = p' ++ el_a :: y')).
Proof.
  induction x as [|c x IH]; intros [|e y] L Ox Oy N; try discriminate; [congruence|]. injection L as L.
  inversion Ox as [|? ? Hc Ox']; inversion Oy as [|? ? He Oy']; subst. simpl in Hc, He.
  assert (K : c = e -> exists p p' x' y', length p = length p' /\ length x' = length y' /\
    ((c :: x = p ++ el_a :: x' /\ e :: y = p' ++ el_b :: y') \/ (c :: x = p ++ el_b :: x' /\ e :: y = p' ++ el_a :: y'))).
  { intros ->. destruct (IH y L Ox' Oy') as (p & p' & x' & y' & H1 & H2 & H3); [congruence|]. exists (e :: p), (e :: p'), x', y'.
    split; [simpl; auto|]. split; auto. destruct H3 as [[-> ->]|[-> ->]]; auto. }
  destruct Hc as [<-|[<-|[]]], He as [<-|[<-|[]]]; auto; exists [], [], x, y; auto.
Qed.
Lemma split_unique {A} (u v u' v' : list A) c c' : u ++ c :: v = u' ++ c' :: v' -> length v = length v' -> u = u' /\ c = c' /\ v = v'.
Proof.
  revert u'. induction u as [|x u IH]; intros [|y u'] E L; simpl in E.
  - injection E as -> ->. auto.
  - injection E as -> ->. rewrite app_length in L. simpl in L. lia.
  - injection E as -> <-. rewrite app_length in L. simpl in L. lia.
  - injection E as -> E. destruct (IH u' E L) as (-> & -> & ->). auto.
Qed.
Lemma nth_last_bit m p c x : over [el_a; el_b] p -> In c [el_a; el_b] -> over [el_a; el_b] x -> S (length p + length x) = m ->
  (nfa_lang (nth_last m) (p ++ c :: x ++ repeat el_b (length p)) <-> c = el_a).
Proof.
  intros Op Hc Ox L. rewrite nth_last_lang by lia. assert (Hl : length (x ++ repeat el_b (length p)) = length p + length x) by (rewrite app_length, repeat_length; lia). split.
  - intros (_ & u & v & E & Lv). apply split_unique in E; [tauto|]. lia.
  - intros ->. split.
    + apply Forall_app. split; auto. constructor; simpl; auto. apply Forall_app. split; auto. apply Forall_forall. intros y Hy. apply repeat_spec in Hy. subst. simpl. auto.
    + exists p, (x ++ repeat el_b (length p)). split; auto. lia.
Qed.
Lemma nth_last_different m d x y q : 1 <= m -> dfa_valid d -> (forall w, dfa_lang d w <-> nfa_lang (nth_last m) w) ->
  In x (ab_words m) -> In y (ab_words m) -> dfa_path d (dfa_initial d) x q -> dfa_path d (dfa_initial d) y q -> x = y.
Proof.
  intros Hm V HL Hx Hy Px Py. apply ab_words_in in Hx as [Lx Ox]. apply ab_words_in in Hy as [Ly Oy].
  destruct (list_eq_dec (list_eq_dec N.eq_dec) x y) as [E|N]; auto. exfalso.
  destruct (first_difference x y) as (p & p' & x' & y' & L1 & L2 & H); auto; [congruence|].
  assert (K : forall z, dfa_lang d (x ++ z) <-> dfa_lang d (y ++ z)).
  { intros z. split; intros (r & P & A); exists r; (split; [|exact A]); apply dfa_path_app_inv in P as (q' & P1 & P2);
      (assert (q' = q) as -> by (eapply dfa_path_fun; eauto using dv_alphabet)); eapply dfa_path_app; eauto. }
  specialize (K (repeat el_b (length p))). rewrite !HL in K.
  assert (B : over [el_a; el_b] p /\ over [el_a; el_b] p' /\ over [el_a; el_b] x' /\ over [el_a; el_b] y' /\ S (length p + length x') = m).
  { unfold over in *. destruct H as [[-> ->]|[-> ->]]; rewrite Forall_app in Ox, Oy; destruct Ox as [O1 O2], Oy as [O3 O4];
      inversion O2; inversion O4; subst; rewrite app_length in *; simpl in *; repeat (split; auto); lia. }
  destruct B as (O1 & O2 & O3 & O4 & Lm).
  destruct H as [[-> ->]|[-> ->]]; rewrite <- !app_assoc in K; simpl in K; rewrite L1 in K at 2; rewrite !nth_last_bit in K; simpl; auto; try lia;
    destruct K as [K1 K2]; [discriminate K1|discriminate K2]; reflexivity.
Qed.
Lemma pick_all {A B} (P : A -> B -> Prop) l : (forall x, In x l -> exists y, P x y) -> exists ys, Forall2 P l ys.
Proof.
  induction l as [|x l IH]; intros H; [exists []; constructor|]. destruct (H x) as (y & Hy); simpl; auto.
  destruct IH as (ys & Hys); [intros; apply H; simpl; auto|]. exists (y :: ys). constructor; auto.
Qed.
Lemma picked_nodup {A B} (P : A -> B -> Prop) l ys : Forall2 P l ys -> NoDup l -> (forall x x' y, In x l -> In x' l -> P x y -> P x' y -> x = x') -> NoDup ys.
Proof.
  induction 1 as [|x y l ys Hxy HF IH]; intros N U; [constructor|]. inversion N as [|? ? N1 N2]; subst. constructor.
  - intros Hi. apply N1. apply In_nth_error in Hi as (i & Hi).
    assert (exists x', nth_error l i = Some x' /\ P x' y) as (x' & Hx' & HP).
    { clear -HF Hi. revert i Hi. induction HF as [|a b l ys H HF IH]; intros [|i] Hi; try discriminate; simpl in *; eauto. injection Hi as ->. eauto. }
    rewrite (U x x' y); simpl; eauto using nth_error_In.
  - apply IH; auto. intros x1 x2 y1 H1 H2. apply U; simpl; auto.
Qed.
Lemma nth_last_states m d : 1 <= m -> dfa_valid d -> (forall w, dfa_lang d w <-> nfa_lang (nth_last m) w) -> 2 ^ m <= length (dfa_states d).
Proof.
  intros Hm V HL. destruct (pick_all (fun w q => dfa_path d (dfa_initial d) w q) (ab_words m)) as (qs & HF).
  { intros w Hw. apply ab_words_in in Hw as [L O]. assert (H : nfa_lang (nth_last m) (w ++ el_a :: repeat el_b (m - 1))).
    { apply nth_last_lang; auto. split.
      - apply Forall_app. split; auto. constructor; simpl; auto. apply Forall_forall. intros y Hy. apply repeat_spec in Hy. subst. simpl. auto.
      - exists w, (repeat el_b (m - 1)). rewrite repeat_length. split; auto. lia. }
    apply HL in H as (r & P & _). apply dfa_path_app_inv in P as (q & P & _). eauto. }
  rewrite <- ab_words_length, (Forall2_len _ _ _ HF). apply nodup_range.
  - apply (picked_nodup _ _ _ HF); [apply ab_words_nodup|]. intros x y q Hx Hy Px Py. eapply nth_last_different; eauto.
  - intros q Hq. apply In_nth_error in Hq as (i & Hi).
    assert (exists w, dfa_path d (dfa_initial d) w q) as (w & P).
    { clear -HF Hi. revert i Hi. induction HF as [|a b l ys H HF IH]; intros [|i] Hi; try discriminate; simpl in *; eauto. injection Hi as ->. eauto. }
    eapply dfa_path_range; eauto. apply V.
Qed.

(** ** Order *)
Lemma lex_lt_irrefl u : ~ lex_lt u u.
Proof. induction u as [|x u IH]; intros H; inversion H; subst; [lia|auto]. Qed.
Lemma lex_lt_asym u v : lex_lt u v -> ~ lex_lt v u.
Proof. induction 1; intros H1; inversion H1; subst; auto; lia. Qed.
Definition ex_a_star_b : nfa :=
  {| nfa_alphabet := [el_a; el_b];
     nfa_states := [ mk_nfa_state [48%N] true false [] [[0]; [1]]; mk_nfa_state [49%N] false true [] [[]; []] ];
     nfa_initial := 0 |}.
Lemma a_star_b_word k : spells (nfa_alphabet ex_a_star_b) (repeat 0 k ++ [1]) (repeat el_a k ++ [el_b]) /\ nfa_lang ex_a_star_b (repeat el_a k ++ [el_b]).
Proof.
  split.
  - induction k as [|k IH]; simpl; repeat constructor; auto.
  - exists 1. split; [|eexists; split; reflexivity]. induction k as [|k IH]; simpl.
    + apply (nfa_path_cons _ 0 el_b 1); [|constructor]. exists 1. eexists. exists [1]. repeat split; simpl; auto.
    + apply (nfa_path_cons _ 0 el_a 0); auto. exists 0. eexists. exists [0]. repeat split; simpl; auto.
Qed.
Lemma a_star_b_descends k : lex_lt (repeat 0 (S k) ++ [1]) (repeat 0 k ++ [1]).
Proof. induction k as [|k IH]; simpl; [constructor; lia|]. apply lex_lt_tail. exact IH. Qed.
Lemma no_sorted_list (f : nat -> option (list nat)) :
  (forall i j u v, i < j -> f i = Some u -> f j = Some v -> lex_lt u v) -> (forall k, exists i, f i = Some (repeat 0 k ++ [1])) -> False.
Proof.
  intros S H. destruct (H 0) as (i0 & H0).
  assert (K : forall k, exists i, f i = Some (repeat 0 k ++ [1]) /\ i + k <= i0).
  { induction k as [|k (i & Hi & L)]; [exists i0; split; auto; lia|]. destruct (H (1 + k)) as (j & Hj). exists j. split; auto.
    assert (j < i); [|lia]. destruct (lt_eq_lt_dec j i) as [[L1| ->]|L1]; auto; exfalso.
    - rewrite Hj in Hi. apply (f_equal (option_map (@length nat))) in Hi. simpl option_map in Hi. rewrite !app_length, !repeat_length in Hi. injection Hi as E. lia.
    - apply (lex_lt_asym _ _ (S _ _ _ _ L1 Hi Hj)). exact (a_star_b_descends k). }
  destruct (K (1 + i0)) as (i & _ & L). lia.
Qed.

Lemma sorted_nth {A} (R : A -> A -> Prop) l : StronglySorted R l -> forall i j x y, i < j -> nth_error l i = Some x -> nth_error l j = Some y -> R x y.
Proof.
  induction 1 as [|a l Hs IH Hf]; intros i j x y L Hi Hj; [destruct i; discriminate|]. destruct j as [|j]; [lia|]. destruct i as [|i]; simpl in *.
  - injection Hi as <-. rewrite Forall_forall in Hf. eauto using nth_error_In.
  - apply (IH i j); auto. lia.
Qed.
Lemma dictionary_iff n : nfa_valid n -> eps_free n ->
  ((forall k outs i j u v, word_component_indices_calls n k = Ret outs -> i < j ->
      nth_error outs i = Some (Some u) -> nth_error outs j = Some (Some v) -> lex_lt u v) <->
   (forall u v wu wv, spells (nfa_alphabet n) u wu -> spells (nfa_alphabet n) v wv -> nfa_lang n wu -> nfa_lang n wv ->
      length u < length v -> lex_lt u v)).
Proof.
  intros V F. split.
  - intros H u v wu wv Su Sv Lu Lv L. destruct (word_eventually_listed n v wv V F Sv Lv) as (k & outs & E & Hv).
    destruct (word_component_indices_correct n k V F) as (l & E' & Hk & Hs & Hl & Hc). rewrite E in E'. injection E' as ->.
    apply in_app_or in Hv as [Hv|Hv]; [|apply repeat_spec in Hv; discriminate]. apply in_map_iff in Hv as (v' & [= ->] & Hv).
    assert (Hu : In u l).
    { destruct (Hc u wu Su Lu) as [Hu|[_ Hu]]; auto. specialize (Hu v Hv). destruct Hu as [Hu|[Hu _]]; lia. }
    apply In_nth_error in Hv as (j & Hj). apply In_nth_error in Hu as (i & Hi).
    assert (Lij : i < j).
    { destruct (lt_eq_lt_dec i j) as [[L1|E1]|L1]; auto; exfalso.
      - subst j. rewrite Hi in Hj. injection Hj as ->. lia.
      - pose proof (sorted_nth _ _ Hs _ _ _ _ L1 Hj Hi) as [K|[K _]]; lia. }
    apply (H k _ i j u v E Lij); rewrite nth_error_app1 by (rewrite map_length; eapply nth_error_length; eauto); rewrite nth_error_map; [rewrite Hi|rewrite Hj]; reflexivity.
  - intros H k outs i j u v E L Hi Hj. destruct (word_component_indices_correct n k V F) as (l & E' & Hk & Hs & Hl & Hc). rewrite E in E'. injection E' as ->.
    assert (K : forall x y, nth_error (map Some l ++ repeat None (k - length l)) x = Some (Some y) -> nth_error l x = Some y).
    { intros x y Hx. destruct (le_lt_dec (length l) x) as [G|G].
      - rewrite nth_error_app2 in Hx by (rewrite map_length; auto). apply nth_error_In, repeat_spec in Hx. discriminate.
      - rewrite nth_error_app1, nth_error_map in Hx by (rewrite map_length; auto). destruct (nth_error l x); simpl in Hx; congruence. }
    apply K in Hi, Hj. destruct (Hl u (nth_error_In _ _ Hi)) as (wu & Su & Lu). destruct (Hl v (nth_error_In _ _ Hj)) as (wv & Sv & Lv).
    destruct (sorted_nth _ _ Hs _ _ _ _ L Hi Hj) as [G|[_ G]]; auto. exact (H u v wu wv Su Sv Lu Lv G).
Qed.
