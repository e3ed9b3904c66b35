(** * CounterProofs: the words of two complementary iterators, merged, are all words *)
From Coq Require Import List NArith Arith Lia Bool Sorted.
From Verif Require Import Base BaseLemmas Spec DfaModel NfaModel NfaBasics WordsModel WordsProofs TestsModel.
Import ListNotations.

(** ** The counter of the test *)
Section Counter.
  Variables (max len : nat).
  Definition digits (w : list nat) : Prop := Forall (fun x => x <= max) w.

  (** the words of the same length, in order *)
  Inductive succ_word : list nat -> list nat -> Prop :=
  | succ_last w x : x < max -> succ_word (w ++ [x]) (w ++ [S x])
  | succ_carry w w' : succ_word w w' -> succ_word (w ++ [max]) (w' ++ [0]).

  Definition value (w : list nat) : nat := fold_left (fun v x => v * S max + x) w 0.
  Lemma value_snoc w x : value (w ++ [x]) = value w * S max + x.
  Proof. unfold value. rewrite fold_left_app. reflexivity. Qed.
  Lemma value_lt w : digits w -> value w < S max ^ length w.
  Proof.
    induction w as [|x w IH] using rev_ind; intros H; [unfold value; simpl; lia|]. apply Forall_app in H as [H1 H2]. inversion H2; subst. cbv beta in *.
    rewrite value_snoc, app_length. simpl length. replace (length w + 1) with (S (length w)) by lia. rewrite Nat.pow_succ_r'.
    specialize (IH H1).
    assert (value w * S max + S max <= S max * S max ^ length w) by nia. lia.
  Qed.
  Lemma succ_value w w' : succ_word w w' -> value w' = S (value w).
  Proof. induction 1 as [w x H|w w' H IH]; rewrite !value_snoc; [lia|]. rewrite IH. lia. Qed.
  Lemma succ_length w w' : succ_word w w' -> length w' = length w.
  Proof. induction 1; rewrite !app_length; simpl; lia. Qed.
  Lemma succ_digits w w' : succ_word w w' -> digits w -> digits w'.
  Proof.
    induction 1 as [w x H|w w' H IH]; intros D; apply Forall_app in D as [D1 D2]; apply Forall_app; split; auto.
    - apply IH; exact D1.
    - constructor; auto. lia.
  Qed.

  (** the value decides the order among words of the same length *)
  Lemma lex_lt_snoc u v x y : length u = length v -> (lex_lt (u ++ [x]) (v ++ [y]) <-> lex_lt u v \/ u = v /\ x < y).
  Proof.
    revert v. induction u as [|a u IH]; intros [|b v] Hl; try discriminate; simpl.
    - split.
      + intros H. inversion H as [|? ? ? ? H'|? ? ? H']; subst; [auto|inversion H'].
      + intros [H|[_ H]]; [inversion H|constructor; auto].
    - injection Hl as Hl. split.
      + intros H. inversion H; subst; [left; constructor; auto|]. apply IH in H1 as [H1|[-> H1]]; auto.
        left. apply lex_lt_tail. auto.
      + intros [H|[E H]].
        * inversion H; subst; [constructor; auto|]. apply lex_lt_tail, IH; auto.
        * injection E as -> ->. apply lex_lt_tail, IH; auto.
  Qed.
  Lemma lex_value u : forall v, length u = length v -> digits u -> digits v -> lex_lt u v -> value u < value v.
  Proof.
    induction u as [|x u IH] using rev_ind; intros v Hl Du Dv L.
    - destruct v; [inversion L|discriminate].
    - destruct v as [|y v _] using rev_ind; [rewrite app_length in Hl; simpl in Hl; lia|].
      rewrite !app_length in Hl. simpl in Hl. apply Forall_app in Du as [Du Dx]. apply Forall_app in Dv as [Dv Dy].
      inversion Dx; inversion Dy; subst. rewrite !value_snoc. apply lex_lt_snoc in L as [L|[-> L]]; [|nia|lia].
      apply IH in L; auto; [nia|lia].
  Qed.
  Lemma value_lex u v : length u = length v -> digits u -> digits v -> (lex_lt u v <-> value u < value v).
  Proof.
    intros Hl Du Dv. split; [apply lex_value; auto|]. intros H. destruct (lex_lt_total u v Hl) as [->|[L|L]]; auto; [lia|].
    apply lex_value in L; auto. lia.
  Qed.
  Lemma value_inj u v : length u = length v -> digits u -> digits v -> value u = value v -> u = v.
  Proof.
    intros Hl Du Dv E. destruct (lex_lt_total u v Hl) as [->|[L|L]]; auto; apply value_lex in L; auto; lia.
  Qed.

  (** the loop over the digits *)
  Lemma set_index_ok w x y z : set_index (w ++ x :: z) (length w) y = Ret (w ++ y :: z).
  Proof.
    unfold set_index. rewrite app_length. simpl. destruct (Nat.ltb_spec (length w) (length w + S (length z))); [|lia].
    f_equal. clear. induction w as [|a w IH]; cbn [length app set_nth]; [reflexivity|]. f_equal. exact IH.
  Qed.
  Lemma carry_spec w : digits w -> forall z,
    (exists w', succ_word w w' /\ counter_carry max (w ++ z) (length w) = Ret (w' ++ z, true)) \/
    (S (value w) = S max ^ length w /\ counter_carry max (w ++ z) (length w) = Ret (repeat 0 (length w) ++ z, false)).
  Proof.
    induction w as [|x w IH] using rev_ind; intros D z.
    - right. split; auto.
    - apply Forall_app in D as [D Dx]. inversion Dx as [|? ? Hx _]; subst. rewrite app_length. simpl length. rewrite Nat.add_1_r.
      cbn [counter_carry]. rewrite <- app_assoc. cbn [app].
      assert (Hi : index (w ++ x :: z) (length w) = Ret x).
      { unfold index. rewrite nth_error_app2, Nat.sub_diag by lia. reflexivity. }
      rewrite Hi. cbn [bind]. destruct (Nat.ltb_spec max (S x)) as [Hm|Hm].
      + assert (x = max) by lia. subst x. rewrite set_index_ok. cbn [bind].
        destruct (IH D (0 :: z)) as [(w' & Hs & E)|(Hv & E)].
        * left. exists (w' ++ [0]). rewrite <- app_assoc. split; [constructor; auto|exact E].
        * right. rewrite value_snoc, Nat.pow_succ_r'. split; [nia|]. rewrite E. rewrite <- (Nat.add_1_r (length w)), repeat_app, <- app_assoc. reflexivity.
      + rewrite set_index_ok. cbn [bind]. left. exists (w ++ [S x]). rewrite <- app_assoc. split; [constructor; lia|reflexivity].
  Qed.

  (** the counter after it returned [w] *)
  Definition at_word (c : counter) (w : list nat) : Prop :=
    c = mk_counter (w ++ repeat 0 (len - length w)) (length w) max true false /\ digits w /\ length w <= len.
  Definition left_words (w : list nat) : nat := (S max ^ length w - S (value w)) + (short_words (S max) len - short_words (S max) (length w)).
  Lemma short_words_le k k' : k <= k' -> short_words (S max) k <= short_words (S max) k'.
  Proof. induction 1; auto. cbn [short_words]. lia. Qed.
  Lemma value_zeros k : value (repeat 0 k) = 0.
  Proof. induction k; auto. Qed.
  Lemma digits_zeros k : digits (repeat 0 k).
  Proof. apply Forall_forall. intros x Hx. apply repeat_spec in Hx. lia. Qed.
  Lemma prefix_ok w z : prefix_vec (w ++ z) (length w) = Ret w.
  Proof.
    unfold prefix_vec. rewrite app_length. destruct (Nat.leb_spec (length w) (length w + length z)); [|lia].
    rewrite firstn_app, Nat.sub_diag, firstn_all, firstn_O, app_nil_r. reflexivity.
  Qed.

  Lemma counter_next_spec c w : at_word c w ->
    (exists c' w', counter_next c = Ret (c', Some w') /\ at_word c' w' /\ shortlex_lt w w' /\ left_words w' < left_words w /\
       forall x, digits x -> shortlex_lt w x -> x = w' \/ shortlex_lt w' x) \/
    (exists c', counter_next c = Ret (c', None)).
  Proof.
    intros (-> & D & Hl). unfold counter_next. cbn [mc_finished mc_returned mc_max mc_state mc_len negb].
    destruct (carry_spec w D (repeat 0 (len - length w))) as [(w' & Hs & ->)|(Hv & ->)]; cbn [bind].
    - left. pose proof (succ_length _ _ Hs) as Hl'. rewrite <- Hl'. rewrite prefix_ok. cbn [bind]. rewrite Hl'.
      pose proof (succ_digits _ _ Hs D) as D'. pose proof (succ_value _ _ Hs) as Hv'.
      eexists _, w'. split; [reflexivity|]. split; [|split; [|split]].
      + split; [|split; auto; lia]. rewrite Hl'. reflexivity.
      + right. split; auto. apply value_lex; auto. lia.
      + unfold left_words. rewrite Hl', Hv'. pose proof (value_lt w' D') as H. rewrite Hl', Hv' in H. lia.
      + intros x Dx [Hx|[Hx Hx']]; [right; left; lia|]. apply value_lex in Hx'; auto.
        destruct (Nat.eq_dec (value x) (value w')) as [E|E]; [left; apply value_inj; auto; lia|].
        right. right. split; [lia|]. apply value_lex; auto; lia.
    - rewrite app_length, !repeat_length. destruct (Nat.ltb_spec (length w + (len - length w)) (S (length w))) as [Hlt|Hge].
      + right. eexists. reflexivity.
      + left. replace (repeat 0 (length w) ++ repeat 0 (len - length w)) with (repeat 0 (S (length w)) ++ repeat 0 (len - S (length w))).
        2:{ rewrite <- !repeat_app. f_equal. lia. }
        assert (E : prefix_vec (repeat 0 (S (length w)) ++ repeat 0 (len - S (length w))) (S (length w)) = Ret (repeat 0 (S (length w)))).
        { rewrite <- (repeat_length 0 (S (length w))) at 3. apply prefix_ok. }
        rewrite E. cbn [bind]. eexists _, (repeat 0 (S (length w))). split; [reflexivity|].
        split; [|split; [|split]].
        * split; [|split; [apply digits_zeros|rewrite repeat_length; lia]]. rewrite repeat_length. reflexivity.
        * left. rewrite repeat_length. lia.
        * unfold left_words. rewrite repeat_length, value_zeros. pose proof (value_lt w D).
          pose proof (short_words_le (S (length w)) len ltac:(lia)). cbn [short_words] in *.
          assert (1 <= S max ^ S (length w)) by (apply Nat.neq_0_lt_0, Nat.pow_nonzero; lia). lia.
        * intros x Dx [Hx|[Hx Hx']].
          -- destruct (Nat.eq_dec (length x) (S (length w))) as [El|El]; [|right; left; rewrite repeat_length; lia].
             destruct (Nat.eq_dec (value x) 0) as [Ev|Ev].
             ++ left. apply value_inj; auto; [rewrite repeat_length; auto|apply digits_zeros|rewrite value_zeros; auto].
             ++ right. right. rewrite repeat_length. split; auto. apply value_lex; [rewrite repeat_length; auto|apply digits_zeros|auto|rewrite value_zeros; lia].
          -- exfalso. apply value_lex in Hx'; auto. pose proof (value_lt x Dx) as H. rewrite <- Hx in H. lia.
  Qed.
End Counter.

(** ** Merging *)
Definition awaits (n : nfa) (from : list nat -> Prop) (p : words_iter * option (list nat)) : Prop :=
  match snd p with
  | Some v => acc n v /\ from v /\ (forall x, acc n x -> from x -> x = v \/ shortlex_lt v x) /\
      exists fin rem, (forall q, In q fin <-> nfa_accepting n q) /\ iter_state n fin (fst p) rem /\
                      forall x, rem x <-> acc n x /\ shortlex_lt v x
  | None => forall x, acc n x -> ~ from x
  end.
Lemma awaits_ext n from from' p : (forall x, acc n x -> (from x <-> from' x)) -> awaits n from p -> awaits n from' p.
Proof.
  unfold awaits. intros H. destruct (snd p) as [v|].
  - intros (Ha & Hv & Hm & Hr). split; auto. split; [apply H; auto|]. split; [intros x Hx Hf; apply Hm; auto; apply H; auto|exact Hr].
  - intros Hn x Hx Hf. apply (Hn x Hx). apply H; auto.
Qed.
Lemma wci_next_awaits n fin wi (rem : list nat -> Prop) : nfa_valid n -> (forall q, In q fin <-> nfa_accepting n q) -> iter_state n fin wi rem ->
  (forall x, rem x -> acc n x) -> exists p, wci_next wi = Ret p /\ awaits n rem p.
Proof.
  intros V Hf Hst Hr. destruct (put_next_spec n V fin Hf wi rem Hst) as (wi' & Hp & _ & H). unfold wci_next. rewrite Hp. cbn [bind].
  eexists. split; [reflexivity|]. unfold awaits. cbn [snd fst]. destruct (wi_last wi') as [w|] eqn:E.
  - destruct H as (Hw & Ha & Hm & Hst'). split; auto. split; auto. split; [intros x _ Hx; auto|].
    exists fin, (fun x => rem x /\ shortlex_lt w x). split; auto. split; auto. intros x. split; [intros [H1 H2]; auto|].
    intros [H1 H2]. split; auto.
    (* every accepted word after [w] is in [rem] *)
    destruct Hst' as (_ & [(_ & E' & _)|[(w' & (_ & E' & _) & Hrem)|(_ & E' & _)]]); [congruence| |congruence].
    assert (w' = w) by congruence. subst w'. apply Hrem. auto.
  - intros x _. apply H.
Qed.

Section Merge.
  Variables (max len : nat) (n1 n2 : nfa).
  Hypotheses (V1 : nfa_valid n1) (V2 : nfa_valid n2).
  Hypotheses (D1 : forall x, acc n1 x -> digits max x) (D2 : forall x, acc n2 x -> digits max x).
  Hypotheses (Hor : forall x, digits max x -> acc n1 x \/ acc n2 x) (Hnot : forall x, acc n1 x -> acc n2 x -> False).

  Definition not_before (w x : list nat) : Prop := x = w \/ shortlex_lt w x.
  Definition merge_inv (st : merge_state) : Prop :=
    let '(c, p1, p2) := st in
    (c = counter_new len max /\ awaits n1 (not_before []) p1 /\ awaits n2 (not_before []) p2) \/
    exists w, at_word max len c w /\ awaits n1 (shortlex_lt w) p1 /\ awaits n2 (shortlex_lt w) p2.
  Definition merge_measure (st : merge_state) : nat :=
    let '(c, _, _) := st in
    if mc_returned c then left_words max len (firstn (mc_len c) (mc_state c)) else S (left_words max len []).

  (** the iterator that has the word moves on, the other one keeps waiting *)
  Lemma awaits_hit n w p : nfa_valid n -> awaits n (not_before w) p -> acc n w ->
    is_word (snd p) w = true /\ exists p', wci_next (fst p) = Ret p' /\ awaits n (shortlex_lt w) p'.
  Proof.
    intros V H Ha. unfold awaits in H. destruct (snd p) as [v|].
    - destruct H as (Hv & Hf & Hm & fin & rem & Hfin & Hst & Hr).
      assert (v = w).
      { destruct (Hm w Ha (or_introl eq_refl)) as [->|L]; auto. destruct Hf as [->|L']; auto.
        exfalso. exact (shortlex_lt_irrefl _ (shortlex_lt_trans _ _ _ L L')). }
      subst v. split; [cbn [is_word]; destruct (eqb_spec w w); auto|].
      destruct (wci_next_awaits n fin (fst p) rem V Hfin Hst) as (p' & Hp & Hw); [intros x Hx; apply Hr; auto|].
      exists p'. split; auto. revert Hw. apply awaits_ext. intros x Hx. rewrite Hr. tauto.
    - destruct (H w Ha). left; auto.
  Qed.
  Lemma awaits_miss n w p : awaits n (not_before w) p -> ~ acc n w -> is_word (snd p) w = false /\ awaits n (shortlex_lt w) p.
  Proof.
    intros H Ha. unfold awaits in *. destruct (snd p) as [v|].
    - destruct H as (Hv & Hf & Hm & Hr). assert (v <> w) by congruence.
      split; [cbn [is_word]; destruct (eqb_spec v w); congruence|]. split; auto. split; [destruct Hf; congruence|].
      split; auto. intros x Hx Hl. apply Hm; auto. right; auto.
    - split; auto. intros x Hx Hl. apply (H x Hx). right; auto.
  Qed.

  Lemma merge_emit c c' w p1 p2 : counter_next c = Ret (c', Some w) -> at_word max len c' w ->
    awaits n1 (not_before w) p1 -> awaits n2 (not_before w) p2 ->
    exists p1' p2', merge_step (c, p1, p2) = Ret (inl (c', p1', p2')) /\ awaits n1 (shortlex_lt w) p1' /\ awaits n2 (shortlex_lt w) p2'.
  Proof.
    intros Hc Hw A1 A2. destruct p1 as [i1 o1], p2 as [i2 o2]. unfold merge_step. rewrite Hc. cbn [bind].
    destruct (Hor w) as [Ha|Ha]; [apply Hw| |].
    - destruct (awaits_hit n1 w _ V1 A1 Ha) as (E & p' & Hp & A1'). cbn [fst snd] in *. rewrite E, Hp. cbn [bind].
      destruct (awaits_miss n2 w _ A2) as (_ & A2'); [intros H; eauto|]. eauto 10.
    - destruct (awaits_miss n1 w _ A1) as (E1 & A1'); [intros H; eauto|]. cbn [fst snd] in *. rewrite E1.
      destruct (awaits_hit n2 w _ V2 A2 Ha) as (E & p' & Hp & A2'). cbn [fst snd] in *. rewrite E, Hp. cbn [bind]. eauto 10.
  Qed.
  Lemma merge_step_ok st : merge_inv st -> exists r, merge_step st = Ret r /\
    match r with inl st' => merge_inv st' /\ merge_measure st' < merge_measure st | inr b => b = tt end.
  Proof.
    destruct st as [[c p1] p2]. intros [(-> & A1 & A2)|(w & Hw & A1 & A2)].
    - assert (Hn : counter_next (counter_new len max) = Ret (mk_counter (repeat 0 len) 0 max true false, Some [])) by reflexivity.
      assert (Hat : at_word max len (mk_counter (repeat 0 len) 0 max true false) []).
      { split; [|split; [constructor|simpl; lia]]. simpl. rewrite Nat.sub_0_r. reflexivity. }
      destruct (merge_emit _ _ [] p1 p2 Hn Hat A1 A2) as (p1' & p2' & E & A1' & A2'). eexists. split; [exact E|].
      split; [right; exists []; auto|]. unfold merge_measure. cbn [mc_returned counter_new mc_len mc_state firstn]. lia.
    - destruct (counter_next_spec max len c w Hw) as [(c' & w' & Hn & Hw' & Hlt & Hm & Hs)|(c' & Hn)].
      + destruct (merge_emit c c' w' p1 p2 Hn Hw') as (p1' & p2' & E & A1' & A2').
        * revert A1. apply awaits_ext. intros x Hx. split; [intros L; apply Hs; auto|].
          intros [->|L]; auto. eapply shortlex_lt_trans; eauto.
        * revert A2. apply awaits_ext. intros x Hx. split; [intros L; apply Hs; auto|].
          intros [->|L]; auto. eapply shortlex_lt_trans; eauto.
        * eexists. split; [exact E|]. split; [right; exists w'; auto|].
          assert (M : forall c w, at_word max len c w -> merge_measure (c, p1, p2) = left_words max len w /\ mc_returned c = true).
          { intros c0 w0 (-> & _ & _). split; auto. unfold merge_measure. cbn [mc_returned mc_len mc_state].
            rewrite firstn_app, Nat.sub_diag, firstn_all, firstn_O, app_nil_r. reflexivity. }
          destruct (M c w Hw) as [-> _]. destruct (M c' w' Hw') as [M' _]. unfold merge_measure in *. rewrite M'. exact Hm.
      + unfold merge_step. destruct p1, p2. rewrite Hn. cbn [bind]. eexists. split; [reflexivity|]. reflexivity.
  Qed.
  Lemma merge_ok p1 p2 : awaits n1 (not_before []) p1 -> awaits n2 (not_before []) p2 ->
    while (S (short_words (S max) len)) merge_step (counter_new len max, p1, p2) = Ret tt.
  Proof.
    intros A1 A2. destruct (while_total merge_inv (fun b => b = tt) merge_measure merge_step (S (short_words (S max) len))
      (counter_new len max, p1, p2) merge_step_ok) as (b & E & ->); auto.
    - left. auto.
    - unfold merge_measure, left_words, value. cbn [counter_new mc_returned length fold_left]. rewrite Nat.pow_0_r. cbn [short_words].
      pose proof (Nat.pow_gt_lin_r 2 (S (short_words (S max) len)) ltac:(lia)). lia.
  Qed.
End Merge.

Lemma not_before_nil x : not_before [] x.
Proof. destruct x; [left; auto|right; left; simpl; lia]. Qed.
Lemma first_awaits n : nfa_valid n -> eps_free n -> exists wi p, words_new n = Ret wi /\ wci_next wi = Ret p /\ awaits n (not_before []) p.
Proof.
  intros V Hef. destruct (words_new_spec n V Hef) as (wi & Hn & Hf & Hst).
  destruct (wci_next_awaits n (wi_final wi) wi (acc n) V Hf Hst) as (p & Hp & Ha); auto.
  exists wi, p. split; auto. split; auto. revert Ha. apply awaits_ext. intros x Hx. split; [intros _; apply not_before_nil|auto].
Qed.
