(** * Histories of DFA evaluators *)
From Coq Require Import List NArith Arith Bool Lia.
From Verif Require Import Base BaseLemmas Spec DfaModel DfaBasics NfaModel Histories.
Import ListNotations.

(** The evaluator [e] has consumed [w] *)
Definition de_after (d : dfa) (w : word) (e : dfa_eval) : Prop :=
  (exists q, over (dfa_alphabet d) w /\ dfa_path d (dfa_initial d) w q /\ q < length (dfa_states d) /\ e = ev_at d q) \/
  (~ over (dfa_alphabet d) w /\ exists q, q < length (dfa_states d) /\ e = ev_bad d q).

Lemma de_after_init d : dfa_valid d -> de_after d [] (dfa_evaluator d).
Proof.
  intros V. left. exists (dfa_initial d). split; [constructor|]. split; [constructor|]. split; [apply dv_initial; auto|].
  apply dfa_evaluator_at.
Qed.

Lemma de_after_step d w e a : dfa_valid d -> de_after d w e ->
  exists e' o, de_step e a = Ret (e', o) /\ de_after d (w ++ [a]) e' /\
    (over (dfa_alphabet d) (w ++ [a]) -> exists q s, dfa_path d (dfa_initial d) (w ++ [a]) q /\
                                                     nth_error (dfa_states d) q = Some s /\ o = Some s) /\
    (~ over (dfa_alphabet d) (w ++ [a]) -> o = None).
Proof.
  intros V [(q & Ho & Hp & Hq & ->) | (Hn & q & Hq & ->)].
  - destruct (In_dec a (dfa_alphabet d)) as [Ha|Ha].
    + destruct (dfa_edge_total d q a V Hq Ha) as (t & He & Ht).
      destruct (de_step_known d q a t V He) as (s' & Hs' & Hst). rewrite Hst.
      assert (Hpath : dfa_path d (dfa_initial d) (w ++ [a]) t) by (eapply dfa_path_snoc; eauto).
      assert (Hov : over (dfa_alphabet d) (w ++ [a])) by (eapply dfa_path_over; eauto).
      exists (ev_at d t), (Some s'). split; auto. split; [left; exists t; auto|]. split; [|tauto].
      intros _. exists t, s'. auto.
    + rewrite (de_step_unknown d q a V Ha).
      assert (Hov : ~ over (dfa_alphabet d) (w ++ [a])).
      { intros H. apply over_app in H as [_ H]. inv H. auto. }
      exists (ev_bad d q), None. split; auto. split; [right; split; auto; exists q; auto|]. split; tauto.
  - rewrite de_step_bad.
    assert (Hov : ~ over (dfa_alphabet d) (w ++ [a])).
    { intros H. apply over_app in H as [H _]. auto. }
    exists (ev_bad d q), None. split; auto. split; [right; split; auto; exists q; auto|]. split; tauto.
Qed.

Lemma de_after_step_multiple d w e l : dfa_valid d -> de_after d w e ->
  exists e' o, de_step_multiple e l = Ret (e', o) /\ de_after d (w ++ l) e' /\
    (over (dfa_alphabet d) (w ++ l) -> exists q s, dfa_path d (dfa_initial d) (w ++ l) q /\
                                                   nth_error (dfa_states d) q = Some s /\ o = Some s) /\
    (~ over (dfa_alphabet d) (w ++ l) -> l <> [] -> o = None) /\
    (~ over (dfa_alphabet d) w -> l = [] -> exists s, o = Some s).
Proof.
  intros V Ha. unfold de_step_multiple. destruct Ha as [(q & Ho & Hp & Hq & ->) | (Hn & q & Hq & ->)].
  - destruct (over_dec (dfa_alphabet d) l) as [Hl|Hl].
    + destruct (dfa_path_total d q l V Hq Hl) as (t & Ht & Htr). rewrite (de_steps_over d q l t V Ht). simpl.
      destruct (nth_error_lt _ _ Htr) as [s Hs]. rewrite (index_Some _ _ _ Hs). simpl.
      assert (Hpath : dfa_path d (dfa_initial d) (w ++ l) t) by (eapply dfa_path_app; eauto).
      assert (Hov : over (dfa_alphabet d) (w ++ l)) by (eapply dfa_path_over; eauto).
      exists (ev_at d t), (Some s). split; auto. split; [left; exists t; auto|].
      split; [intros _; exists t, s; auto|]. split; [tauto|]. intros H; tauto.
    + destruct (de_steps_not_over d q l V Hq Hl) as (t & Htr & He). rewrite He. simpl.
      assert (Hov : ~ over (dfa_alphabet d) (w ++ l)).
      { intros H. apply over_app in H as [_ H]. auto. }
      exists (ev_bad d t), None. split; auto. split; [right; split; auto; exists t; auto|].
      split; [tauto|]. split; [auto|]. intros H; tauto.
  - assert (Hov : ~ over (dfa_alphabet d) (w ++ l)).
    { intros H. apply over_app in H as [H _]. auto. }
    destruct l as [|a l].
    + simpl. destruct (nth_error_lt _ _ Hq) as [s Hs]. rewrite (index_Some _ _ _ Hs). simpl.
      exists (ev_bad d q), (Some s). split; auto. split; [right; split; auto; exists q; auto|].
      split; [tauto|]. split; [congruence|]. intros _ _. exists s; auto.
    + rewrite de_steps_bad by discriminate. simpl.
      exists (ev_bad d q), None. split; auto. split; [right; split; auto; exists q; auto|].
      split; [tauto|]. split; [auto|discriminate].
Qed.

Lemma de_run_after d cs : dfa_valid d -> exists e, de_run d cs = Ret e /\ de_after d (history_word cs) e.
Proof.
  intros V. unfold de_run.
  assert (H : forall cs w e, de_after d w e -> exists e', foldR de_call e cs = Ret e' /\ de_after d (w ++ history_word cs) e').
  { clear cs. induction cs as [|c cs IH]; intros w e Ha; simpl.
    - exists e. split; auto. unfold history_word; simpl. rewrite app_nil_r; auto.
    - assert (Hc : exists e1, de_call e c = Ret e1 /\ de_after d (w ++ call_word c) e1).
      { destruct c as [a|l]; simpl.
        - destruct (de_after_step d w e a V Ha) as (e' & o & -> & Ha' & _). simpl. eauto.
        - destruct (de_after_step_multiple d w e l V Ha) as (e' & o & -> & Ha' & _). simpl. eauto. }
      destruct Hc as (e1 & -> & Ha1). simpl. destruct (IH _ _ Ha1) as (e' & -> & Ha'). exists e'. split; auto.
      unfold history_word in *; simpl. rewrite app_assoc; auto. }
  destruct (H cs [] (dfa_evaluator d) (de_after_init d V)) as (e & He & Ha). eauto.
Qed.

Lemma de_after_observe d w e : dfa_valid d -> de_after d w e ->
  (over (dfa_alphabet d) w -> exists q s, dfa_path d (dfa_initial d) w q /\ nth_error (dfa_states d) q = Some s /\
        de_current_state_idx e = q /\ de_current_state e = Ret (Some s)) /\
  (~ over (dfa_alphabet d) w -> de_current_state e = Ret None) /\
  de_is_accepting e = dfa_accepts d w.
Proof.
  intros V Ha. destruct (dfa_accepts_correct d w V) as (b & Hb & Hiff). rewrite Hb.
  destruct Ha as [(q & Ho & Hp & Hq & ->) | (Hn & q & Hq & ->)].
  - destruct (nth_error_lt _ _ Hq) as [s Hs]. split; [|split].
    + intros _. exists q, s. split; auto. split; auto. split; auto. apply de_current_state_at; auto.
    + tauto.
    + destruct (de_is_accepting_at d q Hq) as (b' & -> & Hiff'). f_equal. apply eq_true_iff_eq. rewrite Hiff, Hiff'.
      unfold dfa_lang, dfa_state_lang. split; [eauto|]. intros (r & Hr & Hacc).
      rewrite (dfa_path_fun d _ _ _ _ (dv_alphabet _ V) Hp Hr). auto.
  - split; [tauto|]. split; [reflexivity|]. unfold de_is_accepting, de_current_state; simpl. f_equal.
    destruct b; auto. exfalso. apply Hn. apply dfa_lang_over. apply Hiff; auto.
Qed.

Lemma de_step_all_after d w e : dfa_valid d -> de_after d w e -> over (dfa_alphabet d) w ->
  exists es, de_step_all e = Ret es /\ Forall2 (fun a e' => de_after d (w ++ [a]) e') (dfa_alphabet d) es.
Proof.
  intros V Ha Ho. unfold de_step_all.
  assert (Ee : de_dfa e = d) by (destruct Ha as [(q & _ & _ & _ & ->) | (_ & q & _ & ->)]; auto). rewrite Ee.
  apply mapR_total. intros a _. destruct (de_after_step d w e a V Ha) as (e' & o & -> & Ha' & _). simpl. eauto.
Qed.
