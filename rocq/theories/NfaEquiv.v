(** * Equivalence of NFAs *)
From Coq Require Import List NArith Arith Bool Lia Permutation Sorted.
From Verif Require Import Base BaseLemmas Spec Search SearchProofs DfaModel DfaBasics DfaEquiv NfaModel NfaBasics Histories.
Import ListNotations.

(** ** The subsets of a list of numbers *)
Fixpoint subsets (l : list nat) : list (list nat) :=
  match l with [] => [[]] | x :: xs => subsets xs ++ map (cons x) (subsets xs) end.

Lemma subsets_length l : length (subsets l) = 2 ^ length l.
Proof. induction l; simpl; auto. rewrite app_length, map_length. lia. Qed.

Lemma subsets_sorted k len l : StronglySorted lt l -> Forall (fun x => k <= x < k + len) l -> In l (subsets (seq k len)).
Proof.
  revert k l; induction len as [|len IH]; intros k l Hs Hr; simpl.
  - destruct l as [|x l]; [left; auto|]. inversion Hr; subst. lia.
  - apply in_app_iff. destruct l as [|x l].
    + left. apply IH; constructor.
    + inversion Hs as [|? ? Hs' Hlt]; subst. inversion Hr as [|? ? Hx Hr']; subst. rewrite Forall_forall in *.
      destruct (Nat.eq_dec x k) as [->|Hne].
      * right. apply in_map. apply IH; auto. apply Forall_forall. intros y Hy. specialize (Hlt y Hy). specialize (Hr' y Hy). lia.
      * left. apply IH; auto. constructor; [lia|]. apply Forall_forall. intros y Hy. specialize (Hlt y Hy). specialize (Hr' y Hy). lia.
Qed.

Lemma set_to_vec_in_subsets len l : NoDup l -> Forall (fun x => x < len) l -> In (set_to_vec l) (subsets (seq 0 len)).
Proof.
  intros Hnd Hr. apply subsets_sorted.
  - apply sorted_lt; [apply sort_NoDup; auto|apply sort_sorted].
  - rewrite Forall_forall in *. intros x Hx. unfold set_to_vec in Hx. rewrite sort_In in Hx. specialize (Hr x Hx). lia.
Qed.

Lemma set_to_vec_eq l l' : NoDup l -> NoDup l' -> (set_to_vec l = set_to_vec l' <-> forall x, In x l <-> In x l').
Proof. apply sort_eq_set. Qed.

(** Two evaluators of one NFA with the same key are at the same words *)
Lemma ne_at_key n u u' unk e e' : ne_at n u unk e -> ne_at n u' unk e' ->
  set_to_vec (ne_current_states_idx e') = set_to_vec (ne_current_states_idx e) -> ne_at n u unk e'.
Proof.
  intros (E1 & E2 & E3 & Hnd & Hin) (F1 & F2 & F3 & Hnd' & Hin') Hk.
  rewrite set_to_vec_eq in Hk by auto. unfold ne_current_states_idx in Hk.
  split; auto. split; auto. split; auto. split; auto. intros q. rewrite Hk. apply Hin.
Qed.

Lemma ne_at_key_eq n u e e' : ne_at n u false e -> ne_at n u false e' ->
  set_to_vec (ne_current_states_idx e') = set_to_vec (ne_current_states_idx e).
Proof.
  intros (E1 & E2 & E3 & Hnd & Hin) (F1 & F2 & F3 & Hnd' & Hin').
  apply set_to_vec_eq; auto. unfold ne_current_states_idx. intros q. rewrite Hin, Hin'. tauto.
Qed.

Lemma nfa_lang_at n w : nfa_lang n w <-> exists q, nfa_path n (nfa_initial n) w q /\ nfa_accepting n q.
Proof. reflexivity. Qed.

Lemma bool_iff_eq (a b : bool) : (a = true <-> b = true) -> a = b.
Proof. destruct a, b; intuition congruence. Qed.

Theorem nfa_equivalent_to_correct n1 n2 : nfa_valid n1 -> nfa_valid n2 ->
  exists b, nfa_equivalent_to n1 n2 = Ret b /\
            (b = true <-> same_set (nfa_alphabet n1) (nfa_alphabet n2) /\ forall w, nfa_lang n1 w <-> nfa_lang n2 w).
Proof.
  intros V1 V2. unfold nfa_equivalent_to.
  destruct (alphabet_equal_spec _ _ (nv_alphabet _ V1) (nv_alphabet _ V2)) as [Hs|Hs]; simpl.
  2:{ exists false. split; auto. split; [discriminate|tauto]. }
  destruct (nfa_evaluator_at n1 V1) as (e1 & -> & He1). destruct (nfa_evaluator_at n2 V2) as (e2 & -> & He2). simpl.
  match goal with |- context[search ne_pair_key ?v _ _] => set (visit := v) end.
  pose (At := fun w (t : nfa_eval * nfa_eval) => ne_at n1 w false (fst t) /\ ne_at n2 w false (snd t)).
  assert (Hvisit : forall w t, At w t -> exists r, visit t = Ret r /\
            match r with
            | None => ~ (nfa_lang n1 w <-> nfa_lang n2 w)
            | Some (_, succs) => (nfa_lang n1 w <-> nfa_lang n2 w) /\
                                 Forall2 (fun a t' => At (w ++ [a]) t') (nfa_alphabet n1) succs
            end).
  { intros w [d1 d2] [H1 H2]; simpl in *. unfold visit; simpl.
    destruct (ne_is_accepting_at n1 w false d1 V1 H1) as (a1 & -> & I1).
    destruct (ne_is_accepting_at n2 w false d2 V2 H2) as (a2 & -> & I2). simpl.
    assert (L1 : a1 = true <-> nfa_lang n1 w) by (rewrite I1, nfa_lang_at; tauto).
    assert (L2 : a2 = true <-> nfa_lang n2 w) by (rewrite I2, nfa_lang_at; tauto).
    destruct (Bool.eqb a1 a2) eqn:E; simpl.
    - apply Bool.eqb_prop in E. subst a2.
      match goal with |- context[mapR ?f (nfa_alphabet n1)] =>
        destruct (mapR_total f (fun a t' => At (w ++ [a]) t') (nfa_alphabet n1)) as (su & Hsu & HF) end.
      { intros a Ha. destruct (ne_step_known n1 w false d1 a V1 H1 Ha) as (d1' & -> & Hd1). simpl.
        destruct (ne_step_known n2 w false d2 a V2 H2) as (d2' & -> & Hd2); [apply Hs; auto|]. simpl.
        eexists; split; [reflexivity|]. split; auto. }
      rewrite Hsu. simpl. eexists; split; [reflexivity|]. simpl. split; auto. rewrite <- L1, <- L2. tauto.
    - eexists; split; [reflexivity|]. simpl. rewrite <- L1, <- L2. intros Hx. apply bool_iff_eq in Hx. subst.
      rewrite Bool.eqb_reflx in E. discriminate. }
  pose (Good := fun t => exists w, At w t).
  destruct (search_spec ne_pair_key visit Good
              (list_prod (subsets (seq 0 (length (nfa_states n1)))) (subsets (seq 0 (length (nfa_states n2))))))
    with (k := S (length (nfa_states n1) + length (nfa_states n2))) (t0 := (e1, e2)) as (r & Hr & Hres).
  - intros [d1 d2] (w & H1 & H2). simpl in *. unfold ne_pair_key. simpl. apply in_prod; apply set_to_vec_in_subsets.
    + apply H1.
    + eapply ne_at_range; eauto.
    + apply H2.
    + eapply ne_at_range; eauto.
  - intros t (w & Hw). destruct (Hvisit w t Hw) as (r & Hr & Hm). exists r. split; auto. destruct r as [[o succs]|]; auto.
    destruct Hm as [_ HF]. apply Forall_forall. intros t' Ht'. destruct (Forall2_In_r _ _ _ _ HF Ht') as (a & _ & Ha).
    exists (w ++ [a]); auto.
  - exists []. split; auto.
  - rewrite list_prod_length, !subsets_length, !seq_length. simpl. rewrite Nat.pow_add_r. lia.
  - rewrite Hr. simpl. eexists; split; [reflexivity|]. destruct r as [[seen out]|].
    + split; auto. intros _. split; auto. destruct Hres as (done & Hhd & Hnd & Hp & Hre & HF).
      assert (Hgood : forall t, In t done -> Good t).
      { intros t Ht. rewrite Forall_forall in Hre. apply (reach_Good visit Good) with (t0 := (e1, e2)).
        - intros t1 (w1 & Hw1). destruct (Hvisit w1 t1 Hw1) as (r1 & Hr1 & Hm1). exists r1. split; auto.
          destruct r1 as [[o succs]|]; auto. destruct Hm1 as [_ HF1]. apply Forall_forall. intros t' Ht'.
          destruct (Forall2_In_r _ _ _ _ HF1 Ht') as (a & _ & Ha). exists (w1 ++ [a]); auto.
        - exists []. split; auto.
        - auto. }
      assert (Hall : forall w, over (nfa_alphabet n1) w -> exists t, In t done /\ At w t).
      { intros w. induction w as [|a w IH] using rev_ind; intros Ho.
        - exists (e1, e2). split; [destruct done; simpl in *; [discriminate|injection Hhd as ->; left; auto]|]. split; auto.
        - apply over_app in Ho as [Ho Ha]. inversion Ha as [|? ? Hin _]; subst. destruct (IH Ho) as (t & Ht & Hat).
          destruct (Forall2_In_l _ _ _ _ HF Ht) as (o & _ & succs & Hv & Hcl).
          destruct (Hvisit w t Hat) as (r & Hr' & Hm). rewrite Hv in Hr'. injection Hr' as <-. destruct Hm as [_ HFs].
          destruct (Forall2_In_l _ _ _ _ HFs Hin) as (t' & Ht' & Hat'). apply Hcl in Ht'.
          apply in_map_iff in Ht' as (t2 & Hk & Ht2). exists t2. split; auto. destruct (Hgood t2 Ht2) as (w2 & H1 & H2).
          unfold ne_pair_key in Hk. injection Hk as K1 K2. destruct Hat' as [A1 A2].
          split; [exact (ne_at_key n1 (w ++ [a]) w2 false _ _ A1 H1 K1)|exact (ne_at_key n2 (w ++ [a]) w2 false _ _ A2 H2 K2)]. }
      intros w. destruct (over_dec (nfa_alphabet n1) w) as [Ho|Ho].
      * destruct (Hall w Ho) as (t & Ht & Hat). destruct (Forall2_In_l _ _ _ _ HF Ht) as (o & _ & succs & Hv & _).
        destruct (Hvisit w t Hat) as (r & Hr' & Hm). rewrite Hv in Hr'. injection Hr' as <-. apply Hm.
      * split; intros Hl; exfalso; apply Ho.
        -- apply nfa_lang_over; auto.
        -- apply (over_ext (nfa_alphabet n2)); [apply same_set_sym; auto|]. apply nfa_lang_over; auto.
    + split; [discriminate|]. intros [_ Hl]. exfalso. destruct Hres as (t & Ht & Hv).
      assert (Hg : Good t).
      { apply (reach_Good visit Good) with (t0 := (e1, e2)).
        - intros t1 (w1 & Hw1). destruct (Hvisit w1 t1 Hw1) as (r1 & Hr1 & Hm1). exists r1. split; auto.
          destruct r1 as [[o succs]|]; auto. destruct Hm1 as [_ HF1]. apply Forall_forall. intros t' Ht'.
          destruct (Forall2_In_r _ _ _ _ HF1 Ht') as (a & _ & Ha). exists (w1 ++ [a]); auto.
        - exists []. split; auto.
        - auto. }
      destruct Hg as (w & Hw). destruct (Hvisit w t Hw) as (r & Hr' & Hm). rewrite Hv in Hr'. injection Hr' as <-.
      apply Hm, Hl.
Qed.
