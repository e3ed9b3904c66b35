(** * WordDfa: an automaton for a single word *)
From Coq Require Import List NArith Arith Bool Lia.
From Verif Require Import Base BaseLemmas Spec.
Import ListNotations.

Definition word_target (w : word) (q : nat) (a : str) : nat :=
  match nth_error w q with Some b => if list_eq_dec N.eq_dec a b then S q else S (length w) | None => S (length w) end.
Definition word_state (al : list str) (w : word) (q : nat) : dfa_state :=
  {| ds_name := dec q; ds_initial := q =? 0; ds_accepting := q =? length w; ds_transitions := map (word_target w q) al |}.
(** the state [q] has read the first [q] symbols, the last state has read something else *)
Definition word_dfa (al : list str) (w : word) : dfa :=
  {| dfa_alphabet := al; dfa_initial := 0; dfa_states := map (word_state al w) (seq 0 (S (S (length w)))) |}.

Lemma word_dfa_nth al w q s : nth_error (dfa_states (word_dfa al w)) q = Some s <-> q < S (S (length w)) /\ s = word_state al w q.
Proof.
  cbn [word_dfa dfa_states]. split.
  - intros H. assert (L : q < S (S (length w))).
    { rewrite <- (seq_length (S (S (length w))) 0), <- (map_length (word_state al w)). apply nth_error_Some. congruence. }
    split; auto. erewrite map_nth_error in H; [injection H as <-; reflexivity|].
    rewrite (nth_error_nth' _ 0) by (rewrite seq_length; auto). rewrite seq_nth by auto. reflexivity.
  - intros (L & ->). apply map_nth_error. rewrite (nth_error_nth' _ 0) by (rewrite seq_length; auto). rewrite seq_nth by auto. reflexivity.
Qed.
Lemma word_target_le w q a : q < S (S (length w)) -> word_target w q a < S (S (length w)).
Proof.
  unfold word_target. intros H. destruct (nth_error w q) eqn:E; [|lia]. destruct list_eq_dec; [|lia].
  assert (q < length w) by (apply nth_error_Some; congruence). lia.
Qed.
Lemma word_dfa_valid al w : NoDup al -> dfa_valid (word_dfa al w).
Proof.
  intros H. constructor.
  - exact H.
  - cbn [word_dfa dfa_states]. rewrite map_map. cbn [word_state ds_name]. apply map_dec_NoDup, seq_NoDup.
  - cbn [word_dfa dfa_states dfa_initial]. rewrite map_length, seq_length. lia.
  - intros q s Hs. apply word_dfa_nth in Hs as (_ & ->). cbn. apply Nat.eqb_eq.
  - intros q s Hs. apply word_dfa_nth in Hs as (_ & ->). cbn. apply map_length.
  - intros q s t Hs Ht. apply word_dfa_nth in Hs as (L & ->). cbn in Ht. apply in_map_iff in Ht as (a & <- & _).
    cbn [word_dfa dfa_states]. rewrite map_length, seq_length. apply word_target_le; auto.
Qed.
Lemma word_dfa_edge al w p a q : dfa_edge (word_dfa al w) p a q <-> In a al /\ p < S (S (length w)) /\ q = word_target w p a.
Proof.
  split.
  - intros (i & s & Ha & Hs & Hq). apply word_dfa_nth in Hs as (L & ->). cbn in Ha, Hq. rewrite (map_nth_error _ _ _ Ha) in Hq. injection Hq as <-.
    split; auto. eapply nth_error_In; eauto.
  - intros (Ha & L & ->). apply In_nth_error in Ha as (i & Hi). exists i, (word_state al w p). split; auto.
    split; [apply word_dfa_nth; auto|]. cbn. apply map_nth_error. exact Hi.
Qed.
Lemma word_dfa_accepting al w q : dfa_accepting (word_dfa al w) q <-> q = length w.
Proof.
  split.
  - intros (s & Hs & Ha). apply word_dfa_nth in Hs as (_ & ->). apply Nat.eqb_eq. exact Ha.
  - intros ->. exists (word_state al w (length w)). split; [apply word_dfa_nth; split; [lia|reflexivity]|]. cbn. apply Nat.eqb_refl.
Qed.
Lemma word_dfa_suffix al w v : forall q, q < S (S (length w)) ->
  (dfa_state_lang (word_dfa al w) q v <-> over al v /\ q <= length w /\ v = skipn q w).
Proof.
  induction v as [|a v IH]; intros q L.
  - split.
    + intros (r & P & Ha). inversion P; subst. apply word_dfa_accepting in Ha. subst. split; [constructor|]. split; auto. rewrite skipn_all. reflexivity.
    + intros (_ & Hq & E). assert (q = length w) by (apply (f_equal (@length _)) in E; rewrite skipn_length in E; simpl in E; lia). subst.
      exists (length w). split; [constructor|apply word_dfa_accepting; auto].
  - assert (K : dfa_state_lang (word_dfa al w) q (a :: v) <-> In a al /\ dfa_state_lang (word_dfa al w) (word_target w q a) v).
    { split.
      - intros (r & P & Ha). inversion P as [|? ? t ? ? He Pv]; subst. apply word_dfa_edge in He as (H1 & _ & ->). split; auto. exists r; auto.
      - intros (Hi & r & P & Ha). exists r. split; auto. econstructor; eauto. apply word_dfa_edge; auto. }
    rewrite K, IH by (apply word_target_le; auto). unfold word_target. destruct (nth_error w q) as [b|] eqn:E.
    + assert (Lq : q < length w) by (apply nth_error_Some; congruence).
      assert (S' : skipn q w = b :: skipn (S q) w).
      { clear - E. revert q E. induction w as [|x w IHw]; intros [|q] E; try discriminate; simpl in *; [congruence|]. apply IHw; auto. }
      destruct list_eq_dec as [->|N].
      * rewrite S'. unfold over. rewrite Forall_cons_iff. split.
        -- intros (Hi & Ho & _ & ->). repeat split; auto. lia.
        -- intros ((Hi & Ho) & _ & [= ->]). repeat split; auto.
      * split; [intros (_ & _ & X & _); lia|]. rewrite S'. intros (_ & _ & [= -> _]). congruence.
    + apply nth_error_None in E. split; [intros (_ & _ & X & _); lia|]. intros (_ & Hq & X). rewrite skipn_all2 in X by auto. discriminate.
Qed.
Lemma word_dfa_lang al w v : over al w -> (dfa_lang (word_dfa al w) v <-> v = w).
Proof.
  intros Hw. unfold dfa_lang. cbn [word_dfa dfa_initial]. rewrite word_dfa_suffix by lia. cbn [skipn].
  split; [intros (_ & _ & ->); auto|intros ->; repeat split; auto; lia].
Qed.
