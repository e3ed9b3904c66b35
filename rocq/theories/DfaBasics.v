(** * Basic facts about valid DFAs and their evaluators *)
From Coq Require Import List NArith Arith Bool Lia Permutation.
From Verif Require Import Base BaseLemmas Spec Search DfaModel.
Import ListNotations.

(** ** Paths *)
Lemma dfa_edge_fun d p a q q' : NoDup (dfa_alphabet d) -> dfa_edge d p a q -> dfa_edge d p a q' -> q = q'.
Proof.
  intros Hnd (i & s & Hi & Hs & Hq) (j & s' & Hj & Hs' & Hq').
  assert (i = j) by (eapply NoDup_nth_error_inj; eauto). congruence.
Qed.

Lemma dfa_edge_total d p a : dfa_valid d -> p < length (dfa_states d) -> In a (dfa_alphabet d) ->
  exists q, dfa_edge d p a q /\ q < length (dfa_states d).
Proof.
  intros Hv Hp Ha. apply In_nth_error in Ha as [i Hi].
  destruct (nth_error_lt _ _ Hp) as [s Hs].
  destruct (nth_error_lt (ds_transitions s) i) as [q Hq].
  { rewrite (dv_width _ Hv _ _ Hs). eapply nth_error_length; eauto. }
  exists q. split; [exists i, s; auto|]. eapply dv_range; eauto. eapply nth_error_In; eauto.
Qed.

Lemma dfa_edge_range d p a q : dfa_valid d -> dfa_edge d p a q ->
  In a (dfa_alphabet d) /\ p < length (dfa_states d) /\ q < length (dfa_states d).
Proof.
  intros Hv (i & s & Hi & Hs & Hq). split; [eapply nth_error_In; eauto|].
  split; [eapply nth_error_length; eauto|]. eapply dv_range; eauto. eapply nth_error_In; eauto.
Qed.

Lemma dfa_edge_elem d p a q : dfa_edge d p a q -> In a (dfa_alphabet d).
Proof. intros (i & s & Hi & Hs & Hq). eapply nth_error_In; eauto. Qed.
Lemma dfa_edge_src d p a q : dfa_edge d p a q -> p < length (dfa_states d).
Proof. intros (i & s & Hi & Hs & Hq). eapply nth_error_length; eauto. Qed.
Lemma dfa_edge_dst d p a q : dfa_valid d -> dfa_edge d p a q -> q < length (dfa_states d).
Proof. intros Hv He. apply (dfa_edge_range _ _ _ _ Hv He). Qed.

Lemma dfa_path_over d p w q : dfa_path d p w q -> over (dfa_alphabet d) w.
Proof.
  induction 1 as [|p a q w r He Hp IH]; constructor; auto.
  destruct He as (i & s & Hi & _). eapply nth_error_In; eauto.
Qed.

Lemma dfa_path_fun d p w q q' : NoDup (dfa_alphabet d) -> dfa_path d p w q -> dfa_path d p w q' -> q = q'.
Proof.
  intros Hnd Hp; revert q'. induction Hp as [|p a q w r He Hp IH]; intros q' Hp'; inv Hp'; auto.
  apply IH. rewrite (dfa_edge_fun d p a q q0); auto.
Qed.

Lemma dfa_path_range d p w q : dfa_valid d -> p < length (dfa_states d) -> dfa_path d p w q -> q < length (dfa_states d).
Proof.
  intros Hv Hr Hp. induction Hp as [|p a q w r He Hp IH]; auto. apply IH. eapply dfa_edge_range; eauto.
Qed.

Lemma dfa_path_total d p w : dfa_valid d -> p < length (dfa_states d) -> over (dfa_alphabet d) w ->
  exists q, dfa_path d p w q /\ q < length (dfa_states d).
Proof.
  intros Hv Hp Hw; revert p Hp. induction Hw as [|a w Ha Hw IH]; intros p Hp.
  - exists p; split; [constructor|auto].
  - destruct (dfa_edge_total d p a Hv Hp Ha) as (q & He & Hq). destruct (IH q Hq) as (r & Hr & Hl).
    exists r; split; auto. econstructor; eauto.
Qed.

Lemma dfa_path_app d p u q v r : dfa_path d p u q -> dfa_path d q v r -> dfa_path d p (u ++ v) r.
Proof. induction 1; simpl; auto. intros. econstructor; eauto. Qed.

Lemma dfa_path_app_inv d p u v r : dfa_path d p (u ++ v) r -> exists q, dfa_path d p u q /\ dfa_path d q v r.
Proof.
  revert p; induction u as [|a u IH]; simpl; intros p Hp.
  - exists p; split; [constructor|auto].
  - inv Hp. apply IH in H4 as (q' & H1 & H4). exists q'. split; auto. econstructor; eauto.
Qed.

Lemma dfa_path_snoc d p u q a r : dfa_path d p u q -> dfa_edge d q a r -> dfa_path d p (u ++ [a]) r.
Proof. intros Hp He. eapply dfa_path_app; eauto. econstructor; eauto. constructor. Qed.

Lemma dfa_state_lang_cons d p a w q :
  NoDup (dfa_alphabet d) -> dfa_edge d p a q -> (dfa_state_lang d p (a :: w) <-> dfa_state_lang d q w).
Proof.
  intros Hnd He. split.
  - intros (r & Hp & Ha). inv Hp. rewrite (dfa_edge_fun d p a q q0); auto. exists r; auto.
  - intros (r & Hp & Ha). exists r; split; auto. econstructor; eauto.
Qed.

Lemma dfa_state_lang_nil d p : dfa_state_lang d p [] <-> dfa_accepting d p.
Proof. split; [intros (r & Hp & Ha); inv Hp; auto|]. intros; exists p; split; auto; constructor. Qed.

Lemma dfa_state_lang_over d p w : dfa_state_lang d p w -> over (dfa_alphabet d) w.
Proof. intros (q & Hp & _). eapply dfa_path_over; eauto. Qed.

Lemma dfa_lang_over d w : dfa_lang d w -> over (dfa_alphabet d) w.
Proof. apply dfa_state_lang_over. Qed.

Lemma dfa_accepting_dec d p : {dfa_accepting d p} + {~ dfa_accepting d p}.
Proof.
  destruct (nth_error (dfa_states d) p) as [s|] eqn:E.
  - destruct (ds_accepting s) eqn:Ea; [left; exists s; auto|right]. intros (s' & Hs & Ha). congruence.
  - right. intros (s' & Hs & Ha). congruence.
Qed.

Lemma over_dec l w : {over l w} + {~ over l w}.
Proof. apply Forall_dec. intros a. apply In_dec. Qed.

Lemma over_app l u v : over l (u ++ v) <-> over l u /\ over l v.
Proof. apply Forall_app. Qed.

Lemma over_ext l l' w : same_set l l' -> over l w -> over l' w.
Proof. intros Hs. apply Forall_impl. intros a. apply Hs. Qed.

(** ** Alphabets *)
Lemma alphabet_equal_spec a b : NoDup a -> NoDup b -> reflect (same_set a b) (alphabet_equal a b).
Proof.
  intros Ha Hb. unfold alphabet_equal. destruct (Nat.eqb_spec (length a) (length b)) as [Hl|Hl]; simpl.
  - rewrite !hs_collect_id by auto. destruct (hs_eqb_spec a b Ha Hb); constructor; auto.
  - constructor. intros Heq. apply Hl. apply Nat.le_antisymm; apply NoDup_incl_length; auto; intros x; apply Heq.
Qed.

Lemma rev_map_keys {A} (l : list A) : map fst (map (fun p => (snd p, fst p)) (enumerate l)) = l.
Proof. rewrite map_map. simpl. apply enumerate_snd. Qed.

Lemma rev_map_get {A} `{Eqb A} (l : list A) a i :
  NoDup l ->
  (hm_get a (hm_collect (map (fun p => (snd p, fst p)) (enumerate l))) = Some i <-> nth_error l i = Some a).
Proof.
  intros Hnd. rewrite hm_collect_id by (rewrite rev_map_keys; auto). split.
  - intros Hg. apply hm_get_In in Hg. apply in_map_iff in Hg as ([j b] & E & Hin). simpl in E. inv E.
    apply enumerate_In; auto.
  - intros Hn. apply hm_In_get; [rewrite rev_map_keys; auto|]. apply in_map_iff. exists (i, a). split; auto.
    apply enumerate_In; auto.
Qed.

Lemma rev_map_get_None {A} `{Eqb A} (l : list A) a :
  NoDup l ->
  (hm_get a (hm_collect (map (fun p => (snd p, fst p)) (enumerate l))) = None <-> ~ In a l).
Proof.
  intros Hnd. rewrite hm_collect_id by (rewrite rev_map_keys; auto). rewrite hm_get_None, rev_map_keys. tauto.
Qed.

(** ** Evaluators *)
(** the evaluator of [d] in state [q] that has seen no unknown element (and one that has) *)
Definition ev_at (d : dfa) (q : nat) : dfa_eval :=
  mk_dfa_eval d (hm_collect (map (fun p => (snd p, fst p)) (enumerate (dfa_alphabet d)))) q false.
Definition ev_bad (d : dfa) (q : nat) : dfa_eval :=
  mk_dfa_eval d (hm_collect (map (fun p => (snd p, fst p)) (enumerate (dfa_alphabet d)))) q true.

Lemma dfa_evaluator_at d : dfa_evaluator d = ev_at d (dfa_initial d).
Proof. reflexivity. Qed.

Lemma de_step_known d q a q' :
  dfa_valid d -> dfa_edge d q a q' ->
  exists s', nth_error (dfa_states d) q' = Some s' /\ de_step (ev_at d q) a = Ret (ev_at d q', Some s').
Proof.
  intros Hv He. pose proof (dfa_edge_range _ _ _ _ Hv He) as (_ & _ & Hq').
  destruct He as (i & s & Hi & Hs & Ht). destruct (nth_error_lt _ _ Hq') as [s' Hs'].
  exists s'; split; auto. unfold de_step, ev_at; simpl.
  apply (rev_map_get _ _ _ (dv_alphabet _ Hv)) in Hi. rewrite Hi. simpl.
  rewrite (index_Some _ _ _ Hs). simpl. rewrite (index_Some _ _ _ Ht). simpl. rewrite (index_Some _ _ _ Hs'). auto.
Qed.

Lemma de_step_unknown d q a :
  dfa_valid d -> ~ In a (dfa_alphabet d) -> de_step (ev_at d q) a = Ret (ev_bad d q, None).
Proof.
  intros Hv Ha. unfold de_step, ev_at; simpl.
  apply (rev_map_get_None _ _ (dv_alphabet _ Hv)) in Ha. rewrite Ha. auto.
Qed.

Lemma de_step_bad d q a : de_step (ev_bad d q) a = Ret (ev_bad d q, None).
Proof. reflexivity. Qed.

Lemma de_current_state_at d q s : nth_error (dfa_states d) q = Some s -> de_current_state (ev_at d q) = Ret (Some s).
Proof. intros Hs. unfold de_current_state; simpl. rewrite (index_Some _ _ _ Hs). auto. Qed.

Lemma de_is_accepting_at d q : q < length (dfa_states d) ->
  exists b, de_is_accepting (ev_at d q) = Ret b /\ (b = true <-> dfa_accepting d q).
Proof.
  intros Hq. destruct (nth_error_lt _ _ Hq) as [s Hs]. unfold de_is_accepting.
  rewrite (de_current_state_at _ _ _ Hs). simpl. exists (ds_accepting s). split; auto. split.
  - intros Ha; exists s; auto.
  - intros (s' & Hs' & Ha). congruence.
Qed.

(** [de_steps] follows the path as long as the elements are known. *)
Lemma de_steps_over d p w q : dfa_valid d -> dfa_path d p w q -> de_steps (ev_at d p) w = Ret (ev_at d q, true).
Proof.
  intros Hv Hp. induction Hp as [|p a q w r He Hp IH]; auto.
  destruct (de_step_known d p a q Hv He) as (s' & Hs' & Hst).
  unfold de_steps; fold de_steps. rewrite Hst. simpl. exact IH.
Qed.

Lemma de_steps_not_over d p w : dfa_valid d -> p < length (dfa_states d) -> ~ over (dfa_alphabet d) w ->
  exists q, q < length (dfa_states d) /\ de_steps (ev_at d p) w = Ret (ev_bad d q, false).
Proof.
  intros Hv; revert p. induction w as [|a w IH]; intros p Hp Hn.
  - exfalso. apply Hn. constructor.
  - unfold de_steps; fold de_steps. destruct (In_dec a (dfa_alphabet d)) as [Ha|Ha].
    + destruct (dfa_edge_total d p a Hv Hp Ha) as (q & He & Hq).
      destruct (de_step_known d p a q Hv He) as (s' & Hs' & ->). simpl.
      apply IH; auto. intros Ho. apply Hn. constructor; auto.
    + rewrite (de_step_unknown d p a Hv Ha). simpl. eauto.
Qed.

Lemma de_steps_bad d p w : w <> [] -> de_steps (ev_bad d p) w = Ret (ev_bad d p, false).
Proof. destruct w; auto; congruence. Qed.

Lemma dfa_accepts_correct d w : dfa_valid d -> exists b, dfa_accepts d w = Ret b /\ (b = true <-> dfa_lang d w).
Proof.
  intros Hv. unfold dfa_accepts, de_step_multiple. rewrite dfa_evaluator_at.
  pose proof (dv_initial _ Hv) as Hi.
  destruct (over_dec (dfa_alphabet d) w) as [Ho|Ho].
  - destruct (dfa_path_total d _ w Hv Hi Ho) as (q & Hp & Hq).
    rewrite (de_steps_over d _ w q Hv Hp). simpl.
    destruct (nth_error_lt _ _ Hq) as [s Hs]. rewrite (index_Some _ _ _ Hs). simpl.
    destruct (de_is_accepting_at d q Hq) as (b & Hb & Hiff). exists b; split; auto. rewrite Hiff. split.
    + intros Ha. exists q; auto.
    + intros (q' & Hp' & Ha). rewrite (dfa_path_fun d _ w q q' (dv_alphabet _ Hv) Hp Hp'); auto.
  - destruct (de_steps_not_over d _ w Hv Hi Ho) as (q & Hq & ->). simpl. exists false; split; auto.
    split; [discriminate|]. intros Hl. apply dfa_lang_over in Hl. tauto.
Qed.
