(** * HistoryForeign: evaluators after an element outside of the alphabet *)
From Coq Require Import List NArith Arith Bool Lia Permutation.
From Verif Require Import Base BaseLemmas Spec DfaModel NfaModel Histories HistorySpec DfaBasics DfaHistory NfaBasics.
Import ListNotations.

Lemma before_foreign_exists al w : ~ over al w -> exists u, before_foreign al w u.
Proof.
  induction w as [|a w IH]; intros Hn; [exfalso; apply Hn; constructor|]. destruct (mem_spec a al) as [Ha|Ha].
  - destruct IH as (u & b & v & -> & Ho & Hb); [intros H; apply Hn; constructor; auto|]. exists (a :: u), b, v. split; auto. split; auto. constructor; auto.
  - exists [], a, w. split; auto. split; auto. constructor.
Qed.
Lemma before_foreign_not_over al w u : before_foreign al w u -> ~ over al w.
Proof. intros (a & v & -> & _ & Ha) H. apply over_app in H as [_ H]. inv H. auto. Qed.
Lemma before_foreign_app al w u v : before_foreign al w u -> before_foreign al (w ++ v) u.
Proof. intros (a & v' & -> & H). exists a, (v' ++ v). rewrite <- app_assoc. auto. Qed.
Lemma before_foreign_unique al w : forall u u', before_foreign al w u -> before_foreign al w u' -> u = u'.
Proof.
  induction w as [|x w IH]; intros u u' (a & v & E & Ho & Ha) (a' & v' & E' & Ho' & Ha'); [destruct u; discriminate|].
  destruct u as [|y u], u' as [|y' u']; auto; injection E as -> E; injection E' as -> E'.
  - inv Ho'. contradiction.
  - inv Ho. contradiction.
  - inv Ho. inv Ho'. f_equal. apply IH; [exists a, v|exists a', v']; auto.
Qed.

(** ** DFAs *)
Definition bad_after (d : dfa) (w : word) (e : dfa_eval) : Prop :=
  exists u q, before_foreign (dfa_alphabet d) w u /\ dfa_path d (dfa_initial d) u q /\ q < length (dfa_states d) /\ e = ev_bad d q.
Definition de_exact (d : dfa) (w : word) (e : dfa_eval) : Prop :=
  (exists q, dfa_path d (dfa_initial d) w q /\ q < length (dfa_states d) /\ e = ev_at d q) \/ bad_after d w e.
Lemma de_steps_stop d (V : dfa_valid d) u a v p q : dfa_path d p u q -> ~ In a (dfa_alphabet d) ->
  de_steps (ev_at d p) (u ++ a :: v) = Ret (ev_bad d q, false).
Proof.
  intros Hp Ha. induction Hp as [p|p b p' w r He Hp IH].
  - cbn [app de_steps]. rewrite (de_step_unknown d p a V Ha). reflexivity.
  - cbn [app de_steps]. destruct (de_step_known d p b p' V He) as (s' & _ & ->). cbn [bind]. exact IH.
Qed.
Lemma de_call_exact d (V : dfa_valid d) w e c : de_exact d w e -> exists e', de_call e c = Ret e' /\ de_exact d (w ++ call_word c) e'.
Proof.
  intros [(q & Hp & Hq & ->)|(u & q & Hb & Hp & Hq & ->)].
  - assert (Ow : over (dfa_alphabet d) w) by (eapply dfa_path_over; eauto). destruct c as [a|l]; cbn [de_call call_word].
    + destruct (mem_spec a (dfa_alphabet d)) as [Ha|Ha].
      * destruct (dfa_edge_total d q a V Hq Ha) as (t & He & Ht). destruct (de_step_known d q a t V He) as (s' & _ & ->). cbn [bind].
        exists (ev_at d t). split; auto. left. exists t. split; auto. eapply dfa_path_snoc; eauto.
      * rewrite (de_step_unknown d q a V Ha). cbn [bind]. exists (ev_bad d q). split; auto. right. exists w, q. split; auto. exists a, []. auto.
    + destruct (over_dec (dfa_alphabet d) l) as [Hl|Hl].
      * destruct (dfa_path_total d q l V Hq Hl) as (t & Ht & Htr). unfold de_step_multiple. rewrite (de_steps_over d q l t V Ht). cbn [bind].
        destruct (nth_error_lt _ _ Htr) as [s Hs]. cbn [de_dfa de_current ev_at]. rewrite (index_Some _ _ _ Hs). cbn [bind].
        exists (ev_at d t). split; auto. left. exists t. split; auto. eapply dfa_path_app; eauto.
      * destruct (before_foreign_exists _ _ Hl) as (u & a & v & -> & Hu & Ha). destruct (dfa_path_total d q u V Hq Hu) as (t & Ht & Htr).
        unfold de_step_multiple. rewrite (de_steps_stop d V u a v q t Ht Ha). cbn [bind]. exists (ev_bad d t). split; auto. right. exists (w ++ u), t.
        split; [|split; [eapply dfa_path_app; eauto|auto]]. exists a, v. rewrite app_assoc. split; auto. split; auto. apply over_app. auto.
  - assert (B : bad_after d (w ++ call_word c) (ev_bad d q)) by (exists u, q; split; [apply before_foreign_app; auto|auto]).
    exists (ev_bad d q). split; [|right; auto]. destruct c as [a|l]; cbn [de_call]; [reflexivity|]. unfold de_step_multiple. destruct l as [|a l].
    + cbn [de_steps bind]. destruct (nth_error_lt _ _ Hq) as [s Hs]. cbn [de_dfa de_current ev_bad]. rewrite (index_Some _ _ _ Hs). reflexivity.
    + rewrite de_steps_bad by discriminate. reflexivity.
Qed.
Lemma de_run_exact d cs e : dfa_valid d -> de_run d cs = Ret e -> de_exact d (history_word cs) e.
Proof.
  intros V. unfold de_run.
  assert (H : forall cs w e, de_exact d w e -> exists e', foldR de_call e cs = Ret e' /\ de_exact d (w ++ history_word cs) e').
  { clear cs e. induction cs as [|c cs IH]; intros w e Ha; cbn [foldR].
    - exists e. split; auto. unfold history_word; simpl. rewrite app_nil_r; auto.
    - destruct (de_call_exact d V w e c Ha) as (e1 & -> & H1). cbn [bind]. destruct (IH _ _ H1) as (e2 & -> & H2). exists e2. split; auto.
      unfold history_word in *. cbn [map concat]. rewrite app_assoc. auto. }
  intros E. destruct (H cs [] (dfa_evaluator d)) as (e' & E' & Ha).
  - left. exists (dfa_initial d). split; [constructor|]. split; [apply dv_initial; auto|]. apply dfa_evaluator_at.
  - rewrite E in E'. injection E' as <-. exact Ha.
Qed.
Theorem dfa_after_foreign d cs e u : dfa_valid d -> de_run d cs = Ret e -> before_foreign (dfa_alphabet d) (history_word cs) u ->
  exists q s, dfa_path d (dfa_initial d) u q /\ nth_error (dfa_states d) q = Some s /\ de_current_state_idx e = q /\
    de_current_state e = Ret None /\ de_is_accepting e = Ret false /\
    (forall a, de_step e a = Ret (e, None)) /\
    (forall l, de_step_multiple e l = Ret (e, if l then Some s else None)) /\
    de_step_all e = Ret (map (fun _ => e) (dfa_alphabet d)).
Proof.
  intros V E B. destruct (de_run_exact d cs e V E) as [(q & Hp & _)|(u' & q & B' & Hp & Hq & ->)].
  - exfalso. apply (before_foreign_not_over _ _ _ B). eapply dfa_path_over; eauto.
  - rewrite <- (before_foreign_unique _ _ _ _ B B') in Hp. destruct (nth_error_lt _ _ Hq) as [s Hs]. exists q, s. repeat split; auto.
    + intros l. destruct l as [|a l]; unfold de_step_multiple.
      * cbn [de_steps bind]. cbn [de_dfa de_current ev_bad]. rewrite (index_Some _ _ _ Hs). reflexivity.
      * rewrite de_steps_bad by discriminate. reflexivity.
    + unfold de_step_all. cbn [de_dfa ev_bad].
      assert (K : forall al : list str, mapR (fun elem => '(e', _) <- de_step (ev_bad d q) elem ;; Ret e') al = Ret (map (fun _ => ev_bad d q) al)).
      { induction al as [|a al IH]; [reflexivity|]. cbn [mapR map]. rewrite IH. reflexivity. }
      apply K.
Qed.

(** ** NFAs *)
Lemma known_prefix_stop al u a v : over al u -> ~ In a al -> known_prefix al (u ++ a :: v) = u.
Proof.
  intros Hu Ha. induction Hu as [|x u Hx Hu IH]; cbn [app known_prefix].
  - destruct (mem_spec a al); [contradiction|reflexivity].
  - destruct (mem_spec x al); [|contradiction]. f_equal. exact IH.
Qed.
Lemma known_prefix_taken al l : taken_call al (CStepMultiple l) (known_prefix al l).
Proof.
  destruct (over_dec al l) as [H|H].
  - rewrite known_prefix_over by auto. constructor. auto.
  - destruct (before_foreign_exists _ _ H) as (u & a & v & -> & Hu & Ha). rewrite known_prefix_stop by auto. apply tc_prefix; auto.
Qed.
Lemma taken_call_unique al c w : taken_call al c w -> w = call_known al c.
Proof.
  intros H. inversion H; subst; cbn [call_known].
  - destruct (mem_spec a al); tauto.
  - destruct (mem_spec a al); tauto.
  - rewrite known_prefix_over; auto.
  - rewrite known_prefix_stop; auto.
Qed.
Lemma taken_iff al cs w : taken al cs w <-> w = history_known al cs.
Proof.
  unfold taken, history_known. split.
  - intros (ws & F & ->). f_equal. induction F as [|c x cs ws Hc F IH]; [reflexivity|]. cbn [map]. rewrite IH, (taken_call_unique al c x Hc). reflexivity.
  - intros ->. exists (map (call_known al) cs). split; auto. induction cs as [|c cs IH]; cbn [map]; constructor; auto.
    destruct c as [a|l]; cbn [call_known].
    + destruct (mem_spec a al); constructor; auto.
    + apply known_prefix_taken.
Qed.
Theorem nfa_history_exact h n cs e w : nfa_valid n -> ne_run n cs = Ret e -> taken (nfa_alphabet n) cs w ->
  NoDup (ne_current_states_idx e) /\
  (forall q, In q (ne_current_states_idx e) <-> nfa_path n (nfa_initial n) w q) /\
  (exists k ss, ne_current_states h e = Ret ss /\ Permutation k (ne_current_states_idx e) /\
                Forall2 (fun q s => nth_error (nfa_states n) q = Some s) k ss) /\
  exists es, ne_step_all e = Ret es /\
    Forall2 (fun a e' => forall q, In q (ne_current_states_idx e') <-> nfa_path n (nfa_initial n) (w ++ [a]) q) (nfa_alphabet n) es.
Proof.
  intros V E T. apply taken_iff in T as ->. destruct (ne_run_at n cs V) as (e1 & E1 & Ha). rewrite E in E1. injection E1 as <-.
  pose proof Ha as (En & _ & _ & Hnd & Hin). split; auto. split; auto. split.
  - exists (ho h [40] (ne_current e)). unfold ne_current_states. rewrite En.
    destruct (mapR_total (index (nfa_states n)) (fun q s => nth_error (nfa_states n) q = Some s)
                (ho h [40] (ne_current e))) as (ss & Hss & HF).
    { intros q Hq. apply (Permutation_in _ (ho_perm h _ [40] (ne_current e))) in Hq. apply Hin in Hq.
      apply (nfa_path_range n _ _ _ V (nv_initial _ V)) in Hq. destruct (nth_error_lt _ _ Hq) as [s Hs].
      exists s. split; auto. apply index_Some; auto. }
    exists ss. split; auto. split; auto. apply ho_perm.
  - unfold ne_step_all. rewrite En. apply mapR_total. intros a Hi. destruct (ne_step_known _ _ _ _ _ V Ha Hi) as (e' & He' & Ha'). exists e'. rewrite He'.
    split; auto. apply Ha'.
Qed.
Lemma taken_exists al cs : exists w, taken al cs w /\ forall w', taken al cs w' -> w' = w.
Proof. exists (history_known al cs). split; [apply taken_iff; reflexivity|]. intros w'. apply taken_iff. Qed.

(** ** One element at a time *)
Lemma history_steps l : history_word (map CStep l) = l.
Proof. unfold history_word. induction l as [|a l IH]; cbn [map concat]; [reflexivity|]. cbn [call_word app]. f_equal. exact IH. Qed.
Lemma history_multiple l : history_word [CStepMultiple l] = l.
Proof. unfold history_word. cbn. apply app_nil_r. Qed.
Lemma dfa_one_by_one d l e1 e2 : dfa_valid d -> de_run d [CStepMultiple l] = Ret e1 -> de_run d (map CStep l) = Ret e2 -> e1 = e2.
Proof.
  intros V E1 E2. apply (de_run_exact d _ _ V) in E1, E2. rewrite history_multiple in E1. rewrite history_steps in E2.
  destruct E1 as [(q1 & P1 & _ & ->)|(u1 & q1 & B1 & P1 & _ & ->)], E2 as [(q2 & P2 & _ & ->)|(u2 & q2 & B2 & P2 & _ & ->)].
  - rewrite (dfa_path_fun d _ l q1 q2 (dv_alphabet _ V) P1 P2). reflexivity.
  - exfalso. apply (before_foreign_not_over _ _ _ B2). eapply dfa_path_over; eauto.
  - exfalso. apply (before_foreign_not_over _ _ _ B1). eapply dfa_path_over; eauto.
  - rewrite (before_foreign_unique _ _ _ _ B1 B2) in P1. rewrite (dfa_path_fun d _ u2 q1 q2 (dv_alphabet _ V) P1 P2). reflexivity.
Qed.
Lemma nfa_one_by_one n l e1 e2 : nfa_valid n -> over (nfa_alphabet n) l ->
  ne_run n [CStepMultiple l] = Ret e1 -> ne_run n (map CStep l) = Ret e2 ->
  forall q, In q (ne_current_states_idx e1) <-> In q (ne_current_states_idx e2).
Proof.
  intros V Ho E1 E2 q. destruct (ne_run_at n [CStepMultiple l] V) as (e & E & Ha). rewrite E1 in E. injection E as <-.
  destruct (ne_run_at n (map CStep l) V) as (e & E & Hb). rewrite E2 in E. injection E as <-.
  rewrite history_known_over in Ha by (rewrite history_multiple; auto). rewrite history_known_over in Hb by (rewrite history_steps; auto).
  rewrite history_multiple in Ha. rewrite history_steps in Hb. destruct Ha as (_ & _ & _ & _ & Ha), Hb as (_ & _ & _ & _ & Hb). 
  unfold ne_current_states_idx. rewrite Ha, Hb. reflexivity.
Qed.
