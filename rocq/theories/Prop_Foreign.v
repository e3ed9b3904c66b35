(** * Evaluators after an element outside of the alphabet: C75, C47 *)
From Coq Require Import List NArith Arith Bool Permutation Lia.
From Verif Require Import Base Spec DfaModel NfaModel Histories HistorySpec DfaHistory NfaBasics HistoryForeign Examples Prop_Nfa.
Import ListNotations.

(** ** C75: a DFA evaluator stays at the last state before the first foreign element, whatever is called *)
Theorem C75_dfa_stays : forall d cs e u, dfa_valid d -> de_run d cs = Ret e -> before_foreign (dfa_alphabet d) (history_word cs) u ->
  exists q s, dfa_path d (dfa_initial d) u q /\ nth_error (dfa_states d) q = Some s /\ de_current_state_idx e = q /\
    de_current_state e = Ret None /\ de_is_accepting e = Ret false /\
    (forall a, de_step e a = Ret (e, None)) /\
    (forall l, de_step_multiple e l = Ret (e, if l then Some s else None)) /\
    de_step_all e = Ret (map (fun _ => e) (dfa_alphabet d)).
Proof. exact dfa_after_foreign. Qed.
Print Assumptions C75_dfa_stays.

(** ** C47: hence after a foreign element all calls give nothing, but for [step_multiple] with no elements *)
Theorem C47_after_foreign : forall d cs e, dfa_valid d -> de_run d cs = Ret e -> ~ over (dfa_alphabet d) (history_word cs) ->
  de_current_state e = Ret None /\ de_is_accepting e = Ret false /\ (forall a, de_step e a = Ret (e, None)) /\
  (forall a l, de_step_multiple e (a :: l) = Ret (e, None)) /\ exists s, de_step_multiple e [] = Ret (e, Some s).
Proof.
  intros d cs e V H N. destruct (before_foreign_exists _ _ N) as (u & U).
  destruct (dfa_after_foreign d cs e u V H U) as (q & s & _ & _ & _ & A & B & C & D & _). split; auto. split; auto. split; auto.
  split; [intros a l; apply (D (a :: l))|]. exists s. apply (D []).
Qed.
Print Assumptions C47_after_foreign.

(** An NFA evaluator goes on: it is in exactly the states reached by the elements it took, whether or not others were foreign *)
Theorem C75_nfa_goes_on : forall h n cs e w, nfa_valid n -> ne_run n cs = Ret e -> taken (nfa_alphabet n) cs w ->
  NoDup (ne_current_states_idx e) /\
  (forall q, In q (ne_current_states_idx e) <-> nfa_path n (nfa_initial n) w q) /\
  (exists k ss, ne_current_states h e = Ret ss /\ Permutation k (ne_current_states_idx e) /\
                Forall2 (fun q s => nth_error (nfa_states n) q = Some s) k ss) /\
  exists es, ne_step_all e = Ret es /\
    Forall2 (fun a e' => forall q, In q (ne_current_states_idx e') <-> nfa_path n (nfa_initial n) (w ++ [a]) q) (nfa_alphabet n) es.
Proof. exact nfa_history_exact. Qed.
Print Assumptions C75_nfa_goes_on.
(** but it does not accept again *)
Theorem C75_nfa_never_accepts : forall n cs cs', nfa_valid n -> ~ over (nfa_alphabet n) (history_word cs) ->
  exists e, ne_run n (cs ++ cs') = Ret e /\ ne_is_accepting e = Ret false.
Proof.
  intros n cs cs' V H. destruct (C04_nfa_history rev_order n (cs ++ cs') V) as (e & E & _ & F & _). exists e. split; auto. apply F.
  intros O. apply H. unfold over in *. rewrite Forall_forall in *. intros a I. apply O. unfold history_word in *. 
  rewrite map_app, concat_app. apply in_or_app. left. exact I.
Qed.
Print Assumptions C75_nfa_never_accepts.

(** Every history determines the elements taken; if no element is foreign, these are all elements *)
Theorem C75_taken : forall al cs, (exists w, taken al cs w /\ forall w', taken al cs w' -> w' = w) /\
  (over al (history_word cs) -> taken al cs (history_word cs)).
Proof.
  intros al cs. split; [apply taken_exists|]. intros H. apply taken_iff. symmetry. apply history_known_over. exact H.
Qed.
Print Assumptions C75_taken.

(** The natural claim that [step_multiple] is the same as one [step] after the other holds for the verdict (C04), but not for
    the states of an NFA evaluator *)
Theorem C75_one_by_one_refuted : exists n l e1 e2 q, nfa_valid n /\ ne_run n [CStepMultiple l] = Ret e1 /\ ne_run n (map CStep l) = Ret e2 /\
  In q (ne_current_states_idx e2) /\ ~ In q (ne_current_states_idx e1).
Proof.
  exists ex_nfa_ab, [el_c; el_a]. eexists _, _, 2. split; [exact ex_nfa_ab_valid|]. split; [vm_compute; reflexivity|].
  split; [vm_compute; reflexivity|]. split; [simpl; auto|]. simpl. intros [H|[]]. discriminate.
Qed.
Print Assumptions C75_one_by_one_refuted.

(** It does for DFA evaluators, and for NFA evaluators without foreign elements *)
Theorem C75_dfa_one_by_one : forall d l e1 e2, dfa_valid d -> de_run d [CStepMultiple l] = Ret e1 -> de_run d (map CStep l) = Ret e2 -> e1 = e2.
Proof. exact dfa_one_by_one. Qed.
Print Assumptions C75_dfa_one_by_one.
Theorem C75_nfa_one_by_one : forall n l e1 e2, nfa_valid n -> over (nfa_alphabet n) l ->
  ne_run n [CStepMultiple l] = Ret e1 -> ne_run n (map CStep l) = Ret e2 ->
  forall q, In q (ne_current_states_idx e1) <-> In q (ne_current_states_idx e2).
Proof. exact nfa_one_by_one. Qed.
Print Assumptions C75_nfa_one_by_one.

(** ** Non-vacuity *)
Example C75_dfa_example : exists e, de_run ex_even [CStep el_a; CStepMultiple [el_b; el_c; el_a]; CStep el_a] = Ret e /\
  before_foreign (dfa_alphabet ex_even) (history_word [CStep el_a; CStepMultiple [el_b; el_c; el_a]; CStep el_a]) [el_a; el_b] /\
  de_current_state_idx e = 2.
Proof.
  eexists. split; [vm_compute; reflexivity|]. split; [|reflexivity]. exists el_c, [el_a; el_a]. split; [reflexivity|].
  split; [apply overb_over; vm_compute; reflexivity|]. simpl. intros [H|[H|[]]]; discriminate.
Qed.
Example C75_nfa_example : exists e, ne_run ex_nfa_ab [CStep el_c; CStepMultiple [el_a; el_c; el_b]; CStep el_a] = Ret e /\
  taken (nfa_alphabet ex_nfa_ab) [CStep el_c; CStepMultiple [el_a; el_c; el_b]; CStep el_a] [el_a; el_a] /\
  ne_current_states_idx e = [1; 2] /\ ne_is_accepting e = Ret false.
Proof.
  eexists. split; [vm_compute; reflexivity|]. split; [apply taken_iff; vm_compute; reflexivity|]. vm_compute. auto.
Qed.
