(** * Properties of NFA products used as Boolean operations *)
From Coq Require Import List NArith Arith Bool Lia.
From Verif Require Import Base BaseLemmas Spec DfaModel NfaModel Histories Examples DfaBasics DfaEquiv NfaBasics NfaProduct NfaBoolean Prop_Nfa.
Import ListNotations.

(** ** C73: [product_construction] with a combinator that looks at the accepting flags only ([by_flags f]) *)

(** nothing is missed as long as the combinator rejects when both reject *)
Theorem C73_covers : forall h n1 n2 f n w b1 b2, nfa_valid n1 -> nfa_valid n2 ->
  nfa_product_construction h n1 n2 (by_flags f) = Ret (Some n) -> f false false = false ->
  nfa_accepts n1 w = Ret b1 -> nfa_accepts n2 w = Ret b2 -> f b1 b2 = true -> nfa_accepts n w = Ret true.
Proof. exact flags_cover. Qed.
Print Assumptions C73_covers.

(** exactly the monotone combinators that reject when both reject can be used for all automata *)
Theorem C73_exact_iff : forall f,
  (forall h n1 n2 n w b1 b2, nfa_valid n1 -> nfa_valid n2 -> nfa_product_construction h n1 n2 (by_flags f) = Ret (Some n) ->
     nfa_accepts n1 w = Ret b1 -> nfa_accepts n2 w = Ret b2 -> nfa_accepts n w = Ret (f b1 b2)) <->
  f false false = false /\
  (forall x y x' y', (x = true -> x' = true) -> (y = true -> y' = true) -> f x y = true -> f x' y' = true).
Proof. exact exact_iff. Qed.
Print Assumptions C73_exact_iff.

(** which are: never, both, the first, the second, one of both *)
Theorem C73_exact_combinators : forall f,
  (forall h n1 n2 n w b1 b2, nfa_valid n1 -> nfa_valid n2 -> nfa_product_construction h n1 n2 (by_flags f) = Ret (Some n) ->
     nfa_accepts n1 w = Ret b1 -> nfa_accepts n2 w = Ret b2 -> nfa_accepts n w = Ret (f b1 b2)) <->
  (forall x y, f x y = false) \/ (forall x y, f x y = x && y) \/ (forall x y, f x y = x) \/ (forall x y, f x y = y) \/
  (forall x y, f x y = x || y).
Proof.
  intros f. rewrite C73_exact_iff. split.
  - intros [F M]. pose proof (M true false true true ltac:(auto) ltac:(auto)) as M1. pose proof (M false true true true ltac:(auto) ltac:(auto)) as M2.
    destruct (f true false) eqn:E1, (f false true) eqn:E2, (f true true) eqn:E3; try (specialize (M1 eq_refl)); try (specialize (M2 eq_refl)); try discriminate.
    + do 4 right. intros [] []; auto.
    + right. right. left. intros [] []; auto.
    + do 3 right. left. intros [] []; auto.
    + right. left. intros [] []; auto.
    + left. intros [] []; auto.
  - intros H. split.
    + destruct H as [H|[H|[H|[H|H]]]]; rewrite H; reflexivity.
    + intros x y x' y' Hx Hy. destruct H as [H|[H|[H|[H|H]]]]; rewrite !H; auto; destruct x, y; intros Hf; try discriminate;
        try (rewrite Hx by auto); try (rewrite Hy by auto); rewrite ?orb_true_r; auto.
Qed.
Print Assumptions C73_exact_combinators.

(** "the first, but not the second": these words are accepted *)
Theorem C73_difference_words : forall h n1 n2 n w, nfa_valid n1 -> nfa_valid n2 ->
  nfa_product_construction h n1 n2 (by_flags (fun x y => x && negb y)) = Ret (Some n) ->
  (nfa_accepts n w = Ret true <->
   nfa_lang n1 w /\ ((exists q, nfa_path n2 (nfa_initial n2) w q /\ ~ nfa_accepting n2 q) \/ nfa_stuck n2 w)).
Proof.
  intros h n1 n2 n w V1 V2 E. destruct (flags_lang h n1 n2 _ n w V1 V2 E) as (V & HL).
  assert (HA : nfa_accepts n w = Ret true <-> nfa_lang n w).
  { split; [intros A; apply (accepts_iff n w true V A); reflexivity|]. intros A. apply accepts_of; tauto. }
  rewrite HA, HL. clear HA HL. split.
  - intros (s1 & s2 & HR & Hf). apply andb_true_iff in Hf as [H1 H2]. apply negb_true_iff in H2. split; [eapply reached_left; eauto|].
    destruct s2 as [q2|].
    + left. exists q2. split; [destruct s1; apply HR|]. intros A. apply flag_at in A. congruence.
    + right. destruct s1; [apply HR|destruct HR].
  - intros [(q1 & P1 & A1) [(q2 & P2 & A2)|St]]; apply flag_at in A1.
    + exists (Some q1), (Some q2). split; [split; auto|]. rewrite A1. destruct (flag (nfa_at n2 (Some q2))) eqn:X; auto. apply flag_at in X. tauto.
    + exists (Some q1), None. split; [split; auto|]. rewrite A1. reflexivity.
Qed.
Print Assumptions C73_difference_words.

(** so the documented words are accepted *)
Theorem C73_documented_words : forall h n1 n2 n w q, nfa_valid n1 -> nfa_valid n2 ->
  nfa_product_construction h n1 n2 (by_flags (fun x y => x && negb y)) = Ret (Some n) ->
  nfa_lang n1 w -> nfa_path n2 (nfa_initial n2) w q -> ~ nfa_accepting n2 q -> nfa_accepts n w = Ret true.
Proof. intros h n1 n2 n w q V1 V2 E H1 H2 H3. apply (C73_difference_words h n1 n2 n w V1 V2 E). split; eauto. Qed.
Print Assumptions C73_documented_words.

(** but not only these: a run of the second automaton that has ended counts as rejecting, although all of its states accept *)
Definition ex_aa : nfa :=
  {| nfa_alphabet := [el_a];
     nfa_states := [ mk_nfa_state [48%N] true false [] [[1]]; mk_nfa_state [49%N] false false [] [[2]]; mk_nfa_state [50%N] false true [] [[]] ];
     nfa_initial := 0 |}.
Definition ex_ends : nfa :=
  {| nfa_alphabet := [el_a];
     nfa_states := [ mk_nfa_state [48%N] true false [] [[1; 2]]; mk_nfa_state [49%N] false false [] [[]];
                     mk_nfa_state [50%N] false false [] [[3]]; mk_nfa_state [51%N] false true [] [[]] ];
     nfa_initial := 0 |}.
Theorem C73_only_documented_words_refuted : exists h n1 n2 n w, nfa_valid n1 /\ nfa_valid n2 /\
  nfa_product_construction h n1 n2 (by_flags (fun x y => x && negb y)) = Ret (Some n) /\ nfa_accepts n w = Ret true /\
  forall q, nfa_path n2 (nfa_initial n2) w q -> nfa_accepting n2 q.
Proof.
  exists id_order, ex_aa, ex_ends. eexists. exists [el_a; el_a]. split; [apply nfa_validb_valid; reflexivity|]. split; [apply nfa_validb_valid; reflexivity|].
  split; [vm_compute; reflexivity|]. split; [vm_compute; reflexivity|].
  intros q P. assert (N : forall p r, ~ nfa_eps_edge ex_ends p r).
  { intros p r (s & Hs & Hi). do 4 (destruct p as [|p]; [injection Hs as <-; destruct Hi|]). destruct p; discriminate. }
  inversion P as [|? ? ? ? He _|? ? q1 ? ? He P1]; subst; [destruct (N _ _ He)|].
  destruct He as (i & s & ts & Hi & Hs & Ht & Hq). injection Hs as <-. destruct i as [|i]; [|destruct i; discriminate]. injection Ht as <-.
  inversion P1 as [|? ? ? ? He _|? ? q2 ? ? He P2]; subst; [destruct (N _ _ He)|].
  destruct He as (i & s & ts & Hi' & Hs & Ht & Hq2). destruct i as [|i]; [|destruct i; discriminate].
  destruct Hq as [<-|[<-|[]]]; injection Hs as <-; injection Ht as <-; [destruct Hq2|]. destruct Hq2 as [<-|[]].
  inversion P2 as [|? ? ? ? He _|]; subst; [|destruct (N _ _ He)]. eexists. split; reflexivity.
Qed.
Print Assumptions C73_only_documented_words_refuted.

(** on automata made from DFAs every combinator is exact for the words over the alphabet *)
Theorem C73_converted_dfas : forall h d1 d2 f n w b1 b2, dfa_valid d1 -> dfa_valid d2 ->
  nfa_product_construction h (dfa_to_nfa d1) (dfa_to_nfa d2) (by_flags f) = Ret (Some n) -> over (dfa_alphabet d1) w ->
  dfa_accepts d1 w = Ret b1 -> dfa_accepts d2 w = Ret b2 -> nfa_accepts n w = Ret (f b1 b2).
Proof.
  intros h d1 d2 f n w b1 b2 V1 V2 E HO A1 A2.
  assert (W1 := dfa_to_nfa_valid d1 V1). assert (W2 := dfa_to_nfa_valid d2 V2).
  assert (HO2 : over (dfa_alphabet d2) w).
  { destruct (C29_nfa_product h _ _ (by_flags f) W1 W2) as (r & Hr & HN & _). rewrite E in Hr. injection Hr as <-.
    destruct (alphabet_equal_spec _ _ (nv_alphabet _ W1) (nv_alphabet _ W2)) as [Hs|Hs]; [|apply HN in Hs; discriminate].
    unfold over in *. rewrite Forall_forall in *. intros a Ha. apply (proj1 (Hs a)). auto. }
  assert (K : forall d b, dfa_valid d -> dfa_accepts d w = Ret b -> nfa_accepts (dfa_to_nfa d) w = Ret b).
  { intros d b V A. apply accepts_of; [apply dfa_to_nfa_valid; auto|]. rewrite dfa_to_nfa_lang.
    destruct (dfa_accepts_correct d w V) as (b' & E' & H). rewrite A in E'. injection E' as <-. exact H. }
  apply (complete_exact h (dfa_to_nfa d1) (dfa_to_nfa d2) f n w b1 b2); auto using dfa_unstuck.
  - intros q q'. rewrite !dfa_to_nfa_path. apply dfa_path_fun, V1.
  - intros q q'. rewrite !dfa_to_nfa_path. apply dfa_path_fun, V2.
Qed.
Print Assumptions C73_converted_dfas.

(** ** C32: the documented remark that no state without transitions remains is false for accepting states *)
Definition ex_last : nfa :=
  {| nfa_alphabet := [el_a];
     nfa_states := [ mk_nfa_state [48%N] true false [] [[1]]; mk_nfa_state [49%N] false false [2] [[]]; mk_nfa_state [50%N] false true [] [[]] ];
     nfa_initial := 0 |}.
Theorem C32_transitions_refuted : exists h dbg n (n' : nfa) (q : nat), nfa_valid n /\ ~ eps_free n /\ nfa_remove_epsilon_moves h dbg n = Ret n' /\
  q < length (nfa_states n') /\ forall a t, ~ nfa_edge n' q a t.
Proof.
  exists id_order, true, ex_last. eexists. exists 1. split; [apply nfa_validb_valid; reflexivity|]. split.
  { intros F. specialize (F 1 _ eq_refl). discriminate. }
  split; [vm_compute; reflexivity|]. split; [vm_compute; lia|].
  intros a t (i & s & ts & _ & Hs & Ht & Hi). vm_compute in Hs. injection Hs as <-. destruct i as [|i]; [injection Ht as <-; destruct Hi|destruct i; discriminate].
Qed.
Print Assumptions C32_transitions_refuted.

(** ** Examples *)
Example C73_example : nfa_valid ex_nfa /\ nfa_valid ex_nfa_ab /\
  exists n, nfa_product_construction rev_order ex_nfa ex_nfa_ab (by_flags xorb) = Ret (Some n) /\
    nfa_accepts ex_nfa [el_a; el_a] = Ret true /\ nfa_accepts ex_nfa_ab [el_a; el_a] = Ret false /\ nfa_accepts n [el_a; el_a] = Ret true.
Proof. split; [apply ex_nfa_valid|]. split; [apply ex_nfa_ab_valid|]. eexists. split; [vm_compute; reflexivity|]. vm_compute. auto. Qed.
Example C73_converted_example : dfa_valid ex_even /\ dfa_valid ex_end_b /\ over (dfa_alphabet ex_even) [el_a; el_b] /\
  exists n, nfa_product_construction rev_order (dfa_to_nfa ex_even) (dfa_to_nfa ex_end_b) (by_flags (fun x y => x && negb y)) = Ret (Some n).
Proof.
  split; [apply dfa_validb_valid; reflexivity|]. split; [apply dfa_validb_valid; reflexivity|]. split; [apply overb_over; reflexivity|].
  eexists. vm_compute. reflexivity.
Qed.
