(** * Properties of non-deterministic automata

    Every theorem quantifies over every automaton that satisfies [nfa_valid] (see C41), over every hash iteration order
    [h] and over builds with and without debug assertions [dbg].  Epsilon moves, also cyclic ones, are always allowed. *)
From Coq Require Import List NArith Arith Bool Permutation Sorted Lia.
From Verif Require Import MessageSpec.
From Verif Require Import Base BaseLemmas Spec DfaModel NfaModel Histories Examples.
From Verif Require Import DfaBasics DfaReach DfaEquiv NfaBasics NfaReach NfaEquiv NfaToDfa NfaUnion NfaProduct NfaEps.
Import ListNotations.

(** ** C03: [Nfa::accepts] decides whether some run accepts *)
Theorem C03_nfa_accepts : forall n w, nfa_valid n ->
  exists b, nfa_accepts n w = Ret b /\ (b = true <-> nfa_lang n w).
Proof. exact nfa_accepts_correct. Qed.
Print Assumptions C03_nfa_accepts.
Theorem C03_nfa_accepts_foreign : forall n w a, nfa_valid n -> In a w -> ~ In a (nfa_alphabet n) ->
  nfa_accepts n w = Ret false.
Proof.
  intros n w a V Ha Hn. destruct (nfa_accepts_correct n w V) as ([] & -> & Hb); auto.
  exfalso. apply Hn. pose proof (nfa_lang_over n w (proj1 Hb eq_refl)) as Ho. unfold over in Ho.
  rewrite Forall_forall in Ho. auto.
Qed.
Print Assumptions C03_nfa_accepts_foreign.
Theorem C03_nfa_accepts_graphemes : forall graphemes n s, nfa_valid n ->
  exists b, nfa_accepts_graphemes graphemes n s = Ret b /\ (b = true <-> nfa_lang n (graphemes s)).
Proof. intros g n s. exact (nfa_accepts_correct n (g s)). Qed.
Print Assumptions C03_nfa_accepts_graphemes.
Example C03_example : nfa_valid ex_nfa /\ nfa_accepts ex_nfa [el_b; el_a; el_b] = Ret true /\
  nfa_accepts ex_nfa [] = Ret true /\ nfa_accepts ex_nfa [el_a] = Ret false /\ nfa_accepts ex_nfa [el_c; el_a; el_b] = Ret false.
Proof. split; [apply ex_nfa_valid|vm_compute; auto]. Qed.

(** ** C04: histories of an NFA evaluator *)
Theorem C04_nfa_history : forall h n cs, nfa_valid n ->
  exists e, ne_run n cs = Ret e /\
    (over (nfa_alphabet n) (history_word cs) ->
       NoDup (ne_current_states_idx e) /\
       (forall q, In q (ne_current_states_idx e) <-> nfa_path n (nfa_initial n) (history_word cs) q) /\
       exists k ss, ne_current_states h e = Ret ss /\ Permutation k (ne_current_states_idx e) /\
                    Forall2 (fun q s => nth_error (nfa_states n) q = Some s) k ss) /\
    (~ over (nfa_alphabet n) (history_word cs) -> ne_is_accepting e = Ret false) /\
    ne_is_accepting e = nfa_accepts n (history_word cs).
Proof.
  intros h n cs V. destruct (ne_run_at n cs V) as (e & He & Ha). exists e. split; auto.
  assert (Hacc : ne_is_accepting e = nfa_accepts n (history_word cs)).
  { destruct (ne_is_accepting_at _ _ _ _ V Ha) as (b & -> & Hb).
    destruct (nfa_accepts_correct n (history_word cs) V) as (b' & -> & Hb'). f_equal. apply Bool.eq_iff_eq_true.
    rewrite Hb, Hb'. rewrite negb_false_iff. rewrite <- (reflect_iff _ _ (overb_spec _ _)). split.
    - intros [Ho Hx]. rewrite history_known_over in Hx by auto. exact Hx.
    - intros Hl. pose proof (nfa_lang_over n _ Hl) as Ho. split; auto. rewrite history_known_over by auto. exact Hl. }
  split; [|split; auto].
  - intros Ho. destruct Ha as (En & _ & _ & Hnd & Hin). rewrite history_known_over in Hin by auto. split; auto. split; auto.
    exists (ho h [40] (ne_current e)). unfold ne_current_states. rewrite En.
    destruct (mapR_total (index (nfa_states n)) (fun q s => nth_error (nfa_states n) q = Some s)
                (ho h [40] (ne_current e))) as (ss & Hss & HF).
    { intros q Hq. apply (Permutation_in _ (ho_perm h _ [40] (ne_current e))) in Hq. apply Hin in Hq.
      apply (nfa_path_range n _ _ _ V (nv_initial _ V)) in Hq. destruct (nth_error_lt _ _ Hq) as [s Hs].
      exists s. split; auto. apply index_Some; auto. }
    exists ss. split; auto. split; auto. apply ho_perm.
  - intros Ho. rewrite Hacc. destruct (nfa_accepts_correct n (history_word cs) V) as ([] & -> & Hb'); auto.
    exfalso. apply Ho. apply nfa_lang_over. apply Hb'. reflexivity.
Qed.
Print Assumptions C04_nfa_history.

(** What [step] and [step_multiple] return after any history: [Some(())] iff all the elements they were given are in the
    alphabet, independently of the history *)
Theorem C04_nfa_step_result : forall n cs e a, nfa_valid n -> ne_run n cs = Ret e ->
  exists e' b, ne_step e a = Ret (e', b) /\ (b = true <-> In a (nfa_alphabet n)).
Proof.
  intros n cs e a V He. destruct (ne_run_at n cs V) as (e1 & He1 & Ha). rewrite He in He1. injection He1 as <-.
  destruct (in_dec (fun x y : str => list_eq_dec N.eq_dec x y) a (nfa_alphabet n)) as [Hi|Hi].
  - destruct (ne_step_known _ _ _ _ _ V Ha Hi) as (e' & He' & _). exists e', true. tauto.
  - destruct (ne_step_unknown _ _ _ _ _ V Ha Hi) as (e' & He' & _). exists e', false. split; auto. split; [discriminate|tauto].
Qed.
Print Assumptions C04_nfa_step_result.
Theorem C04_nfa_step_multiple_result : forall n cs e l, nfa_valid n -> ne_run n cs = Ret e ->
  exists e' b, ne_step_multiple e l = Ret (e', b) /\ (b = true <-> over (nfa_alphabet n) l).
Proof.
  intros n cs e l V He. destruct (ne_run_at n cs V) as (e1 & He1 & Ha). rewrite He in He1. injection He1 as <-.
  destruct (ne_steps_flag n V l _ _ _ Ha) as (e' & b & Hs & Hb). unfold ne_step_multiple. rewrite Hs. cbn [bind].
  destruct b; eexists; eexists; (split; [reflexivity|auto]).
Qed.
Print Assumptions C04_nfa_step_multiple_result.

(** [step_all] gives, for each element in order, an evaluator in exactly the states reached after that element *)
Theorem C04_nfa_step_all : forall n cs e, nfa_valid n -> ne_run n cs = Ret e -> over (nfa_alphabet n) (history_word cs) ->
  exists es, ne_step_all e = Ret es /\
    Forall2 (fun a e' => (forall q, In q (ne_current_states_idx e') <-> nfa_path n (nfa_initial n) (history_word cs ++ [a]) q) /\
                         ne_is_accepting e' = nfa_accepts n (history_word cs ++ [a])) (nfa_alphabet n) es.
Proof.
  intros n cs e V He Ho. destruct (ne_run_at n cs V) as (e1 & He1 & Ha). rewrite He in He1. injection He1 as <-.
  rewrite history_known_over in Ha by auto. unfold ne_step_all. replace (ne_nfa e) with n by (symmetry; apply Ha).
  apply mapR_total. intros a Hi. destruct (ne_step_known _ _ _ _ _ V Ha Hi) as (e' & He' & Ha'). exists e'. rewrite He'.
  split; auto. split; [apply Ha'|]. destruct (ne_is_accepting_at _ _ _ _ V Ha') as (b & -> & Hb).
  destruct (nfa_accepts_correct n (history_word cs ++ [a]) V) as (b' & -> & Hb'). f_equal. apply Bool.eq_iff_eq_true.
  rewrite Hb, Hb', negb_false_iff, <- (reflect_iff _ _ (overb_spec _ _)). split; [intros [_ H]; exact H|intros H; split; auto].
Qed.
Print Assumptions C04_nfa_step_all.
Example C04_example :
  exists e, ne_run ex_nfa [CStep el_b; CStepMultiple [el_a; el_b]] = Ret e /\
            over (nfa_alphabet ex_nfa) (history_word [CStep el_b; CStepMultiple [el_a; el_b]]) /\
            ne_current_states_idx e = [2; 5] /\ ne_is_accepting e = Ret true.
Proof.
  eexists. split; [vm_compute; reflexivity|]. split; [|vm_compute; auto]. apply overb_over. vm_compute. reflexivity.
Qed.

(** ** C05: the epsilon closure is exact *)
Theorem C05_nfa_closure : forall n q, nfa_valid n ->
  exists r, nfa_closure n q = Ret r /\
    match r with
    | Some cl => q < length (nfa_states n) /\ NoDup cl /\ forall x, In x cl <-> nfa_path n q [] x
    | None => length (nfa_states n) <= q
    end.
Proof. exact nfa_closure_correct. Qed.
Print Assumptions C05_nfa_closure.
Example C05_example : nfa_valid ex_nfa /\ nfa_closure ex_nfa 0 = Ret (Some [0; 1; 2]) /\ nfa_closure ex_nfa 7 = Ret None.
Proof. split; [apply ex_nfa_valid|vm_compute; auto]. Qed.

(** ** C13: [Nfa::equivalent_to] decides equality of the element sets and of the languages *)
Theorem C13_nfa_equivalent_to : forall n1 n2, nfa_valid n1 -> nfa_valid n2 ->
  exists b, nfa_equivalent_to n1 n2 = Ret b /\
            (b = true <-> same_set (nfa_alphabet n1) (nfa_alphabet n2) /\ forall w, nfa_lang n1 w <-> nfa_lang n2 w).
Proof. exact nfa_equivalent_to_correct. Qed.
Print Assumptions C13_nfa_equivalent_to.
Example C13_example : nfa_valid ex_nfa /\ nfa_valid ex_nfa_ab /\
  nfa_equivalent_to ex_nfa ex_nfa_ab = Ret false /\
  exists d, nfa_to_dfa rev_order ex_nfa = Ret d /\ nfa_equivalent_to ex_nfa (dfa_to_nfa d) = Ret true.
Proof.
  split; [apply ex_nfa_valid|]. split; [apply ex_nfa_ab_valid|]. split; [vm_compute; auto|].
  eexists. split; vm_compute; reflexivity.
Qed.

(** ** C15: subset construction *)
Theorem C15_nfa_to_dfa : forall h n, nfa_valid n ->
  exists d, nfa_to_dfa h n = Ret d /\ dfa_valid d /\ dfa_alphabet d = nfa_alphabet n /\ dfa_initial d = 0 /\
    (forall i s, nth_error (dfa_states d) i = Some s -> ds_name s = decimal i) /\
    (forall i, i < length (dfa_states d) -> dfa_reachable d i) /\
    (forall w, dfa_lang d w <-> nfa_lang n w).
Proof.
  intros h n V. destruct (nfa_to_dfa_correct h n V) as (d & E & Vd & Ea & Ei & Hn & H). exists d. repeat split; try apply Vd; try apply H; auto.
  intros i s Hs. rewrite <- dec_decimal. exact (Hn i s Hs).
Qed.
Print Assumptions C15_nfa_to_dfa.
Example C15_example : nfa_valid ex_nfa /\
  exists d, nfa_to_dfa rev_order ex_nfa = Ret d /\ dfa_accepts d [el_a; el_b] = Ret true /\ dfa_accepts d [el_b; el_b] = Ret false.
Proof. split; [apply ex_nfa_valid|]. eexists. split; [vm_compute; reflexivity|]. vm_compute. auto. Qed.

(** ** C16: reachability *)
Theorem C16_nfa_reachable_state_idx : forall h n, nfa_valid n ->
  exists r, nfa_reachable_state_idx h n = Ret r /\ NoDup r /\ forall q, In q r <-> nfa_reachable n q.
Proof. exact nfa_reachable_state_idx_correct. Qed.
Print Assumptions C16_nfa_reachable_state_idx.
Theorem C16_nfa_unreachable_state_idx : forall h n, nfa_valid n ->
  exists r, nfa_unreachable_state_idx h n = Ret r /\ NoDup r /\
            forall q, In q r <-> q < length (nfa_states n) /\ ~ nfa_reachable n q.
Proof. exact nfa_unreachable_state_idx_correct. Qed.
Print Assumptions C16_nfa_unreachable_state_idx.
Theorem C16_nfa_reachable_states : forall h n, nfa_valid n ->
  exists ss k, nfa_reachable_states h n = Ret ss /\ NoDup k /\ (forall q, In q k <-> nfa_reachable n q) /\
               Forall2 (fun q s => nth_error (nfa_states n) q = Some s) k ss.
Proof. exact nfa_reachable_states_correct. Qed.
Print Assumptions C16_nfa_reachable_states.
Theorem C16_nfa_unreachable_states : forall h n, nfa_valid n ->
  exists ss k, nfa_unreachable_states h n = Ret ss /\ NoDup k /\
               (forall q, In q k <-> q < length (nfa_states n) /\ ~ nfa_reachable n q) /\
               Forall2 (fun q s => nth_error (nfa_states n) q = Some s) k ss.
Proof. exact nfa_unreachable_states_correct. Qed.
Print Assumptions C16_nfa_unreachable_states.
Example C16_nfa_example : nfa_valid ex_nfa /\ nfa_unreachable_state_idx rev_order ex_nfa = Ret [6].
Proof. split; [apply ex_nfa_valid|vm_compute; auto]. Qed.

(** ** C17: removing unreachable states *)
Theorem C17_nfa_remove_unreachable : forall h dbg n, nfa_valid n ->
  exists n', nfa_remove_unreachable_states h dbg n = Ret n' /\ nfa_valid n' /\
             (exists k, StronglySorted lt k /\ (forall q, In q k <-> nfa_reachable n q) /\ nfa_restriction k n n') /\
             forall w, nfa_lang n' w <-> nfa_lang n w.
Proof.
  intros h dbg n V. destruct (nfa_remove_unreachable_states_correct h dbg n V) as (n' & Hn & V' & k & Hk & Hin & Hr).
  exists n'. split; auto. split; auto. split; [exists k; auto|]. intros w. symmetry. exact (nfa_restriction_lang k n n' w Hr).
Qed.
Print Assumptions C17_nfa_remove_unreachable.
Example C17_nfa_example : nfa_valid ex_nfa /\
  exists n', nfa_remove_unreachable_states rev_order true ex_nfa = Ret n' /\ length (nfa_states n') = 6.
Proof. split; [apply ex_nfa_valid|]. eexists. split; vm_compute; reflexivity. Qed.

(** ** C18: emptiness *)
Theorem C18_nfa_has_reachable_accepting_state : forall h n, nfa_valid n ->
  exists b, nfa_has_reachable_accepting_state h n = Ret b /\ (b = true <-> exists w, nfa_lang n w).
Proof. exact nfa_has_reachable_accepting_state_correct. Qed.
Print Assumptions C18_nfa_has_reachable_accepting_state.
Example C18_nfa_example : nfa_valid ex_nfa /\ nfa_has_reachable_accepting_state id_order ex_nfa = Ret true.
Proof. split; [apply ex_nfa_valid|vm_compute; auto]. Qed.

(** ** C27: union *)
Theorem C27_nfa_union : forall n1 n2, nfa_valid n1 -> nfa_valid n2 ->
  exists r, nfa_union n1 n2 = Ret r /\
    (r = inr (n1, n2) <-> ~ same_set (nfa_alphabet n1) (nfa_alphabet n2)) /\
    (same_set (nfa_alphabet n1) (nfa_alphabet n2) ->
     exists n, r = inl n /\ nfa_valid n /\ nfa_alphabet n = nfa_alphabet n1 /\
               forall w, nfa_lang n w <-> nfa_lang n1 w \/ nfa_lang n2 w).
Proof.
  intros n1 n2 V1 V2. destruct (alphabet_equal_spec _ _ (nv_alphabet _ V1) (nv_alphabet _ V2)) as [Hs|Hs].
  - destruct (nfa_union_struct n1 n2 V1 V2 Hs) as (n & Hn & U). exists (inl n). split; auto. split; [split; [discriminate|tauto]|].
    intros _. exists n. split; auto. split; [exact (union_valid n1 n2 n V1 V2 Hs U)|]. split; [apply U|].
    exact (union_lang n1 n2 n V1 V2 Hs U).
  - exists (inr (n1, n2)). split; [apply nfa_union_none; auto|]. tauto.
Qed.
Print Assumptions C27_nfa_union.
(** and keeps all states of both operands, in order, under their own names if these are distinct (else they are numbered from 1);
    the new initial state is called [s_new] if that name is free, else by the smallest free number *)
Theorem C27_nfa_union_states : forall n1 n2 n, nfa_valid n1 -> nfa_valid n2 -> nfa_union n1 n2 = Ret (inl n) ->
  length (nfa_states n) = S (length (nfa_states n1) + length (nfa_states n2)) /\
  map ns_accepting (nfa_states n) = map ns_accepting (nfa_states n1) ++ map ns_accepting (nfa_states n2) ++ [false] /\
  exists names nm, map ns_name (nfa_states n) = names ++ [nm] /\
    (NoDup (map ns_name (nfa_states n1 ++ nfa_states n2)) -> names = map ns_name (nfa_states n1 ++ nfa_states n2)) /\
    (~ NoDup (map ns_name (nfa_states n1 ++ nfa_states n2)) ->
       names = map decimal (seq 1 (length (nfa_states n1) + length (nfa_states n2)))) /\
    ~ In nm names /\ (~ In [115; 95; 110; 101; 119]%N names -> nm = [115; 95; 110; 101; 119]%N) /\
    (In [115; 95; 110; 101; 119]%N names -> exists i, nm = decimal i /\ forall j, j < i -> In (decimal j) names).
Proof.
  intros n1 n2 n V1 V2 Hn. destruct (alphabet_equal_spec _ _ (nv_alphabet _ V1) (nv_alphabet _ V2)) as [Hs|Hs].
  2:{ rewrite nfa_union_none in Hn by auto. discriminate. }
  destruct (nfa_union_struct n1 n2 V1 V2 Hs) as (n' & Hn' & U). rewrite Hn in Hn'. injection Hn' as <-.
  split; [apply U|]. split.
  - apply nth_error_ext. intros i. rewrite nth_error_map.
    destruct (lt_dec i (length (nfa_states n1))) as [L|L]; [|destruct (lt_dec i (length (nfa_states n1) + length (nfa_states n2))) as [L2|L2]].
    + destruct (nth_error_lt _ _ L) as [s Hs1]. destruct (un_left _ _ _ U _ _ Hs1) as (s' & Hs' & Ea & _). rewrite Hs'.
      rewrite nth_error_app1 by (rewrite map_length; auto). rewrite nth_error_map, Hs1. simpl. congruence.
    + destruct (nth_error_lt (nfa_states n2) (i - length (nfa_states n1))) as [s Hs1]; [lia|].
      destruct (un_right _ _ _ U _ _ Hs1) as (s' & Hs' & Ea & _).
      replace (i - length (nfa_states n1) + length (nfa_states n1)) with i in Hs' by lia. rewrite Hs'.
      rewrite nth_error_app2 by (rewrite map_length; lia). rewrite map_length.
      rewrite nth_error_app1 by (rewrite map_length; lia). rewrite nth_error_map, Hs1. simpl. congruence.
    + destruct (Nat.eq_dec i (length (nfa_states n1) + length (nfa_states n2))) as [->|Hne].
      * destruct (un_new _ _ _ U) as (s' & Hs' & Ea & _). rewrite (un_initial _ _ _ U) in Hs'. rewrite Hs'. simpl.
        rewrite !nth_error_app2 by (rewrite ?map_length; lia). rewrite !map_length.
        match goal with |- _ = nth_error _ ?x => replace x with 0 by lia end. simpl. congruence.
      * assert (H : nth_error (nfa_states n) i = None) by (apply nth_error_None; rewrite (un_length _ _ _ U); lia).
        rewrite H. symmetry. apply nth_error_None. rewrite !app_length, !map_length. simpl. lia.
  - destruct (un_names _ _ _ U) as (nm & Hnm & Hni & Hch). eexists. exists nm. split; [exact Hnm|].
    split; [|split; [|split; [exact Hni|split; [intros H; destruct Hch as [Hch|(Hch & _)]; [exact Hch|destruct (H Hch)]|]]]].
    + intros Hnd. rewrite hs_collect_id by auto. rewrite map_length, Nat.eqb_refl. reflexivity.
    + intros Hnd. destruct (Nat.eqb_spec (length (hs_collect (map ns_name (nfa_states n1 ++ nfa_states n2)))) (length (nfa_states n1 ++ nfa_states n2))) as [E|]; [|apply map_ext, dec_decimal].
      destruct Hnd. apply hs_collect_length_NoDup. rewrite map_length. exact E.
    + intros H. destruct Hch as [->|(_ & i & -> & Hj)]; [contradiction|]. exists i. split; [apply dec_decimal|]. intros j Hl. rewrite <- dec_decimal. auto.
Qed.
Print Assumptions C27_nfa_union_states.
(** and its transitions are those of the operands, side by side, with two epsilon moves from the new state to the old initial
    states *)
Theorem C27_nfa_union_edges : forall n1 n2 n, nfa_valid n1 -> nfa_valid n2 -> nfa_union n1 n2 = Ret (inl n) ->
  let k := length (nfa_states n1) in
  nfa_initial n = k + length (nfa_states n2) /\
  (forall p a q, nfa_edge n p a q <-> nfa_edge n1 p a q \/ exists p' q', p = p' + k /\ q = q' + k /\ nfa_edge n2 p' a q') /\
  (forall p q, nfa_eps_edge n p q <->
     nfa_eps_edge n1 p q \/ (exists p' q', p = p' + k /\ q = q' + k /\ nfa_eps_edge n2 p' q') \/
     (p = nfa_initial n /\ (q = nfa_initial n1 \/ q = nfa_initial n2 + k))).
Proof.
  intros n1 n2 n V1 V2 Hn. destruct (alphabet_equal_spec _ _ (nv_alphabet _ V1) (nv_alphabet _ V2)) as [Hs|Hs].
  2:{ rewrite nfa_union_none in Hn by auto. discriminate. }
  destruct (nfa_union_struct n1 n2 V1 V2 Hs) as (n' & Hn' & U). rewrite Hn in Hn'. injection Hn' as <-.
  split; [apply U|]. split; [intros p a q; exact (union_edges n1 n2 n Hs U p a q)|intros p q; exact (union_epss n1 n2 n U p q)].
Qed.
Print Assumptions C27_nfa_union_edges.
Example C27_example : nfa_valid ex_nfa /\ nfa_valid ex_nfa_ab /\
  exists n, nfa_union ex_nfa ex_nfa_ab = Ret (inl n) /\ nfa_accepts n [el_a; el_b; el_b; el_b] = Ret true /\
            nfa_accepts n [el_b; el_a; el_a] = Ret true /\ nfa_accepts n [el_b; el_a] = Ret false.
Proof. split; [apply ex_nfa_valid|]. split; [apply ex_nfa_ab_valid|]. eexists. split; [vm_compute; reflexivity|]. vm_compute. auto. Qed.

(** ** C29: product construction.  [nfa_pair_reached] says which pairs of (possibly ended) runs exist on a word. *)
Theorem C29_nfa_product : forall h n1 n2 comb, nfa_valid n1 -> nfa_valid n2 ->
  exists r, nfa_product_construction h n1 n2 comb = Ret r /\
    (r = None <-> ~ same_set (nfa_alphabet n1) (nfa_alphabet n2)) /\
    forall n, r = Some n -> nfa_valid n /\ nfa_alphabet n = nfa_alphabet n1 /\
      (forall q, q < length (nfa_states n) -> nfa_reachable n q) /\
      (forall w, nfa_lang n w <->
         exists s1 s2, nfa_pair_reached n1 n2 w s1 s2 /\ comb (nfa_at n1 s1) (nfa_at n2 s2) = true).
Proof.
  intros h n1 n2 comb V1 V2. destruct (alphabet_equal_spec _ _ (nv_alphabet _ V1) (nv_alphabet _ V2)) as [Hs|Hs].
  - destruct (nfa_product_construction_struct h n1 n2 comb V1 V2 Hs) as (n & ks & Hn & V & HP). exists (Some n).
    split; auto. split; [split; [discriminate|tauto]|]. intros n' [= <-]. split; auto. split; [apply HP|]. split.
    + intros q. exact (product_all_reachable comb n1 n2 n ks q HP).
    + intros w. exact (product_lang comb n1 n2 n ks w HP).
  - exists None. rewrite nfa_product_none by auto. split; auto. split; [tauto|]. discriminate.
Qed.
Print Assumptions C29_nfa_product.
(** the product has exactly one state per pair reached together, moves in both automata at once (in one of them once the
    other has no transition left) and for one of them on epsilon moves, and names its states after the pairs whenever
    these names are distinct; a run that has ended is called none *)
Theorem C29_nfa_product_states : forall h n1 n2 comb n, nfa_valid n1 -> nfa_valid n2 ->
  nfa_product_construction h n1 n2 comb = Ret (Some n) ->
  let name := fun '(s1, s2) => [40%N] ++ match nfa_at n1 s1 with Some s => ns_name s | None => [110; 111; 110; 101]%N end ++ [44%N] ++
                               match nfa_at n2 s2 with Some s => ns_name s | None => [110; 111; 110; 101]%N end ++ [41%N] in
  exists ks, NoDup ks /\ length ks = length (nfa_states n) /\
    nth_error ks (nfa_initial n) = Some (Some (nfa_initial n1), Some (nfa_initial n2)) /\
    (forall s1 s2, In (s1, s2) ks <-> exists w, nfa_pair_reached n1 n2 w s1 s2) /\
    (forall i s1 s2 s, nth_error ks i = Some (s1, s2) -> nth_error (nfa_states n) i = Some s ->
       ns_accepting s = comb (nfa_at n1 s1) (nfa_at n2 s2) /\
       (NoDup (map name ks) -> ns_name s = name (s1, s2)) /\
       (~ NoDup (map name ks) -> exists i, i < length ks /\ ns_name s = decimal i)) /\
    (forall i s1 s2 a j, nth_error ks i = Some (s1, s2) ->
       let move1 := fun t => exists q, s1 = Some q /\ nfa_edge n1 q a t in
       let move2 := fun t => exists q, s2 = Some q /\ nfa_edge n2 q a t in
       (nfa_edge n i a j <->
        (exists t1 t2, nth_error ks j = Some (Some t1, Some t2) /\ move1 t1 /\ move2 t2) \/
        (exists t1, nth_error ks j = Some (Some t1, None) /\ move1 t1 /\ ~ exists t2, move2 t2) \/
        (exists t2, nth_error ks j = Some (None, Some t2) /\ (~ exists t1, move1 t1) /\ move2 t2))) /\
    (forall i s1 s2 j, nth_error ks i = Some (s1, s2) ->
       (nfa_eps_edge n i j <->
        (exists q t, s1 = Some q /\ nfa_eps_edge n1 q t /\ nth_error ks j = Some (Some t, s2)) \/
        (exists q t, s2 = Some q /\ nfa_eps_edge n2 q t /\ nth_error ks j = Some (s1, Some t)))).
Proof.
  intros h n1 n2 comb n V1 V2 Hn name. destruct (alphabet_equal_spec _ _ (nv_alphabet _ V1) (nv_alphabet _ V2)) as [Hs|Hs].
  2:{ rewrite nfa_product_none in Hn by auto. discriminate. }
  destruct (nfa_product_construction_struct h n1 n2 comb V1 V2 Hs) as (n' & ks & Hn' & V & HP). rewrite Hn in Hn'. injection Hn' as <-.
  assert (Hlen := np_length _ _ _ _ _ HP).
  assert (Hname : forall p, nfa_pair_name n1 n2 p = name p) by (intros [s1 s2]; reflexivity).
  exists ks. split; [apply HP|]. split; [auto|]. split; [apply HP|]. split; [|split; [|split]].
  - intros s1 s2. rewrite (np_reach _ _ _ _ _ HP). split; intros (w & Hw); exists w; apply (ppath_iff n1 n2 w (s1, s2)); auto.
  - intros i s1 s2 s Hi Hs'. split; [apply (np_state _ _ _ _ _ HP _ _ _ Hi Hs')|]. destruct (np_names _ _ _ _ _ HP) as [Hnm|[Hnd Hnm]].
    + split; [intros _; rewrite (Hnm _ _ _ Hi Hs'); apply Hname|]. intros Hno. exfalso. apply Hno.
      replace (map name ks) with (map ns_name (nfa_states n)); [apply (nv_names _ V)|].
      apply nth_error_ext. intros j. rewrite !nth_error_map. destruct (nth_error ks j) as [p|] eqn:Ej.
      * destruct (nth_error_lt (nfa_states n) j) as [st Hst]; [rewrite Hlen; eapply nth_error_length; eauto|]. rewrite Hst. simpl.
        rewrite (Hnm _ _ _ Ej Hst). f_equal. apply Hname.
      * assert (Hno' : nth_error (nfa_states n) j = None) by (apply nth_error_None; rewrite Hlen; apply nth_error_None; auto). rewrite Hno'. auto.
    + split.
      * intros Hyes. exfalso. apply Hnd. erewrite map_ext; [exact Hyes|auto].
      * intros _. destruct (Hnm s (nth_error_In _ _ Hs')) as (j & Hj & E). exists j. split; auto. rewrite E. apply dec_decimal.
  - intros i s1 s2 a j Hi move1 move2. rewrite (np_edge _ _ _ _ _ HP i (s1, s2) a j Hi). unfold pair_edge, oedge. simpl. fold move1 move2. split.
    + intros ([[t1|] [t2|]] & Hj & H); [left|right; left|right; right|tauto]; [exists t1, t2|exists t1|exists t2]; auto.
    + intros [(t1 & t2 & Hj & H)|[(t1 & Hj & H)|(t2 & Hj & H)]]; eexists; (split; [exact Hj|exact H]).
  - intros i s1 s2 j Hi. rewrite (np_eps _ _ _ _ _ HP i (s1, s2) j Hi). unfold pair_eps. simpl. split.
    + intros (p' & Hj & [(q & e & H1 & H2 & ->)|(q & e & H1 & H2 & ->)]); [left|right]; eauto.
    + intros [(q & e & H1 & H2 & H3)|(q & e & H1 & H2 & H3)]; eexists; (split; [exact H3|]); [left|right]; eauto.
Qed.
Print Assumptions C29_nfa_product_states.

(** with the or-combinator the product is the union *)
Theorem C29_nfa_product_or : forall h n1 n2 n, nfa_valid n1 -> nfa_valid n2 ->
  nfa_product_construction h n1 n2
    (fun s1 s2 => match s1 with Some s => ns_accepting s | None => false end ||
                  match s2 with Some s => ns_accepting s | None => false end) = Ret (Some n) ->
  forall w, nfa_lang n w <-> nfa_lang n1 w \/ nfa_lang n2 w.
Proof.
  intros h n1 n2 n V1 V2 Hn w.
  destruct (C29_nfa_product h n1 n2 (fun s1 s2 => match s1 with Some s => ns_accepting s | None => false end ||
                  match s2 with Some s => ns_accepting s | None => false end) V1 V2) as (r & Hr & _ & H).
  rewrite Hn in Hr. injection Hr as <-. destruct (H n eq_refl) as (_ & _ & _ & Hl). rewrite Hl.
  exact (nfa_pair_lang_or n1 n2 w (fun s1 s2 => match s1 with Some s => ns_accepting s | None => false end ||
                  match s2 with Some s => ns_accepting s | None => false end) V1 V2 (fun _ _ => eq_refl)).
Qed.
Print Assumptions C29_nfa_product_or.

(** a combinator that is only true when both states are present sees exactly the pairs of states reached on the word *)
Theorem C29_nfa_product_both : forall h n1 n2 f n, nfa_valid n1 -> nfa_valid n2 ->
  nfa_product_construction h n1 n2
    (fun s1 s2 => match s1, s2 with Some s1, Some s2 => f s1 s2 | _, _ => false end) = Ret (Some n) ->
  forall w, nfa_lang n w <->
    exists q1 q2 s1 s2, nfa_path n1 (nfa_initial n1) w q1 /\ nfa_path n2 (nfa_initial n2) w q2 /\
      nth_error (nfa_states n1) q1 = Some s1 /\ nth_error (nfa_states n2) q2 = Some s2 /\ f s1 s2 = true.
Proof.
  intros h n1 n2 f n V1 V2 Hn w.
  destruct (C29_nfa_product h n1 n2 (fun s1 s2 => match s1, s2 with Some s1, Some s2 => f s1 s2 | _, _ => false end) V1 V2)
    as (r & Hr & _ & H).
  rewrite Hn in Hr. injection Hr as <-. destruct (H n eq_refl) as (_ & _ & _ & Hl). rewrite Hl. split.
  - intros (o1 & o2 & Hp & Hf). destruct o1 as [q1|]; [|simpl in Hf; discriminate].
    destruct o2 as [q2|]; simpl in Hp, Hf; destruct (nth_error (nfa_states n1) q1) as [s1|] eqn:E1; try discriminate.
    destruct (nth_error (nfa_states n2) q2) as [s2|] eqn:E2; [|discriminate]. exists q1, q2, s1, s2. tauto.
  - intros (q1 & q2 & s1 & s2 & H1 & H2 & H3 & H4 & Hf). exists (Some q1), (Some q2). simpl. rewrite H3, H4. auto.
Qed.
Print Assumptions C29_nfa_product_both.
Example C29_example : nfa_valid ex_nfa /\ nfa_valid ex_nfa_ab /\
  exists n, nfa_product_construction rev_order ex_nfa ex_nfa_ab
    (fun s1 s2 => match s1 with Some s => ns_accepting s | None => false end ||
                  match s2 with Some s => ns_accepting s | None => false end) = Ret (Some n) /\
    nfa_accepts n [el_a; el_b; el_b; el_b] = Ret true /\ nfa_accepts n [el_b; el_a] = Ret false.
Proof. split; [apply ex_nfa_valid|]. split; [apply ex_nfa_ab_valid|]. eexists. split; [vm_compute; reflexivity|]. vm_compute. auto. Qed.

(** ** C28: intersection *)
Theorem C28_nfa_intersection : forall h n1 n2, nfa_valid n1 -> nfa_valid n2 ->
  exists r, nfa_intersection h n1 n2 = Ret r /\
    (r = None <-> ~ same_set (nfa_alphabet n1) (nfa_alphabet n2)) /\
    forall n, r = Some n -> nfa_valid n /\ nfa_alphabet n = nfa_alphabet n1 /\
                            forall w, nfa_lang n w <-> nfa_lang n1 w /\ nfa_lang n2 w.
Proof.
  intros h n1 n2 V1 V2. unfold nfa_intersection.
  match goal with |- context[nfa_product_construction h n1 n2 ?c] =>
    destruct (C29_nfa_product h n1 n2 c V1 V2) as (r & Hr & Hn & H) end.
  exists r. split; auto. split; auto. intros n Hrn. destruct (H n Hrn) as (V & Ea & _ & Hl). split; auto. split; auto.
  intros w. rewrite Hl.
  exact (nfa_pair_lang_and n1 n2 w
           (fun s1 s2 => match s1, s2 with Some s1, Some s2 => ns_accepting s1 && ns_accepting s2 | _, _ => false end)
           (fun _ _ => eq_refl)).
Qed.
Print Assumptions C28_nfa_intersection.
Example C28_example : nfa_valid ex_nfa /\ nfa_valid ex_nfa_ab /\
  exists n, nfa_intersection rev_order ex_nfa ex_nfa_ab = Ret (Some n) /\ nfa_accepts n [el_b; el_a; el_b] = Ret true /\
            nfa_accepts n [el_a; el_b; el_b] = Ret false.
Proof. split; [apply ex_nfa_valid|]. split; [apply ex_nfa_ab_valid|]. eexists. split; [vm_compute; reflexivity|]. vm_compute. auto. Qed.

(** ** C30: epsilon removal *)
Theorem C30_remove_epsilon_moves : forall h dbg n, nfa_valid n ->
  exists n', nfa_remove_epsilon_moves h dbg n = Ret n' /\ nfa_valid n' /\ eps_free n' /\ nfa_has_epsilon_moves n' = false /\
    nfa_alphabet n' = nfa_alphabet n /\ (forall w, nfa_lang n' w <-> nfa_lang n w) /\ (eps_free n -> n' = n).
Proof.
  intros h dbg n V. destruct (nfa_has_epsilon_moves n) eqn:E.
  - destruct (nfa_remove_epsilon_moves_correct h dbg n V E) as (n' & k & Hn & H). exists n'. split; auto.
    split; [apply H|]. split; [apply H|]. split; [apply nfa_has_epsilon_moves_spec, H|]. split; [apply H|]. split; [apply H|].
    intros Hf. apply nfa_has_epsilon_moves_spec in Hf. congruence.
  - exists n. unfold nfa_remove_epsilon_moves. rewrite E. simpl. split; auto. split; auto.
    split; [apply nfa_has_epsilon_moves_spec; auto|]. split; auto. split; auto. split; [tauto|auto].
Qed.
Print Assumptions C30_remove_epsilon_moves.
Example C30_example : nfa_valid ex_nfa /\
  exists n', nfa_remove_epsilon_moves rev_order true ex_nfa = Ret n' /\ nfa_accepts n' [el_b; el_a; el_b] = Ret true /\
             nfa_accepts n' [] = Ret true.
Proof. split; [apply ex_nfa_valid|]. eexists. split; [vm_compute; reflexivity|]. vm_compute. auto. Qed.

(** ** C31: [optimize] *)
Theorem C31_optimize : forall h dbg n, nfa_valid n ->
  exists n', nfa_optimize h dbg n = Ret n' /\ nfa_valid n' /\ eps_free n' /\ nfa_alphabet n' = nfa_alphabet n /\
             forall w, nfa_lang n' w <-> nfa_lang n w.
Proof.
  intros h dbg n V. unfold nfa_optimize.
  destruct (C17_nfa_remove_unreachable h dbg n V) as (n1 & H1 & V1 & (k & _ & _ & R) & L1).
  destruct (C30_remove_epsilon_moves h dbg n1 V1) as (n2 & H2 & V2 & F2 & _ & A2 & L2 & _).
  rewrite H1. cbn [bind]. exists n2. split; auto. split; auto. split; auto. split; [rewrite A2; apply R|].
  intros w. rewrite L2. apply L1.
Qed.
Print Assumptions C31_optimize.
Example C31_example : nfa_valid ex_nfa /\
  exists n', nfa_optimize rev_order true ex_nfa = Ret n' /\ length (nfa_states n') = 5 /\ nfa_accepts n' [el_b; el_a; el_b] = Ret true.
Proof. split; [apply ex_nfa_valid|]. eexists. split; [vm_compute; reflexivity|]. vm_compute. auto. Qed.

(** ** C32: epsilon removal removes dead states, and only those *)
(** nothing dead remains *)
Theorem C32_no_dead_state_left : forall h dbg n n', nfa_valid n -> ~ eps_free n ->
  nfa_remove_epsilon_moves h dbg n = Ret n' ->
  (forall q s, nth_error (nfa_states n') q = Some s -> ns_initial s = false -> ns_accepting s = false ->
               exists a t, nfa_edge n' q a t) /\
  (forall q, ~ nfa_dead n' true q).
Proof.
  intros h dbg n n' V Hf Hn. destruct (nfa_has_epsilon_moves n) eqn:E.
  2:{ apply nfa_has_epsilon_moves_spec in E. tauto. }
  destruct (nfa_remove_epsilon_moves_correct h dbg n V E) as (n1 & k & Hn1 & H). rewrite Hn in Hn1. injection Hn1 as <-.
  assert (L : forall q s, nth_error (nfa_states n') q = Some s -> ns_initial s = false -> ns_accepting s = false ->
               exists a t, nfa_edge n' q a t) by (intros q s; exact (eps_removed_live n n' k q s V H)).
  split; auto. intros q D. induction D as [q Hq Ha Hi Ht IH]. destruct (nth_error_lt _ _ Hq) as [s Hs].
  destruct (L q s Hs) as (a & t & He).
  - destruct (ns_initial s) eqn:Ei; auto. exfalso. apply (Hi eq_refl). exact (proj1 (nv_flag _ (er_valid _ _ _ H) _ _ Hs) Ei).
  - destruct (ns_accepting s) eqn:Ei; auto. exfalso. apply Ha. exists s. auto.
  - exact (IH a t t He (nfa_path_nil _ _)).
Qed.
Print Assumptions C32_no_dead_state_left.
(** the surviving states: when the epsilon closure of the initial state contains another live state, a fresh initial
    state is added and the old one loses its standing; the states kept are exactly those that are not dead *)
Theorem C32_survivors : forall h dbg n n', nfa_valid n -> ~ eps_free n -> nfa_remove_epsilon_moves h dbg n = Ret n' ->
  exists k keep, StronglySorted lt k /\
    (keep = true <-> ~ exists q, nfa_path n (nfa_initial n) [] q /\ q <> nfa_initial n /\ ~ nfa_dead n true q) /\
    (forall q, In q k <-> q < length (nfa_states n) /\ ~ nfa_dead n keep q) /\
    (if keep then length (nfa_states n') = length k /\ nth_error k (nfa_initial n') = Some (nfa_initial n)
             else length (nfa_states n') = S (length k) /\ nfa_initial n' = length k /\
                  exists s', nth_error (nfa_states n') (length k) = Some s' /\
                    (forall s, nth_error (nfa_states n) (nfa_initial n) = Some s -> ~ In (nfa_initial n) k -> ns_name s' = ns_name s) /\
                    (In (nfa_initial n) k -> ~ In [115; 95; 110; 101; 119]%N (map ns_name (nfa_states n)) -> ns_name s' = [115; 95; 110; 101; 119]%N) /\
                    (In (nfa_initial n) k -> In [115; 95; 110; 101; 119]%N (map ns_name (nfa_states n)) ->
                       exists i, ns_name s' = decimal i /\ ~ In (ns_name s') (map ns_name (nfa_states n)) /\
                                 forall j, j < i -> In (decimal j) (map ns_name (nfa_states n))) /\
                    (ns_accepting s' = true <-> exists q, nfa_path n (nfa_initial n) [] q /\ nfa_accepting n q) /\
                    (forall a j, nfa_edge n' (length k) a j <->
                       exists q t0 t, nfa_path n (nfa_initial n) [] q /\ nfa_edge n q a t0 /\ nfa_path n t0 [] t /\
                                      nth_error k j = Some t)) /\
    (forall i q, nth_error k i = Some q ->
       (exists s s', nth_error (nfa_states n) q = Some s /\ nth_error (nfa_states n') i = Some s' /\
                     ns_name s' = ns_name s /\ ns_accepting s' = ns_accepting s) /\
       (forall a j, nfa_edge n' i a j <->
          exists t0 t, nfa_edge n q a t0 /\ nfa_path n t0 [] t /\ nth_error k j = Some t)).
Proof.
  intros h dbg n n' V Hf Hn. destruct (nfa_has_epsilon_moves n) eqn:E.
  2:{ apply nfa_has_epsilon_moves_spec in E. tauto. }
  destruct (nfa_remove_epsilon_moves_correct h dbg n V E) as (n1 & k & Hn1 & H). rewrite Hn in Hn1. injection Hn1 as <-.
  assert (Hst : forall extra, map ns_name (nfa_states n') = map (name_of n) k ++ extra ->
                (forall q, In q k -> q < length (nfa_states n)) ->
                forall i q, nth_error k i = Some q ->
       (exists s s', nth_error (nfa_states n) q = Some s /\ nth_error (nfa_states n') i = Some s' /\
                     ns_name s' = ns_name s /\ ns_accepting s' = ns_accepting s) /\
       (forall a j, nfa_edge n' i a j <->
          exists t0 t, nfa_edge n q a t0 /\ nfa_path n t0 [] t /\ nth_error k j = Some t)).
  { intros extra Em Hk i q Hi. split.
    2:{ intros a j. rewrite (er_edges _ _ _ H _ _ a j Hi). unfold iedge. split.
        - intros (t & (t0 & H1 & H2) & H3). eauto 6.
        - intros (t0 & t & H1 & H2 & H3). eauto 6. }
    destruct (nth_error_lt (nfa_states n) q) as [s Hs].
    { apply Hk. eapply nth_error_In; eauto. }
    assert (Ei : nth_error (map ns_name (nfa_states n')) i = Some (name_of n q)).
    { rewrite Em, nth_error_app1 by (rewrite map_length; eapply nth_error_length; eauto). rewrite nth_error_map, Hi. reflexivity. }
    rewrite nth_error_map in Ei. destruct (nth_error (nfa_states n') i) as [s'|] eqn:Hs'; [|discriminate].
    injection Ei as Ei. exists s, s'. split; auto. split; auto. split; [rewrite Ei; unfold name_of; rewrite Hs; auto|].
    destruct (er_state _ _ _ H _ _ Hi) as (Hacc & _). apply Bool.eq_iff_eq_true. split; intros Ea.
    - assert (A : nfa_accepting n q) by (apply Hacc; exists s'; auto). destruct A as (s1 & A1 & A2). congruence.
    - assert (A : nfa_accepting n' i) by (apply Hacc; exists s; auto). destruct A as (s1 & A1 & A2). congruence. }
  destruct (er_cases _ _ _ H) as [(Hna & Hk & _ & Hm & Hi)|(Hl & Hk & Hdec & Hi & nm & Hm & Hn1 & Hn2)].
  - exists k, true. split; [apply H|]. split; [split; [intros _; exact Hna|auto]|]. split; auto. split.
    + split; auto. rewrite <- (map_length ns_name), Hm, map_length. reflexivity.
    + apply (Hst []); [rewrite app_nil_r; auto|]. intros q Hq. apply Hk; auto.
  - exists k, false. split; [apply H|]. split; [split; [discriminate|intros X; destruct (X Hl)]|]. split; auto. split.
    + assert (El : length (nfa_states n') = S (length k)) by (rewrite <- (map_length ns_name), Hm, app_length, map_length; simpl; lia).
      split; auto. split; auto. destruct (nth_error_lt (nfa_states n') (length k)) as [s' Hs']; [lia|]. exists s'. split; auto.
      assert (Es : ns_name s' = nm).
      { assert (H0 : nth_error (map ns_name (nfa_states n')) (length k) = Some (ns_name s')) by (rewrite nth_error_map, Hs'; auto).
        rewrite Hm, nth_error_app2 in H0 by (rewrite map_length; auto). rewrite map_length, Nat.sub_diag in H0. injection H0 as H0. auto. }
      rewrite Es. destruct (er_new _ _ _ H Hl) as [Hna He]. split; [|split; [|split; [|split]]].
      * intros s Hs Hin. destruct (Hdec (nfa_initial n) (nv_initial _ V)) as [Hd|Hd]; [tauto|]. rewrite (Hn1 Hd). unfold name_of. rewrite Hs. auto.
      * intros Hin Hnew. apply Hk in Hin as [_ Hin]. destruct (Hn2 Hin) as [_ [H0|(H0 & _)]]; tauto.
      * intros Hin Hnew. apply Hk in Hin as [_ Hin]. destruct (Hn2 Hin) as [H0 [->|(_ & i & -> & Hj)]]; [tauto|].
        exists i. split; [apply dec_decimal|]. split; auto. intros j Hlt. rewrite <- dec_decimal. auto.
      * rewrite <- Hna. unfold nfa_accepting. split; [eauto|]. intros (s2 & E1 & E2). congruence.
      * intros a j. rewrite He. unfold iedge. split.
        -- intros (q & t & H1 & (t0 & H2 & H3) & H4). eauto 8.
        -- intros (q & t0 & t & H1 & H2 & H3 & H4). eauto 8.
    + apply (Hst [nm]); auto. intros q Hq. apply Hk; auto.
Qed.
Print Assumptions C32_survivors.
Example C32_example : nfa_valid ex_nfa /\ ~ eps_free ex_nfa /\
  exists n', nfa_remove_epsilon_moves rev_order true ex_nfa = Ret n' /\ length (nfa_states n') = 6.
Proof.
  split; [apply ex_nfa_valid|]. split.
  - intros H. specialize (H 0 _ eq_refl). discriminate.
  - eexists. split; vm_compute; reflexivity.
Qed.

(** ** C26: names stay unique, whatever the names in the inputs *)
Theorem C26_dfa_product_names : forall h d1 d2 comb d, dfa_valid d1 -> dfa_valid d2 ->
  dfa_product_construction h d1 d2 comb = Ret (Some d) -> NoDup (map ds_name (dfa_states d)).
Proof.
  intros h d1 d2 comb d V1 V2 Hd. destruct (alphabet_equal_spec _ _ (dv_alphabet _ V1) (dv_alphabet _ V2)) as [Hs|Hs].
  2:{ rewrite dfa_product_none in Hd by auto. discriminate. }
  destruct (dfa_product_construction_correct h d1 d2 comb V1 V2 Hs) as (d' & ks & Hd' & V & HP).
  rewrite Hd in Hd'. injection Hd' as <-. apply V.
Qed.
Print Assumptions C26_dfa_product_names.
Theorem C26_nfa_product_names : forall h n1 n2 comb n, nfa_valid n1 -> nfa_valid n2 ->
  nfa_product_construction h n1 n2 comb = Ret (Some n) -> NoDup (map ns_name (nfa_states n)).
Proof.
  intros h n1 n2 comb n V1 V2 Hn. destruct (C29_nfa_product h n1 n2 comb V1 V2) as (r & Hr & _ & H).
  rewrite Hn in Hr. injection Hr as <-. apply (H n eq_refl).
Qed.
Print Assumptions C26_nfa_product_names.
Theorem C26_nfa_to_dfa_names : forall h n d, nfa_valid n -> nfa_to_dfa h n = Ret d -> NoDup (map ds_name (dfa_states d)).
Proof.
  intros h n d V Hd. destruct (C15_nfa_to_dfa h n V) as (d' & Hd' & V' & _). rewrite Hd in Hd'. injection Hd' as <-. apply V'.
Qed.
Print Assumptions C26_nfa_to_dfa_names.
Theorem C26_nfa_union_names : forall n1 n2 n, nfa_valid n1 -> nfa_valid n2 -> nfa_union n1 n2 = Ret (inl n) ->
  NoDup (map ns_name (nfa_states n)).
Proof.
  intros n1 n2 n V1 V2 Hn. destruct (C27_nfa_union n1 n2 V1 V2) as (r & Hr & Hr2 & H). rewrite Hn in Hr. injection Hr as <-.
  destruct (alphabet_equal_spec _ _ (nv_alphabet _ V1) (nv_alphabet _ V2)) as [Hs|Hs].
  - destruct (H Hs) as (n' & [= <-] & V & _). apply V.
  - rewrite nfa_union_none in Hn by auto. discriminate.
Qed.
Print Assumptions C26_nfa_union_names.
Theorem C26_remove_epsilon_names : forall h dbg n n', nfa_valid n -> nfa_remove_epsilon_moves h dbg n = Ret n' ->
  NoDup (map ns_name (nfa_states n')).
Proof.
  intros h dbg n n' V Hn. destruct (C30_remove_epsilon_moves h dbg n V) as (n1 & Hn1 & V1 & _). rewrite Hn in Hn1.
  injection Hn1 as <-. apply V1.
Qed.
Print Assumptions C26_remove_epsilon_names.
(** names that clash on purpose: [(a,b] paired with [c)] against [(a] paired with [b,c)] and so on *)
Example C26_example : nfa_valid ex_nfa /\ exists n, nfa_union ex_nfa ex_nfa = Ret (inl n) /\ nodupb (map ns_name (nfa_states n)) = true.
Proof. split; [apply ex_nfa_valid|]. eexists. split; vm_compute; reflexivity. Qed.
