(** * The bounds on the number of states are attained *)
From Coq Require Import List NArith Arith Bool Lia.
From Verif Require Import Base BaseLemmas Spec DfaModel NfaModel Examples DfaBasics NfaBasics DfaEquiv Prop_Dfa Prop_Nfa Prop_Size Growth.
Import ListNotations.

(** ** C62: no smaller bounds hold *)

(** For all n and m (at least 3) there are DFAs with n and m states over two symbols whose products have n * m states, whatever
    Boolean function of both decides which states accept; and no DFA for the language of the product has fewer states. *)
Theorem C62_dfa_product_attained : forall n m, 3 <= n -> 3 <= m ->
  exists d1 d2, dfa_valid d1 /\ dfa_valid d2 /\ length (dfa_states d1) = n /\ length (dfa_states d2) = m /\
    dfa_alphabet d1 = dfa_alphabet d2 /\ length (dfa_alphabet d1) = 2 /\
    forall h (f : bool -> bool -> bool), (exists b, f true b <> f false b) -> (exists a, f a true <> f a false) ->
      exists d, dfa_product_construction h d1 d2 (fun s1 s2 => f (ds_accepting s1) (ds_accepting s2)) = Ret (Some d) /\
        length (dfa_states d) = n * m /\
        forall d', dfa_valid d' -> (forall w, dfa_lang d' w <-> dfa_lang d w) -> n * m <= length (dfa_states d').
Proof.
  intros n m Hn Hm. exists (counter n el_a), (counter m el_b).
  assert (V1 : dfa_valid (counter n el_a)) by (apply counter_valid; lia). assert (V2 : dfa_valid (counter m el_b)) by (apply counter_valid; lia).
  split; [exact V1|]. split; [exact V2|]. split; [apply counter_size|]. split; [apply counter_size|]. split; [reflexivity|]. split; [reflexivity|].
  intros h f F1 F2. destruct (C24_dfa_product h _ _ (fun s1 s2 => f (ds_accepting s1) (ds_accepting s2)) V1 V2) as ([d|] & E & HN & HS).
  2: { exfalso. apply (proj1 HN eq_refl). intros x. reflexivity. }
  exists d. split; [exact E|]. destruct (HS d eq_refl) as (V & _ & _ & HL).
  assert (K : forall d', dfa_valid d' -> (forall w, dfa_lang d' w <-> dfa_lang d w) -> n * m <= length (dfa_states d')).
  { intros d' V' HL'. apply (counted_states n m f Hn Hm d'); [split; auto|auto|]. intros w. rewrite HL', HL. apply counters_lang; lia. }
  split; [|exact K]. apply Nat.le_antisymm; [|apply K; auto; tauto].
  pose proof (C62_dfa_product h _ _ _ d V1 V2 E) as B. rewrite !counter_size in B. exact B.
Qed.
Print Assumptions C62_dfa_product_attained.

(** In particular union, intersection, difference and symmetric difference can all need n * m states, for the same two DFAs,
    and minimizing does not help. *)
Theorem C62_set_operations_attained : forall n m, 3 <= n -> 3 <= m ->
  exists d1 d2, dfa_valid d1 /\ dfa_valid d2 /\ length (dfa_states d1) = n /\ length (dfa_states d2) = m /\
    forall h h' dbg op, In op [dfa_union; dfa_intersection; dfa_difference; dfa_symmetric_difference] ->
      exists d d', op h d1 d2 = Ret (Some d) /\ dfa_minimize h' dbg d = Ret d' /\
        length (dfa_states d) = n * m /\ length (dfa_states d') = n * m.
Proof.
  intros n m Hn Hm. destruct (C62_dfa_product_attained n m Hn Hm) as (d1 & d2 & V1 & V2 & L1 & L2 & _ & _ & H).
  exists d1, d2. split; [exact V1|]. split; [exact V2|]. split; [exact L1|]. split; [exact L2|]. intros h h' dbg op Hop.
  assert (exists f : bool -> bool -> bool, (exists b, f true b <> f false b) /\ (exists a, f a true <> f a false) /\
            op h d1 d2 = dfa_product_construction h d1 d2 (fun s1 s2 => f (ds_accepting s1) (ds_accepting s2))) as (f & F1 & F2 & EO).
  { destruct Hop as [<-|[<-|[<-|[<-|[]]]]].
    - exists orb. split; [exists false; discriminate|]. split; [exists false; discriminate|reflexivity].
    - exists andb. split; [exists true; discriminate|]. split; [exists true; discriminate|reflexivity].
    - exists (fun a b => a && negb b). split; [exists false; discriminate|]. split; [exists true; discriminate|reflexivity].
    - exists (fun a b => negb (Bool.eqb a b)). split; [exists false; discriminate|]. split; [exists true; discriminate|reflexivity]. }
  destruct (H h f F1 F2) as (d & E & L & K). rewrite <- EO in E. exists d.
  assert (V : dfa_valid d).
  { rewrite EO in E. destruct (C24_dfa_product h d1 d2 (fun s1 s2 => f (ds_accepting s1) (ds_accepting s2)) V1 V2) as (r & E' & _ & HS). rewrite E in E'. injection E' as <-. apply (HS d eq_refl). }
  destruct (C21_minimize h' dbg d V) as (d' & E' & V' & _ & HL & _). exists d'. split; [exact E|]. split; [exact E'|]. split; [exact L|].
  apply Nat.le_antisymm; [|apply K; auto]. destruct (C62_minimize h' dbg d V) as (M & _). rewrite <- L. apply M. exact E'.
Qed.
Print Assumptions C62_set_operations_attained.

(** For all n and m there are NFAs with n and m states whose products have a state for every pair, also for those in which one run
    has ended, whatever the combinator is. *)
Theorem C62_nfa_product_attained : forall n m, 1 <= n -> 1 <= m ->
  exists n1 n2, nfa_valid n1 /\ nfa_valid n2 /\ length (nfa_states n1) = n /\ length (nfa_states n2) = m /\
    forall h comb, exists n', nfa_product_construction h n1 n2 comb = Ret (Some n') /\ S (length (nfa_states n')) = S n * S m.
Proof.
  intros n m Hn Hm. exists (left_nfa n), (right_nfa m).
  assert (V1 : nfa_valid (left_nfa n)) by (apply walker_valid; lia). assert (V2 : nfa_valid (right_nfa m)) by (apply walker_valid; lia).
  split; [exact V1|]. split; [exact V2|]. split; [apply walker_size|]. split; [apply walker_size|]. intros h comb.
  destruct (C29_nfa_product h _ _ comb V1 V2) as ([n'|] & E & HN & _).
  2: { exfalso. apply (proj1 HN eq_refl). intros x. reflexivity. }
  exists n'. split; [exact E|]. destruct (C29_nfa_product_states h _ _ comb n' V1 V2 E) as (ks & _ & L & _ & HK & _).
  apply Nat.le_antisymm.
  - pose proof (C62_nfa_product h _ _ comb n' V1 V2 (or_introl E)) as B. unfold left_nfa, right_nfa in B. rewrite !walker_size in B. lia.
  - rewrite <- L. apply all_pairs; auto.
Qed.
Print Assumptions C62_nfa_product_attained.

(** For all m (at least 2) there is an NFA with m states over three symbols, without epsilon moves, that [to_dfa] converts to a DFA
    with 2^m states; and no DFA for its language has fewer states. *)
Theorem C62_subset_construction_attained : forall m, 2 <= m ->
  exists n, nfa_valid n /\ eps_free n /\ length (nfa_states n) = m /\ length (nfa_alphabet n) = 3 /\
    (forall h, exists d, nfa_to_dfa h n = Ret d /\ length (dfa_states d) = 2 ^ m) /\
    forall d, dfa_valid d -> (forall w, dfa_lang d w <-> nfa_lang n w) -> 2 ^ m <= length (dfa_states d).
Proof.
  intros m Hm. destruct m as [|[|k]]; try lia. exists (subsets_nfa k). pose proof (subsets_valid k) as V.
  split; [exact V|]. split; [intros q s H; apply subsets_at in H as [_ ->]; reflexivity|]. split; [apply subsets_size|]. split; [reflexivity|].
  split; [|apply subsets_states]. intros h. destruct (C15_nfa_to_dfa h _ V) as (d & E & Vd & _ & _ & _ & _ & HL). exists d. split; [exact E|].
  apply Nat.le_antisymm; [|apply subsets_states; auto]. pose proof (C62_subset_construction h _ d V E) as [_ B]. rewrite subsets_size in B. exact B.
Qed.
Print Assumptions C62_subset_construction_attained.

(** The hypotheses are met: two DFAs of three states, whose union has nine; an NFA with two states, whose DFA has four *)
Example C62_attained_example :
  (exists d, dfa_union id_order (counter 3 el_a) (counter 3 el_b) = Ret (Some d) /\ length (dfa_states d) = 9) /\
  (exists n, nfa_product_construction id_order (left_nfa 2) (right_nfa 1) (fun _ _ => true) = Ret (Some n) /\ length (nfa_states n) = 5) /\
  (exists d, nfa_to_dfa id_order (subsets_nfa 0) = Ret d /\ length (dfa_states d) = 4).
Proof. split; [|split]; eexists; (split; [vm_compute; reflexivity|reflexivity]). Qed.
