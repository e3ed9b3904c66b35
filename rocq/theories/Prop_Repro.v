(** * C63: what the results owe to the iteration order of hash tables

    The order in which a [HashMap] or [HashSet] yields its entries differs from run to run.  The theorems compare two runs
    with arbitrary orders [h], [h'] (and builds [dbg], [dbg']). *)
From Coq Require Import List NArith Arith Bool Permutation Sorted Lia.
From Verif Require Import Base Spec ReproSpec DfaModel NfaModel RegexModel TableModel DrawModel Examples.
From Verif Require Import DfaReach NfaReach DfaMinimize RegexProofs NfaEps ReproProofs.
From Verif Require Import Prop_Dfa Prop_Nfa.
Import ListNotations.

(** ** Results that are the same in every run *)

(** converting a regular expression, also all the way to the printed table of the DFA *)
Theorem C63_regex : forall h h' t, regex_to_nfa h t = regex_to_nfa h' t /\
  nfa_to_dfa h (regex_to_nfa h t) = nfa_to_dfa h' (regex_to_nfa h' t).
Proof.
  intros h h' t. rewrite (regex_to_nfa_order h h'). split; auto. apply nfa_to_dfa_order. apply regex_to_nfa_correct.
Qed.
Print Assumptions C63_regex.

Theorem C63_nfa_to_dfa : forall h h' n, nfa_valid n -> nfa_to_dfa h n = nfa_to_dfa h' n.
Proof. exact nfa_to_dfa_order. Qed.
Print Assumptions C63_nfa_to_dfa.

Theorem C63_dfa_remove_unreachable : forall h h' dbg dbg' d, dfa_valid d ->
  dfa_remove_unreachable_states h dbg d = dfa_remove_unreachable_states h' dbg' d.
Proof. exact dfa_remove_unreachable_order. Qed.
Print Assumptions C63_dfa_remove_unreachable.

Theorem C63_nfa_remove_unreachable : forall h h' dbg dbg' n, nfa_valid n ->
  nfa_remove_unreachable_states h dbg n = nfa_remove_unreachable_states h' dbg' n.
Proof. exact nfa_remove_unreachable_order. Qed.
Print Assumptions C63_nfa_remove_unreachable.

(** products of DFAs, when the commas in the names of the pairs are not ambiguous *)
Theorem C63_dfa_product : forall h h' d1 d2 comb, dfa_valid d1 -> dfa_valid d2 ->
  no_comma (map ds_name (dfa_states d1)) \/ no_comma (map ds_name (dfa_states d2)) ->
  dfa_product_construction h d1 d2 comb = dfa_product_construction h' d1 d2 comb.
Proof. exact dfa_product_order_comma. Qed.
Print Assumptions C63_dfa_product.

Theorem C63_dfa_set_operations : forall h h' d1 d2, dfa_valid d1 -> dfa_valid d2 ->
  no_comma (map ds_name (dfa_states d1)) \/ no_comma (map ds_name (dfa_states d2)) ->
  dfa_union h d1 d2 = dfa_union h' d1 d2 /\ dfa_intersection h d1 d2 = dfa_intersection h' d1 d2 /\
  dfa_difference h d1 d2 = dfa_difference h' d1 d2 /\ dfa_symmetric_difference h d1 d2 = dfa_symmetric_difference h' d1 d2.
Proof. intros h h' d1 d2 V1 V2 Hc. repeat split; apply dfa_product_order_comma; auto. Qed.
Print Assumptions C63_dfa_set_operations.

(** products of NFAs; here the name "none" stands for an automaton that has no state left *)
Theorem C63_nfa_product : forall h h' n1 n2 comb, nfa_valid n1 -> nfa_valid n2 ->
  no_comma (map ns_name (nfa_states n1)) \/ no_comma (map ns_name (nfa_states n2)) ->
  not_none (map ns_name (nfa_states n1)) -> not_none (map ns_name (nfa_states n2)) ->
  nfa_product_construction h n1 n2 comb = nfa_product_construction h' n1 n2 comb.
Proof. exact nfa_product_order_comma. Qed.
Print Assumptions C63_nfa_product.

Theorem C63_nfa_intersection : forall h h' n1 n2, nfa_valid n1 -> nfa_valid n2 ->
  no_comma (map ns_name (nfa_states n1)) \/ no_comma (map ns_name (nfa_states n2)) ->
  not_none (map ns_name (nfa_states n1)) -> not_none (map ns_name (nfa_states n2)) ->
  nfa_intersection h n1 n2 = nfa_intersection h' n1 n2.
Proof. intros. apply nfa_product_order_comma; auto. Qed.
Print Assumptions C63_nfa_intersection.

(** ** Results that are the same in every run up to names or the order of targets *)

(** products: whatever the names, only the names of the result may differ *)
Theorem C63_dfa_product_shape : forall h h' d1 d2 comb d d', 
  dfa_product_construction h d1 d2 comb = Ret (Some d) -> dfa_product_construction h' d1 d2 comb = Ret (Some d') ->
  dfa_same_but_names d d'.
Proof. exact dfa_product_but_names. Qed.
Print Assumptions C63_dfa_product_shape.

Theorem C63_nfa_product_shape : forall h h' n1 n2 comb n n', 
  nfa_product_construction h n1 n2 comb = Ret (Some n) -> nfa_product_construction h' n1 n2 comb = Ret (Some n') ->
  nfa_same_but_names n n'.
Proof. exact nfa_product_but_names. Qed.
Print Assumptions C63_nfa_product_shape.

(** epsilon removal: the same states, names, flags and sets of targets; the targets may be listed in another order *)
Theorem C63_remove_epsilon_moves : forall h h' dbg dbg' n, nfa_valid n ->
  exists n1 n2, nfa_remove_epsilon_moves h dbg n = Ret n1 /\ nfa_remove_epsilon_moves h' dbg' n = Ret n2 /\
                nfa_same_but_order n1 n2.
Proof. exact remove_epsilon_order. Qed.
Print Assumptions C63_remove_epsilon_moves.

Theorem C63_optimize : forall h h' dbg dbg' n, nfa_valid n ->
  exists n1 n2, nfa_optimize h dbg n = Ret n1 /\ nfa_optimize h' dbg' n = Ret n2 /\ nfa_same_but_order n1 n2.
Proof.
  intros h h' dbg dbg' n V. unfold nfa_optimize. rewrite (nfa_remove_unreachable_order h' h dbg' dbg n V).
  destruct (C17_nfa_remove_unreachable h dbg n V) as (n0 & -> & V0 & _). cbn [bind]. apply remove_epsilon_order; auto.
Qed.
Print Assumptions C63_optimize.

(** minimization: the same number of states, and isomorphic automata *)
Theorem C63_minimize : forall h h' dbg dbg' d, dfa_valid d ->
  exists d1 d2, dfa_minimize h dbg d = Ret d1 /\ dfa_minimize h' dbg' d = Ret d2 /\
                length (dfa_states d1) = length (dfa_states d2) /\ exists f, dfa_iso d1 d2 f.
Proof.
  intros h h' dbg dbg' d V. destruct (C21_minimize h dbg d V) as (d1 & H1 & _). destruct (C21_minimize h' dbg' d V) as (d2 & H2 & _).
  exists d1, d2. split; auto. split; auto. apply (C22_minimal_unique h dbg h' dbg' d d); auto; [|tauto]. intros x; tauto.
Qed.
Print Assumptions C63_minimize.

(** ** Results that do change from run to run *)

(** the representatives that minimization keeps *)
Theorem C63_minimize_refuted : exists h h' d d1 d2, dfa_valid d /\
  dfa_minimize h true d = Ret d1 /\ dfa_minimize h' true d = Ret d2 /\
  dfa_initial d1 <> dfa_initial d2 /\ ~ dfa_same_but_names d1 d2 /\ dfa_to_table d1 <> dfa_to_table d2.
Proof.
  exists id_order, rev_order, ex_even. eexists; eexists. split; [apply ex_even_valid|].
  split; [vm_compute; reflexivity|]. split; [vm_compute; reflexivity|]. split; [vm_compute; discriminate|].
  split; [intros (_ & H & _); vm_compute in H; discriminate|vm_compute; discriminate].
Qed.
Print Assumptions C63_minimize_refuted.

(** the order in which epsilon removal lists targets *)
Theorem C63_remove_epsilon_moves_refuted : exists h h' n n1 n2, nfa_valid n /\
  nfa_remove_epsilon_moves h true n = Ret n1 /\ nfa_remove_epsilon_moves h' true n = Ret n2 /\
  nfa_to_table n1 <> nfa_to_table n2.
Proof.
  exists id_order, rev_order, ex_nfa. eexists; eexists. split; [apply ex_nfa_valid|].
  split; [vm_compute; reflexivity|]. split; [vm_compute; reflexivity|]. vm_compute; discriminate.
Qed.
Print Assumptions C63_remove_epsilon_moves_refuted.

(** the numbers that a product uses as names when two pairs would get the same name: here "(a,b,c)" *)
Definition ex_comma_1 : dfa :=
  {| dfa_alphabet := [el_a];
     dfa_states := [ {| ds_name := [97]%N; ds_initial := true; ds_accepting := false; ds_transitions := [1] |};
                     {| ds_name := [97; 44; 98]%N; ds_initial := false; ds_accepting := true; ds_transitions := [0] |} ];
     dfa_initial := 0 |}.
Definition ex_comma_2 : dfa :=
  {| dfa_alphabet := [el_a];
     dfa_states := [ {| ds_name := [98; 44; 99]%N; ds_initial := true; ds_accepting := false; ds_transitions := [1] |};
                     {| ds_name := [99]%N; ds_initial := false; ds_accepting := true; ds_transitions := [0] |} ];
     dfa_initial := 0 |}.
Theorem C63_product_names_refuted : exists h h' d1 d2 r1 r2, dfa_valid d1 /\ dfa_valid d2 /\
  dfa_union h d1 d2 = Ret (Some r1) /\ dfa_union h' d1 d2 = Ret (Some r2) /\ dfa_to_table r1 <> dfa_to_table r2.
Proof.
  exists id_order, rev_order, ex_comma_1, ex_comma_2. eexists; eexists.
  split; [apply dfa_validb_valid; vm_compute; reflexivity|]. split; [apply dfa_validb_valid; vm_compute; reflexivity|].
  split; [vm_compute; reflexivity|]. split; [vm_compute; reflexivity|]. vm_compute; discriminate.
Qed.
Print Assumptions C63_product_names_refuted.

(** the ASCII art of one and the same automaton: arrows of the same length may swap their levels *)
Theorem C63_ascii_art_refuted : exists h h' d t1 t2, dfa_valid d /\
  dfa_ascii_art h d = Ret t1 /\ dfa_ascii_art h' d = Ret t2 /\ t1 <> t2.
Proof.
  exists id_order, rev_order, ex_end_b. eexists; eexists. split; [apply ex_end_b_valid|].
  split; [vm_compute; reflexivity|]. split; [vm_compute; reflexivity|]. vm_compute; discriminate.
Qed.
Print Assumptions C63_ascii_art_refuted.

(** ** The hypotheses can be met *)
Example C63_example : dfa_valid ex_even /\ dfa_valid ex_end_b /\ no_comma (map ds_name (dfa_states ex_even)) /\
  exists d, dfa_union id_order ex_even ex_end_b = Ret (Some d) /\ length (dfa_states d) = 8.
Proof.
  split; [apply ex_even_valid|]. split; [apply ex_end_b_valid|]. split.
  - intros nm Hin. simpl in Hin. repeat (destruct Hin as [<-|Hin]; [intros X; simpl in X; repeat (destruct X as [X|X]; [discriminate|]); exact X|]).
    destruct Hin.
  - eexists. split; vm_compute; reflexivity.
Qed.
Example C63_nfa_example : nfa_valid ex_nfa /\ nfa_valid ex_nfa_ab /\ no_comma (map ns_name (nfa_states ex_nfa)) /\
  not_none (map ns_name (nfa_states ex_nfa)) /\ not_none (map ns_name (nfa_states ex_nfa_ab)).
Proof.
  split; [apply ex_nfa_valid|]. split; [apply ex_nfa_ab_valid|]. split.
  - intros nm Hin. simpl in Hin. repeat (destruct Hin as [<-|Hin]; [intros X; simpl in X; repeat (destruct X as [X|X]; [discriminate|]); exact X|]).
    destruct Hin.
  - split; intros X; simpl in X; repeat (destruct X as [X|X]; [discriminate|]); exact X.
Qed.
