(** Properties about repeated operations and round trips. *)
From Coq Require Import List NArith Arith Bool Lia Sorting.Sorted.
From Verif Require Import Base BaseLemmas Spec DfaModel NfaModel Examples DfaBasics NfaBasics DfaReach NfaReach DfaEquiv DfaMinimize
  NfaToDfa Prop_Dfa Prop_Nfa StableProofs.
Import ListNotations.

(** ** C15: the subset construction has one state per set of states reached *)
Theorem C15_nfa_to_dfa_words : forall h n d, nfa_valid n -> nfa_to_dfa h n = Ret d ->
  forall u v i j, dfa_path d (dfa_initial d) u i -> dfa_path d (dfa_initial d) v j ->
    (i = j <-> forall q, nfa_path n (nfa_initial n) u q <-> nfa_path n (nfa_initial n) v q).
Proof. exact nfa_to_dfa_words. Qed.
Print Assumptions C15_nfa_to_dfa_words.

(** ** C65: an operation that has nothing to do changes nothing *)

Theorem C65_remove_unreachable : forall h dbg,
  (forall d, dfa_valid d -> (dfa_remove_unreachable_states h dbg d = Ret d <-> forall q, q < length (dfa_states d) -> dfa_reachable d q)) /\
  (forall n, nfa_valid n -> (nfa_remove_unreachable_states h dbg n = Ret n <-> forall q, q < length (nfa_states n) -> nfa_reachable n q)).
Proof.
  intros h dbg. split; intros x V; split.
  - intros E. exact (dfa_remove_unreachable_reach h dbg x x V E).
  - apply dfa_remove_unreachable_id; auto.
  - intros E. exact (nfa_remove_unreachable_reach h dbg x x V E).
  - apply nfa_remove_unreachable_id; auto.
Qed.
Print Assumptions C65_remove_unreachable.
Theorem C65_remove_unreachable_twice : forall h dbg h' dbg',
  (forall d d', dfa_valid d -> dfa_remove_unreachable_states h dbg d = Ret d' -> dfa_remove_unreachable_states h' dbg' d' = Ret d') /\
  (forall n n', nfa_valid n -> nfa_remove_unreachable_states h dbg n = Ret n' -> nfa_remove_unreachable_states h' dbg' n' = Ret n').
Proof.
  intros h dbg h' dbg'. split; intros x y V E.
  - destruct (C17_dfa_remove_unreachable h dbg x V) as (y' & E' & V' & _). rewrite E in E'. injection E' as <-.
    apply C65_remove_unreachable; auto. exact (dfa_remove_unreachable_reach h dbg x y V E).
  - destruct (C17_nfa_remove_unreachable h dbg x V) as (y' & E' & V' & _). rewrite E in E'. injection E' as <-.
    apply C65_remove_unreachable; auto. exact (nfa_remove_unreachable_reach h dbg x y V E).
Qed.
Print Assumptions C65_remove_unreachable_twice.

(** conversions and products make reachable states only *)
Theorem C65_constructions_reachable : forall h dbg h',
  (forall n d, nfa_valid n -> nfa_to_dfa h' n = Ret d -> dfa_remove_unreachable_states h dbg d = Ret d) /\
  (forall d1 d2 comb d, dfa_valid d1 -> dfa_valid d2 -> dfa_product_construction h' d1 d2 comb = Ret (Some d) ->
     dfa_remove_unreachable_states h dbg d = Ret d) /\
  (forall n1 n2 comb n, nfa_valid n1 -> nfa_valid n2 -> nfa_product_construction h' n1 n2 comb = Ret (Some n) ->
     nfa_remove_unreachable_states h dbg n = Ret n).
Proof.
  intros h dbg h'. split; [|split].
  - intros n d V E. destruct (C15_nfa_to_dfa h' n V) as (d' & E' & V' & _ & _ & _ & R & _). rewrite E in E'. injection E' as <-.
    apply C65_remove_unreachable; auto.
  - intros d1 d2 comb d V1 V2 E. destruct (C24_dfa_product h' d1 d2 comb V1 V2) as (r & E' & _ & H). rewrite E in E'. injection E' as <-.
    destruct (H d eq_refl) as (V & _ & R & _). apply C65_remove_unreachable; auto.
  - intros n1 n2 comb n V1 V2 E. destruct (C29_nfa_product h' n1 n2 comb V1 V2) as (r & E' & _ & H). rewrite E in E'. injection E' as <-.
    destruct (H n eq_refl) as (V & _ & R & _). apply C65_remove_unreachable; auto.
Qed.
Print Assumptions C65_constructions_reachable.

(** merging and minimizing change exactly the automata that are not merged resp. minimal yet *)
Theorem C65_merge : forall h dbg d, dfa_valid d ->
  (dfa_merge_nondistinguishable_states h dbg d = Ret d <->
   forall p q, p < length (dfa_states d) -> q < length (dfa_states d) -> dfa_indist d p q -> p = q).
Proof.
  intros h dbg d V. split; [|apply dfa_merge_id; auto]. intros E.
  destruct (C20_merge h dbg d V) as (d' & k & E' & _ & _ & _ & H & _). rewrite E in E'. injection E' as <-. exact H.
Qed.
Print Assumptions C65_merge.
Theorem C65_minimize : forall h dbg d, dfa_valid d ->
  (dfa_minimize h dbg d = Ret d <->
   forall d', dfa_valid d' -> same_set (dfa_alphabet d') (dfa_alphabet d) -> (forall w, dfa_lang d' w <-> dfa_lang d w) ->
              length (dfa_states d) <= length (dfa_states d')).
Proof.
  intros h dbg d V. split.
  - intros E. destruct (C21_minimize h dbg d V) as (d' & E' & _ & _ & _ & _ & M). rewrite E in E'. injection E' as <-. exact M.
  - intros M. apply dfa_minimize_id; auto. exact (minimal_trim d V M).
Qed.
Print Assumptions C65_minimize.
Theorem C65_minimize_twice : forall h dbg h' dbg' d d', dfa_valid d -> dfa_minimize h dbg d = Ret d' -> dfa_minimize h' dbg' d' = Ret d'.
Proof.
  intros h dbg h' dbg' d d' V E. destruct (dfa_minimize_correct h dbg d V) as (d2 & E2 & V2 & T & _). rewrite E in E2. injection E2 as <-.
  apply dfa_minimize_id; auto.
Qed.
Print Assumptions C65_minimize_twice.

(** epsilon removal *)
Theorem C65_remove_epsilon_twice : forall h dbg h' dbg' n n', nfa_valid n -> nfa_remove_epsilon_moves h dbg n = Ret n' ->
  nfa_remove_epsilon_moves h' dbg' n' = Ret n'.
Proof.
  intros h dbg h' dbg' n n' V E. destruct (C30_remove_epsilon_moves h dbg n V) as (n1 & E1 & V1 & F & _). rewrite E in E1. injection E1 as <-.
  destruct (C30_remove_epsilon_moves h' dbg' n' V1) as (n2 & E2 & _ & _ & _ & _ & _ & H). rewrite E2. f_equal. auto.
Qed.
Print Assumptions C65_remove_epsilon_twice.

(** optimizing a second time may remove states that the first time has left behind unreachable; after that, nothing changes *)
Definition ex_optimize : nfa :=
  {| nfa_alphabet := [el_a];
     nfa_states := [mk_nfa_state el_a true false [1] [[1]]; mk_nfa_state el_b false true [] [[]]];
     nfa_initial := 0 |}.
Example ex_optimize_valid : nfa_valid ex_optimize.
Proof. apply nfa_validb_valid. vm_compute. reflexivity. Qed.
Theorem C65_optimize_twice_refuted : exists h dbg n n' n'', nfa_valid n /\ nfa_optimize h dbg n = Ret n' /\ nfa_optimize h dbg n' = Ret n'' /\
  length (nfa_states n') = 3 /\ length (nfa_states n'') = 2.
Proof.
  exists id_order, true, ex_optimize. do 2 eexists. split; [apply ex_optimize_valid|].
  split; [vm_compute; reflexivity|]. split; [vm_compute; reflexivity|]. split; reflexivity.
Qed.
Print Assumptions C65_optimize_twice_refuted.
Theorem C65_optimize_thrice : forall h dbg h' dbg' h'' dbg'' n n' n'', nfa_valid n -> nfa_optimize h dbg n = Ret n' ->
  nfa_optimize h' dbg' n' = Ret n'' ->
  nfa_remove_unreachable_states h' dbg' n' = Ret n'' /\ nfa_optimize h'' dbg'' n'' = Ret n''.
Proof.
  intros h dbg h' dbg' h'' dbg'' n n' n'' V E E'. destruct (C31_optimize h dbg n V) as (n1 & E1 & V1 & F & _). rewrite E in E1. injection E1 as <-.
  unfold nfa_optimize in E'. destruct (C17_nfa_remove_unreachable h' dbg' n' V1) as (n2 & E2 & V2 & (k & S & I & R) & _).
  rewrite E2 in E'. cbn [bind] in E'. destruct (C30_remove_epsilon_moves h' dbg' n2 V2) as (n3 & E3 & _ & _ & _ & _ & _ & H3).
  assert (F2 : eps_free n2) by exact (restriction_eps_free k n' n2 F R). rewrite E3, (H3 F2) in E'. injection E' as <-. split; auto.
  unfold nfa_optimize. rewrite (proj2 (C65_remove_unreachable_twice h' dbg' h'' dbg'') n' n2 V1 E2). cbn [bind].
  destruct (C30_remove_epsilon_moves h'' dbg'' n2 V2) as (n4 & E4 & _ & _ & _ & _ & _ & H4). rewrite E4. f_equal. auto.
Qed.
Print Assumptions C65_optimize_thrice.

(** converting a DFA to an NFA and back gives its reachable part, up to the numbering and the names of the states *)
Theorem C65_round_trip : forall h h' dbg d, dfa_valid d ->
  exists d1 d2 f, dfa_remove_unreachable_states h dbg d = Ret d1 /\ nfa_to_dfa h' (dfa_to_nfa d) = Ret d2 /\
    length (dfa_states d1) = length (dfa_states d2) /\ dfa_alphabet d2 = dfa_alphabet d1 /\ dfa_iso d1 d2 f.
Proof.
  intros h h' dbg d V. destruct (C17_dfa_remove_unreachable h dbg d V) as (d1 & E1 & V1 & (k & _ & _ & R) & _).
  destruct (C15_nfa_to_dfa h' _ (dfa_to_nfa_valid d V)) as (d2 & E2 & V2 & A2 & _).
  destruct (round_trip_iso h h' dbg d d1 d2 V E1 E2) as (f & I). exists d1, d2, f. split; auto. split; auto.
  split; [exact (iso_length d1 d2 f I)|]. split; auto. rewrite A2. symmetry. apply R.
Qed.
Print Assumptions C65_round_trip.

Example C65_example : dfa_valid ex_even /\ dfa_valid ex_even_min /\ dfa_minimize rev_order true ex_even_min = Ret ex_even_min /\
  (exists d, dfa_minimize id_order false ex_even = Ret d /\ d <> ex_even) /\ nfa_valid ex_nfa.
Proof.
  split; [apply ex_even_valid|]. split; [apply ex_even_min_valid|]. split; [vm_compute; reflexivity|].
  split; [|apply ex_nfa_valid]. eexists. split; [vm_compute; reflexivity|]. discriminate.
Qed.
