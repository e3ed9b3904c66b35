(** * Concrete automata used to show that the hypotheses of the theorems are met *)
From Coq Require Import List NArith Arith Bool Lia.
From Verif Require Import Base BaseLemmas Spec.
Import ListNotations.

(** ** Deciding validity by computation *)
Fixpoint nodupb {A} `{Eqb A} (l : list A) : bool :=
  match l with [] => true | x :: xs => negb (mem x xs) && nodupb xs end.
Lemma nodupb_NoDup {A} `{Eqb A} (l : list A) : nodupb l = true -> NoDup l.
Proof.
  induction l as [|x xs IH]; simpl; [constructor|]. intros E. apply andb_true_iff in E as [E1 E2].
  apply negb_true_iff, mem_nIn in E1. constructor; auto.
Qed.

Definition dfa_validb (d : dfa) : bool :=
  nodupb (dfa_alphabet d) && nodupb (map ds_name (dfa_states d)) && (dfa_initial d <? length (dfa_states d)) &&
  forallb (fun '(q, s) => Bool.eqb (ds_initial s) (q =? dfa_initial d) &&
                          (length (ds_transitions s) =? length (dfa_alphabet d)) &&
                          forallb (fun t => t <? length (dfa_states d)) (ds_transitions s)) (enumerate (dfa_states d)).
Lemma dfa_validb_valid d : dfa_validb d = true -> dfa_valid d.
Proof.
  unfold dfa_validb. rewrite !andb_true_iff, forallb_forall. intros [[[H1 H2] H3] H4].
  assert (H4' : forall q s, nth_error (dfa_states d) q = Some s ->
            Bool.eqb (ds_initial s) (q =? dfa_initial d) = true /\ length (ds_transitions s) = length (dfa_alphabet d) /\
            forall t, In t (ds_transitions s) -> t < length (dfa_states d)).
  { intros q s Hs. apply enumerate_In in Hs. specialize (H4 _ Hs). simpl in H4. rewrite !andb_true_iff in H4.
    destruct H4 as [[A B] C]. split; auto. split; [apply Nat.eqb_eq; auto|]. rewrite forallb_forall in C.
    intros t Ht. apply Nat.ltb_lt; auto. }
  constructor.
  - apply nodupb_NoDup; auto.
  - apply nodupb_NoDup; auto.
  - apply Nat.ltb_lt; auto.
  - intros q s Hs. destruct (H4' q s Hs) as (A & _). apply Bool.eqb_prop in A. rewrite A. apply Nat.eqb_eq.
  - intros q s Hs. apply (H4' q s Hs).
  - intros q s t Hs. apply (H4' q s Hs).
Qed.

Definition nfa_validb (n : nfa) : bool :=
  nodupb (nfa_alphabet n) && nodupb (map ns_name (nfa_states n)) && (nfa_initial n <? length (nfa_states n)) &&
  forallb (fun '(q, s) => Bool.eqb (ns_initial s) (q =? nfa_initial n) &&
                          (length (ns_transitions s) =? length (nfa_alphabet n)) &&
                          forallb (forallb (fun t => t <? length (nfa_states n))) (ns_transitions s) &&
                          forallb (fun t => t <? length (nfa_states n)) (ns_eps s)) (enumerate (nfa_states n)).
Lemma nfa_validb_valid n : nfa_validb n = true -> nfa_valid n.
Proof.
  unfold nfa_validb. rewrite !andb_true_iff, forallb_forall. intros [[[H1 H2] H3] H4].
  assert (H4' : forall q s, nth_error (nfa_states n) q = Some s ->
            Bool.eqb (ns_initial s) (q =? nfa_initial n) = true /\ length (ns_transitions s) = length (nfa_alphabet n) /\
            (forall ts t, In ts (ns_transitions s) -> In t ts -> t < length (nfa_states n)) /\
            (forall t, In t (ns_eps s) -> t < length (nfa_states n))).
  { intros q s Hs. apply enumerate_In in Hs. specialize (H4 _ Hs). simpl in H4. rewrite !andb_true_iff in H4.
    destruct H4 as [[[A B] C] D]. split; auto. split; [apply Nat.eqb_eq; auto|]. rewrite forallb_forall in C, D. split.
    - intros ts t Hts Ht. specialize (C _ Hts). rewrite forallb_forall in C. apply Nat.ltb_lt; auto.
    - intros t Ht. apply Nat.ltb_lt; auto. }
  constructor.
  - apply nodupb_NoDup; auto.
  - apply nodupb_NoDup; auto.
  - apply Nat.ltb_lt; auto.
  - intros q s Hs. destruct (H4' q s Hs) as (A & _). apply Bool.eqb_prop in A. rewrite A. apply Nat.eqb_eq.
  - intros q s Hs. apply (H4' q s Hs).
  - intros q s ts t Hs. apply (H4' q s Hs).
  - intros q s t Hs. apply (H4' q s Hs).
Qed.

(** The oracle that keeps every order, and the one that reverses it *)
Definition id_order : hash_order := {| ho := fun A _ l => l; ho_perm := fun A _ l => Permutation.Permutation_refl l |}.
Definition rev_order : hash_order :=
  {| ho := fun A _ l => rev l; ho_perm := fun A _ l => Permutation.Permutation_sym (Permutation.Permutation_rev l) |}.

(** ** Elements and automata *)
Definition el_a : str := [97%N].
Definition el_b : str := [98%N].
Definition el_c : str := [99%N].

(** Words with an even number of [a]s; the states 2 and 3 copy 1 and 0, the state 4 is unreachable *)
Definition ex_even : dfa :=
  {| dfa_alphabet := [el_a; el_b];
     dfa_states := [ mk_dfa_state [48%N] true  true  [1; 3];
                     mk_dfa_state [49%N] false false [0; 2];
                     mk_dfa_state [50%N] false false [3; 1];
                     mk_dfa_state [51%N] false true  [2; 0];
                     mk_dfa_state [52%N] false true  [0; 4] ];
     dfa_initial := 0 |}.
Example ex_even_valid : dfa_valid ex_even.
Proof. apply dfa_validb_valid. vm_compute. reflexivity. Qed.

(** The minimal automaton of the same language, with the alphabet in another order and the initial state second *)
Definition ex_even_min : dfa :=
  {| dfa_alphabet := [el_b; el_a];
     dfa_states := [ mk_dfa_state [111%N] false false [0; 1];
                     mk_dfa_state [101%N] true  true  [1; 0] ];
     dfa_initial := 1 |}.
Example ex_even_min_valid : dfa_valid ex_even_min.
Proof. apply dfa_validb_valid. vm_compute. reflexivity. Qed.

(** Words ending in [b] *)
Definition ex_end_b : dfa :=
  {| dfa_alphabet := [el_b; el_a];
     dfa_states := [ mk_dfa_state [110%N] true false [1; 0];
                     mk_dfa_state [121%N] false true [1; 0] ];
     dfa_initial := 0 |}.
Example ex_end_b_valid : dfa_valid ex_end_b.
Proof. apply dfa_validb_valid. vm_compute. reflexivity. Qed.

(** An NFA with an epsilon cycle: words whose last but one element is [a], or empty words *)
Definition ex_nfa : nfa :=
  {| nfa_alphabet := [el_a; el_b];
     nfa_states := [ mk_nfa_state [48%N] true  false [1]    [[]; []];
                     mk_nfa_state [49%N] false true  [0; 2] [[]; []];
                     mk_nfa_state [50%N] false false []     [[2; 3]; [2]];
                     mk_nfa_state [51%N] false false [4]    [[]; []];
                     mk_nfa_state [52%N] false false [3]    [[5]; [5]];
                     mk_nfa_state [53%N] false true  []     [[]; []];
                     mk_nfa_state [54%N] false true  [6]    [[0]; [6]] ];
     nfa_initial := 0 |}.
Example ex_nfa_valid : nfa_valid ex_nfa.
Proof. apply nfa_validb_valid. vm_compute. reflexivity. Qed.

(** An NFA without epsilon moves: words containing [ab] *)
Definition ex_nfa_ab : nfa :=
  {| nfa_alphabet := [el_b; el_a];
     nfa_states := [ mk_nfa_state [48%N] false true  [] [[0]; [0]];
                     mk_nfa_state [49%N] true  false [] [[1]; [1; 2]];
                     mk_nfa_state [50%N] false false [] [[0]; []] ];
     nfa_initial := 1 |}.
Example ex_nfa_ab_valid : nfa_valid ex_nfa_ab.
Proof. apply nfa_validb_valid. vm_compute. reflexivity. Qed.

Lemma overb_over l w : forallb (fun a => mem a l) w = true -> over l w.
Proof.
  intros H. rewrite forallb_forall in H. apply Forall_forall. intros a Ha. apply mem_In. auto.
Qed.
