(** * C72: product constructions with a combinator that has a memory *)
From Coq Require Import List NArith Arith Bool.
From Verif Require Import Base Spec DfaModel NfaModel FnMutSpec FnMutModel FnMutProofs DfaBasics DfaEquiv NfaProduct Examples.
Import ListNotations.

(** The combinator is called exactly once for each pair of states reached together, in an order [ks] that does not depend on
    the combinator or the hash order; its answers are the accepting flags of the states in this order, and nothing else
    depends on them.  The construction panics exactly when one of these calls panics, and never returns exactly when one of
    them never returns. *)
Theorem C72_dfa_calls : forall d1 d2, dfa_valid d1 -> dfa_valid d2 -> same_set (dfa_alphabet d1) (dfa_alphabet d2) ->
  exists ks l, NoDup ks /\ hd_error ks = Some (dfa_initial d1, dfa_initial d2) /\
    (forall q1 q2, In (q1, q2) ks <-> exists w, dfa_path d1 (dfa_initial d1) w q1 /\ dfa_path d2 (dfa_initial d2) w q2) /\
    Forall2 (fun p s => nth_error (dfa_states d1) (fst p) = Some (fst s) /\ nth_error (dfa_states d2) (snd p) = Some (snd s)) ks l /\
    forall h, exists d0, dfa_product_construction h d1 d2 (fun _ _ => false) = Ret (Some d0) /\ length (dfa_states d0) = length ks /\
      nth_error ks (dfa_initial d0) = Some (dfa_initial d1, dfa_initial d2) /\
      (forall i q1 q2 a j, nth_error ks i = Some (q1, q2) ->
         (dfa_edge d0 i a j <-> exists t1 t2, nth_error ks j = Some (t1, t2) /\ dfa_edge d1 q1 a t1 /\ dfa_edge d2 q2 a t2)) /\
      forall M (f : M -> dfa_state * dfa_state -> R (bool * M)) m,
        (forall bs m', answers f m l bs m' ->
           dfa_product_construction_mut h d1 d2 f m = Ret (Some (dfa_with_flags bs d0), m') /\
           forall w, dfa_lang (dfa_with_flags bs d0) w <->
             exists i q1 q2, dfa_path d1 (dfa_initial d1) w q1 /\ dfa_path d2 (dfa_initial d2) w q2 /\
                             nth_error ks i = Some (q1, q2) /\ nth_error bs i = Some true) /\
        (dfa_product_construction_mut h d1 d2 f m = Panic <-> ends_in f Panic m l) /\
        (dfa_product_construction_mut h d1 d2 f m = Diverge <-> ends_in f Diverge m l).
Proof.
  intros d1 d2 V1 V2 Hs. destruct (dfa_product_mut_correct d1 d2 V1 V2 Hs) as (ks & l & Hhd & HF & H).
  destruct (H id_order) as (dx & _ & _ & HPx & _). exists ks, l. split; [apply HPx|]. split; auto. split; [apply HPx|]. split; auto.
  intros h. destruct (H h) as (d0 & Hd0 & V0 & HP & Hc). exists d0. split; auto. split; [apply HP|]. split; [apply HP|].
  split; [exact (dfa_product_edges _ d1 d2 d0 ks V1 V2 V0 HP)|]. intros M f m. destruct (Hc M f m) as (Ha & Hp & Hd). split; [|auto].
  intros bs m' A. split; [auto|]. apply (dfa_flags_lang _ d1 d2 d0 ks bs V1 V2 V0 HP).
  rewrite (answers_length _ _ _ _ _ A). symmetry. eapply BaseLemmas.Forall2_len; eauto.
Qed.
Print Assumptions C72_dfa_calls.

Theorem C72_nfa_calls : forall n1 n2, nfa_valid n1 -> nfa_valid n2 -> same_set (nfa_alphabet n1) (nfa_alphabet n2) ->
  exists ks, NoDup ks /\ hd_error ks = Some (Some (nfa_initial n1), Some (nfa_initial n2)) /\
    (forall s1 s2, In (s1, s2) ks <-> exists w, nfa_pair_reached n1 n2 w s1 s2) /\
    let l := map (fun p => (nfa_at n1 (fst p), nfa_at n2 (snd p))) ks in
    forall h, exists n0, nfa_product_construction h n1 n2 (fun _ _ => false) = Ret (Some n0) /\ length (nfa_states n0) = length ks /\
      nth_error ks (nfa_initial n0) = Some (Some (nfa_initial n1), Some (nfa_initial n2)) /\
      forall M (f : M -> option nfa_state * option nfa_state -> R (bool * M)) m,
        (forall bs m', answers f m l bs m' ->
           nfa_product_construction_mut h n1 n2 f m = Ret (Some (nfa_with_flags bs n0), m') /\
           forall w, nfa_lang (nfa_with_flags bs n0) w <->
             exists i s1 s2, nfa_pair_reached n1 n2 w s1 s2 /\ nth_error ks i = Some (s1, s2) /\ nth_error bs i = Some true) /\
        (nfa_product_construction_mut h n1 n2 f m = Panic <-> ends_in f Panic m l) /\
        (nfa_product_construction_mut h n1 n2 f m = Diverge <-> ends_in f Diverge m l).
Proof.
  intros n1 n2 V1 V2 Hs. destruct (nfa_product_mut_correct n1 n2 V1 V2 Hs) as (ks & Hhd & H).
  destruct (H id_order) as (nx & _ & _ & HPx & _). exists ks. split; [apply HPx|]. split; auto. split.
  { intros s1 s2. rewrite (np_reach _ _ _ _ _ HPx). split; intros (w & Hw); exists w; apply (ppath_iff n1 n2 w (s1, s2)); auto. }
  intros l h. destruct (H h) as (n0 & Hn0 & V0 & HP & Hc). exists n0. split; auto. split; [apply HP|]. split; [apply HP|].
  intros M f m. destruct (Hc M f m) as (Ha & Hp & Hd). split; [|auto]. intros bs m' A. split; [auto|].
  apply (nfa_flags_lang _ n1 n2 n0 ks bs HP). rewrite (answers_length _ _ _ _ _ A). apply map_length.
Qed.
Print Assumptions C72_nfa_calls.

(** Over different alphabets there is no call *)
Theorem C72_no_calls : forall h,
  (forall d1 d2 M (f : M -> dfa_state * dfa_state -> R (bool * M)) m, dfa_valid d1 -> dfa_valid d2 ->
     ~ same_set (dfa_alphabet d1) (dfa_alphabet d2) -> dfa_product_construction_mut h d1 d2 f m = Ret (None, m)) /\
  (forall n1 n2 M (f : M -> option nfa_state * option nfa_state -> R (bool * M)) m, nfa_valid n1 -> nfa_valid n2 ->
     ~ same_set (nfa_alphabet n1) (nfa_alphabet n2) -> nfa_product_construction_mut h n1 n2 f m = Ret (None, m)).
Proof.
  intros h. split; intros x1 x2 M f m V1 V2 Hs.
  - unfold dfa_product_construction_mut. destruct (alphabet_equal_spec _ _ (dv_alphabet _ V1) (dv_alphabet _ V2)); [tauto|reflexivity].
  - unfold nfa_product_construction_mut. destruct (alphabet_equal_spec _ _ (nv_alphabet _ V1) (nv_alphabet _ V2)); [tauto|reflexivity].
Qed.
Print Assumptions C72_no_calls.

(** The model of the other theorems is the case of a combinator without memory, for all automata *)
Theorem C72_without_memory : forall h,
  (forall d1 d2 c, dfa_product_construction h d1 d2 c =
     match dfa_product_construction_mut h d1 d2 (fun _ s => Ret (c (fst s) (snd s), tt)) tt with
     | Ret (r, _) => Ret r | Panic => Panic | Diverge => Diverge end) /\
  (forall n1 n2 c, nfa_product_construction h n1 n2 c =
     match nfa_product_construction_mut h n1 n2 (fun _ s => Ret (c (fst s) (snd s), tt)) tt with
     | Ret (r, _) => Ret r | Panic => Panic | Diverge => Diverge end).
Proof.
  intros h. split; intros x1 x2 c; [rewrite dfa_product_pure|rewrite nfa_product_pure];
    match goal with |- bind ?a _ = _ => destruct a as [[r u]| |] end; reflexivity.
Qed.
Print Assumptions C72_without_memory.

(** a combinator that accepts every second pair and counts its calls; one that panics at the third call *)
Definition ex_count (m : nat) (s : dfa_state * dfa_state) : R (bool * nat) := Ret (Nat.even m, S m).
Definition ex_third (m : nat) (s : dfa_state * dfa_state) : R (bool * nat) := if m =? 2 then Panic else Ret (true, S m).
Example C72_example :
  match dfa_product_construction_mut rev_order ex_even ex_end_b ex_count 0 with
  | Ret (Some d, m) => m = 8 /\ map ds_accepting (dfa_states d) = [true; false; true; false; true; false; true; false]
  | _ => False end /\
  dfa_product_construction_mut rev_order ex_even ex_end_b ex_third 0 = Panic /\
  match dfa_product_construction_mut rev_order ex_even ex_end_b ex_third 3 with Ret (Some _, m) => m = 11 | _ => False end.
Proof. vm_compute. repeat split; reflexivity. Qed.
