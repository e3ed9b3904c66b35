(** * Remarks of the documentation about growth, order and minimality *)
From Coq Require Import List NArith Arith Bool Lia Sorted.
From Verif Require Import Base BaseLemmas Spec DfaModel NfaModel WordsModel Histories Examples DfaBasics NfaBasics DfaReach DfaEquiv WordsProofs NfaBoolean Remarks
  Prop_Nfa Prop_Dfa Prop_Words.
Import ListNotations.

(** ** C74 *)

(** "this construction grows exponentially": for every [m] there is an NFA with [m] + 1 states over two symbols, without
    epsilon moves, for whose language every DFA has at least 2^m states; so the subset construction yields at least that
    many, and minimizing the result does not help *)
Theorem C74_exponential : forall m, exists n, nfa_valid n /\ eps_free n /\ length (nfa_alphabet n) = 2 /\ length (nfa_states n) = S (S m) /\
  (forall d, dfa_valid d -> (forall w, dfa_lang d w <-> nfa_lang n w) -> 2 ^ S m <= length (dfa_states d)) /\
  (forall h, exists d, nfa_to_dfa h n = Ret d /\ 2 ^ S m <= length (dfa_states d)) /\
  (forall h h' dbg d, nfa_to_dfa h n = Ret d -> exists d', dfa_minimize h' dbg d = Ret d' /\ 2 ^ S m <= length (dfa_states d')).
Proof.
  intros m. exists (nth_last (S m)). assert (V : nfa_valid (nth_last (S m))) by (apply nth_last_valid; lia). split; auto.
  split; [intros q s H; apply nth_last_at in H as [_ ->]; reflexivity|]. split; [reflexivity|]. split; [simpl; rewrite map_length, seq_length; reflexivity|].
  assert (K : forall d, dfa_valid d -> (forall w, dfa_lang d w <-> nfa_lang (nth_last (S m)) w) -> 2 ^ S m <= length (dfa_states d)).
  { intros d Vd HL. apply nth_last_states; auto. lia. }
  split; [exact K|]. split.
  - intros h. destruct (C15_nfa_to_dfa h _ V) as (d & E & Vd & _ & _ & _ & _ & HL). exists d. split; auto.
  - intros h h' dbg d E. destruct (C15_nfa_to_dfa h _ V) as (d' & E' & Vd & _ & _ & _ & _ & HL). rewrite E in E'. injection E' as <-.
    destruct (C21_minimize h' dbg d Vd) as (d2 & E2 & V2 & _ & HL2 & _). exists d2. split; auto. apply K; auto. intros w. rewrite HL2. apply HL.
Qed.
Print Assumptions C74_exponential.

(** "in lexicographic order": the results come in the order of a dictionary exactly when no longer accepted word comes
    before a shorter one in a dictionary *)
Theorem C74_dictionary_iff : forall n, nfa_valid n -> eps_free n ->
  ((forall k outs i j u v, word_component_indices_calls n k = Ret outs -> i < j ->
      nth_error outs i = Some (Some u) -> nth_error outs j = Some (Some v) -> lex_lt u v) <->
   (forall u v wu wv, spells (nfa_alphabet n) u wu -> spells (nfa_alphabet n) v wv -> nfa_lang n wu -> nfa_lang n wv ->
      length u < length v -> lex_lt u v)).
Proof. exact dictionary_iff. Qed.
Print Assumptions C74_dictionary_iff.

(** it is not always so *)
Theorem C74_dictionary_refuted : exists n k outs i j u v, nfa_valid n /\ eps_free n /\ word_component_indices_calls n k = Ret outs /\ i < j /\
  nth_error outs i = Some (Some u) /\ nth_error outs j = Some (Some v) /\ ~ lex_lt u v.
Proof.
  exists ex_a_star_b, 2, [Some [1]; Some [0; 1]], 0, 1, [1], [0; 1].
  split; [apply nfa_validb_valid; reflexivity|]. split; [apply eps_freeb; reflexivity|]. split; [vm_compute; reflexivity|]. split; [lia|].
  split; [reflexivity|]. split; [reflexivity|]. intros H. inversion H; lia.
Qed.
Print Assumptions C74_dictionary_refuted.

(** and cannot be: no sequence, finite or not, lists all words of the language a*b in the order of a dictionary *)
Theorem C74_dictionary_impossible : exists n, nfa_valid n /\ eps_free n /\
  ~ exists f : nat -> option (list nat),
      (forall idx w, spells (nfa_alphabet n) idx w -> nfa_lang n w -> exists i, f i = Some idx) /\
      (forall i j u v, i < j -> f i = Some u -> f j = Some v -> lex_lt u v).
Proof.
  exists ex_a_star_b. split; [apply nfa_validb_valid; reflexivity|]. split; [apply eps_freeb; reflexivity|].
  intros (f & H1 & H2). apply (no_sorted_list f H2). intros k. destruct (a_star_b_word k) as [S L]. eauto.
Qed.
Print Assumptions C74_dictionary_impossible.

(** "there doesn't exist one unique minimized NFA": two NFAs of one language that no NFA with fewer states accepts, and
    that are not the same up to renaming states *)
Definition ex_loop_last : nfa :=
  {| nfa_alphabet := [el_a];
     nfa_states := [ mk_nfa_state [48%N] true false [] [[1]]; mk_nfa_state [49%N] false true [] [[1]] ]; nfa_initial := 0 |}.
Definition ex_loop_first : nfa :=
  {| nfa_alphabet := [el_a];
     nfa_states := [ mk_nfa_state [48%N] true false [] [[0; 1]]; mk_nfa_state [49%N] false true [] [[]] ]; nfa_initial := 0 |}.
Theorem C74_minimal_nfas : exists n1 n2, nfa_valid n1 /\ nfa_valid n2 /\ nfa_alphabet n1 = nfa_alphabet n2 /\
  (forall w, nfa_lang n1 w <-> nfa_lang n2 w) /\ length (nfa_states n1) = length (nfa_states n2) /\
  (forall n, nfa_valid n -> (forall w, nfa_lang n w <-> nfa_lang n1 w) -> length (nfa_states n1) <= length (nfa_states n)) /\
  ~ exists f, f (nfa_initial n1) = nfa_initial n2 /\ forall p a q, nfa_edge n1 p a q <-> nfa_edge n2 (f p) a (f q).
Proof.
  exists ex_loop_last, ex_loop_first. assert (V1 : nfa_valid ex_loop_last) by (apply nfa_validb_valid; reflexivity).
  assert (V2 : nfa_valid ex_loop_first) by (apply nfa_validb_valid; reflexivity). split; auto. split; auto. split; auto. split; [|split; [reflexivity|split]].
  - destruct (C13_nfa_equivalent_to ex_loop_last ex_loop_first V1 V2) as (b & E & H). vm_compute in E. injection E as <-. apply H. reflexivity.
  - intros n V H. simpl. pose proof (nv_initial n V) as L. destruct (nfa_states n) as [|s [|s' l]] eqn:E; simpl in *; try lia. exfalso.
    assert (A : nfa_lang n [el_a]).
    { apply H. exists 1. split; [|eexists; split; reflexivity]. apply (nfa_path_cons _ 0 el_a 1); [|constructor]. exists 0. eexists. exists [1]. repeat split; simpl; auto. }
    destruct A as (q & P & A). assert (q = 0) as ->.
    { destruct A as (x & Hx & _). rewrite E in Hx. destruct q as [|q]; auto. destruct q; discriminate. }
    assert (B : nfa_lang n []) by (exists 0; split; auto; replace (nfa_initial n) with 0 by lia; constructor).
    apply H in B as (q & P' & (x & Hx & Hacc)). assert (q = 0) as ->.
    { clear -P'. remember (@nil str) as w eqn:Ew. change (nfa_initial ex_loop_last) with 0 in P'. remember 0 as p eqn:Ep. induction P' as [p|p q w r (s & Hs & Hi) Hp IH|]; auto; [|discriminate].
      subst p. injection Hs as <-. destruct Hi. }
    injection Hx as <-. discriminate.
  - intros (f & F0 & F). assert (B : nfa_edge ex_loop_last 0 el_a 0).
    { apply F. change (f 0 = 0) in F0. rewrite F0. exists 0. eexists. exists [0; 1]. repeat split; simpl; auto. }
    destruct B as (i & s & ts & Hi & Hs & Ht & Hq). injection Hs as <-. destruct i as [|[|i]]; try discriminate. injection Ht as <-. destruct Hq as [Hq|[]]. discriminate.
Qed.
Print Assumptions C74_minimal_nfas.

(** "making all non-accepting states accepting and all accepting states non-accepting doesn't make the NFA accept the
    complement language": a word that both accept, and one that both reject *)
Definition swapped (n : nfa) : nfa :=
  {| nfa_alphabet := nfa_alphabet n;
     nfa_states := map (fun s => mk_nfa_state (ns_name s) (ns_initial s) (negb (ns_accepting s)) (ns_eps s) (ns_transitions s)) (nfa_states n);
     nfa_initial := nfa_initial n |}.
Theorem C74_swapping_refuted :
  (exists n w, nfa_valid n /\ over (nfa_alphabet n) w /\ nfa_accepts n w = Ret true /\ nfa_accepts (swapped n) w = Ret true) /\
  (exists n w, nfa_valid n /\ over (nfa_alphabet n) w /\ nfa_accepts n w = Ret false /\ nfa_accepts (swapped n) w = Ret false).
Proof.
  split; [exists ex_two_ways|exists ex_no_way]; exists [el_a]; (split; [apply nfa_validb_valid; reflexivity|]); (split; [repeat constructor|]); split; vm_compute; reflexivity.
Qed.
Print Assumptions C74_swapping_refuted.
(** on an NFA made from a DFA it does, for the words over its alphabet *)
Theorem C74_swapping_dfas : forall d w b, dfa_valid d -> over (dfa_alphabet d) w -> dfa_accepts d w = Ret b ->
  nfa_accepts (swapped (dfa_to_nfa d)) w = Ret (negb b).
Proof.
  intros d w b V O E. destruct (C23_invert d V) as (V' & _ & _ & _ & _ & _ & HL).
  replace (swapped (dfa_to_nfa d)) with (dfa_to_nfa (dfa_invert d)) by (unfold swapped, dfa_to_nfa, dfa_invert; simpl; rewrite !map_map; reflexivity).
  apply accepts_of; [apply dfa_to_nfa_valid; auto|]. rewrite dfa_to_nfa_lang, HL.
  destruct (dfa_accepts_correct d w V) as (b' & E' & H). rewrite E in E'. injection E' as <-. rewrite negb_true_iff. destruct b; intuition; try discriminate.
Qed.
Print Assumptions C74_swapping_dfas.

(** ** Examples *)
Example C74_exponential_example : exists d, nfa_to_dfa rev_order (nth_last 3) = Ret d /\ length (nfa_states (nth_last 3)) = 4 /\ length (dfa_states d) = 8.
Proof. eexists. split; [vm_compute; reflexivity|]. split; reflexivity. Qed.
Example C74_dictionary_example : nfa_valid ex_nfa_ab /\ eps_free ex_nfa_ab /\ nfa_valid ex_finite /\ eps_free ex_finite.
Proof. split; [apply ex_nfa_ab_valid|]. split; [apply eps_freeb; reflexivity|]. split; [apply nfa_validb_valid; vm_compute; reflexivity|apply eps_freeb; reflexivity]. Qed.
Example C74_swapping_example : dfa_valid ex_even /\ over (dfa_alphabet ex_even) [el_a] /\ dfa_accepts ex_even [el_a] = Ret false.
Proof. split; [apply dfa_validb_valid; reflexivity|]. split; [apply overb_over; reflexivity|vm_compute; reflexivity]. Qed.
