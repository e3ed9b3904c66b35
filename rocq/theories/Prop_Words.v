(** * Word enumeration: C33, C34, C35

    [word_component_indices_calls n k], [word_components_calls n k] and [words_calls n k] are the results of [k]
    consecutive calls of [next] on a new iterator.  A word given by positions [idx] in the alphabet stands for the word
    [w] with [spells (nfa_alphabet n) idx w]. *)
From Coq Require Import List NArith Arith Bool Lia Sorted.
From Verif Require Import Base BaseLemmas Spec NfaModel WordsModel NfaBasics WordsProofs Examples.
Import ListNotations.

(** ** C33: everything listed is accepted *)
Theorem C33_indices_sound : forall n k, nfa_valid n -> eps_free n ->
  exists outs, word_component_indices_calls n k = Ret outs /\ length outs = k /\
    forall idx, In (Some idx) outs -> exists w, spells (nfa_alphabet n) idx w /\ nfa_lang n w.
Proof.
  intros n k V Hef. destruct (word_component_indices_correct n k V Hef) as (l & -> & Hl & _ & Hs & _).
  eexists. split; [reflexivity|]. split; [rewrite app_length, map_length, repeat_length; lia|].
  intros idx Hi. apply Hs. apply in_app_or in Hi as [Hi|Hi].
  - apply in_map_iff in Hi as (x & [= <-] & Hx). auto.
  - apply repeat_spec in Hi. discriminate.
Qed.
Print Assumptions C33_indices_sound.

Theorem C33_components_sound : forall n k, nfa_valid n -> eps_free n ->
  exists outs, word_components_calls n k = Ret outs /\ length outs = k /\
    forall w, In (Some w) outs -> nfa_lang n w.
Proof.
  intros n k V Hef. destruct (word_components_correct n k V Hef) as (l & ws & -> & Hl & _ & HF & Hs & _).
  pose proof (Forall2_len _ _ _ HF) as HL. unfold word in HL.
  eexists. split; [reflexivity|]. split; [rewrite app_length, map_length, repeat_length; lia|].
  intros w Hi. apply Hs. apply in_app_or in Hi as [Hi|Hi].
  - apply in_map_iff in Hi as (x & [= <-] & Hx). auto.
  - apply repeat_spec in Hi. discriminate.
Qed.
Print Assumptions C33_components_sound.

(** every string of [words] is the concatenation of an accepted word *)
Theorem C33_words_sound : forall n k, nfa_valid n -> eps_free n ->
  exists outs, words_calls n k = Ret outs /\ length outs = k /\
    forall s, In (Some s) outs -> exists w, nfa_lang n w /\ s = concat w.
Proof.
  intros n k V Hef. destruct (words_correct n k V Hef) as (ws & E1 & E2).
  destruct (C33_components_sound n k V Hef) as (outs & E3 & Hlen & Hs). rewrite E1 in E3. injection E3 as <-.
  eexists. split; [exact E2|]. split.
  { rewrite app_length, map_length, repeat_length in Hlen |- *. exact Hlen. }
  intros s Hi. apply in_app_or in Hi as [Hi|Hi].
  - apply in_map_iff in Hi as (x & [= <-] & Hx). exists x. split; auto. apply Hs. apply in_or_app. left. apply in_map; auto.
  - apply repeat_spec in Hi. discriminate.
Qed.
Print Assumptions C33_words_sound.

(** ** C34: complete, in shortlex order, without repetition *)
(** After [k] calls the iterator has listed, in strictly increasing shortlex order, words of the language; every word of
    the language that is not listed comes after all the listed ones, and then all [k] calls gave a word. *)
Theorem C34_indices : forall n k, nfa_valid n -> eps_free n ->
  exists l, word_component_indices_calls n k = Ret (map Some l ++ repeat None (k - length l)) /\
    length l <= k /\ StronglySorted shortlex_lt l /\ NoDup l /\
    (forall idx, In idx l -> exists w, spells (nfa_alphabet n) idx w /\ nfa_lang n w) /\
    (forall idx w, spells (nfa_alphabet n) idx w -> nfa_lang n w ->
       In idx l \/ (length l = k /\ forall idx', In idx' l -> shortlex_lt idx' idx)).
Proof.
  intros n k V Hef. destruct (word_component_indices_correct n k V Hef) as (l & H1 & H2 & H3 & H4 & H5).
  exists l. split; auto. split; auto. split; auto. split; [apply shortlex_sorted_NoDup; auto|]. auto.
Qed.
Print Assumptions C34_indices.

(** every accepted word is listed after finitely many calls *)
Theorem C34_every_word_listed : forall n w, nfa_valid n -> eps_free n -> nfa_lang n w ->
  exists idx k outs, spells (nfa_alphabet n) idx w /\ word_component_indices_calls n k = Ret outs /\ In (Some idx) outs.
Proof.
  intros n w V Hef Hw. assert (Hov : exists idx, spells (nfa_alphabet n) idx w).
  { destruct Hw as (q & Hp & _). clear - Hp. induction Hp as [p|p q w r He Hp IH|p a q w r He Hp [idx IH]].
    - exists []. constructor.
    - auto.
    - destruct He as (i & s & ts & Hi & _). exists (i :: idx). constructor; auto. }
  destruct Hov as [idx Hs]. destruct (word_eventually_listed n idx w V Hef Hs Hw) as (k & outs & H1 & H2).
  exists idx, k, outs. auto.
Qed.
Print Assumptions C34_every_word_listed.

(** the iterator over components lists the same words, spelled out *)
Theorem C34_components : forall n k, nfa_valid n -> eps_free n ->
  exists l ws, word_components_calls n k = Ret (map Some ws ++ repeat None (k - length ws)) /\
    length l <= k /\ StronglySorted shortlex_lt l /\ Forall2 (spells (nfa_alphabet n)) l ws /\
    (forall w, In w ws -> nfa_lang n w) /\
    (forall idx w, spells (nfa_alphabet n) idx w -> nfa_lang n w ->
       In w ws \/ (length ws = k /\ forall idx', In idx' l -> shortlex_lt idx' idx)).
Proof. exact word_components_correct. Qed.
Print Assumptions C34_components.

(** and the iterator over strings lists their concatenations *)
Theorem C34_words : forall n k, nfa_valid n -> eps_free n ->
  exists ws, word_components_calls n k = Ret (map Some ws ++ repeat None (k - length ws)) /\
             words_calls n k = Ret (map (fun w => Some (concat w)) ws ++ repeat None (k - length ws)).
Proof. exact words_correct. Qed.
Print Assumptions C34_words.

(** ** C35: the end of the enumeration *)
(** call number [i] (from 0) gives [None] exactly when the calls before it listed the whole language *)
Theorem C35_none_iff_exhausted : forall n k outs i, nfa_valid n -> eps_free n ->
  word_component_indices_calls n k = Ret outs -> i < k ->
  (nth_error outs i = Some None <->
   forall idx w, spells (nfa_alphabet n) idx w -> nfa_lang n w -> In (Some idx) (firstn i outs)).
Proof.
  intros n k outs i V Hef Ho Hi. destruct (word_component_indices_correct n k V Hef) as (l & H1 & H2 & H3 & H4 & H5).
  rewrite Ho in H1. injection H1 as ->. split.
  - intros HN idx w Hs Hw. apply outputs_None in HN as [Hl HN]. apply HN. destruct (H5 idx w Hs Hw) as [Hin|[Hk _]]; auto. lia.
  - intros Hall. destruct (le_lt_dec (length l) i) as [L|L].
    + rewrite nth_error_app2 by (rewrite map_length; auto). rewrite map_length. apply nth_error_repeat. lia.
    + exfalso. destruct (nth_error_lt l i L) as [x Hx]. pose proof (nth_error_In _ _ Hx) as Hin.
      destruct (H4 x Hin) as (w & Hs & Hw). specialize (Hall x w Hs Hw).
      rewrite firstn_app, map_length in Hall. replace (i - length l) with 0 in Hall by lia.
      rewrite firstn_O, app_nil_r, firstn_map in Hall. apply in_map_iff in Hall as (y & [= ->] & Hy).
      apply In_nth_error in Hy as [j Hj]. pose proof (nth_error_length _ _ _ Hj) as Hjl. rewrite firstn_length in Hjl.
      rewrite nth_error_firstn in Hj by lia. pose proof (shortlex_sorted_NoDup _ H3) as Hnd.
      pose proof (NoDup_nth_error_inj _ _ _ _ Hnd Hx Hj). lia.
Qed.
Print Assumptions C35_none_iff_exhausted.

(** once [None], always [None] *)
Theorem C35_none_forever : forall n k outs i j, nfa_valid n -> eps_free n ->
  word_component_indices_calls n k = Ret outs -> nth_error outs i = Some None -> i <= j -> j < k ->
  nth_error outs j = Some None.
Proof.
  intros n k outs i j V Hef Ho HN Hij Hj. destruct (word_component_indices_correct n k V Hef) as (l & H1 & H2 & _).
  rewrite Ho in H1. injection H1 as ->. apply outputs_None in HN as [Hl _].
  rewrite nth_error_app2 by (rewrite map_length; lia). rewrite map_length. apply nth_error_repeat. lia.
Qed.
Print Assumptions C35_none_forever.

(** creating the iterator panics exactly for automata with epsilon moves; without them nothing ever panics *)
Theorem C35_new_panics_iff : forall n, nfa_valid n ->
  (words_new n = Panic <-> ~ eps_free n) /\
  (eps_free n -> forall k, (exists o, word_component_indices_calls n k = Ret o) /\
                           (exists o, word_components_calls n k = Ret o) /\ (exists o, words_calls n k = Ret o)).
Proof.
  intros n V. split.
  - split.
    + intros Hp Hef. destruct (words_new_spec n V Hef) as (wi & Hwi & _). congruence.
    + apply words_new_panics; auto.
  - intros Hef k. destruct (C33_indices_sound n k V Hef) as (o1 & H1 & _).
    destruct (C33_components_sound n k V Hef) as (o2 & H2 & _). destruct (C33_words_sound n k V Hef) as (o3 & H3 & _).
    split; [exists o1; auto|]. split; [exists o2; auto|exists o3; auto].
Qed.
Print Assumptions C35_new_panics_iff.

(** ** Examples *)
Lemma eps_freeb n : forallb (fun s => match ns_eps s with [] => true | _ => false end) (nfa_states n) = true -> eps_free n.
Proof.
  rewrite forallb_forall. intros H q s Hs. specialize (H s (nth_error_In _ _ Hs)). destruct (ns_eps s); [auto|discriminate].
Qed.
(** an infinite language: the words over b, a (in this order) that contain ab *)
Example C33_example : nfa_valid ex_nfa_ab /\ eps_free ex_nfa_ab /\
  word_component_indices_calls ex_nfa_ab 5 =
    Ret [Some [1; 0]; Some [0; 1; 0]; Some [1; 0; 0]; Some [1; 0; 1]; Some [1; 1; 0]].
Proof. split; [apply ex_nfa_ab_valid|]. split; [apply eps_freeb; reflexivity|]. vm_compute. reflexivity. Qed.
(** a finite language with the words a, ab and bbb; the length 2 has one word, 3 one, and then nothing *)
Definition ex_finite : nfa :=
  {| nfa_alphabet := [el_a; el_b];
     nfa_states := [ mk_nfa_state [48%N] true  false [] [[1; 2]; [3]];
                     mk_nfa_state [49%N] false true  [] [[]; []];
                     mk_nfa_state [50%N] false false [] [[]; [1]];
                     mk_nfa_state [51%N] false false [] [[]; [2]] ];
     nfa_initial := 0 |}.
Example C34_example : nfa_valid ex_finite /\ eps_free ex_finite /\
  words_calls ex_finite 5 = Ret [Some el_a; Some (el_a ++ el_b); Some (el_b ++ el_b ++ el_b); None; None].
Proof. split; [apply nfa_validb_valid; vm_compute; reflexivity|]. split; [apply eps_freeb; reflexivity|]. vm_compute. reflexivity. Qed.
Example C35_example : nfa_valid ex_nfa /\ ~ eps_free ex_nfa /\ words_new ex_nfa = Panic.
Proof.
  split; [apply ex_nfa_valid|]. split; [intros H; specialize (H 0 _ eq_refl); discriminate|reflexivity].
Qed.
