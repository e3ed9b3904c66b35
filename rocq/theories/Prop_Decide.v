(** * Finitely many words decide: C93 *)
From Coq Require Import List NArith Arith Bool Lia.
From Verif Require Import Base Spec Examples DfaModel NfaModel WordsModel AlgebraSpec DecideSpec DfaBasics MooreProofs DecideProofs SizeProofs
  Prop_Dfa Prop_Nfa Prop_Size.
Import ListNotations.

(** Two DFAs with n and m states are equivalent exactly if they agree on all words of at most n + m - 2 symbols *)
Theorem C93_dfa_equivalence : forall d1 d2, dfa_valid d1 -> dfa_valid d2 ->
  exists b, dfa_equivalent_to d1 d2 = Ret b /\
    (b = true <-> same_set (dfa_alphabet d1) (dfa_alphabet d2) /\
       forall w, over (dfa_alphabet d1) w -> length w + 2 <= length (dfa_states d1) + length (dfa_states d2) ->
                 dfa_accepts d1 w = dfa_accepts d2 w).
Proof.
  intros d1 d2 V1 V2. destruct (C12_dfa_equivalent_to d1 d2 V1 V2) as (b & E & H). exists b. split; auto. rewrite H. clear - V1 V2.
  assert (A : forall w, dfa_accepts d1 w = dfa_accepts d2 w <-> (dfa_lang d1 w <-> dfa_lang d2 w)).
  { intros w. destruct (C01_dfa_accepts d1 w V1) as (b1 & -> & H1). destruct (C01_dfa_accepts d2 w V2) as (b2 & -> & H2). rewrite <- H1, <- H2.
    destruct b1, b2; intuition congruence. }
  split; intros [S H]; (split; [exact S|]).
  - intros w _ _. apply A, H.
  - apply dfas_short; auto. intros w O L. apply A. auto.
Qed.
Print Assumptions C93_dfa_equivalence.

(** Two NFAs with n and m states: words of at most 2^n + 2^m - 2 symbols *)
Theorem C93_nfa_equivalence : forall n1 n2, nfa_valid n1 -> nfa_valid n2 ->
  exists b, nfa_equivalent_to n1 n2 = Ret b /\
    (b = true <-> same_set (nfa_alphabet n1) (nfa_alphabet n2) /\
       forall w, over (nfa_alphabet n1) w -> length w + 2 <= 2 ^ length (nfa_states n1) + 2 ^ length (nfa_states n2) ->
                 nfa_accepts n1 w = nfa_accepts n2 w).
Proof.
  intros n1 n2 V1 V2. destruct (C13_nfa_equivalent_to n1 n2 V1 V2) as (b & E & H). exists b. split; auto. rewrite H. clear - V1 V2.
  assert (A : forall w, nfa_accepts n1 w = nfa_accepts n2 w <-> (nfa_lang n1 w <-> nfa_lang n2 w)).
  { intros w. destruct (C03_nfa_accepts n1 w V1) as (b1 & -> & H1). destruct (C03_nfa_accepts n2 w V2) as (b2 & -> & H2). rewrite <- H1, <- H2.
    destruct b1, b2; intuition congruence. }
  split; intros [S H]; (split; [exact S|]).
  - intros w _ _. apply A, H.
  - destruct (C15_nfa_to_dfa id_order n1 V1) as (d1 & E1 & VD1 & A1 & _ & _ & _ & L1). destruct (C15_nfa_to_dfa id_order n2 V2) as (d2 & E2 & VD2 & A2 & _ & _ & _ & L2).
    pose proof (C62_subset_construction _ _ _ V1 E1) as S1. pose proof (C62_subset_construction _ _ _ V2 E2) as S2.
    intros w. rewrite <- L1, <- L2. revert w. apply dfas_short; auto; [rewrite A1, A2; exact S|]. rewrite A1. intros w O L. rewrite L1, L2. apply A. apply H; auto. lia.
Qed.
Print Assumptions C93_nfa_equivalence.

(** Two of n states are in one class exactly if no word of at most n - 2 symbols tells them apart *)
Theorem C93_classes : forall d, dfa_valid d ->
  exists cs, dfa_state_equivalence_classes_idx d = Ret cs /\
    forall p q, p < length (dfa_states d) -> q < length (dfa_states d) ->
      ((exists c, In c cs /\ In p c /\ In q c) <->
       forall w, over (dfa_alphabet d) w -> length w + 2 <= length (dfa_states d) -> (dfa_state_lang d p w <-> dfa_state_lang d q w)).
Proof.
  intros d V. destruct (C19_state_equivalence_classes_idx d V) as (cs & E & _ & _ & _ & H). exists cs. split; auto. intros p q Hp Hq. rewrite (H p q Hp Hq).
  split; [intros I w _ _; apply I|]. apply states_short; auto.
Qed.
Print Assumptions C93_classes.

(** An automaton with n states that accepts any word accepts one with fewer than n symbols *)
Theorem C93_dfa_emptiness : forall h d, dfa_valid d ->
  exists b, dfa_has_reachable_accepting_state h d = Ret b /\
    (b = true <-> exists w, length w < length (dfa_states d) /\ dfa_accepts d w = Ret true).
Proof.
  intros h d V. destruct (C18_dfa_has_reachable_accepting_state h d V) as (b & E & H). exists b. split; auto. rewrite H. clear - V. split.
  - intros (w & L). destruct (C14_dfa_to_nfa d V) as (VN & _ & _ & _ & _ & _ & _ & _ & LN). apply LN in L. destruct (short_word _ VN w L) as (w' & L' & B).
    exists w'. split; [rewrite <- (proj1 (C62_same_size d)); exact B|]. apply LN in L'. destruct (C01_dfa_accepts d w' V) as (b & -> & Hb). f_equal. apply Hb. exact L'.
  - intros (w & _ & A). exists w. destruct (C01_dfa_accepts d w V) as (b & E & Hb). rewrite A in E. injection E as <-. apply Hb. reflexivity.
Qed.
Print Assumptions C93_dfa_emptiness.
Theorem C93_nfa_emptiness : forall h n, nfa_valid n ->
  exists b, nfa_has_reachable_accepting_state h n = Ret b /\
    (b = true <-> exists w, length w < length (nfa_states n) /\ nfa_accepts n w = Ret true).
Proof.
  intros h n V. destruct (C18_nfa_has_reachable_accepting_state h n V) as (b & E & H). exists b. split; auto. rewrite H. clear - V. split.
  - intros (w & L). destruct (short_word n V w L) as (w' & L' & B). exists w'. split; auto. destruct (C03_nfa_accepts n w' V) as (b & -> & Hb). f_equal. apply Hb. exact L'.
  - intros (w & _ & A). exists w. destruct (C03_nfa_accepts n w V) as (b & E & Hb). rewrite A in E. injection E as <-. apply Hb. reflexivity.
Qed.
Print Assumptions C93_nfa_emptiness.

(** A language is finite exactly if its words have fewer symbols than the automaton has states, if no word has between n and 2n - 1
    symbols, and if the iterator gives [None] after as many calls as there are words with fewer symbols than states *)
Theorem C93_finiteness : forall n, nfa_valid n -> eps_free n ->
  let s := length (nfa_states n) in
  let k := words_up_to (length (nfa_alphabet n)) (s - 1) in
  (finite_lang (nfa_lang n) <-> forall w, nfa_accepts n w = Ret true -> length w < s) /\
  (finite_lang (nfa_lang n) <-> ~ exists w, nfa_accepts n w = Ret true /\ s <= length w < 2 * s) /\
  exists outs, word_components_calls n (S k) = Ret outs /\ (finite_lang (nfa_lang n) <-> nth_error outs k = Some None).
Proof.
  intros n V F s k. assert (A : forall w, nfa_accepts n w = Ret true <-> nfa_lang n w).
  { intros w. destruct (C03_nfa_accepts n w V) as (b & -> & H). rewrite <- H. split; [intros [= ->]|intros ->]; auto. }
  split; [|split; [|exact (finite_calls n V F)]].
  - rewrite finite_iff by auto. split; intros H w L; apply H, A, L.
  - rewrite finite_middle by auto. split; intros H (w & L & B); apply H; exists w; (split; [apply A, L|exact B]).
Qed.
Print Assumptions C93_finiteness.

(** No smaller bound is enough *)
Theorem C93_attained : forall m, 1 <= m ->
  exists d d', dfa_valid d /\ dfa_valid d' /\ length (dfa_states d) = m /\ length (dfa_states d') = 1 /\ dfa_alphabet d = dfa_alphabet d' /\
    dfa_equivalent_to d d' = Ret false /\ (forall w, length w + 2 < m + 1 -> dfa_accepts d w = dfa_accepts d' w) /\
    (forall h, dfa_has_reachable_accepting_state h d = Ret true) /\ (forall w, length w + 1 < m -> dfa_accepts d w = Ret false) /\
    (2 <= m -> (forall w, length w + 2 < m -> (dfa_state_lang d 0 w <-> dfa_state_lang d 1 w)) /\ ~ dfa_indist d 0 1).
Proof.
  intros m Hm. pose proof (chain_valid m Hm) as V. pose proof nothing_valid as V'. exists (chain m), nothing.
  assert (O : forall k, over [el_a] (repeat el_a k)) by (induction k; constructor; cbn; auto).
  assert (LA : forall p, p < m -> dfa_state_lang (chain m) p (repeat el_a (m - 1 - p))).
  { intros p Hp. apply chain_lang; auto. split; auto. rewrite repeat_length. lia. }
  assert (R : forall w, length w + 1 < m -> dfa_accepts (chain m) w = Ret false).
  { intros w L. destruct (C01_dfa_accepts (chain m) w V) as (b & -> & H). f_equal. destruct b; auto. exfalso.
    assert (X : dfa_lang (chain m) w) by (apply H; auto). apply chain_lang in X as [_ X]; cbn [dfa_initial chain] in *; lia. }
  assert (L0 : dfa_lang (chain m) (repeat el_a (m - 1))).
  { replace (m - 1) with (m - 1 - 0) by lia. apply (LA 0). lia. }
  split; auto. split; auto. split; [apply chain_size|]. split; auto. split; auto. split.
  { destruct (C12_dfa_equivalent_to (chain m) nothing V V') as (b & -> & H). f_equal. destruct b; auto. exfalso.
    apply (nothing_lang (repeat el_a (m - 1))). apply (proj1 H eq_refl). exact L0. }
  split. { intros w L. rewrite R by lia. destruct (C01_dfa_accepts nothing w V') as (b & -> & H). f_equal. destruct b; auto. exfalso. apply (nothing_lang w), H. auto. }
  split. { intros h. destruct (C18_dfa_has_reachable_accepting_state h (chain m) V) as (b & -> & H). f_equal. apply H. eauto. }
  split; auto. intros H2. split.
  - intros w L. rewrite !chain_lang by lia. split; intros [_ X]; lia.
  - intros I. assert (X : dfa_state_lang (chain m) 0 (repeat el_a (m - 1 - 1))) by (apply I, LA; lia). apply chain_lang in X as [_ X]; try lia.
    rewrite repeat_length in X. lia.
Qed.
Print Assumptions C93_attained.

(** ** The hypotheses can be met: a finite language ({ab, b}, three states, so seven calls), and an infinite one *)
Definition ex_two_words : nfa :=
  {| nfa_alphabet := [el_a; el_b];
     nfa_states := [ mk_nfa_state [48%N] true  false [] [[1]; [2]];
                     mk_nfa_state [49%N] false false [] [[]; [2]];
                     mk_nfa_state [50%N] false true  [] [[]; []] ];
     nfa_initial := 0 |}.
Example C93_example : nfa_valid ex_two_words /\ eps_free ex_two_words /\ finite_lang (nfa_lang ex_two_words) /\
  ~ finite_lang (nfa_lang ex_nfa_ab) /\ dfa_valid ex_even /\ dfa_valid ex_even_min /\ dfa_equivalent_to ex_even ex_even_min = Ret true.
Proof.
  assert (V : nfa_valid ex_two_words) by (apply nfa_validb_valid; vm_compute; reflexivity).
  assert (F : forall n, forallb (fun s => match ns_eps s with [] => true | _ => false end) (nfa_states n) = true -> eps_free n).
  { intros n H q s Hs. rewrite forallb_forall in H. specialize (H s (nth_error_In _ _ Hs)). destruct (ns_eps s); [auto|discriminate]. }
  assert (F1 : eps_free ex_two_words) by (apply F; reflexivity). assert (F2 : eps_free ex_nfa_ab) by (apply F; reflexivity).
  split; auto. split; auto. split; [|split; [|split; [apply ex_even_valid|split; [apply ex_even_min_valid|vm_compute; reflexivity]]]].
  - destruct (C93_finiteness ex_two_words V F1) as (_ & _ & outs & E & H). apply H. vm_compute in E. injection E as <-. vm_compute. reflexivity.
  - destruct (C93_finiteness ex_nfa_ab ex_nfa_ab_valid F2) as (_ & _ & outs & E & H). rewrite H. vm_compute in E. injection E as <-. vm_compute. discriminate.
Qed.
