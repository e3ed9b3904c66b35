(** Properties about graphemes: which alphabets [graphemes_only] admits and what [accepts_graphemes] decides. *)
From Coq Require Import List NArith Arith Bool Lia.
From Verif Require Import Base BaseLemmas Spec GraphemeSpec DfaModel NfaModel DfaBasics NfaBasics WordDfa Examples Prop_Dfa.
Import ListNotations.
Open Scope list_scope.

(** ** C61: graphemes *)

(** [graphemes_only] holds exactly when every symbol of the alphabet is one grapheme *)
Theorem C61_dfa_graphemes_only : forall seg d, text_segmentation seg ->
  (dfa_graphemes_only seg d = true <-> forall a, In a (dfa_alphabet d) -> seg a = [a]).
Proof.
  intros seg d S. unfold dfa_graphemes_only. rewrite forallb_forall. split; intros H a Ha; specialize (H a Ha).
  - apply Nat.eqb_eq in H. pose proof (sg_concat seg S a) as E. destruct (seg a) as [|g [|]]; try discriminate H.
    simpl in E. rewrite app_nil_r in E. congruence.
  - rewrite H. reflexivity.
Qed.
Print Assumptions C61_dfa_graphemes_only.
Theorem C61_nfa_graphemes_only : forall seg n, text_segmentation seg ->
  (nfa_graphemes_only seg n = true <-> forall a, In a (nfa_alphabet n) -> seg a = [a]).
Proof.
  intros seg n S. unfold nfa_graphemes_only. rewrite forallb_forall. split; intros H a Ha; specialize (H a Ha).
  - apply Nat.eqb_eq in H. pose proof (sg_concat seg S a) as E. destruct (seg a) as [|g [|]]; try discriminate H.
    simpl in E. rewrite app_nil_r in E. congruence.
  - rewrite H. reflexivity.
Qed.
Print Assumptions C61_nfa_graphemes_only.

(** An accepted text is an accepted word written out, and that word uses only the symbols that are one grapheme: symbols
    with several graphemes are never recognised. A word that the segmentation reads back is accepted as a text exactly
    when it is accepted as a word. *)
Theorem C61_dfa_texts : forall seg d, text_segmentation seg -> dfa_valid d ->
  (forall s, exists b, dfa_accepts_graphemes seg d s = Ret b /\
     (b = true <-> exists w, concat w = s /\ seg s = w /\ dfa_lang d w) /\
     (b = true -> forall w, seg s = w -> forall a, In a w -> In a (dfa_alphabet d) /\ seg a = [a])) /\
  (forall w, seg (concat w) = w -> dfa_accepts_graphemes seg d (concat w) = dfa_accepts d w).
Proof.
  intros seg d S V. split.
  - intros s. destruct (dfa_accepts_correct d (seg s) V) as (b & E & Hb). exists b. split; [exact E|]. split.
    + rewrite Hb. split; [intros H; exists (seg s); split; [apply S|auto]|intros (w & _ & <- & H); auto].
    + intros T w <- a Ha. split; [|eapply sg_whole; eauto]. apply Hb, dfa_lang_over in T. unfold over in T.
      rewrite Forall_forall in T. auto.
  - intros w E. unfold dfa_accepts_graphemes. rewrite E. reflexivity.
Qed.
Print Assumptions C61_dfa_texts.
Theorem C61_nfa_texts : forall seg n, text_segmentation seg -> nfa_valid n ->
  (forall s, exists b, nfa_accepts_graphemes seg n s = Ret b /\
     (b = true <-> exists w, concat w = s /\ seg s = w /\ nfa_lang n w) /\
     (b = true -> forall w, seg s = w -> forall a, In a w -> In a (nfa_alphabet n) /\ seg a = [a])) /\
  (forall w, seg (concat w) = w -> nfa_accepts_graphemes seg n (concat w) = nfa_accepts n w).
Proof.
  intros seg n S V. split.
  - intros s. destruct (nfa_accepts_correct n (seg s) V) as (b & E & Hb). exists b. split; [exact E|]. split.
    + rewrite Hb. split; [intros H; exists (seg s); split; [apply S|auto]|intros (w & _ & <- & H); auto].
    + intros T w <- a Ha. split; [|eapply sg_whole; eauto]. apply Hb, nfa_lang_over in T. unfold over in T.
      rewrite Forall_forall in T. auto.
  - intros w E. unfold nfa_accepts_graphemes. rewrite E. reflexivity.
Qed.
Print Assumptions C61_nfa_texts.

(** The documented reading ("split into single grapheme clusters in an unambiguous way") holds for alphabets of single
    ASCII characters: a text has at most one reading, and it is the one that is checked. *)
Theorem C61_ascii_unambiguous_partial : forall seg, text_segmentation seg -> splits_plain_text seg ->
  (forall d, dfa_valid d -> (forall a, In a (dfa_alphabet d) -> exists c, a = [c] /\ plain_char c) ->
     dfa_graphemes_only seg d = true /\
     (forall w, over (dfa_alphabet d) w -> dfa_accepts_graphemes seg d (concat w) = dfa_accepts d w) /\
     forall w w', over (dfa_alphabet d) w -> over (dfa_alphabet d) w' -> concat w = concat w' -> w = w') /\
  (forall n, nfa_valid n -> (forall a, In a (nfa_alphabet n) -> exists c, a = [c] /\ plain_char c) ->
     nfa_graphemes_only seg n = true /\
     (forall w, over (nfa_alphabet n) w -> nfa_accepts_graphemes seg n (concat w) = nfa_accepts n w) /\
     forall w w', over (nfa_alphabet n) w -> over (nfa_alphabet n) w' -> concat w = concat w' -> w = w').
Proof.
  intros seg S P.
  assert (K : forall (al : list str) w, (forall a, In a al -> exists c, a = [c] /\ plain_char c) -> over al w -> seg (concat w) = w).
  { intros al w Hal Hw. rewrite (P (concat w)).
    - induction Hw as [|a w Ha Hw IH]; auto. destruct (Hal a Ha) as (c & -> & _). simpl. rewrite IH. reflexivity.
    - induction Hw as [|a w Ha Hw IH]; [constructor|]. destruct (Hal a Ha) as (c & -> & Hc). simpl. constructor; auto. }
  assert (U : forall (al : list str), (forall a, In a al -> exists c, a = [c] /\ plain_char c) -> forall a, In a al -> seg a = [a]).
  { intros al Hal a Ha. destruct (Hal a Ha) as (c & -> & Hc). rewrite P; auto. }
  split; [intros d V Hal|intros n V Hal]; (split; [|split]).
  - apply C61_dfa_graphemes_only; eauto.
  - intros w Hw. apply C61_dfa_texts; eauto.
  - intros w w' Hw Hw' E. rewrite <- (K _ w Hal Hw), <- (K _ w' Hal Hw'), E. reflexivity.
  - apply C61_nfa_graphemes_only; eauto.
  - intros w Hw. apply C61_nfa_texts; eauto.
  - intros w w' Hw Hw' E. rewrite <- (K _ w Hal Hw), <- (K _ w' Hal Hw'), E. reflexivity.
Qed.
Print Assumptions C61_ascii_unambiguous_partial.

(** In general it holds for an alphabet exactly if the segmentation reads back every word over it: otherwise some
    automaton over this alphabet accepts a word and rejects its text. *)
Theorem C61_unambiguous_iff : forall seg al, NoDup al ->
  ((forall w, over al w -> seg (concat w) = w) <->
   forall d, dfa_valid d -> dfa_alphabet d = al -> forall w, over al w -> dfa_accepts_graphemes seg d (concat w) = dfa_accepts d w) /\
  ((forall w, over al w -> seg (concat w) = w) <->
   forall n, nfa_valid n -> nfa_alphabet n = al -> forall w, over al w -> nfa_accepts_graphemes seg n (concat w) = nfa_accepts n w) /\
  ((forall w, over al w -> seg (concat w) = w) ->
   forall w w', over al w -> over al w' -> concat w = concat w' -> w = w').
Proof.
  intros seg al N. split; [|split].
  - split; [intros H d V A w Hw; unfold dfa_accepts_graphemes; rewrite (H w Hw); reflexivity|].
    intros H w Hw. pose proof (word_dfa_valid al w N) as V. specialize (H _ V eq_refl w Hw). change (dfa_accepts (word_dfa al w) (seg (concat w)) = dfa_accepts (word_dfa al w) w) in H.
    destruct (dfa_accepts_correct _ w V) as (b & Eb & Hb). destruct (dfa_accepts_correct _ (seg (concat w)) V) as (b' & Eb' & Hb').
    rewrite Eb, Eb' in H. injection H as ->. rewrite word_dfa_lang in Hb, Hb' by auto. tauto.
  - split; [intros H d V A w Hw; unfold nfa_accepts_graphemes; rewrite (H w Hw); reflexivity|].
    intros H w Hw. destruct (C14_dfa_to_nfa _ (word_dfa_valid al w N)) as (V & _ & A & _ & _ & _ & _ & _ & L).
    specialize (H _ V A w Hw). change (nfa_accepts (dfa_to_nfa (word_dfa al w)) (seg (concat w)) = nfa_accepts (dfa_to_nfa (word_dfa al w)) w) in H.
    destruct (nfa_accepts_correct _ w V) as (b & Eb & Hb). destruct (nfa_accepts_correct _ (seg (concat w)) V) as (b' & Eb' & Hb').
    rewrite Eb, Eb' in H. injection H as ->. rewrite L, word_dfa_lang in Hb, Hb' by auto. tauto.
  - intros H w w' Hw Hw' E. rewrite <- (H w Hw), <- (H w' Hw'), E. reflexivity.
Qed.
Print Assumptions C61_unambiguous_iff.

(** In general the documented reading fails: with the symbols "a", a combining accent and "a" with the accent, all of
    them one grapheme each, one text has two readings with different verdicts, and the word of "a" and the accent is
    accepted although its text is not. *)
Definition ex_accents : dfa :=
  {| dfa_alphabet := [el_a; [accent]; [97%N; accent]];
     dfa_states := [mk_dfa_state el_a true false [1; 2; 2]; mk_dfa_state el_b false false [2; 3; 2];
                    mk_dfa_state el_c false false [2; 2; 2]; mk_dfa_state [100%N] false true [2; 2; 2]];
     dfa_initial := 0 |}.
Theorem C61_unambiguous_refuted : exists seg d w w', text_segmentation seg /\ splits_plain_text seg /\ dfa_valid d /\
  dfa_graphemes_only seg d = true /\ concat w = concat w' /\
  dfa_accepts d w = Ret true /\ dfa_accepts d w' = Ret false /\ dfa_accepts_graphemes seg d (concat w) = Ret false.
Proof.
  exists seg_accents, ex_accents, [el_a; [accent]], [[97%N; accent]].
  split; [apply seg_accents_ok|]. split; [apply seg_accents_plain|]. split; [|vm_compute; auto].
  apply dfa_validb_valid. vm_compute. reflexivity.
Qed.
Print Assumptions C61_unambiguous_refuted.

Example C61_example : text_segmentation seg_accents /\ splits_plain_text seg_accents /\ dfa_valid ex_even /\
  dfa_graphemes_only seg_accents ex_even = true /\ dfa_accepts_graphemes seg_accents ex_even [97; 98; 97]%N = Ret true /\
  dfa_accepts_graphemes seg_accents ex_even [97; 769; 97]%N = Ret false.
Proof.
  split; [apply seg_accents_ok|]. split; [apply seg_accents_plain|]. split; [apply ex_even_valid|]. vm_compute. auto.
Qed.
