(** * Laws of the operations, and enumerating complements: C67, C68 *)
From Coq Require Import List NArith Arith Bool Lia.
From Verif Require Import Base Spec DfaModel NfaModel WordsModel ApiModel AlgebraSpec.
From Verif Require Import DfaBasics NfaBasics DfaEquiv AlgebraProofs RecolorProofs Examples Prop_Dfa Prop_Nfa Prop_Words Prop_Stable.
Import ListNotations.

(** ** C67: the laws of propositional logic *)

(** A pipeline of operations on automata over one alphabet succeeds, and decides every word as its propositional reading does *)
Theorem C67_words : forall al dv nv, over_one_alphabet al dv nv ->
  (forall l, exists d, run_dfa_law dv nv l = Ret (Some d) /\ dfa_valid d /\ same_set (dfa_alphabet d) al /\
     forall w dt nt, over al w -> (forall i, dfa_accepts (dv i) w = Ret (dt i)) -> (forall i, nfa_accepts (nv i) w = Ret (nt i)) ->
       dfa_accepts d w = Ret (dfa_truth dt nt l)) /\
  (forall m, exists n, run_nfa_law dv nv m = Ret (Some n) /\ nfa_valid n /\ same_set (nfa_alphabet n) al /\
     forall w dt nt, over al w -> (forall i, dfa_accepts (dv i) w = Ret (dt i)) -> (forall i, nfa_accepts (nv i) w = Ret (nt i)) ->
       nfa_accepts n w = Ret (nfa_truth dt nt m)).
Proof.
  intros al dv nv HV. destruct (law_meaning al dv nv HV) as [HD HN]. split.
  - intros l. destruct (HD l) as (d & E & V & A & L). exists d. split; [exact E|]. split; [auto|]. split; [auto|]. intros w dt nt Hw Hd Hn.
    destruct (C01_dfa_accepts d w V) as (b & -> & Hb). f_equal. apply eq_true_iff_eq. rewrite Hb, (L w Hw).
    rewrite (proj1 (truth_ext (dfa_bits dv w) dt (nfa_bits nv w) nt (fun i => f_equal accepted_bit (Hd i)) (fun i => f_equal accepted_bit (Hn i)))). reflexivity.
  - intros m. destruct (HN m) as (n & E & V & A & L). exists n. split; [exact E|]. split; [auto|]. split; [auto|]. intros w dt nt Hw Hd Hn.
    destruct (C03_nfa_accepts n w V) as (b & -> & Hb). f_equal. apply eq_true_iff_eq. rewrite Hb, (L w Hw).
    rewrite (proj2 (truth_ext (dfa_bits dv w) dt (nfa_bits nv w) nt (fun i => f_equal accepted_bit (Hd i)) (fun i => f_equal accepted_bit (Hn i)))). reflexivity.
Qed.
Print Assumptions C67_words.

(** Pipelines whose readings are equivalent formulas give automata that [equivalent_to] calls equivalent, and that minimize to
    the same automaton up to the numbering and the names of states *)
Theorem C67_laws : forall al dv nv, over_one_alphabet al dv nv ->
  (forall l1 l2, (forall dt nt, dfa_truth dt nt l1 = dfa_truth dt nt l2) ->
     exists d1 d2, run_dfa_law dv nv l1 = Ret (Some d1) /\ run_dfa_law dv nv l2 = Ret (Some d2) /\
       dfa_equivalent_to d1 d2 = Ret true /\
       forall h dbg h' dbg', exists m1 m2 f, dfa_minimize h dbg d1 = Ret m1 /\ dfa_minimize h' dbg' d2 = Ret m2 /\
         length (dfa_states m1) = length (dfa_states m2) /\ dfa_iso m1 m2 f) /\
  (forall m1 m2, (forall dt nt, nfa_truth dt nt m1 = nfa_truth dt nt m2) ->
     exists n1 n2, run_nfa_law dv nv m1 = Ret (Some n1) /\ run_nfa_law dv nv m2 = Ret (Some n2) /\
       nfa_equivalent_to n1 n2 = Ret true).
Proof.
  intros al dv nv HV. destruct (law_meaning al dv nv HV) as [HD HN]. split.
  - intros l1 l2 H. destruct (HD l1) as (d1 & E1 & M1). destruct (HD l2) as (d2 & E2 & M2). exists d1, d2. split; [exact E1|]. split; [exact E2|].
    pose proof (dfa_means_eq _ _ _ _ _ _ _ M1 M2 H) as L. destruct M1 as (V1 & A1 & _), M2 as (V2 & A2 & _).
    pose proof (same_set_two _ _ _ A1 A2) as A. split.
    + destruct (C12_dfa_equivalent_to d1 d2 V1 V2) as (b & -> & Hb). f_equal. apply Hb. auto.
    + intros h dbg h' dbg'. destruct (C21_minimize h dbg d1 V1) as (m1 & H1 & _). destruct (C21_minimize h' dbg' d2 V2) as (m2 & H2 & _).
      destruct (C22_minimal_unique h dbg h' dbg' d1 d2 m1 m2 V1 V2 A L H1 H2) as (Hlen & f & I). exists m1, m2, f. auto.
  - intros m1 m2 H. destruct (HN m1) as (n1 & E1 & M1). destruct (HN m2) as (n2 & E2 & M2). exists n1, n2. split; [exact E1|]. split; [exact E2|].
    pose proof (nfa_means_eq _ _ _ _ _ _ _ M1 M2 H) as L. destruct M1 as (V1 & A1 & _), M2 as (V2 & A2 & _).
    destruct (C13_nfa_equivalent_to n1 n2 V1 V2) as (b & -> & Hb). f_equal. apply Hb. split; auto. exact (same_set_two _ _ _ A1 A2).
Qed.
Print Assumptions C67_laws.

(** No other law holds: formulas that are not equivalent are told apart by some automata, over any alphabet *)
Theorem C67_no_other_laws : forall al, NoDup al ->
  (forall l1 l2 dt nt, dfa_truth dt nt l1 <> dfa_truth dt nt l2 -> exists dv nv d1 d2, over_one_alphabet al dv nv /\
     run_dfa_law dv nv l1 = Ret (Some d1) /\ run_dfa_law dv nv l2 = Ret (Some d2) /\ dfa_equivalent_to d1 d2 = Ret false) /\
  (forall m1 m2 dt nt, nfa_truth dt nt m1 <> nfa_truth dt nt m2 -> exists dv nv n1 n2, over_one_alphabet al dv nv /\
     run_nfa_law dv nv m1 = Ret (Some n1) /\ run_nfa_law dv nv m2 = Ret (Some n2) /\ nfa_equivalent_to n1 n2 = Ret false).
Proof.
  intros al ND. 
  assert (HV : forall dt nt, over_one_alphabet al (fun i => const_dfa al (dt i)) (fun i => dfa_to_nfa (const_dfa al (nt i)))).
  { intros dt nt. split; intros i; (split; [|intros a; reflexivity]); [apply const_dfa_valid; auto|].
    apply C14_dfa_to_nfa, const_dfa_valid; auto. }
  assert (HD : forall (dt : nat -> bool) i, dfa_accepts (const_dfa al (dt i)) [] = Ret (dt i)).
  { intros dt i. destruct (C01_dfa_accepts (const_dfa al (dt i)) [] (const_dfa_valid al (dt i) ND)) as (b & -> & Hb). f_equal.
    apply eq_true_iff_eq. rewrite Hb. apply const_dfa_empty. }
  assert (HN : forall (nt : nat -> bool) i, nfa_accepts (dfa_to_nfa (const_dfa al (nt i))) [] = Ret (nt i)).
  { intros nt i. destruct (C14_dfa_to_nfa (const_dfa al (nt i)) (const_dfa_valid al (nt i) ND)) as (Vn & _ & _ & _ & _ & _ & _ & _ & L).
    destruct (C03_nfa_accepts _ [] Vn) as (b & -> & Hb). f_equal. apply eq_true_iff_eq. rewrite Hb, (L []). apply const_dfa_empty. }
  split.
  - intros l1 l2 dt nt H. exists (fun i => const_dfa al (dt i)), (fun i => dfa_to_nfa (const_dfa al (nt i))).
    destruct (C67_words al _ _ (HV dt nt)) as [HW _]. destruct (HW l1) as (d1 & E1 & V1 & A1 & W1). destruct (HW l2) as (d2 & E2 & V2 & A2 & W2).
    exists d1, d2. split; [apply HV|]. split; [exact E1|]. split; [exact E2|].
    destruct (C12_dfa_equivalent_to d1 d2 V1 V2) as (b & -> & Hb). f_equal. apply not_true_is_false. intros Eb. apply Hb in Eb as [_ L].
    apply H. specialize (W1 [] dt nt (Forall_nil _) (HD dt) (HN nt)). specialize (W2 [] dt nt (Forall_nil _) (HD dt) (HN nt)).
    destruct (C01_dfa_accepts d1 [] V1) as (b1 & F1 & B1). destruct (C01_dfa_accepts d2 [] V2) as (b2 & F2 & B2).
    rewrite W1 in F1. rewrite W2 in F2. injection F1 as ->. injection F2 as ->. apply eq_true_iff_eq. rewrite B1, B2. apply L.
  - intros l1 l2 dt nt H. exists (fun i => const_dfa al (dt i)), (fun i => dfa_to_nfa (const_dfa al (nt i))).
    destruct (C67_words al _ _ (HV dt nt)) as [_ HW]. destruct (HW l1) as (d1 & E1 & V1 & A1 & W1). destruct (HW l2) as (d2 & E2 & V2 & A2 & W2).
    exists d1, d2. split; [apply HV|]. split; [exact E1|]. split; [exact E2|].
    destruct (C13_nfa_equivalent_to d1 d2 V1 V2) as (b & -> & Hb). f_equal. apply not_true_is_false. intros Eb. apply Hb in Eb as [_ L].
    apply H. specialize (W1 [] dt nt (Forall_nil _) (HD dt) (HN nt)). specialize (W2 [] dt nt (Forall_nil _) (HD dt) (HN nt)).
    destruct (C03_nfa_accepts d1 [] V1) as (b1 & F1 & B1). destruct (C03_nfa_accepts d2 [] V2) as (b2 & F2 & B2).
    rewrite W1 in F1. rewrite W2 in F2. injection F1 as ->. injection F2 as ->. apply eq_true_iff_eq. rewrite B1, B2. apply L.
Qed.
Print Assumptions C67_no_other_laws.

(** Some laws hold exactly, state by state and name by name, when both sides iterate in the same order *)
Theorem C67_exact_laws : forall h d1 d2,
  dfa_difference h d1 d2 = dfa_intersection h d1 (dfa_invert d2) /\
  dfa_symmetric_difference h (dfa_invert d1) (dfa_invert d2) = dfa_symmetric_difference h d1 d2 /\
  (forall d, dfa_union h d1 d2 = Ret (Some d) -> dfa_intersection h (dfa_invert d1) (dfa_invert d2) = Ret (Some (dfa_invert d))) /\
  (forall d, dfa_intersection h d1 d2 = Ret (Some d) -> dfa_union h (dfa_invert d1) (dfa_invert d2) = Ret (Some (dfa_invert d))) /\
  (forall d, dfa_symmetric_difference h d1 d2 = Ret (Some d) ->
     dfa_symmetric_difference h (dfa_invert d1) d2 = Ret (Some (dfa_invert d)) /\
     dfa_symmetric_difference h d1 (dfa_invert d2) = Ret (Some (dfa_invert d))).
Proof.
  intros h d1 d2.
  assert (Hid : forall r : R (option dfa), bind r (fun o => Ret (option_map (recolor (fun s => ds_accepting s)) o)) = r).
  { intros [[d|]| |]; cbn; try reflexivity. change (fun s => ds_accepting s) with ds_accepting. rewrite recolor_id. reflexivity. }
  split; [|split; [|split; [|split]]].
  - rewrite <- (recolor_id d1) at 2. rewrite <- (recolor_invert d2). unfold dfa_intersection, dfa_difference.
    rewrite (product_recolor h d1 d2 _ _ (fun s1 s2 => ds_accepting s1 && negb (ds_accepting s2)) _ (fun b => b)), Hid; reflexivity.
  - rewrite <- (recolor_invert d1), <- (recolor_invert d2). unfold dfa_symmetric_difference.
    rewrite (product_recolor h d1 d2 _ _ (fun s1 s2 => negb (Bool.eqb (ds_accepting s1) (ds_accepting s2))) _ (fun b => b)), Hid; [reflexivity|].
    intros s1 s2. cbn. destruct (ds_accepting s1), (ds_accepting s2); reflexivity.
  - intros d E. rewrite <- (recolor_invert d1), <- (recolor_invert d2). unfold dfa_intersection, dfa_union in *.
    rewrite (product_recolor h d1 d2 _ _ (fun s1 s2 => ds_accepting s1 || ds_accepting s2) _ negb), E; [reflexivity|].
    intros s1 s2. cbn. destruct (ds_accepting s1), (ds_accepting s2); reflexivity.
  - intros d E. rewrite <- (recolor_invert d1), <- (recolor_invert d2). unfold dfa_intersection, dfa_union in *.
    rewrite (product_recolor h d1 d2 _ _ (fun s1 s2 => ds_accepting s1 && ds_accepting s2) _ negb), E; [reflexivity|].
    intros s1 s2. cbn. destruct (ds_accepting s1), (ds_accepting s2); reflexivity.
  - intros d E. split.
    + rewrite <- (recolor_invert d1). rewrite <- (recolor_id d2). unfold dfa_symmetric_difference in *.
      rewrite (product_recolor h d1 d2 _ _ (fun s1 s2 => negb (Bool.eqb (ds_accepting s1) (ds_accepting s2))) _ negb), E; [reflexivity|].
      intros s1 s2. cbn. destruct (ds_accepting s1), (ds_accepting s2); reflexivity.
    + rewrite <- (recolor_invert d2). rewrite <- (recolor_id d1). unfold dfa_symmetric_difference in *.
      rewrite (product_recolor h d1 d2 _ _ (fun s1 s2 => negb (Bool.eqb (ds_accepting s1) (ds_accepting s2))) _ negb), E; [reflexivity|].
      intros s1 s2. cbn. destruct (ds_accepting s1), (ds_accepting s2); reflexivity.
Qed.
Print Assumptions C67_exact_laws.

(** Three ways to compare: two automata are equivalent exactly when their symmetric difference is empty, and one contains the
    other exactly when the difference is empty *)
Theorem C67_comparisons : forall h h' d1 d2, dfa_valid d1 -> dfa_valid d2 -> same_set (dfa_alphabet d1) (dfa_alphabet d2) ->
  exists s m b c, dfa_symmetric_difference h d1 d2 = Ret (Some s) /\ dfa_difference h d1 d2 = Ret (Some m) /\
    dfa_has_reachable_accepting_state h' s = Ret b /\ dfa_equivalent_to d1 d2 = Ret (negb b) /\
    dfa_has_reachable_accepting_state h' m = Ret c /\ (c = false <-> forall w, dfa_lang d1 w -> dfa_lang d2 w).
Proof.
  intros h h' d1 d2 V1 V2 A.
  destruct (C25_symmetric_difference h d1 d2 V1 V2) as ([s|] & Es & Ns & Hs); [|tauto]. destruct (Hs s eq_refl) as (Vs & _ & Ls).
  destruct (C25_difference h d1 d2 V1 V2) as ([m|] & Em & Nm & Hm); [|tauto]. destruct (Hm m eq_refl) as (Vm & _ & Lm).
  destruct (C18_dfa_has_reachable_accepting_state h' s Vs) as (b & Eb & Hb). destruct (C18_dfa_has_reachable_accepting_state h' m Vm) as (c & Ec & Hc).
  exists s, m, b, c. split; [exact Es|]. split; [exact Em|]. split; [exact Eb|]. split; [|split; [exact Ec|]].
  - destruct (C12_dfa_equivalent_to d1 d2 V1 V2) as (e & -> & He). f_equal. apply eq_true_iff_eq. rewrite He, negb_true_iff, <- not_true_iff_false, Hb. split.
    + intros [_ L] [w Hw]. apply Ls in Hw. rewrite (L w) in Hw. tauto.
    + intros N. split; auto. intros w. destruct (C01_dfa_accepts d1 w V1) as (b1 & _ & B1). destruct (C01_dfa_accepts d2 w V2) as (b2 & _ & B2).
      rewrite <- B1, <- B2. destruct b1, b2; try tauto; exfalso; apply N; exists w; apply Ls; rewrite <- B1, <- B2; [left|right]; split; auto; discriminate.
  - rewrite <- not_true_iff_false, Hc. split.
    + intros N w H1. destruct (C01_dfa_accepts d2 w V2) as (b2 & _ & B2). destruct b2; [tauto|]. exfalso. apply N. exists w. apply Lm. split; auto.
      rewrite <- B2. discriminate.
    + intros H [w Hw]. apply Lm in Hw as [H1 H2]. auto.
Qed.
Print Assumptions C67_comparisons.

(** The verdicts of [equivalent_to] form an equivalence relation *)
Theorem C67_equivalence_relation :
  (forall d, dfa_valid d -> dfa_equivalent_to d d = Ret true) /\
  (forall d1 d2, dfa_valid d1 -> dfa_valid d2 -> dfa_equivalent_to d2 d1 = dfa_equivalent_to d1 d2) /\
  (forall d1 d2 d3, dfa_valid d1 -> dfa_valid d2 -> dfa_valid d3 ->
     dfa_equivalent_to d1 d2 = Ret true -> dfa_equivalent_to d2 d3 = Ret true -> dfa_equivalent_to d1 d3 = Ret true) /\
  (forall n, nfa_valid n -> nfa_equivalent_to n n = Ret true) /\
  (forall n1 n2, nfa_valid n1 -> nfa_valid n2 -> nfa_equivalent_to n2 n1 = nfa_equivalent_to n1 n2) /\
  (forall n1 n2 n3, nfa_valid n1 -> nfa_valid n2 -> nfa_valid n3 ->
     nfa_equivalent_to n1 n2 = Ret true -> nfa_equivalent_to n2 n3 = Ret true -> nfa_equivalent_to n1 n3 = Ret true) /\
  (forall h h' n1 n2, nfa_valid n1 -> nfa_valid n2 -> exists d1 d2, nfa_to_dfa h n1 = Ret d1 /\ nfa_to_dfa h' n2 = Ret d2 /\
     dfa_equivalent_to d1 d2 = nfa_equivalent_to n1 n2).
Proof.
  assert (S : forall l l' : list str, same_set l l' -> same_set l' l) by (intros l l' H a; symmetry; apply H).
  assert (T : forall l l' l'' : list str, same_set l l' -> same_set l' l'' -> same_set l l'') by (intros l l' l'' H H' a; rewrite (H a); apply H').
  split; [|split; [|split; [|split; [|split; [|split]]]]].
  - intros d V. destruct (C12_dfa_equivalent_to d d V V) as (b & -> & Hb). f_equal. apply Hb. split; [intros a|intros w]; tauto.
  - intros d1 d2 V1 V2. destruct (C12_dfa_equivalent_to d1 d2 V1 V2) as (b & -> & Hb). destruct (C12_dfa_equivalent_to d2 d1 V2 V1) as (c & -> & Hc).
    f_equal. apply eq_true_iff_eq. rewrite Hb, Hc. split; intros [A L]; (split; [apply S; auto|intros w; symmetry; apply L]).
  - intros d1 d2 d3 V1 V2 V3 E1 E2. destruct (C12_dfa_equivalent_to d1 d2 V1 V2) as (b & Eb & Hb). destruct (C12_dfa_equivalent_to d2 d3 V2 V3) as (c & Ec & Hc).
    destruct (C12_dfa_equivalent_to d1 d3 V1 V3) as (e & -> & He). rewrite E1 in Eb. rewrite E2 in Ec. injection Eb as <-. injection Ec as <-.
    destruct (proj1 Hb eq_refl) as [A1 L1]. destruct (proj1 Hc eq_refl) as [A2 L2]. f_equal. apply He. split; [exact (T _ _ _ A1 A2)|].
    intros w. rewrite (L1 w). apply L2.
  - intros d V. destruct (C13_nfa_equivalent_to d d V V) as (b & -> & Hb). f_equal. apply Hb. split; [intros a|intros w]; tauto.
  - intros d1 d2 V1 V2. destruct (C13_nfa_equivalent_to d1 d2 V1 V2) as (b & -> & Hb). destruct (C13_nfa_equivalent_to d2 d1 V2 V1) as (c & -> & Hc).
    f_equal. apply eq_true_iff_eq. rewrite Hb, Hc. split; intros [A L]; (split; [apply S; auto|intros w; symmetry; apply L]).
  - intros d1 d2 d3 V1 V2 V3 E1 E2. destruct (C13_nfa_equivalent_to d1 d2 V1 V2) as (b & Eb & Hb). destruct (C13_nfa_equivalent_to d2 d3 V2 V3) as (c & Ec & Hc).
    destruct (C13_nfa_equivalent_to d1 d3 V1 V3) as (e & -> & He). rewrite E1 in Eb. rewrite E2 in Ec. injection Eb as <-. injection Ec as <-.
    destruct (proj1 Hb eq_refl) as [A1 L1]. destruct (proj1 Hc eq_refl) as [A2 L2]. f_equal. apply He. split; [exact (T _ _ _ A1 A2)|].
    intros w. rewrite (L1 w). apply L2.
  - intros h h' n1 n2 V1 V2. destruct (C15_nfa_to_dfa h n1 V1) as (d1 & E1 & W1 & A1 & _ & _ & _ & L1).
    destruct (C15_nfa_to_dfa h' n2 V2) as (d2 & E2 & W2 & A2 & _ & _ & _ & L2). exists d1, d2. split; [exact E1|]. split; [exact E2|].
    destruct (C12_dfa_equivalent_to d1 d2 W1 W2) as (b & -> & Hb). destruct (C13_nfa_equivalent_to n1 n2 V1 V2) as (c & -> & Hc).
    f_equal. apply eq_true_iff_eq. rewrite Hb, Hc, A1, A2. split; intros [A L]; (split; [exact A|]); intros w; [rewrite <- (L1 w), <- (L2 w)|rewrite (L1 w), (L2 w)]; apply L.
Qed.
Print Assumptions C67_equivalence_relation.

(** Minimizing and inverting can be done in either order *)
Theorem C67_minimize_invert : forall h dbg h' dbg' d m m', dfa_valid d ->
  dfa_minimize h dbg d = Ret m -> dfa_minimize h' dbg' (dfa_invert d) = Ret m' ->
  length (dfa_states m') = length (dfa_states m) /\ dfa_minimize h dbg (dfa_invert m) = Ret (dfa_invert m) /\
  exists f, dfa_iso m' (dfa_invert m) f.
Proof.
  intros h dbg h' dbg' d m m' V E E'.
  destruct (C21_minimize h dbg d V) as (m0 & E0 & Vm & Am & Lm & _ & Min). rewrite E in E0. injection E0 as <-.
  destruct (C23_invert d V) as (Vi & Ai & _ & _ & _ & _ & Li). destruct (C23_invert m Vm) as (Vj & Aj & _ & _ & _ & _ & Lj).
  assert (S : same_set (dfa_alphabet (dfa_invert d)) (dfa_alphabet (dfa_invert m))) by (rewrite Ai, Aj, Am; intros a; tauto).
  assert (L : forall w, dfa_lang (dfa_invert d) w <-> dfa_lang (dfa_invert m) w) by (intros w; rewrite (Li w), (Lj w), (Lm w), Am; tauto).
  assert (F : dfa_minimize h dbg (dfa_invert m) = Ret (dfa_invert m)).
  { apply C65_minimize; auto. intros d' V' A' L'. destruct (C23_invert d' V') as (Vk & Ak & _ & _ & _ & _ & Lk).
    replace (length (dfa_states (dfa_invert m))) with (length (dfa_states m)) by (cbn; rewrite map_length; reflexivity).
    replace (length (dfa_states d')) with (length (dfa_states (dfa_invert d'))) by (cbn; rewrite map_length; reflexivity).
    apply Min; auto.
    - rewrite Ak, <- Am, <- Aj. exact A'.
    - assert (A2 : forall w, over (dfa_alphabet d') w <-> over (dfa_alphabet m) w).
      { intros w. rewrite <- Aj. split; apply same_set_over; auto. intros a. symmetry. apply A'. }
      intros w. rewrite (Lk w), (L' w), (Lj w), <- (Lm w), (A2 w). split.
      + intros [H1 H2]. destruct (C01_dfa_accepts m w Vm) as (b & _ & Hb). destruct b; [tauto|]. exfalso. apply H2. split; auto. rewrite <- Hb. discriminate.
      + intros H. split; [apply dfa_lang_over; auto|tauto]. }
  destruct (C22_minimal_unique h' dbg' h dbg (dfa_invert d) (dfa_invert m) m' (dfa_invert m) Vi Vj S L E' F) as (Hl & f & I).
  split; [rewrite Hl; cbn; apply map_length|]. split; [exact F|]. exists f. exact I.
Qed.
Print Assumptions C67_minimize_invert.

(** The hypotheses can be met: distributivity and De Morgan's law for two concrete automata, in three orders of iteration *)
Example C67_example :
  let dv := fun i => match i with O => ex_even | _ => ex_end_b end in
  over_one_alphabet (dfa_alphabet ex_even) dv (fun i => dfa_to_nfa (dv i)) /\
  (forall dt nt, dfa_truth dt nt (LInvert (LSetOp OUnion id_order (LVar 0) (LOfNfa id_order (MVar 1)))) =
                 dfa_truth dt nt (LMinimize rev_order true (LSetOp ODifference rev_order (LInvert (LVar 0)) (LOfNfa id_order (MVar 1))))) /\
  exists d, run_dfa_law dv (fun i => dfa_to_nfa (dv i)) (LInvert (LSetOp OUnion id_order (LVar 0) (LOfNfa id_order (MVar 1)))) = Ret (Some d) /\
            dfa_accepts d [el_a] = Ret true.
Proof.
  split; [|split].
  - assert (H : forall i : nat, dfa_valid (match i with O => ex_even | _ => ex_end_b end)).
    { intros [|i]; [apply ex_even_valid|apply ex_end_b_valid]. }
    assert (A : forall i : nat, same_set (dfa_alphabet (match i with O => ex_even | _ => ex_end_b end)) (dfa_alphabet ex_even)).
    { intros [|i] a; [tauto|]. cbn. tauto. }
    split; intros i; (split; [|apply A]); [apply H|]. apply C14_dfa_to_nfa. apply H.
  - intros dt nt. cbn. apply negb_orb.
  - eexists. split; vm_compute; reflexivity.
Qed.

(** ** C68: the words of an automaton and of its complement are all the words, each listed once *)

(** A word of at most [len] symbols is among the first results *)
Theorem C68_listed_within : forall n w len k, nfa_valid n -> eps_free n -> nfa_lang n w -> length w <= len ->
  words_up_to (length (nfa_alphabet n)) len <= k ->
  exists outs, word_components_calls n k = Ret outs /\ In (Some w) outs.
Proof.
  intros n w len k V F L Hl Hk. destruct (listed_within n w len k V F L Hl Hk) as (ws & E & Hi).
  eexists. split; [exact E|]. apply in_or_app. left. apply in_map. exact Hi.
Qed.
Print Assumptions C68_listed_within.

(** nothing is listed twice *)
Theorem C68_listed_once : forall n k, nfa_valid n -> eps_free n ->
  exists ws, word_components_calls n k = Ret (map Some ws ++ repeat None (k - length ws)) /\ NoDup ws.
Proof. exact components_nodup. Qed.
Print Assumptions C68_listed_once.

Theorem C68_complement : forall d len k, dfa_valid d -> words_up_to (length (dfa_alphabet d)) len <= k ->
  exists outs couts, word_components_calls (dfa_to_nfa d) k = Ret outs /\ word_components_calls (dfa_to_nfa (dfa_invert d)) k = Ret couts /\
    (forall w, over (dfa_alphabet d) w -> length w <= len -> In (Some w) outs \/ In (Some w) couts) /\
    (forall w, ~ (In (Some w) outs /\ In (Some w) couts)) /\
    (forall w, In (Some w) outs \/ In (Some w) couts -> over (dfa_alphabet d) w).
Proof.
  intros d len k V Hk. destruct (C23_invert d V) as (Vi & Ai & _ & _ & _ & _ & Li).
  destruct (C14_dfa_to_nfa d V) as (Vn & Fn & An & _ & _ & _ & _ & _ & Ln).
  destruct (C14_dfa_to_nfa (dfa_invert d) Vi) as (Vc & Fc & Ac & _ & _ & _ & _ & _ & Lc).
  destruct (C33_components_sound _ k Vn Fn) as (outs & E & _ & Hs). destruct (C33_components_sound _ k Vc Fc) as (couts & E' & _ & Hs').
  exists outs, couts. split; [exact E|]. split; [exact E'|]. split; [|split].
  - intros w Hw Hl. destruct (C01_dfa_accepts d w V) as (b & _ & Hb). destruct b.
    + left. assert (L : nfa_lang (dfa_to_nfa d) w) by (apply Ln, Hb; auto).
      destruct (C68_listed_within _ w len k Vn Fn L Hl) as (o & Eo & Ho); [rewrite An; auto|]. rewrite E in Eo. injection Eo as <-. exact Ho.
    + right. assert (L : nfa_lang (dfa_to_nfa (dfa_invert d)) w) by (apply Lc, Li; split; auto; rewrite <- Hb; discriminate).
      destruct (C68_listed_within _ w len k Vc Fc L Hl) as (o & Eo & Ho); [rewrite Ac, Ai; auto|]. rewrite E' in Eo. injection Eo as <-. exact Ho.
  - intros w [H1 H2]. apply Hs, Ln in H1. apply Hs', Lc, Li in H2. tauto.
  - intros w [H|H]; [apply Hs, Ln in H; apply dfa_lang_over; auto|apply Hs', Lc, Li in H; tauto].
Qed.
Print Assumptions C68_complement.
Example C68_example : dfa_valid ex_even /\ words_up_to (length (dfa_alphabet ex_even)) 1 = 3 /\
  exists outs couts, word_components_calls (dfa_to_nfa ex_even) 3 = Ret outs /\ word_components_calls (dfa_to_nfa (dfa_invert ex_even)) 3 = Ret couts /\
    In (Some []) outs /\ In (Some [el_a]) couts.
Proof. split; [apply ex_even_valid|]. split; [vm_compute; reflexivity|]. do 2 eexists. split; [vm_compute; reflexivity|]. split; [vm_compute; reflexivity|]. vm_compute. auto. Qed.
