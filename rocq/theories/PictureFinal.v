(** * PictureFinal: automata with the same picture *)
From Coq Require Import Ascii String List NArith Arith Bool ZArith QArith Lia.
From Verif Require Import Base Spec BaseLemmas TableModel Messages DrawModel DrawSpec DrawProofs CanvasSpec GeometrySpec GeometryProofs PictureProofs.
Import ListNotations.
Close Scope string_scope.
Open Scope list_scope.
Close Scope Q_scope.
Open Scope nat_scope.

Lemma painted_finish {fl : floats} (body : list (call fl)) : forall c, painted c (body ++ [FinishDrawing fl]) = painted c body.
Proof. induction body as [|x body IH]; intros c; [reflexivity|]. destruct x; cbn [app painted]; rewrite IH; reflexivity. Qed.
Lemma painted_calls {fl : floats} (opts : draw_options fl) states links levels calls :
  paints_shapes opts states links levels calls -> painted None calls = shapes opts states links levels.
Proof. intros (body & -> & _ & _ & <-). cbn [app painted]. apply painted_finish. Qed.

(** ** Labels and transitions *)
Lemma nth_error_combine {A B} (l1 : list A) : forall (l2 : list B) k a b,
  nth_error (combine l1 l2) k = Some (a, b) <-> nth_error l1 k = Some a /\ nth_error l2 k = Some b.
Proof.
  induction l1 as [|x l1 IH]; intros [|y l2] [|k] a b; cbn; try (split; [discriminate|intros [? ?]; discriminate]).
  - split; [intros H; injection H as <- <-; auto|intros [H H']; congruence].
  - apply IH.
Qed.
Lemma dfa_labels_edge d i a j : dfa_valid d -> (In a (dfa_labels d i j) <-> dfa_edge d i a j).
Proof.
  intros V. unfold dfa_labels, dfa_edge. destruct (nth_error (dfa_states d) i) as [s|] eqn:E.
  - rewrite in_map_iff. split.
    + intros ([b t] & <- & H). apply filter_In in H. destruct H as [H1 H2]. apply Nat.eqb_eq in H2. subst.
      apply In_nth_error in H1. destruct H1 as [k Hk]. apply nth_error_combine in Hk. destruct Hk as [H1 H2]. exists k, s. auto.
    + intros (k & s' & H1 & H2 & H3). injection H2 as <-. exists (a, j). split; [reflexivity|]. apply filter_In. split; [|apply Nat.eqb_refl].
      apply nth_error_In with k. apply nth_error_combine. auto.
  - split; [intros []|intros (k & s & _ & H & _); discriminate].
Qed.
Lemma nfa_labels_edge n i a j : nfa_valid n -> a <> [949%N] -> (In a (nfa_labels n i j) <-> nfa_edge n i a j).
Proof.
  intros V Ha. unfold nfa_labels, nfa_edge. destruct (nth_error (nfa_states n) i) as [s|] eqn:E.
  - rewrite in_app_iff, in_flat_map. split.
    + intros [([b ts] & H1 & H2)|H].
      * apply in_map_iff in H2. destruct H2 as (t & <- & H2). apply filter_In in H2. destruct H2 as [H2 H3]. apply Nat.eqb_eq in H3. subst.
        apply In_nth_error in H1. destruct H1 as [k Hk]. apply nth_error_combine in Hk. destruct Hk as [H3 H4]. exists k, s, ts. auto.
      * apply in_map_iff in H. destruct H as (t & H & _). congruence.
    + intros (k & s' & ts & H1 & H2 & H3 & H4). injection H2 as <-. left. exists (a, ts). split.
      * apply nth_error_In with k. apply nth_error_combine. auto.
      * apply in_map_iff. exists j. split; [reflexivity|]. apply filter_In. split; [exact H4|apply Nat.eqb_refl].
  - split; [intros []|intros (k & s & ts & _ & H & _); discriminate].
Qed.
Lemma nfa_labels_eps n i j : nfa_valid n -> ~ In [949%N] (nfa_alphabet n) -> (In [949%N] (nfa_labels n i j) <-> nfa_eps_edge n i j).
Proof.
  intros V Ha. unfold nfa_labels, nfa_eps_edge. destruct (nth_error (nfa_states n) i) as [s|] eqn:E.
  - rewrite in_app_iff, in_flat_map. split.
    + intros [([b ts] & H1 & H2)|H].
      * apply in_map_iff in H2. destruct H2 as (t & -> & H2). apply in_combine_l in H1. contradiction.
      * apply in_map_iff in H. destruct H as (t & _ & H). apply filter_In in H. destruct H as [H1 H2]. apply Nat.eqb_eq in H2. subst. exists s. auto.
    + intros (s' & H1 & H2). injection H1 as <-. right. apply in_map_iff. exists j. split; [reflexivity|]. apply filter_In. split; [exact H2|apply Nat.eqb_refl].
  - split; [intros []|intros (s & H & _); discriminate].
Qed.
Lemma dfa_labels_alphabet d i j a : In a (dfa_labels d i j) -> In a (dfa_alphabet d).
Proof.
  unfold dfa_labels. destruct (nth_error (dfa_states d) i); [|intros []]. intros H. apply in_map_iff in H. destruct H as ([b t] & <- & H).
  apply filter_In in H. destruct H as [H _]. apply in_combine_l in H. exact H.
Qed.
Lemma nfa_labels_alphabet n i j a : In a (nfa_labels n i j) -> a = [949%N] \/ In a (nfa_alphabet n).
Proof.
  unfold nfa_labels. destruct (nth_error (nfa_states n) i); [|intros []]. rewrite in_app_iff, in_flat_map. intros [([b ts] & H1 & H2)|H].
  - apply in_map_iff in H2. destruct H2 as (t & <- & _). right. apply in_combine_l in H1. exact H1.
  - apply in_map_iff in H. destruct H as (t & <- & _). left. reflexivity.
Qed.

(** ** Paths *)
Lemma dfa_paths d1 d2 : (forall p a t, dfa_edge d1 p a t -> dfa_edge d2 p a t) -> forall p w t, dfa_path d1 p w t -> dfa_path d2 p w t.
Proof. intros H p w t P. induction P; [constructor|]. econstructor; eauto. Qed.
Lemma nfa_paths n1 n2 : (forall p a t, nfa_edge n1 p a t -> nfa_edge n2 p a t) -> (forall p t, nfa_eps_edge n1 p t -> nfa_eps_edge n2 p t) ->
  forall p w t, nfa_path n1 p w t -> nfa_path n2 p w t.
Proof. intros H H' p w t P. induction P; [constructor|eapply nfa_path_eps; eauto|eapply nfa_path_cons; eauto]. Qed.

Section Exact.
Context (fl : floats) (val : F fl -> Q) (EX : exact fl val) (x0 y0 : F fl).
Local Notation o := (options_at fl x0 y0).

Theorem dfa_shapes_picture k1 L1 k2 L2 d1 d2 : dfa_valid d1 -> dfa_valid d2 -> no_spaces (dfa_alphabet d1) -> no_spaces (dfa_alphabet d2) ->
  layout (length (dfa_states d1)) (dfa_labels d1) k1 L1 -> layout (length (dfa_states d2)) (dfa_labels d2) k2 L2 ->
  same_picture (shapes o (map of_dfa_state (dfa_states d1)) k1 L1) (shapes o (map of_dfa_state (dfa_states d2)) k2 L2) ->
  map of_dfa_state (dfa_states d1) = map of_dfa_state (dfa_states d2) /\ dfa_initial d1 = dfa_initial d2 /\
  (forall i j, dfa_labels d1 i j = dfa_labels d2 i j).
Proof.
  intros V1 V2 S1 S2 Lo1 Lo2 SP.
  pose proof (dv_initial _ V1) as I1.
  destruct (picture_determines fl val EX x0 y0 _ _ _ _ _ _ _ _ _ _ Lo1 Lo2 (map_length _ _) (map_length _ _) ltac:(lia) SP) as [ES EL].
  assert (EN : length (dfa_states d1) = length (dfa_states d2)) by (apply (f_equal (@length _)) in ES; rewrite !map_length in ES; exact ES).
  split; [exact ES|]. split.
  - destruct (nth_error_lt _ _ I1) as [s1 Hs1]. assert (H1 : nth_error (map of_dfa_state (dfa_states d1)) (dfa_initial d1) = Some (of_dfa_state s1)) by (apply map_nth_error; exact Hs1).
    rewrite ES in H1. rewrite nth_error_map in H1. destruct (nth_error (dfa_states d2) (dfa_initial d1)) as [s2|] eqn:Hs2; [|discriminate]. injection H1 as _ _ H1.
    apply (dv_flag _ V2 _ _ Hs2). rewrite H1. apply (dv_flag _ V1 _ _ Hs1). reflexivity.
  - intros i j. destruct (Nat.lt_ge_cases i (length (dfa_states d1))) as [Hi|Hi].
    + destruct (EL i j Hi) as [EL1 EL2]. apply join_no_spaces; [| |exact EL1|exact EL2].
      * intros a c Ha Hc. apply (S1 a c); [eapply dfa_labels_alphabet; eauto|exact Hc].
      * intros a c Ha Hc. apply (S2 a c); [eapply dfa_labels_alphabet; eauto|exact Hc].
    + unfold dfa_labels. rewrite (proj2 (nth_error_None _ _) Hi). rewrite EN in Hi. rewrite (proj2 (nth_error_None _ _) Hi). reflexivity.
Qed.
Theorem dfa_picture h1 h2 d1 d2 c1 c2 : dfa_valid d1 -> dfa_valid d2 -> no_spaces (dfa_alphabet d1) -> no_spaces (dfa_alphabet d2) ->
  draw_dfa fl h1 o d1 = Ret c1 -> draw_dfa fl h2 o d2 = Ret c2 -> same_picture (painted None c1) (painted None c2) ->
  map of_dfa_state (dfa_states d1) = map of_dfa_state (dfa_states d2) /\ dfa_initial d1 = dfa_initial d2 /\
  (forall i j, dfa_labels d1 i j = dfa_labels d2 i j).
Proof.
  intros V1 V2 S1 S2 E1 E2 SP.
  destruct (draw_dfa_eq o h1 d1 V1) as (k1 & L1 & c1' & Lo1 & E1' & P1). rewrite E1 in E1'. injection E1' as <-.
  destruct (draw_dfa_eq o h2 d2 V2) as (k2 & L2 & c2' & Lo2 & E2' & P2). rewrite E2 in E2'. injection E2' as <-.
  rewrite (painted_calls _ _ _ _ _ P1), (painted_calls _ _ _ _ _ P2) in SP.
  exact (dfa_shapes_picture _ _ _ _ _ _ V1 V2 S1 S2 Lo1 Lo2 SP).
Qed.
Theorem nfa_shapes_picture k1 L1 k2 L2 n1 n2 : nfa_valid n1 -> nfa_valid n2 -> no_spaces (nfa_alphabet n1) -> no_spaces (nfa_alphabet n2) ->
  layout (length (nfa_states n1)) (nfa_labels n1) k1 L1 -> layout (length (nfa_states n2)) (nfa_labels n2) k2 L2 ->
  same_picture (shapes o (map of_nfa_state (nfa_states n1)) k1 L1) (shapes o (map of_nfa_state (nfa_states n2)) k2 L2) ->
  map of_nfa_state (nfa_states n1) = map of_nfa_state (nfa_states n2) /\ nfa_initial n1 = nfa_initial n2 /\
  (forall i j, nfa_labels n1 i j = nfa_labels n2 i j).
Proof.
  intros V1 V2 S1 S2 Lo1 Lo2 SP.
  pose proof (nv_initial _ V1) as I1.
  destruct (picture_determines fl val EX x0 y0 _ _ _ _ _ _ _ _ _ _ Lo1 Lo2 (map_length _ _) (map_length _ _) ltac:(lia) SP) as [ES EL].
  assert (EN : length (nfa_states n1) = length (nfa_states n2)) by (apply (f_equal (@length _)) in ES; rewrite !map_length in ES; exact ES).
  split; [exact ES|]. split.
  - destruct (nth_error_lt _ _ I1) as [s1 Hs1]. assert (H1 : nth_error (map of_nfa_state (nfa_states n1)) (nfa_initial n1) = Some (of_nfa_state s1)) by (apply map_nth_error; exact Hs1).
    rewrite ES in H1. rewrite nth_error_map in H1. destruct (nth_error (nfa_states n2) (nfa_initial n1)) as [s2|] eqn:Hs2; [|discriminate]. injection H1 as _ _ H1.
    apply (nv_flag _ V2 _ _ Hs2). rewrite H1. apply (nv_flag _ V1 _ _ Hs1). reflexivity.
  - intros i j. destruct (Nat.lt_ge_cases i (length (nfa_states n1))) as [Hi|Hi].
    + destruct (EL i j Hi) as [EL1 EL2].
      assert (EPS : forall c, In c [949%N] -> c <> 32%N) by (intros c [<-|[]]; discriminate).
      apply join_no_spaces; [| |exact EL1|exact EL2].
      * intros a c Ha Hc. destruct (nfa_labels_alphabet _ _ _ _ Ha) as [->|Ha']; [apply EPS; exact Hc|apply (S1 a c); auto].
      * intros a c Ha Hc. destruct (nfa_labels_alphabet _ _ _ _ Ha) as [->|Ha']; [apply EPS; exact Hc|apply (S2 a c); auto].
    + unfold nfa_labels. rewrite (proj2 (nth_error_None _ _) Hi). rewrite EN in Hi. rewrite (proj2 (nth_error_None _ _) Hi). reflexivity.
Qed.
Theorem nfa_picture h1 h2 n1 n2 c1 c2 : nfa_valid n1 -> nfa_valid n2 -> no_spaces (nfa_alphabet n1) -> no_spaces (nfa_alphabet n2) ->
  draw_nfa fl h1 o n1 = Ret c1 -> draw_nfa fl h2 o n2 = Ret c2 -> same_picture (painted None c1) (painted None c2) ->
  map of_nfa_state (nfa_states n1) = map of_nfa_state (nfa_states n2) /\ nfa_initial n1 = nfa_initial n2 /\
  (forall i j, nfa_labels n1 i j = nfa_labels n2 i j).
Proof.
  intros V1 V2 S1 S2 E1 E2 SP.
  destruct (draw_nfa_eq o h1 n1 V1) as (k1 & L1 & c1' & Lo1 & E1' & P1). rewrite E1 in E1'. injection E1' as <-.
  destruct (draw_nfa_eq o h2 n2 V2) as (k2 & L2 & c2' & Lo2 & E2' & P2). rewrite E2 in E2'. injection E2' as <-.
  rewrite (painted_calls _ _ _ _ _ P1), (painted_calls _ _ _ _ _ P2) in SP.
  exact (nfa_shapes_picture _ _ _ _ _ _ V1 V2 S1 S2 Lo1 Lo2 SP).
Qed.
End Exact.

(** ** Automata with the same states and labels *)
Lemma dfa_same d1 d2 : dfa_valid d1 -> dfa_valid d2 -> map of_dfa_state (dfa_states d1) = map of_dfa_state (dfa_states d2) ->
  dfa_initial d1 = dfa_initial d2 -> (forall i j, dfa_labels d1 i j = dfa_labels d2 i j) ->
  (forall p a t, dfa_edge d1 p a t <-> dfa_edge d2 p a t) /\ (forall a, In a (dfa_alphabet d1) <-> In a (dfa_alphabet d2)) /\
  (forall w, dfa_lang d1 w <-> dfa_lang d2 w) /\ (dfa_alphabet d1 = dfa_alphabet d2 -> d1 = d2).
Proof.
  intros V1 V2 ES EI EL.
  assert (ED : forall p a t, dfa_edge d1 p a t <-> dfa_edge d2 p a t).
  { intros p a t. rewrite <- (dfa_labels_edge d1) by auto. rewrite EL. apply dfa_labels_edge; auto. }
  assert (EN : length (dfa_states d1) = length (dfa_states d2)) by (apply (f_equal (@length _)) in ES; rewrite !map_length in ES; exact ES).
  assert (AL : forall d d', dfa_valid d -> (forall p a t, dfa_edge d p a t <-> dfa_edge d' p a t) -> forall a, In a (dfa_alphabet d) -> In a (dfa_alphabet d')).
  { intros d d' V E a Ha. apply In_nth_error in Ha. destruct Ha as [k Hk]. destruct (nth_error_lt _ _ (dv_initial _ V)) as [s Hs].
    destruct (nth_error (ds_transitions s) k) as [t|] eqn:Ht.
    - assert (D : dfa_edge d (dfa_initial d) a t) by (exists k, s; auto). apply E in D. destruct D as (k' & s' & D & _). apply nth_error_In in D. exact D.
    - apply nth_error_None in Ht. rewrite (dv_width _ V _ _ Hs) in Ht. apply nth_error_None in Ht. congruence. }
  assert (AC : forall t, dfa_accepting d1 t <-> dfa_accepting d2 t).
  { intros t. unfold dfa_accepting. assert (X := f_equal (fun l => nth_error l t) ES). cbn in X. rewrite !nth_error_map in X.
    destruct (nth_error (dfa_states d1) t) as [s1|], (nth_error (dfa_states d2) t) as [s2|]; try discriminate; [|split; intros (s & H & _); discriminate].
    injection X as _ X _. split; intros (s & H & A); injection H as <-; eexists; (split; [reflexivity|congruence]). }
  split; [exact ED|]. split; [|split].
  - intros a. split; [apply AL; auto|apply AL; [auto|]]. intros. symmetry. apply ED.
  - intros w. unfold dfa_lang, dfa_state_lang. rewrite EI. split; intros (t & P & A); exists t; (split; [|apply AC; exact A]);
      (eapply dfa_paths; [|exact P]); intros; apply ED; auto.
  - intros EA. destruct d1 as [al1 st1 i1], d2 as [al2 st2 i2]. cbn in *. subst. f_equal. apply nth_error_ext. intros p.
    assert (X := f_equal (fun l => nth_error l p) ES). cbn in X. rewrite !nth_error_map in X.
    destruct (nth_error st1 p) as [s1|] eqn:H1, (nth_error st2 p) as [s2|] eqn:H2; try discriminate; [|reflexivity].
    injection X as X1 X2 X3. f_equal. destruct s1 as [n1 f1 a1 t1], s2 as [n2 f2 a2 t2]. cbn in *. subst. f_equal.
    pose proof (dv_width _ V1 _ _ H1) as W1. pose proof (dv_width _ V2 _ _ H2) as W2. cbn in W1, W2.
    apply nth_error_ext. intros k. destruct (nth_error t1 k) as [t|] eqn:T.
    + assert (HK : k < length al2) by (rewrite <- W1; apply nth_error_Some; congruence).
      destruct (nth_error_lt _ _ HK) as [a Ha].
      assert (D : dfa_edge {| dfa_alphabet := al2; dfa_states := st1; dfa_initial := i2 |} p a t) by (exists k; eexists; cbn; eauto).
      apply ED in D. destruct D as (k' & s' & D1 & D2 & D3). cbn in *. rewrite H2 in D2. injection D2 as <-. cbn in D3.
      replace k with k'; [auto|]. apply (proj1 (NoDup_nth_error al2) (dv_alphabet _ V2)); [apply nth_error_Some; congruence|congruence].
    + apply nth_error_None in T. symmetry. apply nth_error_None. lia.
Qed.
Lemma nfa_same n1 n2 : nfa_valid n1 -> nfa_valid n2 -> ~ In [949%N] (nfa_alphabet n1) -> ~ In [949%N] (nfa_alphabet n2) ->
  map of_nfa_state (nfa_states n1) = map of_nfa_state (nfa_states n2) ->
  nfa_initial n1 = nfa_initial n2 -> (forall i j, nfa_labels n1 i j = nfa_labels n2 i j) ->
  (forall p a t, nfa_edge n1 p a t <-> nfa_edge n2 p a t) /\ (forall p t, nfa_eps_edge n1 p t <-> nfa_eps_edge n2 p t) /\
  (forall w, nfa_lang n1 w <-> nfa_lang n2 w).
Proof.
  intros V1 V2 A1 A2 ES EI EL.
  assert (NE : forall n p t a, ~ In [949%N] (nfa_alphabet n) -> nfa_edge n p a t -> a <> [949%N]).
  { intros n p t a H (k & s & ts & Hk & _) ->. apply nth_error_In in Hk. contradiction. }
  assert (ED : forall p a t, nfa_edge n1 p a t <-> nfa_edge n2 p a t).
  { intros p a t. split; intros H.
    - assert (Ha : a <> [949%N]) by (eapply NE; [exact A1|exact H]). apply nfa_labels_edge; [auto|auto|]. rewrite <- EL. apply nfa_labels_edge; auto.
    - assert (Ha : a <> [949%N]) by (eapply NE; [exact A2|exact H]). apply nfa_labels_edge; [auto|auto|]. rewrite EL. apply nfa_labels_edge; auto. }
  assert (EE : forall p t, nfa_eps_edge n1 p t <-> nfa_eps_edge n2 p t).
  { intros p t. rewrite <- (nfa_labels_eps n1) by auto. rewrite EL. apply nfa_labels_eps; auto. }
  assert (AC : forall t, nfa_accepting n1 t <-> nfa_accepting n2 t).
  { intros t. unfold nfa_accepting. assert (X := f_equal (fun l => nth_error l t) ES). cbn in X. rewrite !nth_error_map in X.
    destruct (nth_error (nfa_states n1) t) as [s1|], (nth_error (nfa_states n2) t) as [s2|]; try discriminate; [|split; intros (s & H & _); discriminate].
    injection X as _ X _. split; intros (s & H & A); injection H as <-; eexists; (split; [reflexivity|congruence]). }
  split; [exact ED|]. split; [exact EE|].
  intros w. unfold nfa_lang, nfa_state_lang. rewrite EI. split; intros (t & P & A); exists t; (split; [|apply AC; exact A]);
    (eapply nfa_paths; [| |exact P]); intros; (apply ED || apply EE); auto.
Qed.
