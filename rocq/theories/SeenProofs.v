(** * SeenProofs: what is seen in the window of dandy-egui and on the page determines the automaton *)
From Coq Require Import Ascii String List NArith ZArith QArith Arith Bool Lia.
From Verif Require Import Base Spec BaseLemmas NfaBasics WasmSpec WasmProofs TableModel DrawModel DrawSpec DrawProofs CanvasModel CanvasSpec CanvasProofs GeometrySpec GeometryProofs PictureProofs PictureFinal.
From Verif Require Import F32Model F32Spec F32Proofs F32Shapes F32Final F64Model F64Spec F64Proofs Prop_Geometry.
Import ListNotations.
Close Scope string_scope.
Open Scope list_scope.
Close Scope Q_scope.
Open Scope nat_scope.

(** Small drawings are same_shape as with rationals *)
Lemma small_same x y states labels links levels : states <> [] -> layout (length states) labels links levels -> length states <= 400 -> x <= 1000 -> y <= 1000 ->
  Forall2 same_shape (shapes (opts_at x y f32) states links levels) (shapes (opts_at x y rationals) states links levels).
Proof.
  intros NE L H Hx Hy. destruct (small_400 _ _ _ _ x y L H Hx Hy) as [BX BY]. apply (shapes_same x y (length states) levels); auto.
  - destruct states; [contradiction|cbn; lia].
  - intros l Hl. destruct (lo_real _ _ _ _ L l Hl) as (A & B & _). split; [exact A|]. split; [exact B|]. apply (lo_level _ _ _ _ L l Hl).
Qed.
Lemma dfa_states_ne d : dfa_valid d -> map of_dfa_state (dfa_states d) <> [].
Proof. intros V. pose proof (dv_initial _ V). destruct (dfa_states d); [cbn in *; lia|discriminate]. Qed.
Lemma nfa_states_ne n : nfa_valid n -> map of_nfa_state (nfa_states n) <> [].
Proof. intros V. pose proof (nv_initial _ V). destruct (nfa_states n); [cbn in *; lia|discriminate]. Qed.

(** The window *)
Lemma egui_of_inj {fl : floats} (a b : option colour * @shape fl) e : egui_of a = Some e -> egui_of b = Some e -> a = b.
Proof.
  destruct a as [[c|] s]; [|discriminate]. destruct b as [[c'|] s']; [|destruct s; discriminate].
  destruct s, s'; cbn [egui_of]; intros H1 H2; rewrite <- H1 in H2; try discriminate; injection H2; intros; subst; reflexivity.
Qed.
Lemma egui_in {fl : floats} (sh : list (option colour * @shape fl)) l : map Some l = map egui_of sh ->
  forall s, In s sh <-> exists e, In e l /\ egui_of s = Some e.
Proof.
  intros H s. split.
  - intros Hs. assert (I : In (egui_of s) (map Some l)) by (rewrite H; apply in_map; exact Hs). apply in_map_iff in I as (e & <- & He). exists e. auto.
  - intros (e & He & Hs). assert (I : In (Some e) (map egui_of sh)) by (rewrite <- H; apply in_map; exact He). apply in_map_iff in I as (s' & H1 & H2).
    rewrite (egui_of_inj _ _ _ Hs H1). exact H2.
Qed.
Lemma egui_picture {fl : floats} (sh1 sh2 : list (option colour * @shape fl)) l1 l2 : map Some l1 = map egui_of sh1 -> map Some l2 = map egui_of sh2 ->
  (forall e, In e l1 <-> In e l2) -> same_picture sh1 sh2.
Proof.
  intros H1 H2 H s. rewrite (egui_in _ _ H1), (egui_in _ _ H2). split; intros (e & He & E); exists e; (split; [apply H|]; auto).
Qed.

(** Marks *)
Lemma is_point_fun p q q' : is_point p q -> is_point p q' -> q = q'.
Proof.
  destruct p; try contradiction. destruct q as [a b], q' as [a' b']. cbn [is_point fst snd]. intros [H1 H2] [H3 H4]. rewrite H1 in H3. rewrite H2 in H4.
  injection H3 as ->. injection H4 as ->. reflexivity.
Qed.
Lemma pair_fun x y (p q : Q * Q) : f64_value x = Some (fst p) -> f64_value y = Some (snd p) -> f64_value x = Some (fst q) -> f64_value y = Some (snd q) -> p = q.
Proof. destruct p, q. cbn [fst snd]. congruence. Qed.
Lemma mark_is_fun m c s c' s' : mark_is m (c, s) -> mark_is m (c', s') -> s = s'.
Proof.
  intros H1 H2. destruct m as [st wd segs|st al bl x y tx].
  - destruct segs as [|[a b|x y r f t] [|? ?]]; destruct s, s'; try (destruct H1; fail); try (destruct H2; fail).
    + destruct H1 as (_ & A1 & A2 & A3), H2 as (_ & B1 & B2 & B3). f_equal; [eapply is_point_fun; eauto|eapply is_point_fun; eauto|congruence].
    + destruct H1 as (_ & A1 & A2 & A3 & _ & _ & A4), H2 as (_ & B1 & B2 & B3 & _ & _ & B4). f_equal; [eapply pair_fun; eauto|congruence|congruence].
  - destruct s, s'; try (destruct H1; fail); try (destruct H2; fail).
    destruct H1 as (_ & _ & _ & A1 & A2 & A3), H2 as (_ & _ & _ & B1 & B2 & B3). f_equal; [eapply pair_fun; eauto|congruence].
Qed.
(** The colour of a shape follows from its kind; the mark that is painted once more is none of a shape. *)
Definition kind_colour {fl : floats} (s : @shape fl) : colour :=
  match s with Line _ _ _ => o_line_color fl (default_options fl) | Circle _ _ _ => o_circle_color fl (default_options fl) | Text _ _ => o_text_color fl (default_options fl) end.
Lemma shapes_colour {fl : floats} states links levels c (s : @shape fl) : In (c, s) (shapes (default_options fl) states links levels) -> c = Some (kind_colour s).
Proof.
  intros H.
  assert (K : Forall (fun cs : option colour * @shape fl => fst cs = Some (kind_colour (snd cs))) (shapes (default_options fl) states links levels)).
  { unfold shapes. rewrite !Forall_app. split; [repeat constructor|]. split.
    - apply Forall_concat. apply Forall_map. apply Forall_forall. intros [i t] _. unfold state_shapes. cbv zeta. rewrite !Forall_app.
      split; [repeat constructor|]. split; [destruct (st_accepting t); repeat constructor|]. split; [destruct (st_initial t); repeat constructor|repeat constructor].
    - apply Forall_flat_map. apply Forall_forall. intros l _. unfold link_shapes. cbv zeta. rewrite !Forall_app.
      split; [repeat constructor|]. split; [repeat constructor|]. split; repeat constructor. }
  rewrite Forall_forall in K. exact (K _ H).
Qed.
Lemma again_not m sh q : In m (again f64 sh) -> ~ mark_is m q.
Proof.
  unfold again. destruct (last_outline f64 sh) as [[t segs]|] eqn:E; [|intros []]. intros [<-|[]].
  assert (K : exists a b r, segs = a :: b :: r).
  { unfold last_outline in E. revert E.
    assert (G : forall l o, (forall x, o = Some x -> exists a b r, snd x = a :: b :: r) ->
      fold_left (fun o0 (cs : option colour * @shape f32) => match closed_outline f64 (snd cs) with Some x => Some x | None => o0 end) l o = Some (t, segs) -> exists a b r, segs = a :: b :: r).
    { induction l as [|[c s] l IH]; intros o0 HO E; cbn [fold_left] in E.
      - apply (HO _ E).
      - apply IH in E; auto. intros x. cbn [snd]. destruct (closed_outline f64 s) as [y|] eqn:EC; [|apply HO]. intros H. injection H as <-.
        destruct s; cbn in EC; try discriminate; injection EC as <-; cbn [snd]; eauto. }
    apply G. discriminate. }
  destruct K as (a & b & r & ->). destruct q as [c s]. cbn [mark_is]. destruct a, s; tauto.
Qed.
Lemma marks_picture states1 links1 levels1 states2 links2 levels2 m1 m2 a1 a2 :
  let q1 := shapes (default_options rationals) states1 links1 levels1 in let q2 := shapes (default_options rationals) states2 links2 levels2 in
  Forall2 mark_is m1 q1 -> Forall2 mark_is m2 q2 -> (forall m, In m (m1 ++ again f64 a1) <-> In m (m2 ++ again f64 a2)) -> same_picture q1 q2.
Proof.
  intros q1 q2 F1 F2 H [c s].
  assert (K : forall st1 li1 le1 st2 li2 le2 m1 m2 a1 a2, Forall2 mark_is m1 (shapes (default_options rationals) st1 li1 le1) ->
    Forall2 mark_is m2 (shapes (default_options rationals) st2 li2 le2) -> (forall m, In m (m1 ++ again f64 a1) -> In m (m2 ++ again f64 a2)) ->
    In (c, s) (shapes (default_options rationals) st1 li1 le1) -> In (c, s) (shapes (default_options rationals) st2 li2 le2)).
  { clear. intros st1 li1 le1 st2 li2 le2 m1 m2 a1 a2 F1 F2 H I1. destruct (Forall2_in_r _ _ _ _ F1 I1) as (m & Hm & R).
    assert (I : In m (m2 ++ again f64 a2)) by (apply H, in_app_iff; auto). apply in_app_iff in I as [I|I]; [|destruct (again_not _ _ _ I R)].
    destruct (Forall2_in_l _ _ _ _ F2 I) as ([c' s'] & I2 & R'). assert (s' = s) as -> by (eapply mark_is_fun; eauto).
    rewrite (shapes_colour _ _ _ _ _ I1), <- (shapes_colour _ _ _ _ _ I2). exact I2. }
  split; intros I; [eapply (K states1 links1 levels1 states2 links2 levels2)|eapply (K states2 links2 levels2 states1 links1 levels1)]; eauto; intros m; apply H.
Qed.

Lemma forall2_nth {A B} (R : A -> B -> Prop) l l' : Forall2 R l l' -> forall i x y, nth_error l i = Some x -> nth_error l' i = Some y -> R x y.
Proof.
  intros F. induction F as [|a b l l' H F IH]; intros [|i] x y; cbn [nth_error]; try discriminate; [|apply IH].
  intros H1 H2. injection H1 as <-. injection H2 as <-. exact H.
Qed.
