(** * OptionsProofs: how drawings change with their options *)
From Coq Require Import List NArith Arith Bool ZArith QArith Lia Lqa.
From Verif Require Import Base Spec BaseLemmas DrawModel DrawSpec DrawProofs CanvasModel OptionsModel OptionsSpec GeometrySpec PictureFinal.
Import ListNotations.
Close Scope Q_scope.
Open Scope nat_scope.

Section Options.
Context {fl : floats}.
Local Notation options := (draw_options fl).

Lemma read_set T (n : option_name T) v (o : options) : read n (setter n v o) = v.
Proof. destruct n; reflexivity. Qed.
Lemma read_set_other T U (n : option_name T) (m : option_name U) v (o : options) :
  existT _ T n <> existT _ U m -> read m (setter n v o) = read m o.
Proof. destruct n; destruct m; intros H; try reflexivity; exfalso; apply H; reflexivity. Qed.
Lemma options_ext (o o' : options) : (forall T (n : option_name T), read n o = read n o') -> o = o'.
Proof.
  intros H. destruct o as [a1 a2 a3 a4 a5 a6 a7 a8 a9 a10 a11 a12 a13 a14 a15 a16 a17 a18 a19 a20 a21 a22 a23 a24].
  pose proof (H _ XScale) as H1. cbn in H1. rewrite H1. clear H1.
  pose proof (H _ YScale) as H2. cbn in H2. rewrite H2. clear H2.
  pose proof (H _ XOffset) as H3. cbn in H3. rewrite H3. clear H3.
  pose proof (H _ YOffset) as H4. cbn in H4. rewrite H4. clear H4.
  pose proof (H _ CenterLinePadding) as H5. cbn in H5. rewrite H5. clear H5.
  pose proof (H _ CircleRadius) as H6. cbn in H6. rewrite H6. clear H6.
  pose proof (H _ CircleWidth) as H7. cbn in H7. rewrite H7. clear H7.
  pose proof (H _ AcceptingCircleRadius) as H8. cbn in H8. rewrite H8. clear H8.
  pose proof (H _ AcceptingCircleWidth) as H9. cbn in H9. rewrite H9. clear H9.
  pose proof (H _ InitArrowLength) as H10. cbn in H10. rewrite H10. clear H10.
  pose proof (H _ InitArrowArmsLength) as H11. cbn in H11. rewrite H11. clear H11.
  pose proof (H _ InitArrowWidth) as H12. cbn in H12. rewrite H12. clear H12.
  pose proof (H _ TransArrowArmsLength) as H13. cbn in H13. rewrite H13. clear H13.
  pose proof (H _ TransLineWidth) as H14. cbn in H14. rewrite H14. clear H14.
  pose proof (H _ FromLineOffset) as H15. cbn in H15. rewrite H15. clear H15.
  pose proof (H _ ToLineOffset) as H16. cbn in H16. rewrite H16. clear H16.
  pose proof (H _ FloorHeight) as H17. cbn in H17. rewrite H17. clear H17.
  pose proof (H _ TextMargin) as H18. cbn in H18. rewrite H18. clear H18.
  pose proof (H _ LineCircleMargin) as H19. cbn in H19. rewrite H19. clear H19.
  pose proof (H _ EndArrow) as H20. cbn in H20. rewrite H20. clear H20.
  pose proof (H _ MiddleArrow) as H21. cbn in H21. rewrite H21. clear H21.
  pose proof (H _ TextColor) as H22. cbn in H22. rewrite H22. clear H22.
  pose proof (H _ CircleColor) as H23. cbn in H23. rewrite H23. clear H23.
  pose proof (H _ LineColor) as H24. cbn in H24. rewrite H24. clear H24.
  destruct o'. reflexivity.
Qed.

(** ** Offset and scale *)
Section Moved.
Context (val : F fl -> Q) (EX : exact fl val) (o : options).
Definition plain : options := with_x_scale (f_of_usize fl 1) (with_y_scale (f_of_usize fl 1) (with_x_offset (f_of_usize fl 0) (with_y_offset (f_of_usize fl 0) o))).
Lemma at_moved x y : moved_point val o (at_ plain x y) (at_ o x y).
Proof.
  unfold moved_point, at_. cbn [fst snd plain with_x_scale with_y_scale with_x_offset with_y_offset o_x_offset o_y_offset o_x_scale o_y_scale].
  rewrite !(ex_mul _ _ EX), !(ex_add _ _ EX), !(ex_num _ _ EX). split; cbn [Z.of_nat inject_Z]; ring.
Qed.
Lemma radius_moved r : (val (f_mul fl r (o_x_scale fl o)) == val (f_mul fl r (o_x_scale fl plain)) * val (o_x_scale fl o))%Q.
Proof. cbn [plain with_x_scale o_x_scale]. rewrite !(ex_mul _ _ EX), !(ex_num _ _ EX). cbn [Z.of_nat inject_Z]. ring. Qed.
Lemma line_moved x y x' y' t : moved val o (line_to plain x y x' y' t) (line_to o x y x' y' t).
Proof. split; [reflexivity|]. split; [apply at_moved|]. split; [apply at_moved|reflexivity]. Qed.
Lemma circle_moved x y r t : moved val o (circle_at plain x y r t) (circle_at o x y r t).
Proof. split; [reflexivity|]. split; [apply at_moved|]. split; [apply radius_moved|reflexivity]. Qed.
Lemma text_moved x y s : moved val o (text_at plain x y s) (text_at o x y s).
Proof. split; [reflexivity|]. split; [apply at_moved|reflexivity]. Qed.
Lemma concat_moved {A} (f g : A -> list (option colour * @shape fl)) l : (forall x, Forall2 (moved val o) (f x) (g x)) ->
  Forall2 (moved val o) (concat (map f l)) (concat (map g l)).
Proof. intros H. induction l as [|x l IH]; cbn; [constructor|]. apply Forall2_app; auto. Qed.
Lemma shapes_moved states links levels : Forall2 (moved val o) (shapes plain states links levels) (shapes o states links levels).
Proof.
  unfold shapes. apply Forall2_app; [|apply Forall2_app].
  - repeat apply Forall2_cons; try apply Forall2_nil; apply line_moved.
  - apply concat_moved. intros [i s]. unfold state_shapes. repeat apply Forall2_app.
    + repeat apply Forall2_cons; try apply Forall2_nil; apply circle_moved.
    + destruct (st_accepting s); repeat apply Forall2_cons; try apply Forall2_nil; apply circle_moved.
    + destruct (st_initial s); repeat apply Forall2_cons; try apply Forall2_nil; apply line_moved.
    + repeat apply Forall2_cons; try apply Forall2_nil; apply text_moved.
  - rewrite !flat_map_concat_map. apply concat_moved. intros l. unfold link_shapes.
    change (o_middle_arrow fl plain) with (o_middle_arrow fl o). change (o_end_arrow fl plain) with (o_end_arrow fl o). repeat apply Forall2_app.
    + repeat apply Forall2_cons; try apply Forall2_nil; apply line_moved.
    + destruct (o_middle_arrow fl o); repeat apply Forall2_cons; try apply Forall2_nil; apply line_moved.
    + destruct (o_end_arrow fl o); repeat apply Forall2_cons; try apply Forall2_nil; apply line_moved.
    + repeat apply Forall2_cons; try apply Forall2_nil; apply text_moved.
Qed.
End Moved.

(** ** Colours *)
Lemma Forall_concat_map {A B} (P : B -> Prop) (f : A -> list B) l : (forall x, Forall P (f x)) -> Forall P (concat (map f l)).
Proof. intros H. induction l as [|x l IH]; cbn; [constructor|]. apply Forall_app; auto. Qed.
Lemma shapes_coloured (o : options) states links levels : Forall (fun cs => fst cs = Some (coloured o (snd cs))) (shapes o states links levels).
Proof.
  unfold shapes. apply Forall_app. split; [|apply Forall_app; split].
  - repeat apply Forall_cons; try apply Forall_nil; reflexivity.
  - apply Forall_concat_map. intros [i s]. unfold state_shapes. repeat (apply Forall_app; split); try (destruct (st_accepting s)); try (destruct (st_initial s));
      repeat apply Forall_cons; try apply Forall_nil; reflexivity.
  - rewrite flat_map_concat_map. apply Forall_concat_map. intros l. unfold link_shapes. repeat (apply Forall_app; split); try (destruct (o_middle_arrow fl o)); try (destruct (o_end_arrow fl o));
      repeat apply Forall_cons; try apply Forall_nil; reflexivity.
Qed.
Lemma shapes_recoloured (o : options) a b c states links levels :
  map snd (shapes (with_text_color a (with_circle_color b (with_line_color c o))) states links levels) = map snd (shapes o states links levels).
Proof.
  assert (CM : forall A (f g : A -> list (option colour * @shape fl)) l, (forall x, map snd (f x) = map snd (g x)) -> map snd (concat (map f l)) = map snd (concat (map g l))).
  { intros A f g l H. induction l as [|x l IH]; [reflexivity|]. cbn. rewrite !map_app, H, IH. reflexivity. }
  unfold shapes. rewrite !map_app. apply f_equal2; [reflexivity|]. apply f_equal2.
  - apply CM. intros [i s]. unfold state_shapes. rewrite !map_app. destruct (st_accepting s), (st_initial s); reflexivity.
  - rewrite !flat_map_concat_map. apply CM. intros l. unfold link_shapes. rewrite !map_app.
    change (o_middle_arrow fl (with_text_color a (with_circle_color b (with_line_color c o)))) with (o_middle_arrow fl o).
    change (o_end_arrow fl (with_text_color a (with_circle_color b (with_line_color c o)))) with (o_end_arrow fl o).
    destruct (o_middle_arrow fl o), (o_end_arrow fl o); reflexivity.
Qed.

(** ** Arrow heads *)
Lemma part_refl {A} (l : list A) : part_of l l. Proof. induction l; constructor; auto. Qed.
Lemma part_app {A} (a b c d : list A) : part_of a b -> part_of c d -> part_of (a ++ c) (b ++ d).
Proof. induction 1; intros; cbn; try constructor; auto. Qed.
Lemma part_none {A} (l : list A) : part_of [] l. Proof. induction l; constructor; auto. Qed.
Definition heads (m e : bool) (o : options) : options := with_middle_arrow m (with_end_arrow e o).
Lemma shapes_heads m e o states links levels :
  part_of (shapes (heads false false o) states links levels) (shapes (heads m e o) states links levels) /\
  length (shapes (heads m e o) states links levels) = length (shapes (heads false false o) states links levels) + 2 * ((if m then 1 else 0) + (if e then 1 else 0)) * length links.
Proof.
  unfold shapes. change (entry_shapes (heads m e o) levels) with (entry_shapes (heads false false o) levels).
  change (fun '(i, s) => state_shapes (heads m e o) levels i s) with (fun '(i, s) => state_shapes (heads false false o) levels i s).
  set (a := entry_shapes _ _). set (b := concat _).
  assert (L : part_of (flat_map (link_shapes (heads false false o) levels) links) (flat_map (link_shapes (heads m e o) levels) links) /\
    length (flat_map (link_shapes (heads m e o) levels) links) = length (flat_map (link_shapes (heads false false o) levels) links) + 2 * ((if m then 1 else 0) + (if e then 1 else 0)) * length links).
  { induction links as [|l links [IH1 IH2]]; [split; [constructor|cbn; lia]|]. cbn [flat_map]. split.
    - apply part_app; [|exact IH1]. unfold link_shapes. repeat apply part_app; try apply part_refl; try (destruct m); try (destruct e); apply part_none.
    - rewrite !app_length, IH2. cbn [length]. unfold link_shapes. rewrite !app_length. destruct m, e; cbn [heads with_middle_arrow with_end_arrow o_middle_arrow o_end_arrow length app]; lia. }
  split.
  - apply part_app; [apply part_refl|]. apply part_app; [apply part_refl|]. apply L.
  - rewrite !app_length. destruct L as [_ ->]. lia.
Qed.
End Options.

(** ** One layout for all options *)
Theorem dfa_all_options h d : dfa_valid d -> exists links levels, layout (length (dfa_states d)) (dfa_labels d) links levels /\
  forall fl (o : draw_options fl), exists calls, draw_dfa fl h o d = Ret calls /\ paints_shapes o (map of_dfa_state (dfa_states d)) links levels calls.
Proof.
  intros V. destruct (dfa_layout h d V) as (links & levels & E1 & E2 & L). exists links, levels. split; [exact L|]. intros fl o.
  destruct (draw_eq o h (map of_dfa_state (dfa_states d)) _ links levels E2 (lo_level _ _ _ _ L)) as (calls & E & P).
  exists calls. split; auto. unfold draw_dfa. rewrite E1. auto.
Qed.
Theorem nfa_all_options h n : nfa_valid n -> exists links levels, layout (length (nfa_states n)) (nfa_labels n) links levels /\
  forall fl (o : draw_options fl), exists calls, draw_nfa fl h o n = Ret calls /\ paints_shapes o (map of_nfa_state (nfa_states n)) links levels calls.
Proof.
  intros V. destruct (nfa_layout h n V) as (links & levels & E1 & E2 & L). exists links, levels. split; [exact L|]. intros fl o.
  destruct (draw_eq o h (map of_nfa_state (nfa_states n)) _ links levels E2 (lo_level _ _ _ _ L)) as (calls & E & P).
  exists calls. split; auto. unfold draw_nfa. rewrite E1. auto.
Qed.
