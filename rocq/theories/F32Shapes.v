(** * F32Shapes: with the default options, the coordinates of the shapes are calculated with exactly *)
From Coq Require Import List NArith ZArith QArith Bool SpecFloat Lia.
From Verif Require Import Base BaseLemmas Spec DrawModel DrawSpec CanvasModel F32Model F32Spec F32Proofs.
Import ListNotations.
Local Open Scope Z_scope.

Lemma tw_num' n k : Z.of_nat n = k -> k < 2 ^ 23 -> tw (f_of_usize f32 n) (f_of_usize rationals n) (2 * k).
Proof. intros <-. apply tw_num. Qed.
Lemma tw_int a b q r x k : tw a q x -> tw b r (2 * k) -> - 2 ^ 24 < x * k < 2 ^ 24 -> tw (f_mul f32 a b) (f_mul rationals q r) (x * k).
Proof. intros A B C. eapply tw_mul; eauto. ring. Qed.
Lemma tw_conv a q x y : tw a q x -> x = y -> tw a q y.
Proof. intros H <-. exact H. Qed.

(** The numbers of a shape are half-integers; widths are positive and radii are not negative. *)
Definition tval (x : F f32) (q : Q) : Prop := exists z, tw x q z.
Definition tpoint (p : F f32 * F f32) (q : Q * Q) : Prop := tval (fst p) (fst q) /\ tval (snd p) (snd q).
Definition twidth (x : F f32) (q : Q) : Prop := exists z, tw x q z /\ 0 < z.
Definition tshape (x : option colour * @shape f32) (q : option colour * @shape rationals) : Prop :=
  fst x = fst q /\
  match snd x, snd q with
  | Circle p r t, Circle p' r' t' => tpoint p p' /\ twidth r r' /\ twidth t t'
  | Text p s, Text p' s' => tpoint p p' /\ s = s'
  | Line p q t, Line p' q' t' => tpoint p p' /\ tpoint q q' /\ twidth t t'
  | _, _ => False
  end.
Lemma tval_value x q : tval x q -> f32_value x = Some q.
Proof. intros [z H]. eapply tw_value; eauto. Qed.
Lemma twidth_val x q : twidth x q -> tval x q.
Proof. intros (z & H & _). exists z. exact H. Qed.
Lemma tshape_same x q : tshape x q -> same_shape x q.
Proof.
  assert (P : forall p p', tpoint p p' -> same_point p p') by (intros p p' [A B]; split; apply tval_value; auto).
  intros [E H]. split; [exact E|]. destruct (snd x), (snd q); try contradiction; intuition auto using tval_value, twidth_val.
Qed.

Section Shapes.
Context (xo yo n levels : nat).
Hypothesis BX : 80 * Z.of_nat n + 50 + Z.of_nat xo < 2 ^ 22.
Hypothesis BY : 25 * Z.of_nat levels + 165 + Z.of_nat yo < 2 ^ 22.
Definition opts_at (fl : floats) : draw_options fl := with_offset fl (f_of_usize fl xo) (f_of_usize fl yo) (default_options fl).
Local Notation o32 := (opts_at f32).
Local Notation oq := (opts_at rationals).

Lemma n0 : tw (f_of_usize f32 0) (f_of_usize rationals 0) 0. Proof. exact (tw_num' 0 0 eq_refl eq_refl). Qed.
Lemma n1 : tw (f_of_usize f32 1) (f_of_usize rationals 1) (2 * 1). Proof. exact (tw_num' 1 1 eq_refl eq_refl). Qed.
Lemma n2 : tw (f_of_usize f32 2) (f_of_usize rationals 2) (2 * 2). Proof. exact (tw_num' 2 2 eq_refl eq_refl). Qed.
Lemma c_xs : tw (o_x_scale f32 o32) (o_x_scale rationals oq) (2 * 1). Proof. exact (tw_num' 1 1 eq_refl eq_refl). Qed.
Lemma c_ys : tw (o_y_scale f32 o32) (o_y_scale rationals oq) (2 * 1). Proof. exact (tw_num' 1 1 eq_refl eq_refl). Qed.
Lemma c_pad : tw (o_center_line_padding f32 o32) (o_center_line_padding rationals oq) 40. Proof. exact (tw_num' 20 20 eq_refl eq_refl). Qed.
Lemma c_rad : tw (o_circle_radius f32 o32) (o_circle_radius rationals oq) 60. Proof. exact (tw_num' 30 30 eq_refl eq_refl). Qed.
Lemma c_cw : tw (o_circle_width f32 o32) (o_circle_width rationals oq) 4. Proof. exact (tw_num' 2 2 eq_refl eq_refl). Qed.
Lemma c_ar : tw (o_accepting_circle_radius f32 o32) (o_accepting_circle_radius rationals oq) 50. Proof. exact (tw_num' 25 25 eq_refl eq_refl). Qed.
Lemma c_aw : tw (o_accepting_circle_width f32 o32) (o_accepting_circle_width rationals oq) 4. Proof. exact (tw_num' 2 2 eq_refl eq_refl). Qed.
Lemma c_il : tw (o_init_arrow_length f32 o32) (o_init_arrow_length rationals oq) 100. Proof. exact (tw_num' 50 50 eq_refl eq_refl). Qed.
Lemma c_ia : tw (o_init_arrow_arms_length f32 o32) (o_init_arrow_arms_length rationals oq) 30. Proof. exact (tw_num' 15 15 eq_refl eq_refl). Qed.
Lemma c_iw : tw (o_init_arrow_width f32 o32) (o_init_arrow_width rationals oq) 6. Proof. exact (tw_num' 3 3 eq_refl eq_refl). Qed.
Lemma c_ta : tw (o_trans_arrow_arms_length f32 o32) (o_trans_arrow_arms_length rationals oq) (2 * 5). Proof. exact (tw_num' 5 5 eq_refl eq_refl). Qed.
Lemma c_tw : tw (o_trans_line_width f32 o32) (o_trans_line_width rationals oq) 6. Proof. exact (tw_num' 3 3 eq_refl eq_refl). Qed.
Lemma c_fo : tw (o_from_line_offset f32 o32) (o_from_line_offset rationals oq) 30. Proof. exact (tw_num' 15 15 eq_refl eq_refl). Qed.
Lemma c_to : tw (o_to_line_offset f32 o32) (o_to_line_offset rationals oq) 30. Proof. exact (tw_num' 15 15 eq_refl eq_refl). Qed.
Lemma c_fh : tw (o_floor_height f32 o32) (o_floor_height rationals oq) (2 * 25). Proof. exact (tw_num' 25 25 eq_refl eq_refl). Qed.
Lemma c_tm : tw (o_text_margin f32 o32) (o_text_margin rationals oq) 30. Proof. exact (tw_num' 15 15 eq_refl eq_refl). Qed.
Lemma c_lm : tw (o_line_circle_margin f32 o32) (o_line_circle_margin rationals oq) 20. Proof. exact (tw_num' 10 10 eq_refl eq_refl). Qed.
Lemma c_xo : tw (o_x_offset f32 o32) (o_x_offset rationals oq) (2 * Z.of_nat xo). Proof. apply (tw_num' xo _ eq_refl). lia. Qed.
Lemma c_yo : tw (o_y_offset f32 o32) (o_y_offset rationals oq) (2 * Z.of_nat yo). Proof. apply (tw_num' yo _ eq_refl). lia. Qed.
Create HintDb tw discriminated.
Hint Resolve n0 n1 n2 c_xs c_ys c_pad c_rad c_cw c_ar c_aw c_il c_ia c_iw c_ta c_tw c_fo c_to c_fh c_tm c_lm c_xo c_yo : tw.

Ltac go :=
  first [eassumption | match goal with
  | |- tw (f_add _ _ _) _ _ => eapply tw_add; [go|go|lia]
  | |- tw (f_sub _ _ _) _ _ => eapply tw_sub; [go|go|lia]
  | |- tw (f_neg _ _) _ _ => eapply tw_neg; go
  | |- tw (f_mul _ _ _) _ _ => eapply tw_int; [go|go|lia]
  | _ => solve [eauto with tw]
  end].
Ltac gone := eapply tw_conv; [go|lia].

(** Columns and rows *)
Lemma x_state i : (i < n)%nat -> tw (state_x o32 i) (state_x oq i) (200 + 160 * Z.of_nat i).
Proof. intros H. assert (tw (f_of_usize f32 i) (f_of_usize rationals i) (2 * Z.of_nat i)) by (apply tw_num; lia). unfold state_x. gone. Qed.
Lemma y_base : tw (base_y o32 levels) (base_y oq levels) (50 * Z.of_nat levels + 50).
Proof.
  assert (tw (f_of_usize f32 (levels + 1)) (f_of_usize rationals (levels + 1)) (2 * (Z.of_nat levels + 1))) by (apply tw_num'; lia).
  unfold base_y. gone.
Qed.
Lemma y_state : tw (state_y o32 levels) (state_y oq levels) (50 * Z.of_nat levels + 130).
Proof. pose proof y_base. unfold state_y. gone. Qed.
Lemma y_link k : (k < levels)%nat -> exists z, 50 <= z <= 50 * Z.of_nat levels /\ tw (link_y o32 levels k) (link_y oq levels k) z.
Proof.
  intros H. exists (50 * (Z.of_nat levels - Z.of_nat k)). split; [lia|].
  assert (tw (f_of_usize f32 (levels - k)) (f_of_usize rationals (levels - k)) (2 * (Z.of_nat levels - Z.of_nat k))) by (apply tw_num'; lia).
  unfold link_y. gone.
Qed.

(** Points and shapes *)
Lemma p_at x q z y r w : tw x q z -> tw y r w -> - 1000 < z < 2 ^ 23 - 2 * Z.of_nat xo -> - 1000 < w < 2 ^ 23 - 2 * Z.of_nat yo -> tpoint (at_ o32 x y) (at_ oq q r).
Proof.
  intros X Y BZ BW. unfold at_. split; cbn [fst snd].
  - eexists. eapply tw_int; [eapply tw_add; [exact X|apply c_xo|lia]|apply c_xs|lia].
  - eexists. eapply tw_int; [eapply tw_add; [exact Y|apply c_yo|lia]|apply c_ys|lia].
Qed.
Lemma s_line x q z y r w x' q' z' y' r' w' t u v : tw x q z -> tw y r w -> tw x' q' z' -> tw y' r' w' -> tw t u v -> 0 < v ->
  - 1000 < z < 2 ^ 23 - 2 * Z.of_nat xo -> - 1000 < w < 2 ^ 23 - 2 * Z.of_nat yo -> - 1000 < z' < 2 ^ 23 - 2 * Z.of_nat xo -> - 1000 < w' < 2 ^ 23 - 2 * Z.of_nat yo ->
  tshape (line_to o32 x y x' y' t) (line_to oq q r q' r' u).
Proof.
  intros. split; [reflexivity|]. cbn [snd line_to]. split; [eapply p_at; eauto|]. split; [eapply p_at; eauto|]. exists v. auto.
Qed.
Lemma s_circle x q z y r w c k l t u v : tw x q z -> tw y r w -> tw c k l -> tw t u v -> 0 < v ->
  - 1000 < z < 2 ^ 23 - 2 * Z.of_nat xo -> - 1000 < w < 2 ^ 23 - 2 * Z.of_nat yo -> 0 < l < 1000 -> tshape (circle_at o32 x y c t) (circle_at oq q r k u).
Proof.
  intros. split; [reflexivity|]. cbn [snd circle_at]. split; [eapply p_at; eauto|]. split; [|exists v; auto].
  eexists. split; [eapply tw_int; [eauto|apply c_xs|lia]|lia].
Qed.
Lemma s_text x q z y r w s : tw x q z -> tw y r w -> - 1000 < z < 2 ^ 23 - 2 * Z.of_nat xo -> - 1000 < w < 2 ^ 23 - 2 * Z.of_nat yo -> tshape (text_at o32 x y s) (text_at oq q r s).
Proof. intros. split; [reflexivity|]. cbn [snd text_at]. split; [eapply p_at; eauto|reflexivity]. Qed.
Ltac line := eapply s_line; [go|go|go|go|go|lia|lia|lia|lia|lia].
Ltac circle := eapply s_circle; [go|go|go|go|lia|lia|lia|lia].
Ltac text := eapply s_text; [go|go|lia|lia].

Lemma entry_same : (0 < n)%nat -> Forall2 tshape (entry_shapes o32 levels) (entry_shapes oq levels).
Proof.
  intros Hn. pose proof y_state as Y. unfold entry_shapes. cbv zeta. repeat (apply Forall2_cons; [line|]); apply Forall2_nil.
Qed.
Lemma state_same i s : (i < n)%nat -> Forall2 tshape (state_shapes o32 levels i s) (state_shapes oq levels i s).
Proof.
  intros Hi. pose proof y_state as Y. pose proof (x_state i Hi) as X. unfold state_shapes. cbv zeta.
  repeat apply Forall2_app.
  - apply Forall2_cons; [circle|apply Forall2_nil].
  - destruct (st_accepting s); [apply Forall2_cons; [circle|]|]; apply Forall2_nil.
  - destruct (st_initial s); [|apply Forall2_nil].
    repeat (apply Forall2_cons; [line|]); apply Forall2_nil.
  - apply Forall2_cons; [text|apply Forall2_nil].
Qed.
Lemma link_same l : (lk_from l < n)%nat -> (lk_to l < n)%nat -> (lk_level l < levels)%nat ->
  Forall2 tshape (link_shapes o32 levels l) (link_shapes oq levels l).
Proof.
  intros HF HT HL. destruct (y_link _ HL) as (zy & BZ & Y). pose proof y_base as YB.
  pose proof (x_state (lk_left l) ltac:(unfold lk_left; lia)) as XL. pose proof (x_state (lk_right l) ltac:(unfold lk_right; lia)) as XR.
  pose proof (x_state (lk_to l) HT) as XT.
  assert (BL : (lk_left l < n)%nat) by (unfold lk_left; lia). assert (BR : (lk_right l < n)%nat) by (unfold lk_right; lia).
  set (ml := 200 + 80 * Z.of_nat (lk_left l) + 80 * Z.of_nat (lk_right l)).
  assert (M : tw (f_div f32 (f_add f32 (f_add f32 (state_x o32 (lk_left l)) (o_from_line_offset f32 o32)) (f_sub f32 (state_x o32 (lk_right l)) (o_to_line_offset f32 o32))) (f_of_usize f32 2))
                 (f_div rationals (f_add rationals (f_add rationals (state_x oq (lk_left l)) (o_from_line_offset rationals oq)) (f_sub rationals (state_x oq (lk_right l)) (o_to_line_offset rationals oq))) (f_of_usize rationals 2)) ml).
  { apply tw_div2; [unfold ml; gone|unfold ml; lia]. }
  set (b32 := if (lk_to l <? lk_from l)%nat then f_of_usize f32 1 else f_neg f32 (f_of_usize f32 1)).
  set (bq := if (lk_to l <? lk_from l)%nat then f_of_usize rationals 1 else f_neg rationals (f_of_usize rationals 1)).
  set (k := if (lk_to l <? lk_from l)%nat then 1 else - 1).
  assert (BK : tw b32 bq (2 * k)). { unfold b32, bq, k. destruct (lk_to l <? lk_from l)%nat; gone. }
  assert (KR : - 1 <= k <= 1) by (unfold k; destruct (lk_to l <? lk_from l)%nat; lia).
  assert (MR : 0 < ml <= 160 * Z.of_nat n + 40) by (unfold ml; lia). clearbody k ml.
  assert (H5 : tw (f_mul f32 (f_mul f32 (o_trans_arrow_arms_length f32 o32) b32) (f_half f32)) (f_mul rationals (f_mul rationals (o_trans_arrow_arms_length rationals oq) bq) (f_half rationals)) (5 * k)).
  { eapply tw_mul; [eapply tw_int; [apply c_ta|exact BK|lia]|apply tw_half|ring|lia]. }
  assert (H10 : tw (f_mul f32 b32 (o_trans_arrow_arms_length f32 o32)) (f_mul rationals bq (o_trans_arrow_arms_length rationals oq)) (10 * k)).
  { eapply tw_mul; [exact BK|apply c_ta|ring|lia]. }
  unfold link_shapes. cbv zeta. change (if (lk_to l <? lk_from l)%nat then f_of_usize f32 1 else f_neg f32 (f_of_usize f32 1)) with b32.
  change (if (lk_to l <? lk_from l)%nat then f_of_usize rationals 1 else f_neg rationals (f_of_usize rationals 1)) with bq.
  clearbody b32 bq. repeat apply Forall2_app.
  - repeat (apply Forall2_cons; [line|]); apply Forall2_nil.
  - change (o_middle_arrow f32 o32) with true. change (o_middle_arrow rationals oq) with true. cbv iota.
    repeat (apply Forall2_cons; [line|]); apply Forall2_nil.
  - change (o_end_arrow f32 o32) with true. change (o_end_arrow rationals oq) with true. cbv iota.
    destruct (lk_from l <? lk_to l)%nat; repeat (apply Forall2_cons; [line|]); apply Forall2_nil.
  - apply Forall2_cons; [text|apply Forall2_nil].
Qed.
Lemma shapes_half states links : length states = n -> (0 < n)%nat ->
  (forall l, In l links -> (lk_from l < n)%nat /\ (lk_to l < n)%nat /\ (lk_level l < levels)%nat) ->
  Forall2 tshape (shapes o32 states links levels) (shapes oq states links levels).
Proof.
  intros EN Hn HL. unfold shapes. apply Forall2_app; [apply entry_same; auto|]. apply Forall2_app.
  - assert (HI : forall i s, In (i, s) (combine (seq 0 (length states)) states) -> (i < n)%nat).
    { intros i s H. apply in_combine_l in H. apply in_seq in H. lia. }
    induction (combine (seq 0 (length states)) states) as [|[i s] c IH]; [apply Forall2_nil|]. cbn [map concat]. apply Forall2_app.
    + apply state_same. apply (HI i s). left. reflexivity.
    + apply IH. intros j t H. apply (HI j t). right. exact H.
  - induction links as [|l c IH]; [apply Forall2_nil|]. cbn [flat_map]. destruct (HL l (or_introl eq_refl)) as (A & B & C). apply Forall2_app.
    + apply link_same; auto.
    + apply IH. intros x Hx. apply HL. right. exact Hx.
Qed.
Lemma shapes_same states links : length states = n -> (0 < n)%nat ->
  (forall l, In l links -> (lk_from l < n)%nat /\ (lk_to l < n)%nat /\ (lk_level l < levels)%nat) ->
  Forall2 same_shape (shapes o32 states links levels) (shapes oq states links levels).
Proof. intros H1 H2 H3. eapply Forall2_impl; [|apply shapes_half; auto]. intros x q. apply tshape_same. Qed.
End Shapes.
