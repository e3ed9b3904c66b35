(** * F64Proofs *)
From Coq Require Import List NArith ZArith QArith Qpower Bool SpecFloat Lia.
From Verif Require Import Base BaseLemmas Spec DrawModel DrawSpec DrawProofs CanvasModel CanvasSpec CanvasProofs PageModel PageSpec F32Model F32Spec F32Proofs F32Shapes F32Final F64Model F64Spec.
Import ListNotations.
Local Open Scope Z_scope.

Lemma finite_turn : finite_angles f64.
Proof. split; vm_compute; reflexivity. Qed.
Lemma good_radii : proper_radii f64.
Proof. split; vm_compute; reflexivity. Qed.

(** Numbers of single precision are not rounded. *)
Lemma widen_finite s m e : Zpos m < 2 ^ 24 -> -149 <= e <= 104 ->
  exists m' e', to_f64 (S754_finite s m e) = S754_finite s m' e' /\ Zpos m' = Zpos m * 2 ^ (e - e') /\ e' <= e.
Proof.
  intros Hm He. destruct (digits2_range m) as [L U]. set (d := Zpos (digits2_pos m)) in *.
  assert (Hd : 1 <= d <= 24). { split; [lia|]. assert (d - 1 < 24); [|lia]. apply (Z.pow_lt_mono_r_iff 2); lia. }
  assert (R : binary_round 53 1024 s m e = S754_finite s (shift_pos (Z.to_pos (53 - d)) m) (e + (d - 53))).
  { unfold binary_round, shl_align. fold d. replace (fexp 53 1024 (d + e)) with (e + (d - 53)) by (unfold fexp, emin; lia).
    replace (e + (d - 53) - e) with (d - 53) by lia. destruct (d - 53) as [|k|k] eqn:K; try lia.
    replace (Z.to_pos (53 - d)) with k by (replace (53 - d) with (Zpos k) by lia; reflexivity).
    assert (D : Zpos (digits2_pos (shift_pos k m)) = 53).
    { apply digits2_unique; [lia|]. rewrite shift_pos_mul. replace (53 - 1) with (d - 1 + Zpos k) by lia. replace 53 with (d + Zpos k) by lia.
      rewrite !Z.pow_add_r by lia. assert (0 < 2 ^ Zpos k) by (apply Z.pow_pos_nonneg; lia). nia. }
    assert (S1 : shr_fexp 53 1024 (Zpos (shift_pos k m)) (e + Zneg k) loc_Exact = ({| shr_m := Zpos (shift_pos k m); shr_r := false; shr_s := false |}, e + Zneg k)).
    { unfold shr_fexp. cbn [Zdigits2 shr_record_of_loc]. rewrite D. replace (fexp 53 1024 (53 + (e + Zneg k)) - (e + Zneg k)) with 0; [reflexivity|]. unfold fexp, emin. lia. }
    unfold binary_round_aux. rewrite S1. cbn [shr_m loc_of_shr_record round_nearest_even]. rewrite S1. cbn [shr_m].
    replace (e + Zneg k <=? 1024 - 53) with true by (symmetry; apply Z.leb_le; lia). reflexivity. }
  exists (shift_pos (Z.to_pos (53 - d)) m), (e + (d - 53)). split; [|split; [|lia]].
  - rewrite <- R. destruct s; reflexivity.
  - rewrite shift_pos_mul. f_equal. f_equal. lia.
Qed.
Lemma widen_value x : single x -> f64_value (to_f64 x) = f32_value x.
Proof.
  destruct x as [s|s| |s m e]; intros H; try reflexivity. destruct H as [H1 H2]. destruct (widen_finite s m e H1 H2) as (m' & e' & E & M & L).
  rewrite E. cbn [f64_value f32_value]. f_equal. apply Qred_complete.
  assert (EM : (if s then Zneg m' else Zpos m') = (if s then Zneg m else Zpos m) * 2 ^ (e - e')). { destruct s; [change (- Zpos m' = - Zpos m * 2 ^ (e - e')); lia|exact M]. }
  rewrite EM, inject_Z_mult, (Zpower_Qpower 2 (e - e')) by lia. change (inject_Z 2) with 2%Q.
  rewrite <- Qmult_assoc, <- Qpower_plus by discriminate. replace (e - e' + e') with e by lia. reflexivity.
Qed.
Lemma widen_d_finite x : single x -> d_finite f64 (widen f64 x) = match f32_value x with Some _ => true | None => false end.
Proof.
  destruct x as [s|s| |s m e]; intros H; try reflexivity. destruct H as [H1 H2]. destruct (widen_finite s m e H1 H2) as (m' & e' & E & _).
  cbn [widen f64 d_finite]. rewrite E. reflexivity.
Qed.
Lemma rep_single x z : rep x z -> single x.
Proof. destruct x; cbn [rep single]; auto. lia. Qed.
Lemma rep_finite x z : rep x z -> finite f64 x.
Proof. intros H. unfold finite. rewrite (widen_d_finite x (rep_single _ _ H)), (rep_value _ _ H). reflexivity. Qed.

(** Shapes *)
Lemma tval_f64 x q : tval x q -> f64_value (widen f64 x) = Some q.
Proof. intros (z & R & Q). cbn [widen f64]. rewrite (widen_value x (rep_single _ _ R)), (rep_value _ _ R), Q. reflexivity. Qed.
Lemma tval_finite x q : tval x q -> finite f64 x.
Proof. intros (z & R & _). exact (rep_finite x z R). Qed.
Lemma twidth_sign x q : twidth x q -> d_positive f64 (widen f64 x) = true /\ d_negative f64 (widen f64 x) = false.
Proof.
  intros (z & (R & _) & P). destruct x as [s|s| |s m e]; cbn [rep] in R; try tauto; [lia|]. destruct R as (M & E & H).
  assert (P' : 0 < 2 ^ (-1 - e)) by (apply Z.pow_pos_nonneg; lia). destruct s; [nia|].
  destruct (widen_finite false m e) as (m' & e' & EQ & _); [lia|lia|]. cbn [widen f64 d_positive d_negative]. rewrite EQ. split; reflexivity.
Qed.
Lemma tshape_drawable x q : tshape x q -> drawable f64 (snd x).
Proof.
  assert (P : forall p p', tpoint p p' -> finite_point f64 p) by (intros p p' [A B]; split; eapply tval_finite; eauto).
  assert (W : forall t u, twidth t u -> proper_width f64 t).
  { intros t u H. split; [eapply tval_finite; apply twidth_val; eauto|]. apply (twidth_sign _ _ H). }
  intros [_ H]. destruct (snd x), (snd q); try contradiction; cbn [drawable].
  - destruct H as (H1 & H2 & H3). split; [eapply P; eauto|]. split; [eapply tval_finite; apply twidth_val; eauto|].
    split; [apply (twidth_sign _ _ H2)|eapply W; eauto].
  - destruct H as [H _]. eapply P; eauto.
  - destruct H as (H1 & H2 & H3). split; [eapply P; eauto|]. split; [eapply P; eauto|eapply W; eauto].
Qed.
Lemma tshape_mark x q : tshape x q -> mark_is (shape_mark f64 x) q.
Proof.
  assert (P : forall p p', tpoint p p' -> is_point (PAt f64 (widen f64 (fst p)) (widen f64 (snd p))) p') by (intros p p' [A B]; split; apply tval_f64; auto).
  destruct x as [c s], q as [c' s']. unfold tshape. cbn [fst snd]. intros [-> H]. destruct s, s'; try contradiction; cbn [shape_mark mark_is].
  - destruct H as ([H1 H1'] & H2 & H3). repeat (split; [reflexivity || (apply tval_f64; auto using twidth_val)|]). apply tval_f64. auto using twidth_val.
  - destruct H as [[H1 H1'] ->]. repeat (split; [reflexivity || (apply tval_f64; auto)|]). reflexivity.
  - destruct H as (H1 & H2 & H3). split; [reflexivity|]. split; [apply P; auto|]. split; [apply P; auto|]. apply tval_f64. auto using twidth_val.
Qed.

(** Drawings *)
Lemma small_marks states labels links levels : states <> [] -> layout (length states) labels links levels -> small_drawing (length states) levels 0 0 ->
  let sh := shapes (default_options f32) states links levels in
  Forall (fun cs => drawable f64 (snd cs)) sh /\ Forall2 mark_is (map (shape_mark f64) sh) (shapes (default_options rationals) states links levels).
Proof.
  intros NE L [BX BY] sh.
  assert (F2 : Forall2 tshape sh (shapes (default_options rationals) states links levels)).
  { apply (shapes_half 0 0 (length states) levels); auto.
    - destruct states; [contradiction|cbn; lia].
    - intros l Hl. destruct (lo_real _ _ _ _ L l Hl) as (A & B & _). split; [exact A|]. split; [exact B|]. apply (lo_level _ _ _ _ L l Hl). }
  clearbody sh. induction F2 as [|x q xs qs H F IH]; [split; constructor|]. destruct IH as [I1 I2]. split.
  - constructor; [eapply tshape_drawable; eauto|exact I1].
  - cbn [map]. constructor; [apply tshape_mark; exact H|exact I2].
Qed.
