(** * PointProofs *)
From Coq Require Import List ZArith QArith Qpower Bool SpecFloat Lia.
From Verif Require Import Base BaseLemmas Spec DrawModel DrawSpec CanvasModel CanvasSpec F32Model F32Spec F32Proofs F64Model F64Spec F64Proofs PointModel PointSpec.
Import ListNotations.
Local Open Scope Z_scope.

(** ** Numbers *)
Lemma add_comm32 x y : SFadd 24 128 x y = SFadd 24 128 y x.
Proof.
  destruct x as [s|s| |s m e], y as [s'|s'| |s' m' e']; try reflexivity; try (destruct s, s'; reflexivity).
  cbn [SFadd]. rewrite (Z.min_comm e e'), Z.add_comm. reflexivity.
Qed.
Lemma mul_comm32 x y : SFmul 24 128 x y = SFmul 24 128 y x.
Proof.
  destruct x as [s|s| |s m e], y as [s'|s'| |s' m' e']; try reflexivity; cbn [SFmul]; rewrite (xorb_comm s s'); try reflexivity.
  rewrite (Pos.mul_comm m m'), (Z.add_comm e e'). reflexivity.
Qed.
Lemma sub_add32 x y : SFsub 24 128 x y = SFadd 24 128 x (SFopp y).
Proof.
  destruct x as [s|s| |s m e], y as [s'|s'| |s' m' e']; try reflexivity.
  cbn [SFadd SFsub SFopp]. f_equal. destruct s'; cbn [cond_Zopp negb]; lia.
Qed.
Lemma opp_opp32 x : SFopp (SFopp x) = x.
Proof. destruct x as [s|s| |s m e]; cbn [SFopp]; rewrite ?negb_involutive; reflexivity. Qed.

(** Numbers of single precision are rounded to themselves. *)
Lemma round_aux_canonical s m e M E : Zpos m < 2 ^ 24 -> -149 <= e <= 104 -> 2 ^ 23 <= Zpos m \/ e = -149 -> E <= e -> Zpos M = Zpos m * 2 ^ (e - E) ->
  binary_round_aux 24 128 s (Zpos M) E loc_Exact = S754_finite s m e /\ fexp 24 128 (Zpos (digits2_pos M) + E) = e.
Proof.
  intros Hm He Hc HE HM. destruct (digits2_range m) as [L U]. set (d := Zpos (digits2_pos m)) in *.
  assert (P : 0 < 2 ^ (e - E)) by (apply Z.pow_pos_nonneg; lia).
  assert (D : Zpos (digits2_pos M) = d + (e - E)).
  { apply digits2_unique; [lia|]. rewrite HM. replace (d + (e - E) - 1) with (d - 1 + (e - E)) by lia. rewrite !Z.pow_add_r by lia. nia. }
  assert (Hd : d <= 24). { assert (d - 1 < 24); [|lia]. apply (Z.pow_lt_mono_r_iff 2); lia. }
  assert (Hd' : e = -149 \/ d = 24). { destruct Hc as [Hc|Hc]; auto. right. assert (23 < d); [|lia]. apply (Z.pow_lt_mono_r_iff 2); lia. }
  assert (F1 : fexp 24 128 (d + e) = e) by (unfold fexp, emin; lia).
  split; [|rewrite D; replace (d + (e - E) + E) with (d + e) by lia; exact F1].
  assert (S1 : shr_fexp 24 128 (Zpos M) E loc_Exact = ({| shr_m := Zpos m; shr_r := false; shr_s := false |}, e)).
  { unfold shr_fexp. cbn [Zdigits2 shr_record_of_loc]. rewrite D. replace (d + (e - E) + E) with (d + e) by lia. rewrite F1. unfold shr.
    destruct (e - E) as [|n|n] eqn:En; try lia.
    - rewrite HM, Z.pow_0_r, Z.mul_1_r. f_equal. lia.
    - rewrite HM, shr_exact by lia. f_equal. lia. }
  assert (S2 : shr_fexp 24 128 (Zpos m) e loc_Exact = ({| shr_m := Zpos m; shr_r := false; shr_s := false |}, e)).
  { unfold shr_fexp. cbn [Zdigits2 shr_record_of_loc]. fold d. rewrite F1, Z.sub_diag. reflexivity. }
  unfold binary_round_aux. rewrite S1. cbn [shr_m loc_of_shr_record round_nearest_even]. rewrite S2. cbn [shr_m].
  replace (e <=? 128 - 24) with true by (symmetry; apply Z.leb_le; lia). reflexivity.
Qed.
Lemma round_canonical s m e M E : Zpos m < 2 ^ 24 -> -149 <= e <= 104 -> 2 ^ 23 <= Zpos m \/ e = -149 -> E <= e -> Zpos M = Zpos m * 2 ^ (e - E) ->
  binary_round 24 128 s M E = S754_finite s m e.
Proof.
  intros Hm He Hc HE HM. destruct (round_aux_canonical s m e M E Hm He Hc HE HM) as [R F].
  unfold binary_round, shl_align. rewrite F. destruct (e - E) as [|n|n] eqn:En; try lia; exact R.
Qed.
Lemma narrow_widen x : is_f32 x -> to_f32 (to_f64 x) = x.
Proof.
  destruct x as [s|s| |s m e]; intros H; try reflexivity. destruct H as (H1 & H2 & H3).
  destruct (widen_finite s m e H1 H2) as (m' & e' & E & M & L). rewrite E. cbn [to_f32].
  replace (binary_normalize 24 128 (if s then Zneg m' else Zpos m') e' s) with (binary_round 24 128 s m' e') by (destruct s; reflexivity).
  apply round_canonical; auto.
Qed.
Lemma mul_1_32 x : is_f32 x -> SFmul 24 128 x (f_of_usize f32 1) = x.
Proof.
  change (f_of_usize f32 1) with (S754_finite false 8388608 (-23)).
  destruct x as [s|s| |s m e]; intros H; cbn [SFmul]; rewrite ?xorb_false_r; try reflexivity. destruct H as (H1 & H2 & H3).
  apply round_aux_canonical; auto; [lia|]. replace (e - (e + -23)) with 23 by lia. change (2 ^ 23) with 8388608. lia.
Qed.
Lemma add_0_32 x : SFadd 24 128 x (S754_zero false) = match x with S754_zero _ => S754_zero false | _ => x end.
Proof. destruct x as [[|]|[|]| |]; reflexivity. Qed.

(** Equality *)
Lemma scaled_value a e : -149 <= e -> (inject_Z a * Qpower 2 e == inject_Z (a * 2 ^ (e + 149)) * Qpower 2 (-149))%Q.
Proof.
  intros H. rewrite inject_Z_mult, (Zpower_Qpower 2 (e + 149)) by lia. change (inject_Z 2) with 2%Q.
  rewrite <- Qmult_assoc, <- Qpower_plus by discriminate. replace (e + 149 + -149) with e by lia. reflexivity.
Qed.
Lemma value_inj a e b f : -149 <= e -> -149 <= f -> Qred (inject_Z a * Qpower 2 e) = Qred (inject_Z b * Qpower 2 f) -> a * 2 ^ (e + 149) = b * 2 ^ (f + 149).
Proof.
  intros He Hf H. apply Qred_eq_iff in H. rewrite (scaled_value a e He), (scaled_value b f Hf) in H.
  apply Qmult_inj_r in H; [|discriminate]. unfold Qeq in H. cbn [inject_Z Qnum Qden] in H. lia.
Qed.
Lemma canonical_unique m e m' e' : Zpos m < 2 ^ 24 -> -149 <= e <= 104 -> 2 ^ 23 <= Zpos m \/ e = -149 ->
  Zpos m' < 2 ^ 24 -> -149 <= e' <= 104 -> 2 ^ 23 <= Zpos m' \/ e' = -149 ->
  Zpos m * 2 ^ (e + 149) = Zpos m' * 2 ^ (e' + 149) -> m = m' /\ e = e'.
Proof.
  assert (K : forall m e m' e', Zpos m < 2 ^ 24 -> -149 <= e -> -149 <= e' -> 2 ^ 23 <= Zpos m' \/ e' = -149 ->
    Zpos m * 2 ^ (e + 149) = Zpos m' * 2 ^ (e' + 149) -> e' <= e).
  { intros n f n' f' H1 H2 H3 H4 H5. destruct (Z_le_gt_dec f' f) as [|G]; auto. exfalso. destruct H4 as [H4|H4]; [|lia].
    replace (f' + 149) with (f' - f + (f + 149)) in H5 by lia. rewrite (Z.pow_add_r 2 (f' - f) (f + 149)) in H5 by lia.
    assert (P : 0 < 2 ^ (f + 149)) by (apply Z.pow_pos_nonneg; lia).
    assert (Q : 2 <= 2 ^ (f' - f)). { replace (f' - f) with (f' - f - 1 + 1) by lia. rewrite Z.pow_add_r by lia. assert (0 < 2 ^ (f' - f - 1)) by (apply Z.pow_pos_nonneg; lia). lia. }
    assert (R : Zpos n = Zpos n' * 2 ^ (f' - f)). { apply (Z.mul_reg_r _ _ (2 ^ (f + 149))); lia. }
    nia. }
  intros H1 H2 H3 H4 H5 H6 H7. assert (e = e').
  { apply Z.le_antisymm; [apply (K m' e' m e)|apply (K m e m' e')]; auto; lia. }
  subst e'. split; auto. assert (P : 0 < 2 ^ (e + 149)) by (apply Z.pow_pos_nonneg; lia).
  assert (Zpos m = Zpos m') by (apply (Z.mul_reg_r _ _ (2 ^ (e + 149))); lia). congruence.
Qed.
Lemma not_zero (s : bool) m e : -149 <= e -> Qred (inject_Z (if s then Zneg m else Zpos m) * Qpower 2 e) <> 0%Q.
Proof.
  intros He H. replace 0%Q with (Qred (inject_Z 0 * Qpower 2 (-149))) in H by reflexivity. apply value_inj in H; try lia.
  assert (P : 0 < 2 ^ (e + 149)) by (apply Z.pow_pos_nonneg; lia). rewrite Z.mul_0_l in H. apply Z.mul_eq_0 in H. destruct s; lia.
Qed.
Lemma compare_finite s m e s' m' e' : SFeqb (S754_finite s m e) (S754_finite s' m' e') = true <-> s = s' /\ m = m' /\ e = e'.
Proof.
  unfold SFeqb. cbn [SFcompare]. change (Pcompare m m' Eq) with (m ?= m')%positive. split.
  - destruct s, s'; try discriminate; destruct (Z.compare_spec e e'); try discriminate; destruct (Pos.compare_spec m m'); try discriminate; auto.
  - intros (-> & -> & ->). rewrite Z.compare_refl, Pos.compare_refl. destruct s'; reflexivity.
Qed.
Lemma eqb_spec32 x y : is_f32 x -> is_f32 y -> SFeqb x y = true <-> ieee_equal x y.
Proof.
  destruct x as [s|s| |s m e], y as [s'|s'| |s' m' e']; intros H H'; cbn [is_f32] in H, H'; unfold ieee_equal; cbn [f32_value].
  all: try (split; [intros X; discriminate X|intros (q & X & Y); discriminate]).
  all: try (split; [intros X; destruct s; discriminate X|intros (q & X & Y); discriminate]).
  all: try (split; [intros X; destruct s'; discriminate X|intros (q & X & Y); discriminate]).
  - split; [eauto|reflexivity].
  - split; [intros X; destruct s'; discriminate X|]. intros (q & X & Y). exfalso. destruct H' as (_ & H' & _). apply (not_zero s' m' e'); [lia|congruence].
  - destruct s, s'; cbn; split; congruence.
  - split; [intros X; destruct s; discriminate X|]. intros (q & X & Y). exfalso. destruct H as (_ & H & _). apply (not_zero s m e); [lia|congruence].
  - rewrite compare_finite. destruct H as (H1 & H2 & H3), H' as (H1' & H2' & H3'). split; [intros (-> & -> & ->); eauto|].
    intros (q & X & Y). assert (Z1 : Qred (inject_Z (if s then Zneg m else Zpos m) * Qpower 2 e) = Qred (inject_Z (if s' then Zneg m' else Zpos m') * Qpower 2 e')) by congruence.
    apply value_inj in Z1; try lia.
    assert (P : 0 < 2 ^ (e + 149)) by (apply Z.pow_pos_nonneg; lia). assert (P' : 0 < 2 ^ (e' + 149)) by (apply Z.pow_pos_nonneg; lia).
    assert (s = s') by (destruct s, s'; auto; nia). subst s'. split; auto.
    apply canonical_unique; auto. destruct s; nia.
Qed.

(** ** Rectangles on a canvas *)
Section Canvas.
Context {fl : floats} (db : doubles fl).

Lemma canvas_appends c x c' : canvas_call db c x = Ret c' -> exists more, cx_marks db c' = cx_marks db c ++ more.
Proof.
  assert (W : forall w c, cx_marks db (set_line_width db w c) = cx_marks db c) by (intros; unfold set_line_width; destruct (_ && _); reflexivity).
  assert (C : forall c, cx_marks db (close_path db c) = cx_marks db c) by (intros d; unfold close_path; destruct (cx_path db d); reflexivity).
  assert (M : forall x y c, cx_marks db (move_to db x y c) = cx_marks db c) by (intros; unfold move_to; destruct (_ && _); reflexivity).
  assert (L : forall x y c, cx_marks db (line_to_ db x y c) = cx_marks db c) by (intros ? ? d; unfold line_to_; destruct (_ && _); [destruct (cx_path db d)|]; reflexivity).
  assert (S : forall c, exists more, cx_marks db (stroke db c) = cx_marks db c ++ more).
  { intros d. unfold stroke. destruct (concat _); [exists []; rewrite app_nil_r; reflexivity|]. cbn [cx_marks with_marks]. eauto. }
  assert (A : forall x y r f t c c', arc db x y r f t c = Some c' -> cx_marks db c' = cx_marks db c).
  { intros x0 y r f t d d'. unfold arc. destruct (negb _); [intros E; injection E as <-; reflexivity|]. destruct (d_negative db r); [discriminate|].
    intros E; injection E as <-. destruct (cx_path db d); reflexivity. }
  destruct x as [| |p r t|p s|p q t|rgb]; cbn [canvas_call].
  - intros E; injection E as <-. exists []. rewrite app_nil_r. reflexivity.
  - intros E; injection E as <-. apply S.
  - destruct (arc db _ _ _ _ _ _) as [d|] eqn:E; cbn; [|discriminate]. intros E'; injection E' as <-. rewrite C. destruct (S d) as (more & ->).
    apply A in E. rewrite W in E. cbn in E. rewrite E. eauto.
  - intros E; injection E as <-. unfold fill_text. destruct (_ && _); [cbn; eauto|exists []; rewrite app_nil_r; reflexivity].
  - intros E; injection E as <-. rewrite C. match goal with |- context [stroke db ?d] => destruct (S d) as (more & ->) end. rewrite L, M, W. eauto.
  - intros E; injection E as <-. exists []. rewrite app_nil_r. reflexivity.
Qed.
Definition start (c : context db) : surface db := mk_surface c (map Mark (cx_marks db c)).
Lemma marks_app (l l' : list (paint db)) : marks_only (l ++ l') = marks_only l ++ marks_only l'.
Proof. apply flat_map_app. Qed.
Lemma marks_map (l : list (mark db)) : marks_only (map Mark l) = l.
Proof. unfold marks_only. induction l as [|m l IH]; cbn; [|rewrite IH]; reflexivity. Qed.
Lemma fill_rect_is x y w h s : exists more, fill_rect db x y w h s = mk_surface (sf_context s) (sf_painted s ++ more) /\ marks_only more = [].
Proof.
  unfold fill_rect. destruct s as [c l]. destruct (negb _); [exists []; rewrite app_nil_r; auto|].
  destruct (_ || _); [exists []; rewrite app_nil_r; auto|]. eexists. split; reflexivity.
Qed.
Lemma surface_is l : forall c p, marks_only p = cx_marks db c ->
  match canvas_calls db c (others l) with
  | Ret c' => exists q, surface_calls db (mk_surface c p) l = Ret (mk_surface c' (p ++ q)) /\ marks_only (p ++ q) = cx_marks db c'
  | Panic => surface_calls db (mk_surface c p) l = Panic
  | Diverge => surface_calls db (mk_surface c p) l = Diverge
  end.
Proof.
  induction l as [|x l IH]; intros c p H.
  - cbn. exists []. rewrite app_nil_r. auto.
  - destruct x as [x|u s]; cbn [others flat_map]; fold (others l).
    + cbn [app]. unfold canvas_calls, surface_calls. cbn [foldR surface_call sf_context]. destruct (canvas_call db c x) as [d| |] eqn:E; cbn; auto.
      destruct (canvas_appends c x d E) as (more & A). rewrite A, skipn_app, skipn_all, Nat.sub_diag. cbn [skipn app].
      specialize (IH d (p ++ map Mark more)). rewrite marks_app, marks_map, H in IH. specialize (IH (eq_sym A)).
      unfold canvas_calls, surface_calls in IH. destruct (foldR (canvas_call db) d (others l)); auto.
      destruct IH as (q & E1 & E2). exists (map Mark more ++ q). rewrite app_assoc. auto.
    + cbn [app]. unfold surface_calls. cbn [foldR surface_call].
      destruct (fill_rect_is (widen db (fst u)) (widen db (snd u)) (widen db (fst s)) (widen db (snd s)) (mk_surface c p)) as (more & E & M).
      rewrite E. cbn [bind sf_context sf_painted]. specialize (IH c (p ++ more)). rewrite marks_app, M, app_nil_r in IH. specialize (IH H).
      unfold surface_calls in IH. destruct (canvas_calls db c (others l)); auto.
      destruct IH as (q & E1 & E2). exists (more ++ q). rewrite app_assoc. auto.
Qed.
Lemma foldR_split {A B : Type} (f : A -> B -> R A) l l' a : foldR f a (l ++ l') = (b <- foldR f a l ;; foldR f b l').
Proof. revert a. induction l as [|x l IH]; intros a; cbn; auto. destruct (f a x); cbn; auto. Qed.
Lemma fill_step c x c' col : canvas_call db c x = Ret c' -> cx_fill db c = css col ->
  cx_fill db c' = css (match x with SetColor _ rgb => Some rgb | _ => col end).
Proof.
  assert (W : forall w c, cx_fill db (set_line_width db w c) = cx_fill db c) by (intros; unfold set_line_width; destruct (_ && _); reflexivity).
  assert (C : forall c, cx_fill db (close_path db c) = cx_fill db c) by (intros d; unfold close_path; destruct (cx_path db d); reflexivity).
  assert (M : forall x y c, cx_fill db (move_to db x y c) = cx_fill db c) by (intros; unfold move_to; destruct (_ && _); reflexivity).
  assert (L : forall x y c, cx_fill db (line_to_ db x y c) = cx_fill db c) by (intros ? ? d; unfold line_to_; destruct (_ && _); [destruct (cx_path db d)|]; reflexivity).
  assert (S : forall c, cx_fill db (stroke db c) = cx_fill db c).
  { intros d. unfold stroke. destruct (concat _); reflexivity. }
  assert (A : forall x y r f t c c', arc db x y r f t c = Some c' -> cx_fill db c' = cx_fill db c).
  { intros x0 y r f t d d'. unfold arc. destruct (negb _); [intros E; injection E as <-; reflexivity|]. destruct (d_negative db r); [discriminate|].
    intros E; injection E as <-. destruct (cx_path db d); reflexivity. }
  destruct x as [| |p r t|p s|p q t|rgb]; cbn [canvas_call].
  - intros E; injection E as <-. auto.
  - intros E; injection E as <-. rewrite S. auto.
  - destruct (arc db _ _ _ _ _ _) as [d|] eqn:E; cbn; [|discriminate]. intros E'; injection E' as <-. rewrite C, S.
    apply A in E. rewrite W in E. cbn in E. rewrite E. auto.
  - intros E; injection E as <-. unfold fill_text. destruct (_ && _); auto.
  - intros E; injection E as <-. rewrite C, S, L, M, W. auto.
  - intros E; injection E as <-. intros _. cbn [cx_fill set_styles]. destruct rgb as [[r g] b]. unfold css, color_text. rewrite <- !MessageSpec.dec_decimal. reflexivity.
Qed.
Lemma fill_after l : forall s s' col, surface_calls db s l = Ret s' -> cx_fill db (sf_context s) = css col -> cx_fill db (sf_context s') = css (colour_after l col).
Proof.
  induction l as [|x l IH]; intros s s' col H C.
  - injection H as <-. exact C.
  - unfold surface_calls in H. cbn [foldR] in H. destruct x as [x|u z].
    + cbn [surface_call] in H. destruct (canvas_call db (sf_context s) x) as [d| |] eqn:E; cbn [bind] in H; try discriminate.
      pose proof (IH _ _ (match x with SetColor _ rgb => Some rgb | _ => col end) H (fill_step _ _ _ _ E C)) as K. rewrite K. destruct x; reflexivity.
    + cbn [surface_call] in H. destruct (fill_rect_is (widen db (fst u)) (widen db (snd u)) (widen db (fst z)) (widen db (snd z)) s) as (more & E & M).
      rewrite E in H. cbn [bind] in H. exact (IH _ _ col H C).
Qed.
Lemma rect_added s p size col : cx_fill db (sf_context s) = css col ->
  exists more, surface_call db s (DrawRect p size) = Ret (mk_surface (sf_context s) (sf_painted s ++ more)) /\ rect_painted db col p size more.
Proof.
  intros H. cbn [surface_call]. unfold fill_rect, d_zero, rect_painted, finite_point, finite. rewrite H.
  destruct (d_finite db (widen db (fst p))) eqn:F1, (d_finite db (widen db (snd p))) eqn:F2, (d_finite db (widen db (fst size))) eqn:F3, (d_finite db (widen db (snd size))) eqn:F4;
    cbn [negb andb].
  2-16: exists []; rewrite app_nil_r; destruct s; split; [reflexivity|split; [intros X; exfalso; intuition congruence|reflexivity]].
  destruct (d_positive db (widen db (fst size))) eqn:P1, (d_negative db (widen db (fst size))) eqn:P2,
    (d_positive db (widen db (snd size))) eqn:P3, (d_negative db (widen db (snd size))) eqn:P4; cbn [negb andb orb].
  all: try (exists []; rewrite app_nil_r; destruct s; split; [reflexivity|split; [intros X; exfalso; intuition congruence|reflexivity]]; fail).
  all: eexists; split; [reflexivity|split; [reflexivity|intros X; exfalso; apply X; auto]].
Qed.
End Canvas.

(** ** Rectangles in egui *)
Section Egui.
Context {fl : floats}.
Lemma egui_appends (e : egui_drawer (fl := fl)) x : exists more, ed_shapes (egui_call e x) = ed_shapes e ++ more.
Proof. destruct x; cbn; eauto; exists []; rewrite app_nil_r; reflexivity. Qed.
Lemma shapes_app (l l' : list (egui_paint fl)) : shapes_only (l ++ l') = shapes_only l ++ shapes_only l'.
Proof. apply flat_map_app. Qed.
Lemma shapes_map (l : list (egui_shape (fl := fl))) : shapes_only (map EShape l) = l.
Proof. unfold shapes_only. induction l as [|m l IH]; cbn; [|rewrite IH]; reflexivity. Qed.
Lemma egui_surface_is l : forall (d : egui_drawer (fl := fl)) p, shapes_only p = ed_shapes d ->
  exists q, fold_left egui_surface_call l (mk_egui_surface d p) = mk_egui_surface (fold_left egui_call (others l) d) (p ++ q) /\
            shapes_only (p ++ q) = ed_shapes (fold_left egui_call (others l) d).
Proof.
  induction l as [|x l IH]; intros d p H.
  - cbn. exists []. rewrite app_nil_r. auto.
  - destruct x as [x|u s]; cbn [others flat_map app fold_left egui_surface_call es_drawer es_painted]; fold (others l).
    + destruct (egui_appends d x) as (more & A). rewrite A, skipn_app, skipn_all, Nat.sub_diag. cbn [skipn app].
      destruct (IH (egui_call d x) (p ++ map EShape more)) as (q & E1 & E2). { rewrite shapes_app, shapes_map, H. congruence. }
      exists (map EShape more ++ q). rewrite app_assoc. auto.
    + destruct (IH d (p ++ [ERect u (p_add fl u s) (ed_color d)])) as (q & E1 & E2). { rewrite shapes_app, H. cbn. rewrite app_nil_r. reflexivity. }
      eexists. rewrite app_assoc. eauto.
Qed.
Lemma egui_colour l : forall (e : egui_surface fl) col, ed_color (es_drawer e) = match col with Some c => c | None => (0, 255, 0)%nat end ->
  ed_color (es_drawer (fold_left egui_surface_call l e)) = match colour_after l col with Some c => c | None => (0, 255, 0)%nat end.
Proof.
  induction l as [|x l IH]; intros e col H; auto. cbn [fold_left].
  rewrite (IH _ (match x with Other (SetColor _ rgb) => Some rgb | _ => col end)).
  - destruct x as [[]|]; reflexivity.
  - destruct x as [[]|]; auto.
Qed.
End Egui.
