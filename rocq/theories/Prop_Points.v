(** * C94: calculating with points *)
From Coq Require Import List ZArith QArith Bool SpecFloat Lia.
From Verif Require Import Base Spec DrawModel DrawSpec CanvasModel CanvasSpec F32Model F32Spec F64Model F64Spec PointModel PointSpec PointProofs RoundProofs.
Import ListNotations.

(** A point is made of two numbers, which are given back; giving them in double precision makes the same point. *)
Theorem C94_conversions (x y : F f32) (p : pos f32) :
  to_singles f32 (from_singles f32 (x, y)) = (x, y) /\ from_singles f32 (to_singles f32 p) = p /\ pos2 f32 x y = from_singles f32 (x, y) /\
  to_singles f32 (with_x f32 p x) = (x, snd p) /\ to_singles f32 (with_y f32 p y) = (fst p, y) /\
  (is_f32 x -> is_f32 y -> from_doubles (widen f64 x, widen f64 y) = pos2 f32 x y).
Proof.
  destruct p. repeat split; auto. intros Hx Hy. cbn [from_doubles widen f64]. rewrite !narrow_widen; auto.
Qed.
Print Assumptions C94_conversions.

(** The operations work on both coordinates, and the laws of rounded arithmetic hold for points. *)
Theorem C94_arithmetic (x y x' y' f : F f32) (p q : pos f32) :
  p_add f32 (x, y) (x', y') = (f_add f32 x x', f_add f32 y y') /\
  p_mul f32 (x, y) (x', y') = (f_mul f32 x x', f_mul f32 y y') /\
  p_neg f32 (x, y) = (f_neg f32 x, f_neg f32 y) /\
  p_add f32 p q = p_add f32 q p /\ p_mul f32 p q = p_mul f32 q p /\ p_sub f32 p q = p_add f32 p (p_neg f32 q) /\ p_neg f32 (p_neg f32 p) = p /\
  p_scale f32 p f = p_mul f32 p (pos2 f32 f f) /\ (is_point32 p -> p_scale f32 p (f_of_usize f32 1) = p).
Proof.
  destruct p as [a b], q as [c d]. repeat split; unfold p_add, p_mul, p_sub, p_neg, p_scale; cbn [fst snd f32 f_add f_mul f_sub f_neg].
  - rewrite (add_comm32 a), (add_comm32 b). reflexivity.
  - rewrite (mul_comm32 a), (mul_comm32 b). reflexivity.
  - rewrite !sub_add32. reflexivity.
  - rewrite !opp_opp32. reflexivity.
  - intros [Ha Hb]. cbn [fst snd] in Ha, Hb. f_equal; apply mul_1_32; auto.
Qed.
Print Assumptions C94_arithmetic.

(** Every coordinate is calculated exactly and then rounded to the nearest number, ties to even, and so are converted the numbers of
    double precision. *)
Theorem C94_nearest (x y : F f32) (a b : Q) : is_f32 x -> is_f32 y -> f32_value x = Some a -> f32_value y = Some b ->
  rounds_to (a + b) (f_add f32 x y) /\ rounds_to (a - b) (f_sub f32 x y) /\ rounds_to (a * b) (f_mul f32 x y).
Proof. intros H1 H2 H3 H4. split; [apply add_rounds; auto|split; [apply sub_rounds; auto|apply mul_rounds; auto]]. Qed.
Print Assumptions C94_nearest.
Theorem C94_conversion_nearest (x y : D f64) (a b : Q) : f64_value x = Some a -> f64_value y = Some b ->
  rounds_to a (fst (from_doubles (x, y))) /\ rounds_to b (snd (from_doubles (x, y))).
Proof. intros H1 H2. split; apply narrow_rounds; auto. Qed.
Print Assumptions C94_conversion_nearest.

(** [==] compares the values of the coordinates. *)
Theorem C94_equality (p q : pos f32) : is_point32 p -> is_point32 q ->
  p_eqb p q = true <-> ieee_equal (fst p) (fst q) /\ ieee_equal (snd p) (snd q).
Proof. intros [H1 H2] [H3 H4]. unfold p_eqb. rewrite andb_true_iff, !eqb_spec32; auto. tauto. Qed.
Print Assumptions C94_equality.
(** Two points with the same coordinates are equal unless a coordinate is NaN. *)
Corollary C94_reflexive (p : pos f32) : is_point32 p -> p_eqb p p = true <-> fst p <> S754_nan /\ snd p <> S754_nan.
Proof.
  intros H. rewrite C94_equality by auto. assert (K : forall x : F f32, ieee_equal x x <-> x <> S754_nan).
  { intros [s|s| |s m e]; unfold ieee_equal; cbn [f32_value]; split; try congruence; eauto. intros (? & [=] & _). }
  rewrite !K. tauto.
Qed.
Print Assumptions C94_reflexive.

(** A point is equal to the sum of its two parts, though not always the same point: the sign of a zero can change. *)
Theorem C94_parts (x y : F f32) : is_f32 x -> is_f32 y -> x <> S754_nan -> y <> S754_nan ->
  p_eqb (p_add f32 (p_x f32 x) (p_y f32 y)) (pos2 f32 x y) = true.
Proof.
  intros Hx Hy Nx Ny. unfold p_x, p_y, p_add, pos2, f_0. cbn [fst snd f32 f_add f_of_usize]. change (binary_normalize 24 128 (Z.of_nat 0) 0 false) with (S754_zero false).
  rewrite (add_comm32 (S754_zero false)), !add_0_32. apply C94_equality; [split; cbn [fst snd]; destruct x, y; auto..|]. cbn [fst snd].
  unfold ieee_equal. split; [destruct x|destruct y]; cbn [f32_value]; eauto; congruence.
Qed.
Print Assumptions C94_parts.
Theorem C94_parts_refuted : exists x y : F f32, is_f32 x /\ is_f32 y /\ p_add f32 (p_x f32 x) (p_y f32 y) <> pos2 f32 x y.
Proof. exists (S754_zero true), (S754_zero true). repeat split; auto. vm_compute. discriminate. Qed.
Print Assumptions C94_parts_refuted.

(** The point (1.5, -0.25): as numbers; moved by (1, 1); from double precision numbers that have to be rounded. *)
Example C94_example :
  let p := pos2 f32 (S754_finite false 12582912 (-23)) (S754_finite true 8388608 (-25)) in
  is_point32 p /\ f32_value (fst p) = Some (3 # 2)%Q /\ f32_value (snd p) = Some (-1 # 4)%Q /\
  f32_value (snd (p_add f32 p (pos2 f32 (f_of_usize f32 1) (f_of_usize f32 1)))) = Some (3 # 4)%Q /\
  p_eqb p p = true /\
  (* so it is one of the closest ones; 2 ^ 24 + 1 lies between two numbers, of which 2 ^ 24 has the even mantissa *)
  f32_value (f_add f32 (S754_finite false 8388608 1) (f_of_usize f32 1)) = Some (16777216 # 1)%Q /\
  (* 1 + 2^-30 becomes 1 *)
  fst (from_doubles (S754_finite false 4503599631564800 (-52), S754_nan)) = f_of_usize f32 1.
Proof. cbn zeta. split; [split; cbn; lia|]. vm_compute. repeat split. Qed.
