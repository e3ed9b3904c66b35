(** * PointSpec: numbers and points without rounding; the calls and colours of a drawer *)
From Coq Require Import List ZArith QArith Qabs Bool SpecFloat.
From Verif Require Import Base Spec DrawModel DrawSpec CanvasModel CanvasSpec F32Model F32Spec F64Model F64Spec PointModel.
Import ListNotations.

(** What a [f32] can be: zeros, infinities, NaN (of which there is one), numbers with mantissas of exactly 24 bits, and below them the
    multiples of [2 ^ -149] *)
Definition is_f32 (x : F f32) : Prop :=
  match x with
  | S754_finite _ m e => (Zpos m < 2 ^ 24 /\ -149 <= e <= 104 /\ (2 ^ 23 <= Zpos m \/ e = -149))%Z
  | _ => True
  end.
Definition is_point32 (p : pos f32) : Prop := is_f32 (fst p) /\ is_f32 (snd p).

(** The IEEE comparison: equal values, whatever the signs of zeros; NaN is not equal to itself *)
Definition ieee_equal (x y : F f32) : Prop :=
  match x, y with
  | S754_infinity s, S754_infinity s' => s = s'
  | _, _ => exists q, f32_value x = Some q /\ f32_value y = Some q
  end.

(** Correct rounding: the result is a [f32] that is at least as close to the exact value as any other, with an even mantissa if another
    one is as close; values too large for that, in either direction, become infinite. *)
Definition too_large : Q := inject_Z (2 ^ 128 - 2 ^ 103).
Definition even_mantissa (x : F f32) : Prop := match x with S754_finite _ m _ => Z.even (Zpos m) = true | _ => True end.
Definition rounds_to (v : Q) (r : F f32) : Prop :=
  is_f32 r /\
  (Qabs v < too_large -> exists q, f32_value r = Some q /\
     forall y q', is_f32 y -> f32_value y = Some q' ->
       Qabs (v - q) <= Qabs (v - q') /\ (Qabs (v - q) == Qabs (v - q') -> q' = q \/ even_mantissa r))%Q /\
  ((too_large <= v)%Q -> r = S754_infinity false) /\ ((v <= - too_large)%Q -> r = S754_infinity true).

(** ** Drawers *)
Section Drawers.
Context {fl : floats}.
(** The calls other than [draw_rect] *)
Definition others (l : list (drawer_call fl)) : list (call fl) :=
  flat_map (fun x => match x with Other y => [y] | DrawRect _ _ => [] end) l.
(** The colour after some calls: the one of the last call of [set_color] *)
Definition colour_after (l : list (drawer_call fl)) (c : option colour) : option colour :=
  fold_left (fun c x => match x with Other (SetColor _ rgb) => Some rgb | _ => c end) l c.
(** A rectangle on a canvas: filled with the colour, if all numbers are finite and it is not empty *)
Definition rect_painted (db : doubles fl) (c : option colour) (p size : F fl * F fl) (l : list (paint db)) : Prop :=
  let w := widen db in
  let nonzero x := d_positive db x = true \/ d_negative db x = true in
  (finite_point db p /\ finite_point db size /\ nonzero (w (fst size)) /\ nonzero (w (snd size)) ->
     l = [FilledRect (css c) (w (fst p)) (w (snd p)) (w (fst size)) (w (snd size))]) /\
  (~ (finite_point db p /\ finite_point db size /\ nonzero (w (fst size)) /\ nonzero (w (snd size))) -> l = []).
(** What is painted without the rectangles *)
Definition marks_only {db : doubles fl} (l : list (paint db)) : list (mark db) :=
  flat_map (fun x => match x with Mark m => [m] | FilledRect _ _ _ _ _ => [] end) l.
Definition shapes_only (l : list (egui_paint fl)) : list (egui_shape (fl := fl)) :=
  flat_map (fun x => match x with EShape s => [s] | ERect _ _ _ => [] end) l.
End Drawers.

(** Drawings of twice the size *)
Definition twice_as_large (fl : floats) : draw_options fl :=
  let o := default_options fl in
  mk_draw_options fl (f_of_usize fl 2) (f_of_usize fl 2) (f_of_usize fl 0) (f_of_usize fl 0)
    (o_center_line_padding fl o) (o_circle_radius fl o) (o_circle_width fl o) (o_accepting_circle_radius fl o) (o_accepting_circle_width fl o)
    (o_init_arrow_length fl o) (o_init_arrow_arms_length fl o) (o_init_arrow_width fl o) (o_trans_arrow_arms_length fl o) (o_trans_line_width fl o)
    (o_from_line_offset fl o) (o_to_line_offset fl o) (o_floor_height fl o) (o_text_margin fl o) (o_line_circle_margin fl o)
    (o_end_arrow fl o) (o_middle_arrow fl o) (o_text_color fl o) (o_circle_color fl o) (o_line_color fl o).

