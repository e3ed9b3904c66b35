(** * GeometrySpec: where the shapes of a drawing are

    Numbers are read as rationals; in this file all arithmetic is exact. *)
From Coq Require Import List NArith Arith Bool ZArith QArith.
From Verif Require Import Base Spec DrawModel DrawSpec.
Import ListNotations.
Close Scope Q_scope.
Open Scope nat_scope.

(** The operations on numbers are exact *)
Record exact (fl : floats) (val : F fl -> Q) : Prop := {
  ex_add : forall a b, (val (f_add fl a b) == val a + val b)%Q;
  ex_sub : forall a b, (val (f_sub fl a b) == val a - val b)%Q;
  ex_mul : forall a b, (val (f_mul fl a b) == val a * val b)%Q;
  ex_div : forall a b, ~ (val b == 0)%Q -> (val (f_div fl a b) == val a / val b)%Q;
  ex_neg : forall a, (val (f_neg fl a) == - val a)%Q;
  ex_num : forall n, (val (f_of_usize fl n) == inject_Z (Z.of_nat n))%Q;
  ex_half : (val (f_half fl) == 1 # 2)%Q
}.

Section Geometry.
Context {fl : floats} (val : F fl -> Q).
Local Notation px p := (val (fst p)).
Local Notation py p := (val (snd p)).

(** The shape lies in the rectangle of the given width and height; of texts, only the centre counts *)
Definition point_in_box (w h : Q) (p : F fl * F fl) : Prop := (0 <= px p /\ px p <= w /\ 0 <= py p /\ py p <= h)%Q.
Definition in_box (w h : Q) (s : shape) : Prop :=
  match s with
  | Line p q _ => point_in_box w h p /\ point_in_box w h q
  | Circle p r _ => (0 <= px p - val r /\ px p + val r <= w /\ 0 <= py p - val r /\ py p + val r <= h)%Q
  | Text p _ => point_in_box w h p
  end.

(** The shape is above or below the horizontal line at [y]; the second coordinate grows downwards *)
Definition above (y : Q) (s : shape) : Prop :=
  match s with Line p q _ => (py p <= y /\ py q <= y)%Q | Circle p r _ => (py p + val r <= y)%Q | Text p _ => (py p <= y)%Q end.
Definition below (y : Q) (s : shape) : Prop :=
  match s with Line p q _ => (y <= py p /\ y <= py q)%Q | Circle p r _ => (y <= py p - val r)%Q | Text p _ => (y <= py p)%Q end.

(** [x] is between [a] and [b] *)
Definition between (a b x : Q) : Prop := (a <= x /\ x <= b \/ b <= x /\ x <= a)%Q.
(** The point [(x, y)] is on the line from [p] to [q], which is horizontal *)
Definition on_horizontal (p q : F fl * F fl) (x y : Q) : Prop := (py p == py q /\ py p == y)%Q /\ between (px p) (px q) x.
(** The discs of two circles have no point in common: their distance is larger than the sum of their radii *)
Definition discs_apart (p : F fl * F fl) (r : F fl) (q : F fl * F fl) (r' : F fl) : Prop :=
  (0 <= val r /\ 0 <= val r' /\
   (val r + val r') * (val r + val r') < (px p - px q) * (px p - px q) + (py p - py q) * (py p - py q))%Q.

(** Options with which drawings are not distorted: sizes are not negative, there is room between the states, and links start and end
    above their states *)
Record proper_options (opts : draw_options fl) : Prop := {
  po_x_scale : (0 < val (o_x_scale fl opts))%Q;
  po_y_scale : (0 < val (o_y_scale fl opts))%Q;
  po_radius : (0 < val (o_circle_radius fl opts))%Q;
  po_padding : (0 < val (o_center_line_padding fl opts))%Q;
  po_floor : (0 < val (o_floor_height fl opts))%Q;
  po_from : (0 < val (o_from_line_offset fl opts) /\ val (o_from_line_offset fl opts) < val (o_circle_radius fl opts))%Q;
  po_to : (0 < val (o_to_line_offset fl opts) /\ val (o_to_line_offset fl opts) < val (o_circle_radius fl opts))%Q
}.
End Geometry.

(** The horizontal line of a link *)
Definition crossbar {fl : floats} (opts : draw_options fl) (levels : nat) (l : link) : (F fl * F fl) * (F fl * F fl) :=
  let y := link_y opts levels (lk_level l) in
  (at_ opts (f_add fl (state_x opts (lk_left l)) (o_from_line_offset fl opts)) y,
   at_ opts (f_sub fl (state_x opts (lk_right l)) (o_to_line_offset fl opts)) y).
Definition bars_meet {fl : floats} (val : F fl -> Q) (opts : draw_options fl) (levels : nat) (a b : link) : Prop :=
  exists x y, on_horizontal val (fst (crossbar opts levels a)) (snd (crossbar opts levels a)) x y /\
              on_horizontal val (fst (crossbar opts levels b)) (snd (crossbar opts levels b)) x y.
(** A link that goes on to the right of others ends where a loop starts *)
Definition runs_into (a b : link) : Prop := lk_loop a = false /\ lk_loop b = true /\ lk_right a = lk_from b.

(** The same picture: the same shapes in the same colours *)
Definition same_picture {fl : floats} (l1 l2 : list (option colour * @shape fl)) : Prop := forall s, In s l1 <-> In s l2.
(** Symbols that can be told apart in a label *)
Definition no_spaces (al : list str) : Prop := forall a c, In a al -> In c a -> c <> 32%N.
