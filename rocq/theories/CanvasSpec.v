(** * CanvasSpec: what drawings look like on a canvas and in egui *)
From Coq Require Import Ascii String List NArith Arith Bool.
From Verif Require Import Base Spec DfaModel Messages MessageSpec WasmSpec DrawModel DrawSpec CanvasModel.
Import ListNotations.
Close Scope string_scope.
Open Scope list_scope.

Section Canvas.
Context {fl : floats} (db : doubles fl).
Local Notation w := (widen db).
Local Notation at_point p := (PAt db (w (fst p)) (w (snd p))).

(** CSS: rgb(r g b) *)
Definition css (c : option colour) : str :=
  match c with
  | Some (r, g, b) => of_string "rgb(" ++ decimal r ++ of_string " " ++ decimal g ++ of_string " " ++ decimal b ++ of_string ")"
  | None => of_string "#000000"
  end.

(** The mark of a shape: lines and circles are stroked, texts are filled and centred *)
Definition shape_mark (cs : option colour * shape) : mark db :=
  let '(c, s) := cs in
  match s with
  | Line p q t => MStroke db (css c) (w t) [SLine db (at_point p) (at_point q)]
  | Circle p r t => MStroke db (css c) (w t) [SArc db (w (fst p)) (w (snd p)) (w r) (d_0 db) (d_turn db)]
  | Text p s => MText db (css c) (of_string "center") (of_string "middle") (w (fst p)) (w (snd p)) s
  end.

(** Shapes that a browser can paint: finite numbers, lines of positive width, radii that are not negative *)
Definition finite (x : F fl) : Prop := d_finite db (w x) = true.
Definition finite_point (p : F fl * F fl) : Prop := finite (fst p) /\ finite (snd p).
Definition proper_width (t : F fl) : Prop := finite t /\ d_positive db (w t) = true.
Definition drawable (s : shape) : Prop :=
  match s with
  | Line p q t => finite_point p /\ finite_point q /\ proper_width t
  | Circle p r t => finite_point p /\ finite r /\ d_negative db (w r) = false /\ proper_width t
  | Text p _ => finite_point p
  end.
Definition finite_angles : Prop := d_finite db (d_0 db) = true /\ d_finite db (d_turn db) = true.

(** What the last call of [stroke] paints: the last line or circle once more, closed, in the colour that was set last *)
Definition closed_outline (s : shape) : option (D db * list (segment db)) :=
  match s with
  | Line p q t => Some (w t, [SLine db (at_point p) (at_point q); SLine db (at_point q) (at_point p)])
  | Circle p r t =>
      let x := w (fst p) in let y := w (snd p) in
      Some (w t, [SArc db x y (w r) (d_0 db) (d_turn db);
                  SLine db (POnArc db x y (w r) (d_turn db)) (POnArc db x y (w r) (d_0 db))])
  | Text _ _ => None
  end.
Definition last_outline (l : list (option colour * shape)) : option (D db * list (segment db)) :=
  fold_left (fun o cs => match closed_outline (snd cs) with Some x => Some x | None => o end) l None.
Definition last_colour (l : list (option colour * @shape fl)) : option colour := match rev l with [] => None | (c, _) :: _ => c end.
Definition again (l : list (option colour * shape)) : list (mark db) :=
  match last_outline l with
  | Some (t, segments) => [MStroke db (css (last_colour l)) t segments]
  | None => []
  end.
(** What makes a browser throw: a circle of finite numbers and negative radius *)
Definition negative_circle (x : call fl) : Prop :=
  match x with
  | DrawCircle _ p r _ => finite_point p /\ finite r /\ d_negative db (widen db r) = true
  | _ => False
  end.

(** ** Any calls, with any numbers: what they paint one after the other.  [border], [inside]: the colours of lines and texts;
    [width]: the width of lines; [left]: the outline that is left to be painted when the drawing is finished.
    Widths that are not positive and finite are ignored, so the width before stays; shapes with a number that is not finite are
    not painted; of a line with one such end, the other end is left as a point. *)
Definition finite_b (p : F fl * F fl) : bool := d_finite db (w (fst p)) && d_finite db (w (snd p)).
Definition width_after (width : D db) (t : F fl) : D db := if d_finite db (w t) && d_positive db (w t) then w t else width.
Definition line_segments (p q : F fl * F fl) : list (segment db) :=
  if finite_b p && finite_b q then [SLine db (at_point p) (at_point q)] else [].
Definition line_left (p q : F fl * F fl) : list (segment db) :=
  match finite_b p, finite_b q with
  | true, true => [SLine db (at_point p) (at_point q); SLine db (at_point q) (at_point p)]
  | true, false => [SLine db (at_point p) (at_point p)]
  | false, true => [SLine db (at_point q) (at_point q)]
  | false, false => []
  end.
Definition circle_segments (p : F fl * F fl) (r : F fl) : list (segment db) :=
  if finite_b p && d_finite db (w r) then [SArc db (w (fst p)) (w (snd p)) (w r) (d_0 db) (d_turn db)] else [].
Definition circle_left (p : F fl * F fl) (r : F fl) : list (segment db) :=
  if finite_b p && d_finite db (w r) then
    [SArc db (w (fst p)) (w (snd p)) (w r) (d_0 db) (d_turn db);
     SLine db (POnArc db (w (fst p)) (w (snd p)) (w r) (d_turn db)) (POnArc db (w (fst p)) (w (snd p)) (w r) (d_0 db))]
  else [].
Definition outline_mark (style : str) (width : D db) (l : list (segment db)) : list (mark db) :=
  match l with [] => [] | _ :: _ => [MStroke db style width l] end.
Fixpoint marks_of (align baseline border inside : str) (width : D db) (left : list (segment db)) (calls : list (call fl)) : list (mark db) :=
  match calls with
  | [] => []
  | StartDrawing _ :: r => marks_of align baseline border inside width [] r
  | FinishDrawing _ :: r => outline_mark border width left ++ marks_of align baseline border inside width left r
  | SetColor _ k :: r => marks_of align baseline (css (Some k)) (css (Some k)) width left r
  | DrawCenteredText _ p s :: r =>
      (if finite_b p then [MText db inside align baseline (w (fst p)) (w (snd p)) s] else []) ++ marks_of align baseline border inside width left r
  | DrawLine _ p q t :: r =>
      outline_mark border (width_after width t) (line_segments p q) ++
      marks_of align baseline border inside (width_after width t) (line_left p q) r
  | DrawCircle _ p radius t :: r =>
      outline_mark border (width_after width t) (circle_segments p radius) ++
      marks_of align baseline border inside (width_after width t) (circle_left p radius) r
  end.
End Canvas.

(** egui: every shape with its colour *)
Section Egui.
Context {fl : floats}.
Definition egui_of (cs : option colour * @shape fl) : option (@egui_shape fl) :=
  match cs with
  | (Some c, Line p q t) => Some (LineSegment p q t c)
  | (Some c, Circle p r t) => Some (CircleStroke p r t c)
  | (Some c, Text p s) => Some (CenteredText p s c)
  | (None, _) => None
  end.
End Egui.

(** dandy-egui: the text shown in each frame: what was in the field when the button was clicked last *)
Fixpoint rendered (u : str) (inputs : list (str * bool)) : list str :=
  match inputs with
  | [] => []
  | (edited, clicked) :: r => let u := if clicked then edited else u in u :: rendered u r
  end.
(** The documented options, with the drawing moved by [(x, y)] *)
Definition options_at (fl : floats) (x y : F fl) : draw_options fl :=
  let f := f_of_usize fl in
  mk_draw_options fl (f 1) (f 1) x y (f 20) (f 30) (f 2) (f 25) (f 2) (f 50) (f 15) (f 3) (f 5) (f 3) (f 15) (f 15) (f 25) (f 15) (f 10)
                  true true (255, 255, 255) (150, 255, 255) (0, 255, 255).
(** A frame for a text: the drawing of its automaton, or nothing if there is none *)
Definition frame_shows {fl : floats} (u : str) (l : list (@egui_shape fl)) : Prop :=
  (exists d links levels, loads_dfa u d /\ layout (length (dfa_states d)) (dfa_labels d) links levels /\
     map Some l = map egui_of (shapes (options_at fl (f_of_usize fl 20) (f_of_usize fl 150))
                                      (map of_dfa_state (dfa_states d)) links levels)) \/
  ((~ exists d, loads_dfa u d) /\ l = []).
