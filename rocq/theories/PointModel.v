(** * PointModel: the public operations on points, and rectangles

    The rest of dandy-draw/src/pos2.rs (what drawings use of it is in DrawModel), and [draw_rect] of the drawers. *)
From Coq Require Import List ZArith Bool SpecFloat.
From Verif Require Import Base DrawModel CanvasModel F32Model F64Model.
Import ListNotations.

(** ** Points *)
Section Points.
Context (fl : floats).

(** dandy-draw/src/pos2.rs:3-5 [pos2] *)
Definition pos2 (x y : F fl) : pos fl := (x, y).

(** dandy-draw/src/pos2.rs:14-16 [Pos2::with_x] *)
Definition with_x (p : pos fl) (x : F fl) : pos fl := (x, snd p).

(** dandy-draw/src/pos2.rs:18-20 [Pos2::with_y] *)
Definition with_y (p : pos fl) (y : F fl) : pos fl := (fst p, y).

(** dandy-draw/src/pos2.rs:22-24 [Pos2::x] *)
Definition p_x (x : F fl) : pos fl := (x, f_0 fl).

(** dandy-draw/src/pos2.rs:53-62 [Mul<f32>] *)
Definition p_scale (p : pos fl) (f : F fl) : pos fl := (f_mul fl (fst p) f, f_mul fl (snd p) f).

(** dandy-draw/src/pos2.rs:75-84 [Neg] *)
Definition p_neg (p : pos fl) : pos fl := (f_neg fl (fst p), f_neg fl (snd p)).

(** dandy-draw/src/pos2.rs:86-90 [From<(f32, f32)> for Pos2] *)
Definition from_singles (p : F fl * F fl) : pos fl := let '(x, y) := p in pos2 x y.

(** dandy-draw/src/pos2.rs:98-102 [From<Pos2> for (f32, f32)] *)
Definition to_singles (p : pos fl) : F fl * F fl := (fst p, snd p).
End Points.

(** [as f32] of a double precision number (dandy-draw/src/pos2.rs:94): the closest single precision number *)
Definition to_f32 (x : spec_float) : spec_float :=
  match x with
  | S754_finite s m e => binary_normalize 24 128 (if s then Zneg m else Zpos m) e s
  | other => other
  end.
(** dandy-draw/src/pos2.rs:92-96 [From<(f64, f64)> for Pos2] *)
Definition from_doubles (p : D f64 * D f64) : pos f32 := let '(x, y) := p in pos2 f32 (to_f32 x) (to_f32 y).

(** dandy-draw/src/pos2.rs:7 [derive(PartialEq)] *)
Definition p_eqb (p q : pos f32) : bool := SFeqb (fst p) (fst q) && SFeqb (snd p) (snd q).

(** ** Rectangles *)

(** dandy-draw/src/lib.rs:16-24: all methods of [trait Drawer] *)
Inductive drawer_call (fl : floats) : Type :=
| Other (x : call fl)
| DrawRect (upper_left size : pos fl).
Arguments Other {fl}. Arguments DrawRect {fl}.

(** dandy-draw/src/lib.rs:32-70 [OffsetScaleDrawer]: what the drawer inside receives ([draw] uses the functions [draw_circle],
    [draw_centered_text] and [draw_line] of DrawModel) *)
Definition offset_scale {fl} (opts : draw_options fl) (x : drawer_call fl) : drawer_call fl :=
  match x with
  | Other (DrawCircle _ p radius thickness) => Other (draw_circle fl opts p radius thickness)
  | Other (DrawCenteredText _ p text) => Other (draw_centered_text fl opts p text)
  | Other (DrawLine _ p q thickness) => Other (draw_line fl opts p q thickness)
  | Other y => Other y
  | DrawRect upper_left size => DrawRect (place fl opts upper_left) size
  end.

Section Canvas.
Context {fl : floats} (db : doubles fl).
(** What is on a canvas: the marks of CanvasModel, and filled rectangles (dandy-draw/src/canvas.rs:48-55) *)
Inductive paint : Type :=
| Mark (m : mark db)
| FilledRect (style : str) (x y width height : D db).

(** A context together with everything painted so far, from the first one (dandy-draw/src/canvas.rs:6-8) *)
Record surface : Type := mk_surface { sf_context : context db; sf_painted : list paint }.

(** A number that is neither positive nor negative (HTML standard, fillRect: dandy-draw/src/canvas.rs:49) *)
Definition d_zero (x : D db) : bool := negb (d_positive db x) && negb (d_negative db x).

(** fillRect of the HTML standard: nothing is painted if a number is infinite or NaN, or if the width or the height is zero; the
    path stays as it is.  dandy-draw/src/canvas.rs:49-54 *)
Definition fill_rect (x y w h : D db) (s : surface) : surface :=
  if negb (d_finite db x && d_finite db y && d_finite db w && d_finite db h) then s
  else if d_zero w || d_zero h then s
  else mk_surface (sf_context s) (sf_painted s ++ [FilledRect (cx_fill db (sf_context s)) x y w h]).

(** dandy-draw/src/canvas.rs:23-73: a call of any method of the drawer *)
Definition surface_call (s : surface) (x : drawer_call fl) : R surface :=
  match x with
  | Other y =>
      c <- canvas_call db (sf_context s) y ;;
      Ret (mk_surface c (sf_painted s ++ map Mark (skipn (length (cx_marks db (sf_context s))) (cx_marks db c))))
  | DrawRect p size => Ret (fill_rect (widen db (fst p)) (widen db (snd p)) (widen db (fst size)) (widen db (snd size)) s)
  end.

(** dandy-draw/src/canvas.rs:23-73: calls of the drawer, one after the other *)
Definition surface_calls (s : surface) (l : list (drawer_call fl)) : R surface := foldR surface_call s l.
End Canvas.
Arguments Mark {fl db}. Arguments FilledRect {fl db}. Arguments mk_surface {fl db}. Arguments sf_context {fl db}. Arguments sf_painted {fl db}.

Section Egui.
Context {fl : floats}.
(** What a painter is told to paint: a shape of CanvasModel or a filled rectangle, given by two corners (dandy-draw/src/egui.rs:41-47) *)
Inductive egui_paint : Type :=
| EShape (s : egui_shape (fl := fl))
| ERect (min max : pos fl) (color : nat * nat * nat).

(** dandy-draw/src/egui.rs:7-19 [struct EguiDrawer] with all that its painter has received *)
Record egui_surface : Type := mk_egui_surface { es_drawer : egui_drawer (fl := fl); es_painted : list egui_paint }.

(** dandy-draw/src/egui.rs:21-58, with [draw_rect]: dandy-draw/src/egui.rs:41-47 ([Rect::from_min_size] adds the size to the corner) *)
Definition egui_surface_call (e : egui_surface) (x : drawer_call fl) : egui_surface :=
  match x with
  | Other y =>
      let d := egui_call (es_drawer e) y in
      mk_egui_surface d (es_painted e ++ map EShape (skipn (length (ed_shapes (es_drawer e))) (ed_shapes d)))
  | DrawRect p size => mk_egui_surface (es_drawer e) (es_painted e ++ [ERect p (p_add fl p size) (ed_color (es_drawer e))])
  end.
End Egui.
Arguments egui_paint : clear implicits. Arguments egui_surface : clear implicits.
