(** * OptionsSpec: options have independent values; how drawings change with them *)
From Coq Require Import List NArith Arith Bool ZArith QArith.
From Verif Require Import Base DrawModel DrawSpec OptionsModel.
Import ListNotations.
Close Scope Q_scope.
Open Scope nat_scope.

Section Options.
Context {fl : floats}.
Local Notation options := (draw_options fl).
(** The names of the options, with the types of their values *)
Inductive option_name : Type -> Type :=| XScale : option_name (F fl)
| YScale : option_name (F fl)
| XOffset : option_name (F fl)
| YOffset : option_name (F fl)
| CenterLinePadding : option_name (F fl)
| CircleRadius : option_name (F fl)
| CircleWidth : option_name (F fl)
| AcceptingCircleRadius : option_name (F fl)
| AcceptingCircleWidth : option_name (F fl)
| InitArrowLength : option_name (F fl)
| InitArrowArmsLength : option_name (F fl)
| InitArrowWidth : option_name (F fl)
| TransArrowArmsLength : option_name (F fl)
| TransLineWidth : option_name (F fl)
| FromLineOffset : option_name (F fl)
| ToLineOffset : option_name (F fl)
| FloorHeight : option_name (F fl)
| TextMargin : option_name (F fl)
| LineCircleMargin : option_name (F fl)
| EndArrow : option_name bool
| MiddleArrow : option_name bool
| TextColor : option_name colour
| CircleColor : option_name colour
| LineColor : option_name colour.
Definition read {T} (n : option_name T) (o : options) : T :=
  match n in option_name T return T with
  | XScale => o_x_scale fl o
  | YScale => o_y_scale fl o
  | XOffset => o_x_offset fl o
  | YOffset => o_y_offset fl o
  | CenterLinePadding => o_center_line_padding fl o
  | CircleRadius => o_circle_radius fl o
  | CircleWidth => o_circle_width fl o
  | AcceptingCircleRadius => o_accepting_circle_radius fl o
  | AcceptingCircleWidth => o_accepting_circle_width fl o
  | InitArrowLength => o_init_arrow_length fl o
  | InitArrowArmsLength => o_init_arrow_arms_length fl o
  | InitArrowWidth => o_init_arrow_width fl o
  | TransArrowArmsLength => o_trans_arrow_arms_length fl o
  | TransLineWidth => o_trans_line_width fl o
  | FromLineOffset => o_from_line_offset fl o
  | ToLineOffset => o_to_line_offset fl o
  | FloorHeight => o_floor_height fl o
  | TextMargin => o_text_margin fl o
  | LineCircleMargin => o_line_circle_margin fl o
  | EndArrow => o_end_arrow fl o
  | MiddleArrow => o_middle_arrow fl o
  | TextColor => o_text_color fl o
  | CircleColor => o_circle_color fl o
  | LineColor => o_line_color fl o
  end.
(** The setter with the name of the option *)
Definition setter {T} (n : option_name T) : T -> options -> options :=
  match n in option_name T return T -> options -> options with
  | XScale => with_x_scale
  | YScale => with_y_scale
  | XOffset => with_x_offset
  | YOffset => with_y_offset
  | CenterLinePadding => with_center_line_padding
  | CircleRadius => with_circle_radius
  | CircleWidth => with_circle_width
  | AcceptingCircleRadius => with_accepting_circle_radius
  | AcceptingCircleWidth => with_accepting_circle_width
  | InitArrowLength => with_init_arrow_length
  | InitArrowArmsLength => with_init_arrow_arms_length
  | InitArrowWidth => with_init_arrow_width
  | TransArrowArmsLength => with_trans_arrow_arms_length
  | TransLineWidth => with_trans_line_width
  | FromLineOffset => with_from_line_offset
  | ToLineOffset => with_to_line_offset
  | FloorHeight => with_floor_height
  | TextMargin => with_text_margin
  | LineCircleMargin => with_line_circle_margin
  | EndArrow => with_end_arrow
  | MiddleArrow => with_middle_arrow
  | TextColor => with_text_color
  | CircleColor => with_circle_color
  | LineColor => with_line_color
  end.

(** ** How drawings change *)
Section Moved.
Context (val : F fl -> Q).
(** The point [p'] is [p], moved by the offset and then scaled *)
Definition moved_point (o : options) (p p' : F fl * F fl) : Prop :=
  (val (fst p') == (val (fst p) + val (o_x_offset fl o)) * val (o_x_scale fl o))%Q /\
  (val (snd p') == (val (snd p) + val (o_y_offset fl o)) * val (o_y_scale fl o))%Q.
Definition moved (o : options) (s s' : option colour * @shape fl) : Prop :=
  fst s = fst s' /\
  match snd s, snd s' with
  | Line p q t, Line p' q' t' => moved_point o p p' /\ moved_point o q q' /\ t = t'
  | Circle p r t, Circle p' r' t' => moved_point o p p' /\ (val r' == val r * val (o_x_scale fl o))%Q /\ t = t'
  | Text p s, Text p' s' => moved_point o p p' /\ s = s'
  | _, _ => False
  end.
End Moved.
(** The colour of a shape is given by its kind *)
Definition coloured (o : options) (s : @shape fl) : colour :=
  match s with Line _ _ _ => o_line_color fl o | Circle _ _ _ => o_circle_color fl o | Text _ _ => o_text_color fl o end.
(** [l] without some elements *)
Inductive part_of {A} : list A -> list A -> Prop :=
| part_nil : part_of [] []
| part_keep x l l' : part_of l l' -> part_of (x :: l) (x :: l')
| part_skip x l l' : part_of l l' -> part_of l (x :: l').
End Options.
