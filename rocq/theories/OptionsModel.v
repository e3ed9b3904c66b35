(** * OptionsModel: the options of drawings, dandy-draw/src/lib.rs:72-134

    The macro [define_draw_options] defines [DrawOptions::new], a setter for every option and the defaults (see [default_options] in
    [CanvasModel]). *)
From Coq Require Import List NArith Arith Bool.
From Verif Require Import Base DrawModel.
Import ListNotations.

Section Options.
Context {fl : floats}.
Local Notation F := (F fl).
Local Notation colour := (nat * nat * nat)%type.
Local Notation options := (draw_options fl).

(** dandy-draw/src/lib.rs:81-85 [DrawOptions::new] *)
Definition options_new (x_scale : F) (y_scale : F) (x_offset : F) (y_offset : F) (center_line_padding : F) (circle_radius : F) (circle_width : F) (accepting_circle_radius : F) (accepting_circle_width : F) (init_arrow_length : F) (init_arrow_arms_length : F) (init_arrow_width : F) (trans_arrow_arms_length : F) (trans_line_width : F) (from_line_offset : F) (to_line_offset : F) (floor_height : F) (text_margin : F) (line_circle_margin : F) (end_arrow : bool) (middle_arrow : bool) (text_color : colour) (circle_color : colour) (line_color : colour) : options :=
  mk_draw_options fl x_scale y_scale x_offset y_offset center_line_padding circle_radius circle_width accepting_circle_radius accepting_circle_width init_arrow_length init_arrow_arms_length init_arrow_width trans_arrow_arms_length trans_line_width from_line_offset to_line_offset floor_height text_margin line_circle_margin end_arrow middle_arrow text_color circle_color line_color.

(** dandy-draw/src/lib.rs:87-94: [with_x_scale] etc. *)
Definition with_x_scale (val : F) (o : options) : options :=
  mk_draw_options fl val (o_y_scale fl o) (o_x_offset fl o) (o_y_offset fl o) (o_center_line_padding fl o) (o_circle_radius fl o) (o_circle_width fl o) (o_accepting_circle_radius fl o) (o_accepting_circle_width fl o) (o_init_arrow_length fl o) (o_init_arrow_arms_length fl o) (o_init_arrow_width fl o) (o_trans_arrow_arms_length fl o) (o_trans_line_width fl o) (o_from_line_offset fl o) (o_to_line_offset fl o) (o_floor_height fl o) (o_text_margin fl o) (o_line_circle_margin fl o) (o_end_arrow fl o) (o_middle_arrow fl o) (o_text_color fl o) (o_circle_color fl o) (o_line_color fl o).

(** dandy-draw/src/lib.rs:87-94: [with_y_scale] *)
Definition with_y_scale (val : F) (o : options) : options :=
  mk_draw_options fl (o_x_scale fl o) val (o_x_offset fl o) (o_y_offset fl o) (o_center_line_padding fl o) (o_circle_radius fl o) (o_circle_width fl o) (o_accepting_circle_radius fl o) (o_accepting_circle_width fl o) (o_init_arrow_length fl o) (o_init_arrow_arms_length fl o) (o_init_arrow_width fl o) (o_trans_arrow_arms_length fl o) (o_trans_line_width fl o) (o_from_line_offset fl o) (o_to_line_offset fl o) (o_floor_height fl o) (o_text_margin fl o) (o_line_circle_margin fl o) (o_end_arrow fl o) (o_middle_arrow fl o) (o_text_color fl o) (o_circle_color fl o) (o_line_color fl o).

(** dandy-draw/src/lib.rs:87-94: [with_x_offset] *)
Definition with_x_offset (val : F) (o : options) : options :=
  mk_draw_options fl (o_x_scale fl o) (o_y_scale fl o) val (o_y_offset fl o) (o_center_line_padding fl o) (o_circle_radius fl o) (o_circle_width fl o) (o_accepting_circle_radius fl o) (o_accepting_circle_width fl o) (o_init_arrow_length fl o) (o_init_arrow_arms_length fl o) (o_init_arrow_width fl o) (o_trans_arrow_arms_length fl o) (o_trans_line_width fl o) (o_from_line_offset fl o) (o_to_line_offset fl o) (o_floor_height fl o) (o_text_margin fl o) (o_line_circle_margin fl o) (o_end_arrow fl o) (o_middle_arrow fl o) (o_text_color fl o) (o_circle_color fl o) (o_line_color fl o).

(** dandy-draw/src/lib.rs:87-94: [with_y_offset] *)
Definition with_y_offset (val : F) (o : options) : options :=
  mk_draw_options fl (o_x_scale fl o) (o_y_scale fl o) (o_x_offset fl o) val (o_center_line_padding fl o) (o_circle_radius fl o) (o_circle_width fl o) (o_accepting_circle_radius fl o) (o_accepting_circle_width fl o) (o_init_arrow_length fl o) (o_init_arrow_arms_length fl o) (o_init_arrow_width fl o) (o_trans_arrow_arms_length fl o) (o_trans_line_width fl o) (o_from_line_offset fl o) (o_to_line_offset fl o) (o_floor_height fl o) (o_text_margin fl o) (o_line_circle_margin fl o) (o_end_arrow fl o) (o_middle_arrow fl o) (o_text_color fl o) (o_circle_color fl o) (o_line_color fl o).

(** dandy-draw/src/lib.rs:87-94: [with_center_line_padding] *)
Definition with_center_line_padding (val : F) (o : options) : options :=
  mk_draw_options fl (o_x_scale fl o) (o_y_scale fl o) (o_x_offset fl o) (o_y_offset fl o) val (o_circle_radius fl o) (o_circle_width fl o) (o_accepting_circle_radius fl o) (o_accepting_circle_width fl o) (o_init_arrow_length fl o) (o_init_arrow_arms_length fl o) (o_init_arrow_width fl o) (o_trans_arrow_arms_length fl o) (o_trans_line_width fl o) (o_from_line_offset fl o) (o_to_line_offset fl o) (o_floor_height fl o) (o_text_margin fl o) (o_line_circle_margin fl o) (o_end_arrow fl o) (o_middle_arrow fl o) (o_text_color fl o) (o_circle_color fl o) (o_line_color fl o).

(** dandy-draw/src/lib.rs:87-94: [with_circle_radius] *)
Definition with_circle_radius (val : F) (o : options) : options :=
  mk_draw_options fl (o_x_scale fl o) (o_y_scale fl o) (o_x_offset fl o) (o_y_offset fl o) (o_center_line_padding fl o) val (o_circle_width fl o) (o_accepting_circle_radius fl o) (o_accepting_circle_width fl o) (o_init_arrow_length fl o) (o_init_arrow_arms_length fl o) (o_init_arrow_width fl o) (o_trans_arrow_arms_length fl o) (o_trans_line_width fl o) (o_from_line_offset fl o) (o_to_line_offset fl o) (o_floor_height fl o) (o_text_margin fl o) (o_line_circle_margin fl o) (o_end_arrow fl o) (o_middle_arrow fl o) (o_text_color fl o) (o_circle_color fl o) (o_line_color fl o).

(** dandy-draw/src/lib.rs:87-94: [with_circle_width] *)
Definition with_circle_width (val : F) (o : options) : options :=
  mk_draw_options fl (o_x_scale fl o) (o_y_scale fl o) (o_x_offset fl o) (o_y_offset fl o) (o_center_line_padding fl o) (o_circle_radius fl o) val (o_accepting_circle_radius fl o) (o_accepting_circle_width fl o) (o_init_arrow_length fl o) (o_init_arrow_arms_length fl o) (o_init_arrow_width fl o) (o_trans_arrow_arms_length fl o) (o_trans_line_width fl o) (o_from_line_offset fl o) (o_to_line_offset fl o) (o_floor_height fl o) (o_text_margin fl o) (o_line_circle_margin fl o) (o_end_arrow fl o) (o_middle_arrow fl o) (o_text_color fl o) (o_circle_color fl o) (o_line_color fl o).

(** dandy-draw/src/lib.rs:87-94: [with_accepting_circle_radius] *)
Definition with_accepting_circle_radius (val : F) (o : options) : options :=
  mk_draw_options fl (o_x_scale fl o) (o_y_scale fl o) (o_x_offset fl o) (o_y_offset fl o) (o_center_line_padding fl o) (o_circle_radius fl o) (o_circle_width fl o) val (o_accepting_circle_width fl o) (o_init_arrow_length fl o) (o_init_arrow_arms_length fl o) (o_init_arrow_width fl o) (o_trans_arrow_arms_length fl o) (o_trans_line_width fl o) (o_from_line_offset fl o) (o_to_line_offset fl o) (o_floor_height fl o) (o_text_margin fl o) (o_line_circle_margin fl o) (o_end_arrow fl o) (o_middle_arrow fl o) (o_text_color fl o) (o_circle_color fl o) (o_line_color fl o).

(** dandy-draw/src/lib.rs:87-94: [with_accepting_circle_width] *)
Definition with_accepting_circle_width (val : F) (o : options) : options :=
  mk_draw_options fl (o_x_scale fl o) (o_y_scale fl o) (o_x_offset fl o) (o_y_offset fl o) (o_center_line_padding fl o) (o_circle_radius fl o) (o_circle_width fl o) (o_accepting_circle_radius fl o) val (o_init_arrow_length fl o) (o_init_arrow_arms_length fl o) (o_init_arrow_width fl o) (o_trans_arrow_arms_length fl o) (o_trans_line_width fl o) (o_from_line_offset fl o) (o_to_line_offset fl o) (o_floor_height fl o) (o_text_margin fl o) (o_line_circle_margin fl o) (o_end_arrow fl o) (o_middle_arrow fl o) (o_text_color fl o) (o_circle_color fl o) (o_line_color fl o).

(** dandy-draw/src/lib.rs:87-94: [with_init_arrow_length] *)
Definition with_init_arrow_length (val : F) (o : options) : options :=
  mk_draw_options fl (o_x_scale fl o) (o_y_scale fl o) (o_x_offset fl o) (o_y_offset fl o) (o_center_line_padding fl o) (o_circle_radius fl o) (o_circle_width fl o) (o_accepting_circle_radius fl o) (o_accepting_circle_width fl o) val (o_init_arrow_arms_length fl o) (o_init_arrow_width fl o) (o_trans_arrow_arms_length fl o) (o_trans_line_width fl o) (o_from_line_offset fl o) (o_to_line_offset fl o) (o_floor_height fl o) (o_text_margin fl o) (o_line_circle_margin fl o) (o_end_arrow fl o) (o_middle_arrow fl o) (o_text_color fl o) (o_circle_color fl o) (o_line_color fl o).

(** dandy-draw/src/lib.rs:87-94: [with_init_arrow_arms_length] *)
Definition with_init_arrow_arms_length (val : F) (o : options) : options :=
  mk_draw_options fl (o_x_scale fl o) (o_y_scale fl o) (o_x_offset fl o) (o_y_offset fl o) (o_center_line_padding fl o) (o_circle_radius fl o) (o_circle_width fl o) (o_accepting_circle_radius fl o) (o_accepting_circle_width fl o) (o_init_arrow_length fl o) val (o_init_arrow_width fl o) (o_trans_arrow_arms_length fl o) (o_trans_line_width fl o) (o_from_line_offset fl o) (o_to_line_offset fl o) (o_floor_height fl o) (o_text_margin fl o) (o_line_circle_margin fl o) (o_end_arrow fl o) (o_middle_arrow fl o) (o_text_color fl o) (o_circle_color fl o) (o_line_color fl o).

(** dandy-draw/src/lib.rs:87-94: [with_init_arrow_width] *)
Definition with_init_arrow_width (val : F) (o : options) : options :=
  mk_draw_options fl (o_x_scale fl o) (o_y_scale fl o) (o_x_offset fl o) (o_y_offset fl o) (o_center_line_padding fl o) (o_circle_radius fl o) (o_circle_width fl o) (o_accepting_circle_radius fl o) (o_accepting_circle_width fl o) (o_init_arrow_length fl o) (o_init_arrow_arms_length fl o) val (o_trans_arrow_arms_length fl o) (o_trans_line_width fl o) (o_from_line_offset fl o) (o_to_line_offset fl o) (o_floor_height fl o) (o_text_margin fl o) (o_line_circle_margin fl o) (o_end_arrow fl o) (o_middle_arrow fl o) (o_text_color fl o) (o_circle_color fl o) (o_line_color fl o).

(** dandy-draw/src/lib.rs:87-94: [with_trans_arrow_arms_length] *)
Definition with_trans_arrow_arms_length (val : F) (o : options) : options :=
  mk_draw_options fl (o_x_scale fl o) (o_y_scale fl o) (o_x_offset fl o) (o_y_offset fl o) (o_center_line_padding fl o) (o_circle_radius fl o) (o_circle_width fl o) (o_accepting_circle_radius fl o) (o_accepting_circle_width fl o) (o_init_arrow_length fl o) (o_init_arrow_arms_length fl o) (o_init_arrow_width fl o) val (o_trans_line_width fl o) (o_from_line_offset fl o) (o_to_line_offset fl o) (o_floor_height fl o) (o_text_margin fl o) (o_line_circle_margin fl o) (o_end_arrow fl o) (o_middle_arrow fl o) (o_text_color fl o) (o_circle_color fl o) (o_line_color fl o).

(** dandy-draw/src/lib.rs:87-94: [with_trans_line_width] *)
Definition with_trans_line_width (val : F) (o : options) : options :=
  mk_draw_options fl (o_x_scale fl o) (o_y_scale fl o) (o_x_offset fl o) (o_y_offset fl o) (o_center_line_padding fl o) (o_circle_radius fl o) (o_circle_width fl o) (o_accepting_circle_radius fl o) (o_accepting_circle_width fl o) (o_init_arrow_length fl o) (o_init_arrow_arms_length fl o) (o_init_arrow_width fl o) (o_trans_arrow_arms_length fl o) val (o_from_line_offset fl o) (o_to_line_offset fl o) (o_floor_height fl o) (o_text_margin fl o) (o_line_circle_margin fl o) (o_end_arrow fl o) (o_middle_arrow fl o) (o_text_color fl o) (o_circle_color fl o) (o_line_color fl o).

(** dandy-draw/src/lib.rs:87-94: [with_from_line_offset] *)
Definition with_from_line_offset (val : F) (o : options) : options :=
  mk_draw_options fl (o_x_scale fl o) (o_y_scale fl o) (o_x_offset fl o) (o_y_offset fl o) (o_center_line_padding fl o) (o_circle_radius fl o) (o_circle_width fl o) (o_accepting_circle_radius fl o) (o_accepting_circle_width fl o) (o_init_arrow_length fl o) (o_init_arrow_arms_length fl o) (o_init_arrow_width fl o) (o_trans_arrow_arms_length fl o) (o_trans_line_width fl o) val (o_to_line_offset fl o) (o_floor_height fl o) (o_text_margin fl o) (o_line_circle_margin fl o) (o_end_arrow fl o) (o_middle_arrow fl o) (o_text_color fl o) (o_circle_color fl o) (o_line_color fl o).

(** dandy-draw/src/lib.rs:87-94: [with_to_line_offset] *)
Definition with_to_line_offset (val : F) (o : options) : options :=
  mk_draw_options fl (o_x_scale fl o) (o_y_scale fl o) (o_x_offset fl o) (o_y_offset fl o) (o_center_line_padding fl o) (o_circle_radius fl o) (o_circle_width fl o) (o_accepting_circle_radius fl o) (o_accepting_circle_width fl o) (o_init_arrow_length fl o) (o_init_arrow_arms_length fl o) (o_init_arrow_width fl o) (o_trans_arrow_arms_length fl o) (o_trans_line_width fl o) (o_from_line_offset fl o) val (o_floor_height fl o) (o_text_margin fl o) (o_line_circle_margin fl o) (o_end_arrow fl o) (o_middle_arrow fl o) (o_text_color fl o) (o_circle_color fl o) (o_line_color fl o).

(** dandy-draw/src/lib.rs:87-94: [with_floor_height] *)
Definition with_floor_height (val : F) (o : options) : options :=
  mk_draw_options fl (o_x_scale fl o) (o_y_scale fl o) (o_x_offset fl o) (o_y_offset fl o) (o_center_line_padding fl o) (o_circle_radius fl o) (o_circle_width fl o) (o_accepting_circle_radius fl o) (o_accepting_circle_width fl o) (o_init_arrow_length fl o) (o_init_arrow_arms_length fl o) (o_init_arrow_width fl o) (o_trans_arrow_arms_length fl o) (o_trans_line_width fl o) (o_from_line_offset fl o) (o_to_line_offset fl o) val (o_text_margin fl o) (o_line_circle_margin fl o) (o_end_arrow fl o) (o_middle_arrow fl o) (o_text_color fl o) (o_circle_color fl o) (o_line_color fl o).

(** dandy-draw/src/lib.rs:87-94: [with_text_margin] *)
Definition with_text_margin (val : F) (o : options) : options :=
  mk_draw_options fl (o_x_scale fl o) (o_y_scale fl o) (o_x_offset fl o) (o_y_offset fl o) (o_center_line_padding fl o) (o_circle_radius fl o) (o_circle_width fl o) (o_accepting_circle_radius fl o) (o_accepting_circle_width fl o) (o_init_arrow_length fl o) (o_init_arrow_arms_length fl o) (o_init_arrow_width fl o) (o_trans_arrow_arms_length fl o) (o_trans_line_width fl o) (o_from_line_offset fl o) (o_to_line_offset fl o) (o_floor_height fl o) val (o_line_circle_margin fl o) (o_end_arrow fl o) (o_middle_arrow fl o) (o_text_color fl o) (o_circle_color fl o) (o_line_color fl o).

(** dandy-draw/src/lib.rs:87-94: [with_line_circle_margin] *)
Definition with_line_circle_margin (val : F) (o : options) : options :=
  mk_draw_options fl (o_x_scale fl o) (o_y_scale fl o) (o_x_offset fl o) (o_y_offset fl o) (o_center_line_padding fl o) (o_circle_radius fl o) (o_circle_width fl o) (o_accepting_circle_radius fl o) (o_accepting_circle_width fl o) (o_init_arrow_length fl o) (o_init_arrow_arms_length fl o) (o_init_arrow_width fl o) (o_trans_arrow_arms_length fl o) (o_trans_line_width fl o) (o_from_line_offset fl o) (o_to_line_offset fl o) (o_floor_height fl o) (o_text_margin fl o) val (o_end_arrow fl o) (o_middle_arrow fl o) (o_text_color fl o) (o_circle_color fl o) (o_line_color fl o).

(** dandy-draw/src/lib.rs:87-94: [with_end_arrow] *)
Definition with_end_arrow (val : bool) (o : options) : options :=
  mk_draw_options fl (o_x_scale fl o) (o_y_scale fl o) (o_x_offset fl o) (o_y_offset fl o) (o_center_line_padding fl o) (o_circle_radius fl o) (o_circle_width fl o) (o_accepting_circle_radius fl o) (o_accepting_circle_width fl o) (o_init_arrow_length fl o) (o_init_arrow_arms_length fl o) (o_init_arrow_width fl o) (o_trans_arrow_arms_length fl o) (o_trans_line_width fl o) (o_from_line_offset fl o) (o_to_line_offset fl o) (o_floor_height fl o) (o_text_margin fl o) (o_line_circle_margin fl o) val (o_middle_arrow fl o) (o_text_color fl o) (o_circle_color fl o) (o_line_color fl o).

(** dandy-draw/src/lib.rs:87-94: [with_middle_arrow] *)
Definition with_middle_arrow (val : bool) (o : options) : options :=
  mk_draw_options fl (o_x_scale fl o) (o_y_scale fl o) (o_x_offset fl o) (o_y_offset fl o) (o_center_line_padding fl o) (o_circle_radius fl o) (o_circle_width fl o) (o_accepting_circle_radius fl o) (o_accepting_circle_width fl o) (o_init_arrow_length fl o) (o_init_arrow_arms_length fl o) (o_init_arrow_width fl o) (o_trans_arrow_arms_length fl o) (o_trans_line_width fl o) (o_from_line_offset fl o) (o_to_line_offset fl o) (o_floor_height fl o) (o_text_margin fl o) (o_line_circle_margin fl o) (o_end_arrow fl o) val (o_text_color fl o) (o_circle_color fl o) (o_line_color fl o).

(** dandy-draw/src/lib.rs:87-94: [with_text_color] *)
Definition with_text_color (val : colour) (o : options) : options :=
  mk_draw_options fl (o_x_scale fl o) (o_y_scale fl o) (o_x_offset fl o) (o_y_offset fl o) (o_center_line_padding fl o) (o_circle_radius fl o) (o_circle_width fl o) (o_accepting_circle_radius fl o) (o_accepting_circle_width fl o) (o_init_arrow_length fl o) (o_init_arrow_arms_length fl o) (o_init_arrow_width fl o) (o_trans_arrow_arms_length fl o) (o_trans_line_width fl o) (o_from_line_offset fl o) (o_to_line_offset fl o) (o_floor_height fl o) (o_text_margin fl o) (o_line_circle_margin fl o) (o_end_arrow fl o) (o_middle_arrow fl o) val (o_circle_color fl o) (o_line_color fl o).

(** dandy-draw/src/lib.rs:87-94: [with_circle_color] *)
Definition with_circle_color (val : colour) (o : options) : options :=
  mk_draw_options fl (o_x_scale fl o) (o_y_scale fl o) (o_x_offset fl o) (o_y_offset fl o) (o_center_line_padding fl o) (o_circle_radius fl o) (o_circle_width fl o) (o_accepting_circle_radius fl o) (o_accepting_circle_width fl o) (o_init_arrow_length fl o) (o_init_arrow_arms_length fl o) (o_init_arrow_width fl o) (o_trans_arrow_arms_length fl o) (o_trans_line_width fl o) (o_from_line_offset fl o) (o_to_line_offset fl o) (o_floor_height fl o) (o_text_margin fl o) (o_line_circle_margin fl o) (o_end_arrow fl o) (o_middle_arrow fl o) (o_text_color fl o) val (o_line_color fl o).

(** dandy-draw/src/lib.rs:87-94: [with_line_color] *)
Definition with_line_color (val : colour) (o : options) : options :=
  mk_draw_options fl (o_x_scale fl o) (o_y_scale fl o) (o_x_offset fl o) (o_y_offset fl o) (o_center_line_padding fl o) (o_circle_radius fl o) (o_circle_width fl o) (o_accepting_circle_radius fl o) (o_accepting_circle_width fl o) (o_init_arrow_length fl o) (o_init_arrow_arms_length fl o) (o_init_arrow_width fl o) (o_trans_arrow_arms_length fl o) (o_trans_line_width fl o) (o_from_line_offset fl o) (o_to_line_offset fl o) (o_floor_height fl o) (o_text_margin fl o) (o_line_circle_margin fl o) (o_end_arrow fl o) (o_middle_arrow fl o) (o_text_color fl o) (o_circle_color fl o) val.
End Options.
