(** * CanvasModel: drawing on a canvas, in egui, and from the page

    Models dandy-draw/src/canvas.rs, dandy-draw/src/egui.rs, the drawing functions of dandy-wasm/src/lib.rs and the frames of
    dandy-egui/src/main.rs.

    Outside of the model: the browser and egui themselves.  A canvas context is modelled from the HTML standard by what this
    code uses of it: styles, line width, text alignment, the current path, and the list of what was painted so far.  Colours
    are kept as the texts given to the context.  [draw_rect] is never called. *)
From Coq Require Import Ascii String List NArith Arith Bool.
From Verif Require Import Base Spec TableModel Messages ValidateModel ParserModel ApiModel WasmModel DrawModel.
Import ListNotations.
Close Scope string_scope.
Open Scope list_scope.

(** ** Options *)

(** dandy-draw/src/lib.rs:107-134: [DrawOptions::default] *)
Definition default_options (fl : floats) : draw_options fl :=
  let f := f_of_usize fl in
  {| o_x_scale := f 1; o_y_scale := f 1; o_x_offset := f 0; o_y_offset := f 0;
     o_center_line_padding := f 20; o_circle_radius := f 30; o_circle_width := f 2;
     o_accepting_circle_radius := f 25; o_accepting_circle_width := f 2;
     o_init_arrow_length := f 50; o_init_arrow_arms_length := f 15; o_init_arrow_width := f 3;
     o_trans_arrow_arms_length := f 5; o_trans_line_width := f 3;
     o_from_line_offset := f 15; o_to_line_offset := f 15; o_floor_height := f 25; o_text_margin := f 15; o_line_circle_margin := f 10;
     o_end_arrow := true; o_middle_arrow := true;
     o_text_color := (255, 255, 255); o_circle_color := (150, 255, 255); o_line_color := (0, 255, 255) |}.
(** dandy-draw/src/lib.rs:88-95 [with_x_offset], [with_y_offset] *)
Definition with_offset (fl : floats) (x y : F fl) (o : draw_options fl) : draw_options fl :=
  {| o_x_scale := o_x_scale fl o; o_y_scale := o_y_scale fl o; o_x_offset := x; o_y_offset := y;
     o_center_line_padding := o_center_line_padding fl o; o_circle_radius := o_circle_radius fl o; o_circle_width := o_circle_width fl o;
     o_accepting_circle_radius := o_accepting_circle_radius fl o; o_accepting_circle_width := o_accepting_circle_width fl o;
     o_init_arrow_length := o_init_arrow_length fl o; o_init_arrow_arms_length := o_init_arrow_arms_length fl o;
     o_init_arrow_width := o_init_arrow_width fl o;
     o_trans_arrow_arms_length := o_trans_arrow_arms_length fl o; o_trans_line_width := o_trans_line_width fl o;
     o_from_line_offset := o_from_line_offset fl o; o_to_line_offset := o_to_line_offset fl o; o_floor_height := o_floor_height fl o;
     o_text_margin := o_text_margin fl o; o_line_circle_margin := o_line_circle_margin fl o;
     o_end_arrow := o_end_arrow fl o; o_middle_arrow := o_middle_arrow fl o;
     o_text_color := o_text_color fl o; o_circle_color := o_circle_color fl o; o_line_color := o_line_color fl o |}.

(** ** The canvas context *)

(** Numbers of type [f64]: an arbitrary type with the tests that the HTML standard uses.
    (dandy-draw/src/canvas.rs:32-64) *)
Record doubles (fl : floats) : Type := mk_doubles {
  D : Type;
  widen : F fl -> D;           (* as f64 *)
  d_0 : D;                     (* 0.0 *)
  d_1 : D;                     (* 1.0, the initial line width *)
  d_turn : D;                  (* 2.0 * PI *)
  d_finite : D -> bool;        (* neither infinite nor NaN *)
  d_positive : D -> bool;      (* > 0 *)
  d_negative : D -> bool       (* < 0 *)
}.
Arguments D {fl}. Arguments widen {fl}. Arguments d_0 {fl}. Arguments d_1 {fl}. Arguments d_turn {fl}.
Arguments d_finite {fl}. Arguments d_positive {fl}. Arguments d_negative {fl}.

Section Canvas.
Context {fl : floats} (db : doubles fl).
Local Notation D := (D db).

(** Points are given by coordinates or by an angle on a circle. (on the context of dandy-draw/src/canvas.rs:6-8) *)
Inductive point : Type := PAt (x y : D) | POnArc (x y radius angle : D).

(** A line or an arc of a path of dandy-draw/src/canvas.rs:32-64 *)
Inductive segment : Type := SLine (a b : point) | SArc (x y radius from to : D).

(** A subpath of the path of the context of dandy-draw/src/canvas.rs:6-8 *)
Record subpath : Type := mk_subpath { sp_first : point; sp_segments : list segment }.

(** Where the next segment begins (dandy-draw/src/canvas.rs:32-64) *)
Definition segment_end (s : segment) : point := match s with SLine _ b => b | SArc x y r _ t => POnArc x y r t end.

(** Where a subpath ends (dandy-draw/src/canvas.rs:32-64) *)
Definition sp_last (s : subpath) : point := last (map segment_end (sp_segments s)) (sp_first s).

(** A subpath with one more segment (dandy-draw/src/canvas.rs:32-64) *)
Definition sp_add (g : segment) (s : subpath) : subpath := mk_subpath (sp_first s) (sp_segments s ++ [g]).

(** What was painted: an outline, or a text with its alignment. (by dandy-draw/src/canvas.rs:29, 38, 44, 62) *)
Inductive mark : Type :=
| MStroke (style : str) (width : D) (segments : list segment)
| MText (style align baseline : str) (x y : D) (text : str).

(** A context; the subpaths are listed from the last one, the marks from the first one. (of
    dandy-draw/src/canvas.rs:6-8) *)
Record context : Type := mk_context {
  cx_stroke : str; cx_fill : str; cx_width : D; cx_align : str; cx_baseline : str;
  cx_path : list subpath;
  cx_marks : list mark
}.
(** The context of a new canvas. (website/index.html:185) *)
Definition new_context : context :=
  mk_context (of_string "#000000") (of_string "#000000") (d_1 db) (of_string "start") (of_string "alphabetic") [] [].

(** The path of the context of dandy-draw/src/canvas.rs:6-8 changes *)
Definition with_path (c : context) (p : list subpath) : context :=
  mk_context (cx_stroke c) (cx_fill c) (cx_width c) (cx_align c) (cx_baseline c) p (cx_marks c).

(** Painting on the context of dandy-draw/src/canvas.rs:6-8 *)
Definition with_marks (c : context) (m : list mark) : context :=
  mk_context (cx_stroke c) (cx_fill c) (cx_width c) (cx_align c) (cx_baseline c) (cx_path c) m.

(** HTML standard, CanvasRenderingContext2D: beginPath, moveTo, lineTo, closePath, arc, stroke, lineWidth, fillText,
    strokeStyle, fillStyle, textAlign, textBaseline. Here beginPath: dandy-draw/src/canvas.rs:25, 33, 58. *)
Definition begin_path (c : context) : context := with_path c [].

(** moveTo: dandy-draw/src/canvas.rs:60 *)
Definition move_to (x y : D) (c : context) : context :=
  if d_finite db x && d_finite db y then with_path c (mk_subpath (PAt x y) [] :: cx_path c) else c.

(** lineTo: dandy-draw/src/canvas.rs:61 *)
Definition line_to_ (x y : D) (c : context) : context :=
  if d_finite db x && d_finite db y then
    match cx_path c with
    | [] => with_path c [mk_subpath (PAt x y) []]
    | s :: r => with_path c (sp_add (SLine (sp_last s) (PAt x y)) s :: r)
    end
  else c.

(** closePath: dandy-draw/src/canvas.rs:39, 63 *)
Definition close_path (c : context) : context :=
  match cx_path c with
  | [] => c
  | s :: r => with_path c (mk_subpath (sp_first s) [] :: sp_add (SLine (sp_last s) (sp_first s)) s :: r)
  end.
(** [None]: an IndexSizeError is thrown. Arc: dandy-draw/src/canvas.rs:35-37 *)
Definition arc (x y radius from to : D) (c : context) : option context :=
  if negb (d_finite db x && d_finite db y && d_finite db radius && d_finite db from && d_finite db to) then Some c
  else if d_negative db radius then None
  else Some (match cx_path c with
             | [] => with_path c [mk_subpath (POnArc x y radius from) [SArc x y radius from to]]
             | s :: r => with_path c (sp_add (SArc x y radius from to) (sp_add (SLine (sp_last s) (POnArc x y radius from)) s) :: r)
             end).

(** stroke: dandy-draw/src/canvas.rs:29, 38, 62 *)
Definition stroke (c : context) : context :=
  match concat (map sp_segments (rev (cx_path c))) with
  | [] => c
  | segments => with_marks c (cx_marks c ++ [MStroke (cx_stroke c) (cx_width c) segments])
  end.

(** lineWidth: dandy-draw/src/canvas.rs:34, 59 *)
Definition set_line_width (w : D) (c : context) : context :=
  if d_finite db w && d_positive db w then
    mk_context (cx_stroke c) (cx_fill c) w (cx_align c) (cx_baseline c) (cx_path c) (cx_marks c)
  else c.

(** fillText: dandy-draw/src/canvas.rs:43-45 *)
Definition fill_text (text : str) (x y : D) (c : context) : context :=
  if d_finite db x && d_finite db y then
    with_marks c (cx_marks c ++ [MText (cx_fill c) (cx_align c) (cx_baseline c) x y text])
  else c.

(** strokeStyle and fillStyle: dandy-draw/src/canvas.rs:68-71 *)
Definition set_styles (style : str) (c : context) : context :=
  mk_context style style (cx_width c) (cx_align c) (cx_baseline c) (cx_path c) (cx_marks c).

(** textAlign and textBaseline: dandy-draw/src/canvas.rs:12-13 *)
Definition set_alignment (align baseline : str) (c : context) : context :=
  mk_context (cx_stroke c) (cx_fill c) (cx_width c) align baseline (cx_path c) (cx_marks c).

(** dandy-draw/src/canvas.rs:11-15 [CanvasDrawer::new], dandy-draw/src/canvas.rs:17-20 [CanvasDrawer::from_element] once there is a context *)
Definition drawer_new (c : context) : context := set_alignment (of_string "center") (of_string "middle") c.

(** dandy-draw/src/canvas.rs:17-20 [CanvasDrawer::from_element] once there is a context *)
Definition drawer_from_element (c : context) : context := c.

(** dandy-draw/src/canvas.rs:68-71: the text of a colour *)
Definition color_text (rgb : nat * nat * nat) : str :=
  let '(r, g, b) := rgb in of_string "rgb(" ++ dec r ++ of_string " " ++ dec g ++ of_string " " ++ dec b ++ of_string ")".

(** dandy-draw/src/canvas.rs:23-73: a call of the drawer *)
Definition canvas_call (c : context) (x : call fl) : R context :=
  let w := widen db in
  match x with
  | StartDrawing _ => Ret (begin_path c)
  | FinishDrawing _ => Ret (stroke c)
  | DrawCircle _ p radius thickness =>
      c <- unwrap (arc (w (fst p)) (w (snd p)) (w radius) (d_0 db) (d_turn db) (set_line_width (w thickness) (begin_path c))) ;;
      Ret (close_path (stroke c))
  | DrawCenteredText _ p text => Ret (fill_text text (w (fst p)) (w (snd p)) c)
  | DrawLine _ p q thickness =>
      Ret (close_path (stroke (line_to_ (w (fst q)) (w (snd q)) (move_to (w (fst p)) (w (snd p))
             (set_line_width (w thickness) (begin_path c))))))
  | SetColor _ rgb => Ret (set_styles (color_text rgb) c)
  end.

(** dandy-draw/src/canvas.rs:23-73: calls of the drawer, one after the other *)
Definition canvas_calls (c : context) (l : list (call fl)) : R context := foldR canvas_call c l.

(** ** The page: elements by their ids, dandy-wasm/src/lib.rs:64-117 *)
Inductive element : Type :=
| ECanvas (context : option context)  (* a canvas; [None]: it has no 2d context ([get_context] gives nothing) *)
| EOther.

(** The elements that dandy-wasm/src/lib.rs:70, 98 can find *)
Definition document : Type := list (str * element).

(** [get_element_by_id], and the element after drawing. dandy-wasm/src/lib.rs:69-88, 97-116. *)
Definition canvas_draw (doc : document) (id : str) (calls : R (list (call fl))) : R (document * bool) :=
  match hm_get id doc with
  | None | Some EOther => Ret (doc, false)
  | Some (ECanvas None) => Panic
  | Some (ECanvas (Some c)) =>
      l <- calls ;;
      c <- canvas_calls (drawer_new c) l ;;
      Ret (hm_insert id (ECanvas (Some c)) doc, true)
  end.

(** dandy-wasm/src/lib.rs:64-89 [draw_dfa], dandy-wasm/src/lib.rs:92-117 [draw_nfa] *)
Definition page_draw_dfa (h : hash_order) (st : wasm_state) (doc : document) (k : nat) (id : str) : R (document * bool) :=
  match hm_get k (ws_dfas st) with
  | None => Ret (doc, false)
  | Some d => canvas_draw doc id (draw_dfa fl h (default_options fl) d)
  end.

(** dandy-wasm/src/lib.rs:92-117 [draw_nfa] *)
Definition page_draw_nfa (h : hash_order) (st : wasm_state) (doc : document) (k : nat) (id : str) : R (document * bool) :=
  match hm_get k (ws_nfas st) with
  | None => Ret (doc, false)
  | Some n => canvas_draw doc id (draw_nfa fl h (default_options fl) n)
  end.
End Canvas.

(** ** egui *)
Section Egui.
Context {fl : floats}.

(** What a painter is told to paint: dandy-draw/src/egui.rs:29-53 *)
Inductive egui_shape : Type :=
| CircleStroke (center : pos fl) (radius width : F fl) (color : nat * nat * nat)
| CenteredText (center : pos fl) (text : str) (color : nat * nat * nat)
| LineSegment (from to : pos fl) (width : F fl) (color : nat * nat * nat).
(** dandy-draw/src/egui.rs:7-19 [struct EguiDrawer] with the shapes its painter has received *)
Record egui_drawer : Type := mk_egui_drawer { ed_color : nat * nat * nat; ed_shapes : list egui_shape }.

(** dandy-draw/src/egui.rs:12-19 [EguiDrawer::new] *)
Definition egui_new (shapes : list egui_shape) : egui_drawer := mk_egui_drawer (0, 255, 0) shapes.
(** dandy-draw/src/egui.rs:21-58 *)
Definition egui_call (e : egui_drawer) (x : call fl) : egui_drawer :=
  let paint s := mk_egui_drawer (ed_color e) (ed_shapes e ++ [s]) in
  match x with
  | StartDrawing _ | FinishDrawing _ => e
  | DrawCircle _ p radius thickness => paint (CircleStroke p radius thickness (ed_color e))
  | DrawCenteredText _ p text => paint (CenteredText p text (ed_color e))
  | DrawLine _ p q thickness => paint (LineSegment p q thickness (ed_color e))
  | SetColor _ rgb => mk_egui_drawer rgb (ed_shapes e)
  end.

(** dandy-egui/src/main.rs:35-36: the state of the window *)
Record gui : Type := mk_gui { gui_dfa : str; gui_to_render : str }.
(** dandy-egui/src/main.rs:38-62: a frame.  [edited]: the content of the text field after the edits of the user in this frame; [clicked]:
    whether the button was clicked.  Gives the new state and what is painted by the drawer. *)
Definition gui_frame (h : hash_order) (g : gui) (edited : str) (clicked : bool) : R (gui * list egui_shape) :=
  let g := mk_gui edited (if clicked then edited else gui_to_render g) in
  o <- load_dfa (gui_to_render g) ;;
  match o with
  | None => Ret (g, [])
  | Some d =>
      calls <- draw_dfa fl h (with_offset fl (f_of_usize fl 20) (f_of_usize fl 150) (default_options fl)) d ;;
      Ret (g, ed_shapes (fold_left egui_call calls (egui_new [])))
  end.
(** The frames of a run of the program. (dandy-egui/src/main.rs:38-62, again and again) *)
Fixpoint gui_run (h : nat -> hash_order) (g : gui) (inputs : list (str * bool)) : R (gui * list (list egui_shape)) :=
  match inputs with
  | [] => Ret (g, [])
  | (edited, clicked) :: r =>
      '(g, shapes) <- gui_frame (h (length r)) g edited clicked ;;
      '(g, rest) <- gui_run h g r ;;
      Ret (g, shapes :: rest)
  end.
End Egui.

(** ** The start of dandy-egui: the files that are compiled in *)
(** dandy-cli/tests/example.dfa *)
Definition file_example_dfa : str :=
  join [10%N]
    [of_string "       a  b  c";
     [8594%N] ++ of_string " * s" ++ [8320%N] ++ of_string " s" ++ [8321%N] ++ of_string " s" ++ [8320%N] ++ of_string " s" ++ [8322%N];
     of_string "    s" ++ [8321%N] ++ of_string " s" ++ [8322%N] ++ of_string " s" ++ [8321%N] ++ of_string " s" ++ [8321%N];
     of_string "  * s" ++ [8322%N] ++ of_string " s" ++ [8322%N] ++ of_string " s" ++ [8322%N] ++ of_string " s" ++ [8322%N];
     []].
(** dandy-cli/tests/example2.dfa *)
Definition file_example2_dfa : str :=
  join [10%N]
    [of_string "      a b c";
     [8594%N] ++ of_string " * x z x y";
     of_string "  * y y y y";
     of_string "    z y a a";
     of_string "    a y z a"].
(** dandy-cli/tests/example2.nfa *)
Definition file_example2_nfa : str :=
  join [10%N]
    [of_string "# An " ++ [949%N] ++ of_string "-NFA.";
     [];
     of_string "     " ++ [949%N] ++ of_string "    a       b";
     [];
     [8594%N] ++ of_string " s" ++ [8320%N] ++ of_string " {}   {s" ++ [8321%N] ++ of_string "}    {s" ++ [8320%N] ++ of_string " s" ++ [8322%N] ++ of_string "}";
     of_string "  s" ++ [8321%N] ++ of_string " {s" ++ [8322%N] ++ of_string "} {s" ++ [8324%N] ++ of_string "}    {s" ++ [8323%N] ++ of_string "}";
     of_string "  s" ++ [8322%N] ++ of_string " {}   {s" ++ [8321%N] ++ of_string " s" ++ [8324%N] ++ of_string "} {s" ++ [8323%N] ++ of_string "}";
     of_string "  s" ++ [8323%N] ++ of_string " {s" ++ [8325%N] ++ of_string "} {s" ++ [8324%N] ++ of_string " s" ++ [8325%N] ++ of_string "} {}";
     of_string "  s" ++ [8324%N] ++ of_string " {s" ++ [8323%N] ++ of_string "} {}      {s" ++ [8325%N] ++ of_string "}";
     of_string "* s" ++ [8325%N] ++ of_string " {}   {s" ++ [8325%N] ++ of_string "}    {s" ++ [8325%N] ++ of_string "}";
     [];
     of_string "# to dfa:";
     of_string "#                      a                  b";
     of_string "# -> {s0}              {s1 s2}            {s0 s2}";
     of_string "#    {s1 s2}           {s1 s2 s3 s4 s5}   {s3 s5}";
     of_string "#    {s0 s2}           {s1 s2 s3 s4 s5}   {s0 s2 s3 s5}";
     of_string "#  * {s1 s2 s3 s4 s5}  {s1 s2 s3 s4 s5}   {s3 s5}";
     of_string "#  * {s3 s5}           {s3 s4 s5}         {s5}";
     of_string "#  * {s0 s2 s3 s5}     {s1 s2 s3 s4 s5}   {s0 s2 s3 s5}";
     of_string "#  * {s3 s4 s5}        {s3 s4 s5}         {s5}";
     of_string "#  * {s5}              {s5}               {s5}";
     [];
     of_string "# renamed states:";
     of_string "#       a b";
     of_string "# -> a  b c";
     of_string "#    b  d e";
     of_string "#    c  d f";
     of_string "#  * d  d e";
     of_string "#  * e  g h";
     of_string "#  * f  d f";
     of_string "#  * g  g h";
     of_string "#  * h  h h"].
(** dandy-egui/src/main.rs:8-25, 27-28, 35-36: what is printed, and the first state of the window; the [unwrap]s of [example_dfa]
    and [test_ascii_draw] *)
Definition gui_start (h h' : hash_order) : R (str * gui) :=
  dfa <- load_dfa file_example2_dfa ;; dfa <- unwrap dfa ;;
  art <- dfa_ascii_art h dfa ;;
  nfa <- load_nfa file_example2_nfa ;; nfa <- unwrap nfa ;;
  art' <- nfa_ascii_art h' nfa ;;
  dfa <- load_dfa file_example_dfa ;; dfa <- unwrap dfa ;;
  table <- dfa_to_table dfa ;;
  Ret (art ++ [10%N] ++ art' ++ [10%N], mk_gui table table).
