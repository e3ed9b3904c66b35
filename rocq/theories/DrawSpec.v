(** * DrawSpec: what a drawing of an automaton should look like

    A drawing connects every ordered pair of states that has transitions by one link, which carries all their labels and lies
    on some level above the states. *)
From Coq Require Import Ascii String List NArith Arith Bool.
From Verif Require Import Base Spec TableModel Messages DrawModel.
Import ListNotations.
Close Scope string_scope.
Open Scope list_scope.

(** ** Labels of the transitions between two states, in the order of the alphabet, epsilon last *)
Definition dfa_labels (d : dfa) (i j : nat) : list str :=
  match nth_error (dfa_states d) i with
  | None => []
  | Some s => map fst (filter (fun '(_, t) => t =? j) (combine (dfa_alphabet d) (ds_transitions s)))
  end.
Definition nfa_labels (n : nfa) (i j : nat) : list str :=
  match nth_error (nfa_states n) i with
  | None => []
  | Some s => flat_map (fun '(a, ts) => map (fun _ => a) (filter (Nat.eqb j) ts)) (combine (nfa_alphabet n) (ns_transitions s)) ++
              map (fun _ => [949%N]) (filter (Nat.eqb j) (ns_eps s))
  end.

(** The texts [l] with [sep] between them *)
Fixpoint joined (sep : str) (l : list str) : str :=
  match l with
  | [] => []
  | [x] => x
  | x :: xs => x ++ sep ++ joined sep xs
  end.

(** ** Links *)
Record link : Type := mk_link { lk_from : nat; lk_to : nat; lk_labels : list str; lk_level : nat }.
Definition lk_left (l : link) : nat := Nat.min (lk_from l) (lk_to l).
Definition lk_right (l : link) : nat := Nat.max (lk_from l) (lk_to l).
Definition lk_loop (l : link) : bool := lk_from l =? lk_to l.

(** Spans of states, from [l] to [r]: the first one ends before the second one starts.  A link may end at the state where
    another one (or a loop) starts; a loop takes all the room of its state. *)
Definition before (l1 r1 l2 r2 : nat) : Prop := if l1 =? r1 then r1 < l2 else r1 <= l2.
Definition apart (a b : link) : Prop :=
  before (lk_left a) (lk_right a) (lk_left b) (lk_right b) \/ before (lk_left b) (lk_right b) (lk_left a) (lk_right a).

(** One link for every connected pair of states; levels are used, and links on the same level are apart *)
Record layout (n : nat) (labels : nat -> nat -> list str) (links : list link) (levels : nat) : Prop := {
  lo_once : NoDup (map (fun l => (lk_from l, lk_to l)) links);
  lo_real : forall l, In l links -> lk_from l < n /\ lk_to l < n /\ lk_labels l = labels (lk_from l) (lk_to l) /\ lk_labels l <> [];
  lo_all : forall i j, i < n -> labels i j <> [] -> exists l, In l links /\ lk_from l = i /\ lk_to l = j;
  lo_level : forall l, In l links -> lk_level l < levels;
  lo_used : forall k, k < levels -> exists l, In l links /\ lk_level l = k;
  lo_apart : forall a b, In a links -> In b links -> lk_level a = lk_level b -> a = b \/ apart a b
}.

(** ** ASCII art

    [w]: the length of the longest name.  The name of state [i] is written between the columns [left_x] and [right_x]. *)
Definition left_x (w i : nat) : nat := 5 + (7 + w) * i.
Definition right_x (w i : nat) : nat := 6 + w + (7 + w) * i.

(** Links start and end in these columns; a loop surrounds its state. *)
Definition lk_start (w : nat) (l : link) : nat := if lk_loop l then left_x w (lk_left l) else right_x w (lk_left l).
Definition lk_stop (w : nat) (l : link) : nat := if lk_loop l then right_x w (lk_right l) else left_x w (lk_right l).
(** the head is next to the state where the link comes from *)
Definition lk_head (w : nat) (l : link) : nat :=
  match Nat.compare (lk_from l) (lk_to l) with
  | Lt => right_x w (lk_from l) + 2
  | Eq => left_x w (lk_from l) + 1
  | Gt => left_x w (lk_from l) - 1
  end.
Definition lk_tip (l : link) : N := if lk_to l <? lk_from l then 60%N else 62%N.
Definition lk_bar (w : nat) (l : link) (x : nat) : bool := (x =? right_x w (lk_left l)) || (x =? left_x w (lk_right l)).
Definition lk_label (l : link) : str := joined (of_string ", ") (lk_labels l).
(** the label fits between the ends of the link *)
Definition fits (w : nat) (l : link) : Prop := lk_loop l = true \/ lk_start w l + length (lk_label l) < lk_stop w l.

(** The character in column [x] of the upper and of the lower line of a level *)
Definition top_cell (w : nat) (links : list link) (level x : nat) : N :=
  match find (fun l => (lk_level l =? level) && (lk_head w l =? x)) links with
  | Some l => lk_tip l
  | None =>
      if existsb (fun l => (lk_level l =? level) && (lk_start w l <=? x) && (x <=? lk_stop w l)) links then 45%N
      else if existsb (fun l => (level <? lk_level l) && lk_bar w l x) links then 124%N
      else 32%N
  end.
Definition bot_cell (w : nat) (links : list link) (level x : nat) : N :=
  match find (fun l => (lk_level l =? level) && negb (lk_loop l) &&
                       (lk_start w l <? x) && (x <=? lk_start w l + length (lk_label l))) links with
  | Some l => nth (x - lk_start w l - 1) (lk_label l) 32%N
  | None => if existsb (fun l => (level <=? lk_level l) && lk_bar w l x) links then 124%N else 32%N
  end.

(** The last line: the states in order *)
Definition states_line (w : nat) (states : list draw_state) : str :=
  of_string "-> " ++
  concat (map (fun s => of_string (if st_accepting s then "(( " else "(  ") ++ st_name s ++ repeat 32%N (w - length (st_name s)) ++
                        of_string (if st_accepting s then " )) " else "  ) ")) states).

(** The drawing: from the highest level downwards *)
Definition art_width (w : nat) (n : nat) : nat := 5 + w + (7 + w) * n.
Definition level_lines (w n : nat) (links : list link) (level : nat) : list str :=
  [map (top_cell w links level) (seq 0 (art_width w n)); map (bot_cell w links level) (seq 0 (art_width w n))].
Definition picture (w : nat) (states : list draw_state) (links : list link) (levels : nat) : str :=
  joined [10%N] (flat_map (level_lines w (length states) links) (rev (seq 0 levels)) ++ [states_line w states]).

(** The length of the longest name *)
Definition widest (names : list str) (w : nat) : Prop :=
  (forall s, In s names -> length s <= w) /\ exists s, In s names /\ length s = w.

(** The labels between every two different states fit between them *)
Definition labels_fit (w n : nat) (labels : nat -> nat -> list str) : Prop :=
  forall i j, i < n -> j < n -> i <> j ->
    right_x w (Nat.min i j) + length (joined (of_string ", ") (labels i j)) < left_x w (Nat.max i j).

(** ** Labels that are longer than their links

    They are written over what follows on their line, and a label that starts further to the right is written on top. *)
Definition lk_writes (w : nat) (l : link) (x : nat) : bool :=
  negb (lk_loop l) && (lk_start w l <? x) && (x <=? lk_start w l + length (lk_label l)).
Fixpoint rightmost (ls : list link) : option link :=
  match ls with
  | [] => None
  | l :: r => match rightmost r with Some m => if lk_left l <? lk_left m then Some m else Some l | None => Some l end
  end.
Definition over_cell (w : nat) (links : list link) (level x : nat) : N :=
  match rightmost (filter (fun l => (lk_level l =? level) && lk_writes w l x) links) with
  | Some l => nth (x - lk_start w l - 1) (lk_label l) 32%N
  | None => if existsb (fun l => (level <=? lk_level l) && lk_bar w l x) links then 124%N else 32%N
  end.
Definition over_lines (w n : nat) (links : list link) (level : nat) : list str :=
  [map (top_cell w links level) (seq 0 (art_width w n)); map (over_cell w links level) (seq 0 (art_width w n))].
Definition picture_over (w : nat) (states : list draw_state) (links : list link) (levels : nat) : str :=
  joined [10%N] (flat_map (over_lines w (length states) links) (rev (seq 0 levels)) ++ [states_line w states]).

(** The label between two different states ends within the line *)
Definition ends_inside (w n : nat) (labels : nat -> nat -> list str) (i j : nat) : Prop :=
  right_x w (Nat.min i j) + length (joined (of_string ", ") (labels i j)) < art_width w n.
(** Labels that do not fit between their states have characters of one byte only *)
Definition long_labels_ascii (w n : nat) (labels : nat -> nat -> list str) : Prop :=
  forall i j, i < n -> j < n -> i <> j ->
    right_x w (Nat.min i j) + length (joined (of_string ", ") (labels i j)) < left_x w (Nat.max i j) \/
    forall a c, In a (labels i j) -> In c a -> (c < 128)%N.

(** ** Graphical drawings *)
Section Graphic.
Context {fl : floats} (opts : draw_options fl).
Local Notation "x + y" := (f_add fl x y).
Local Notation "x - y" := (f_sub fl x y).
Local Notation "x * y" := (f_mul fl x y).
Local Notation num := (f_of_usize fl).
Local Notation pt := (F fl * F fl)%type.

(** What is seen: shapes with their colours *)
Inductive shape : Type :=
| Circle (center : pt) (radius thickness : F fl)
| Text (center : pt) (text : str)
| Line (from to : pt) (thickness : F fl).
Definition colour : Type := (nat * nat * nat)%type.

(** the shapes that a list of calls paints, with the colour that was set last *)
Fixpoint painted (c : option colour) (calls : list (call fl)) : list (option colour * shape) :=
  match calls with
  | [] => []
  | SetColor _ c' :: r => painted (Some c') r
  | DrawCircle _ p radius t :: r => (c, Circle p radius t) :: painted c r
  | DrawCenteredText _ p s :: r => (c, Text p s) :: painted c r
  | DrawLine _ p q t :: r => (c, Line p q t) :: painted c r
  | StartDrawing _ :: r | FinishDrawing _ :: r => painted c r
  end.
Definition paints (x : call fl) : Prop := x <> StartDrawing fl /\ x <> FinishDrawing fl.

(** from drawing coordinates to the coordinates of the canvas *)
Definition at_ (x y : F fl) : pt := ((x + o_x_offset fl opts) * o_x_scale fl opts, (y + o_y_offset fl opts) * o_y_scale fl opts).
Definition line_to (x y x' y' : F fl) (t : F fl) : option colour * shape := (Some (o_line_color fl opts), Line (at_ x y) (at_ x' y') t).
Definition circle_at (x y r t : F fl) : option colour * shape := (Some (o_circle_color fl opts), Circle (at_ x y) (r * o_x_scale fl opts) t).
Definition text_at (x y : F fl) (s : str) : option colour * shape := (Some (o_text_color fl opts), Text (at_ x y) s).

(** columns and rows *)
Definition state_x (i : nat) : F fl :=
  o_init_arrow_length fl opts + o_center_line_padding fl opts + o_circle_radius fl opts +
  (o_circle_radius fl opts * num 2 + o_center_line_padding fl opts) * num i.
Definition link_y (levels level : nat) : F fl := o_floor_height fl opts * num (levels - level).
Definition base_y (levels : nat) : F fl := num (levels + 1) * o_floor_height fl opts.
Definition state_y (levels : nat) : F fl := base_y levels + o_line_circle_margin fl opts + o_circle_radius fl opts.

(** the arrow in front of the first state *)
Definition entry_shapes (levels : nat) : list (option colour * shape) :=
  let y := state_y levels in
  let x := o_init_arrow_length fl opts in
  let arm := o_init_arrow_arms_length fl opts in
  let t := o_init_arrow_width fl opts in
  [line_to (num 0) y x y t; line_to x y (x - arm) (y - arm) t; line_to x y (x - arm) (y - f_neg fl arm) t].
(** a state: a circle, another one if it is accepting, an arrow from below if it is initial, and its name *)
Definition state_shapes (levels i : nat) (s : draw_state) : list (option colour * shape) :=
  let x := state_x i in
  let y := state_y levels in
  let below := y + (o_circle_radius fl opts + o_center_line_padding fl opts) in
  let arm := o_init_arrow_arms_length fl opts in
  let t := o_init_arrow_width fl opts in
  [circle_at x y (o_circle_radius fl opts) (o_circle_width fl opts)] ++
  (if st_accepting s then [circle_at x y (o_accepting_circle_radius fl opts) (o_accepting_circle_width fl opts)] else []) ++
  (if st_initial s then
     [line_to (x + num 0) below (x + num 0 + num 0) (below + o_init_arrow_length fl opts) t;
      line_to (x + num 0) below (x + num 0 + arm) (below + arm) t;
      line_to (x + num 0) below (x + num 0 + f_neg fl arm) (below + arm) t]
   else []) ++
  [text_at x y (st_name s)].
(** a link: from the right half of its left state to the left half of its right state.  The tip is at the state where the link
    goes to. *)
Definition link_shapes (levels : nat) (l : link) : list (option colour * shape) :=
  let xl := state_x (lk_left l) + o_from_line_offset fl opts in
  let xr := state_x (lk_right l) - o_to_line_offset fl opts in
  let y := link_y levels (lk_level l) in
  let base := base_y levels in
  let arm := o_trans_arrow_arms_length fl opts in
  let t := o_trans_line_width fl opts in
  let middle := f_div fl (xl + xr) (num 2) in
  let back := if lk_to l <? lk_from l then num 1 else f_neg fl (num 1) in
  let tip := middle - arm * back * f_half fl in
  let goal := if lk_from l <? lk_to l then state_x (lk_to l) - o_to_line_offset fl opts
              else state_x (lk_to l) + o_from_line_offset fl opts in
  [line_to xl base xl y t; line_to xr base xr y t; line_to xl y xr y t] ++
  (if o_middle_arrow fl opts then [line_to tip y (tip + back * arm) (y + arm) t; line_to tip y (tip + back * arm) (y - arm) t] else []) ++
  (if o_end_arrow fl opts then [line_to goal base (goal - arm) (base - arm) t; line_to goal base (goal - f_neg fl arm) (base - arm) t] else []) ++
  [text_at middle (y - o_text_margin fl opts) (lk_label l)].
Definition shapes (states : list draw_state) (links : list link) (levels : nat) : list (option colour * shape) :=
  entry_shapes levels ++ concat (map (fun '(i, s) => state_shapes levels i s) (combine (seq 0 (length states)) states)) ++
  flat_map (link_shapes levels) links.

(** A correct list of calls: it starts, paints the shapes, and finishes; no colour is set after the last shape *)
Definition ends_with_shape (body : list (call fl)) : Prop := forall b c, body <> b ++ [SetColor fl c].
Definition paints_shapes (states : list draw_state) (links : list link) (levels : nat) (calls : list (call fl)) : Prop :=
  exists body, calls = StartDrawing fl :: body ++ [FinishDrawing fl] /\ Forall paints body /\ ends_with_shape body /\
    painted None body = shapes states links levels.
End Graphic.
