(** * DrawModel: drawings of automata (dandy-draw/src/lib.rs) *)
From Coq Require Import Ascii String List NArith Arith Bool.
From Verif Require Import Base Spec TableModel Messages.
Import ListNotations.
Close Scope string_scope.
Open Scope list_scope.

(** ** Arrows *)

(** dandy-draw/src/lib.rs:590-595 [enum Direction] *)
Inductive direction : Type := DLeft | DRight | DSpot.

(** dandy-draw/src/lib.rs:590: the derived [==] *)
Definition direction_eqb (a b : direction) : bool :=
  match a, b with DLeft, DLeft | DRight, DRight | DSpot, DSpot => true | _, _ => false end.

(** dandy-draw/src/lib.rs:555-561 [struct Arrow], 547-553 [struct GroupedArrow] *)
Record arrow : Type := mk_arrow { ar_left : nat; ar_right : nat; ar_dir : direction; ar_label : str }.

(** dandy-draw/src/lib.rs:547-553 [struct GroupedArrow] *)
Record grouped : Type := mk_grouped { gr_left : nat; gr_right : nat; gr_dir : direction; gr_labels : list str }.

(** dandy-draw/src/lib.rs:563-588 [Arrow::new] *)
Definition arrow_new (from to : nat) (label : str) : arrow :=
  match Nat.compare from to with
  | Lt => mk_arrow from to DRight label
  | Eq => mk_arrow from to DSpot label
  | Gt => mk_arrow to from DLeft label
  end.

(** dandy-draw/src/lib.rs:450-462 [dfa_to_arrows] *)
Definition dfa_to_arrows (d : dfa) : R (list arrow) :=
  l <- mapR (fun '(from, state) =>
               mapR (fun '(idx, to) => a <- index (dfa_alphabet d) idx ;; Ret (arrow_new from to a))
                    (enumerate (ds_transitions state)))
            (enumerate (dfa_states d)) ;;
  Ret (concat l).

(** dandy-draw/src/lib.rs:464-485 [nfa_to_arrows]; targets are listed in the order of the transition sets. The label
    is on line 481. *)
Definition eps_label : str := [949%N].

(** dandy-draw/src/lib.rs:464-485 [nfa_to_arrows] *)
Definition nfa_to_arrows (n : nfa) : R (list arrow) :=
  l <- mapR (fun '(from, state) =>
               l <- mapR (fun '(idx, tos) =>
                            mapR (fun to => a <- index (nfa_alphabet n) idx ;; Ret (arrow_new from to a)) tos)
                         (enumerate (ns_transitions state)) ;;
               Ret (concat l ++ map (fun to => arrow_new from to eps_label) (ns_eps state)))
            (enumerate (nfa_states n)) ;;
  Ret (concat l).

(** dandy-draw/src/lib.rs:524-529: the map from ends to arrows, [entry(..).or_default().push(..)]. (the key) *)
Definition arrow_key : Type := (nat * nat * direction)%type.

(** dandy-draw/src/lib.rs:525: [==] on keys *)
Definition key_eqb (a b : arrow_key) : bool :=
  let '(l, r, d) := a in let '(l', r', d') := b in (l =? l') && (r =? r') && direction_eqb d d'.

(** dandy-draw/src/lib.rs:525-527: [entry(..).or_default().push(..)] *)
Fixpoint entry_push (k : arrow_key) (x : str) (m : list (arrow_key * list str)) : list (arrow_key * list str) :=
  match m with
  | [] => [(k, [x])]
  | (k', v) :: r => if key_eqb k k' then (k', v ++ [x]) :: r else (k', v) :: entry_push k x r
  end.
(** dandy-draw/src/lib.rs:521-538 [group_arrows]; [drain] yields the entries in any order.  The map keeps only the labels of the arrows (the
    rest of an arrow is its key). *)
Definition group_arrows (h : hash_order) (arrows : list arrow) : list grouped :=
  let m := fold_left (fun m a => entry_push (ar_left a, ar_right a, ar_dir a) (ar_label a) m) arrows [] in
  map (fun '((l, r, d), labels) => mk_grouped l r d labels) (ho h [80] m).

(** dandy-draw/src/lib.rs:635-637 [GroupedArrow::label] *)
Definition gr_label (g : grouped) : str := join (of_string ", ") (gr_labels g).

(** ** Placing arrows, dandy-draw/src/lib.rs:487-519 [place_arrows], for any type with [left] and [right] *)
Section Place.
Context {T : Type} (left right : T -> nat).

(** [sort_by_key(|arrow| usize::MAX - arrow.right())]: stable, by decreasing [right]. (dandy-draw/src/lib.rs:489) *)
Fixpoint insert_desc (x : T) (l : list T) : list T :=
  match l with
  | [] => [x]
  | y :: ys => if right y <=? right x then x :: l else y :: insert_desc x ys
  end.

(** dandy-draw/src/lib.rs:489: the whole sort *)
Fixpoint sort_desc (l : list T) : list T := match l with [] => [] | x :: xs => insert_desc x (sort_desc xs) end.

(** dandy-draw/src/lib.rs:497-512: one pass; [old] is listed in the order of popping, the results in the order of pushing *)
Fixpoint place_pass (old : list T) (end_of_last : nat) (depth : nat) : list (T * nat) * list T :=
  match old with
  | [] => ([], [])
  | a :: rest =>
      if end_of_last <=? left a then
        let '(placed, unplaced) := place_pass rest (if left a =? right a then right a + 1 else right a) depth in
        ((a, depth) :: placed, unplaced)
      else
        let '(placed, unplaced) := place_pass rest end_of_last depth in (placed, a :: unplaced)
  end.
(** dandy-draw/src/lib.rs:494-516; [unplaced] is popped from its end, the pushed arrows are reversed, so that [rev unplaced] goes on from the
    pushed ones *)
Fixpoint place_loop (fuel : nat) (unplaced : list T) (placed : list (T * nat)) (depth : nat) : R (list (T * nat) * nat) :=
  match unplaced with
  | [] => Ret (placed, depth)
  | _ :: _ =>
      match fuel with
      | O => Diverge
      | S fuel =>
          let '(now, later) := place_pass (rev unplaced) 0 depth in
          place_loop fuel (rev later) (placed ++ now) (S depth)
      end
  end.

(** dandy-draw/src/lib.rs:487-519 [place_arrows] *)
Definition place_arrows (arrows : list T) : R (list (T * nat) * nat) :=
  place_loop (length arrows) (sort_desc arrows) [] 0.
End Place.

(** dandy-draw/src/lib.rs:171, 333: [place_arrows] for grouped arrows (dandy-draw/src/lib.rs:622-638) *)
Definition place_grouped (gs : list grouped) : R (list (grouped * nat) * nat) := place_arrows gr_left gr_right gs.

(** ** Text: strings are lists of characters; byte offsets are computed from the UTF-8 lengths *)

(** The number of bytes of a character (dandy-draw/src/lib.rs:374-430) *)
Definition utf8_len (c : N) : nat :=
  if (c <? 128)%N then 1 else if (c <? 2048)%N then 2 else if (c <? 65536)%N then 3 else 4.

(** [str::len] (dandy-draw/src/lib.rs:426) *)
Fixpoint byte_len (s : str) : nat := match s with [] => 0 | c :: r => utf8_len c + byte_len r end.
(** the character that starts at a byte offset; [None] if the offset is inside of a character or behind the end.
    (dandy-draw/src/lib.rs:430) *)
Fixpoint boundary (s : str) (b : nat) : option nat :=
  match b with
  | O => Some 0
  | _ => match s with
         | [] => None
         | c :: r => if b <? utf8_len c then None else option_map S (boundary r (b - utf8_len c))
         end
  end.
(** [s.as_bytes_mut()[x] = c] for an ASCII string [s]. (dandy-draw/src/lib.rs:374-408) *)
Definition set_byte (s : str) (x : nat) (c : N) : R str := if x <? length s then Ret (set_nth x c s) else Panic.
(** [s.char_indices().nth(n).unwrap().0]. (dandy-draw/src/lib.rs:426) *)
Definition char_offset (s : str) (n : nat) : R nat := if n <? length s then Ret (byte_len (firstn n s)) else Panic.
(** [s.replace_range(a..b, r)]: panics if the range is not a range of characters. (dandy-draw/src/lib.rs:430) *)
Definition replace_range (s : str) (a b : nat) (r : str) : R str :=
  match boundary s a, boundary s b with
  | Some i, Some j => if i <=? j then Ret (firstn i s ++ r ++ skipn j s) else Panic
  | _, _ => Panic
  end.

(** ** ASCII art *)

(** dandy-draw/src/lib.rs:640-645 [struct State], 647-665 *)
Record draw_state : Type := mk_draw_state { st_name : str; st_accepting : bool; st_initial : bool }.

(** dandy-draw/src/lib.rs:647-655 *)
Definition of_dfa_state (s : dfa_state) : draw_state := mk_draw_state (ds_name s) (ds_accepting s) (ds_initial s).

(** dandy-draw/src/lib.rs:657-665 *)
Definition of_nfa_state (s : nfa_state) : draw_state := mk_draw_state (ns_name s) (ns_accepting s) (ns_initial s).

(** dandy-draw/src/lib.rs:335-342 *)
Definition left_x_idx (w idx : nat) : nat := 5 + (7 + w) * idx.

(** dandy-draw/src/lib.rs:339-342 *)
Definition right_x_idx (w idx : nat) : nat := 6 + w + (7 + w) * idx.

(** [iter.max()] on numbers. (dandy-draw/src/lib.rs:329) *)
Definition max_of (l : list nat) : option nat := match l with [] => None | x :: xs => Some (fold_left max xs x) end.

(** dandy-draw/src/lib.rs:358-364: a state in the last line *)
Definition state_text (w : nat) (s : draw_state) : str :=
  if st_accepting s then of_string "(( " ++ pad (st_name s) w ++ of_string " )) "
  else of_string "(  " ++ pad (st_name s) w ++ of_string "  ) ".

(** dandy-draw/src/lib.rs:345-366 *)
Definition last_line (w : nat) (states : list draw_state) : str := of_string "-> " ++ concat (map (state_text w) states).

(** dandy-draw/src/lib.rs:390-392: [for x in leftmost..=rightmost] *)
Fixpoint set_bytes (s : str) (xs : list nat) (c : N) : R str :=
  match xs with [] => Ret s | x :: r => s <- set_byte s x c ;; set_bytes s r c end.

(** [leftmost..=rightmost], dandy-draw/src/lib.rs:390 *)
Definition range_incl (a b : nat) : list nat := seq a (S b - a).

(** dandy-draw/src/lib.rs:383-408: the shape of an arrow; [left_x_idx(right) - 1] cannot underflow *)
Definition draw_shape (w : nat) (acc : str * str * list nat) (g : grouped) : R (str * str * list nat) :=
  let '(top_line, bot_line, bars) := acc in
  let '(leftmost, rightmost) :=
    if direction_eqb (gr_dir g) DSpot then (left_x_idx w (gr_left g), right_x_idx w (gr_right g))
    else (right_x_idx w (gr_left g), left_x_idx w (gr_right g)) in
  top_line <- set_bytes top_line (range_incl leftmost rightmost) 45 ;;
  top_line <- (match gr_dir g with
               | DLeft => set_byte top_line (left_x_idx w (gr_right g) - 1) 60
               | DRight => set_byte top_line (right_x_idx w (gr_left g) + 2) 62
               | DSpot => set_byte top_line (left_x_idx w (gr_left g) + 1) 62
               end) ;;
  let bars := fst (hs_insert (right_x_idx w (gr_left g)) bars) in
  let bars := fst (hs_insert (left_x_idx w (gr_right g)) bars) in
  bot_line <- set_byte bot_line (right_x_idx w (gr_left g)) 124 ;;
  bot_line <- set_byte bot_line (left_x_idx w (gr_right g)) 124 ;;
  Ret (top_line, bot_line, bars).

(** dandy-draw/src/lib.rs:379-409: the arrows of a level *)
Fixpoint draw_shapes (w : nat) (acc : str * str * list nat) (gs : list grouped) : R (str * str * list nat) :=
  match gs with [] => Ret acc | g :: r => acc <- draw_shape w acc g ;; draw_shapes w acc r end.

(** dandy-draw/src/lib.rs:419-430: the label of an arrow *)
Definition draw_label (w : nat) (bot_line : str) (g : grouped) : R str :=
  if negb (gr_left g =? gr_right g) then
    let label := gr_label g in
    start <- char_offset bot_line (right_x_idx w (gr_left g)) ;;
    replace_range bot_line (start + 1) (start + length label + 1) label
  else Ret bot_line.

(** dandy-draw/src/lib.rs:414-441: the labels of a level *)
Fixpoint draw_labels (w : nat) (bot_line : str) (gs : list grouped) : R str :=
  match gs with [] => Ret bot_line | g :: r => bot_line <- draw_label w bot_line g ;; draw_labels w bot_line r end.

(** dandy-draw/src/lib.rs:370-444: the lines of the levels, from the highest one; the set of bars is iterated in any order *)
Fixpoint draw_levels (h : hash_order) (w art_width : nat) (arrows : list (grouped * nat)) (bars : list nat) (levels : nat)
  : R (list str) :=
  match levels with
  | O => Ret []
  | S level =>
      let blank := repeat 32%N art_width in
      top_line <- set_bytes blank (ho h [81; level] bars) 124 ;;
      bot_line <- set_bytes blank (ho h [81; level] bars) 124 ;;
      let here := map fst (filter (fun '(_, l) => l =? level) arrows) in
      '(top_line, bot_line, bars) <- draw_shapes w (top_line, bot_line, bars) here ;;
      bot_line <- draw_labels w bot_line here ;;
      rest <- draw_levels h w art_width arrows bars level ;;
      Ret (top_line :: bot_line :: rest)
  end.

(** dandy-draw/src/lib.rs:328-448 [ascii_art] *)
Definition ascii_art (h : hash_order) (states : list draw_state) (arrows : list arrow) : R str :=
  widest_state_name <- unwrap (max_of (map (fun s => length (st_name s)) states)) ;;
  '(arrows, levels) <- place_grouped (group_arrows h arrows) ;;
  let art_width := right_x_idx widest_state_name (length states) - 1 in
  lines <- draw_levels h widest_state_name art_width arrows [] levels ;;
  Ret (join [10%N] (lines ++ [last_line widest_state_name states])).

(** dandy-draw/src/lib.rs:316-326 [dfa_ascii_art], [nfa_ascii_art] *)
Definition dfa_ascii_art (h : hash_order) (d : dfa) : R str :=
  arrows <- dfa_to_arrows d ;; ascii_art h (map of_dfa_state (dfa_states d)) arrows.

(** dandy-draw/src/lib.rs:322-326 [nfa_ascii_art] *)
Definition nfa_ascii_art (h : hash_order) (n : nfa) : R str :=
  arrows <- nfa_to_arrows n ;; ascii_art h (map of_nfa_state (nfa_states n)) arrows.

(** ** Graphical drawings

    Numbers of type [f32] are an arbitrary type with arbitrary operations.  A drawing is the list of the calls that the given
    [Drawer] receives. *)

(** (dandy-draw/src/lib.rs:156-314) *)
Record floats : Type := mk_floats {
  F : Type;
  f_add : F -> F -> F; f_sub : F -> F -> F; f_mul : F -> F -> F; f_div : F -> F -> F; f_neg : F -> F;
  f_of_usize : nat -> F;
  f_half : F (* 0.5 *)
}.
Section Draw.
Context (fl : floats).
Local Notation F := (F fl).
(** dandy-draw/src/pos2.rs:3-33 *)
Definition pos : Type := (F * F)%type.

(** dandy-draw/src/pos2.rs:31-40 *)
Definition p_add (a b : pos) : pos := (f_add fl (fst a) (fst b), f_add fl (snd a) (snd b)).

(** dandy-draw/src/pos2.rs:42-51 *)
Definition p_sub (a b : pos) : pos := (f_sub fl (fst a) (fst b), f_sub fl (snd a) (snd b)).

(** dandy-draw/src/pos2.rs:64-73 *)
Definition p_mul (a b : pos) : pos := (f_mul fl (fst a) (fst b), f_mul fl (snd a) (snd b)).

(** [0.0], e.g. dandy-draw/src/lib.rs:193 *)
Definition f_0 : F := f_of_usize fl 0.

(** [1.0], e.g. dandy-draw/src/lib.rs:265 *)
Definition f_1 : F := f_of_usize fl 1.

(** [2.0], e.g. dandy-draw/src/lib.rs:177, 261 *)
Definition f_2 : F := f_of_usize fl 2.

(** dandy-draw/src/pos2.rs:26-28 [Pos2::y] *)
Definition p_y (y : F) : pos := (f_0, y).

(** dandy-draw/src/lib.rs:16-24 [trait Drawer] ([draw_rect] is never called) *)
Inductive call : Type :=
| StartDrawing
| FinishDrawing
| DrawCircle (p : pos) (radius thickness : F)
| DrawCenteredText (p : pos) (text : str)
| DrawLine (from to : pos) (thickness : F)
| SetColor (rgb : nat * nat * nat).

(** dandy-draw/src/lib.rs:107-134 [struct DrawOptions] *)
Record draw_options : Type := mk_draw_options {
  o_x_scale : F; o_y_scale : F; o_x_offset : F; o_y_offset : F;
  o_center_line_padding : F; o_circle_radius : F; o_circle_width : F;
  o_accepting_circle_radius : F; o_accepting_circle_width : F;
  o_init_arrow_length : F; o_init_arrow_arms_length : F; o_init_arrow_width : F;
  o_trans_arrow_arms_length : F; o_trans_line_width : F;
  o_from_line_offset : F; o_to_line_offset : F; o_floor_height : F; o_text_margin : F; o_line_circle_margin : F;
  o_end_arrow : bool; o_middle_arrow : bool;
  o_text_color : nat * nat * nat; o_circle_color : nat * nat * nat; o_line_color : nat * nat * nat
}.

Section WithOptions.
Context (opts : draw_options).
(** dandy-draw/src/lib.rs:32-70 [OffsetScaleDrawer] *)
Definition offset : pos := (o_x_offset opts, o_y_offset opts).

(** dandy-draw/src/lib.rs:163 *)
Definition scale : pos := (o_x_scale opts, o_y_scale opts).

(** dandy-draw/src/lib.rs:43, 51, 61-62 *)
Definition place (p : pos) : pos := p_mul (p_add p offset) scale.

(** dandy-draw/src/lib.rs:41-47 *)
Definition draw_circle (p : pos) (radius thickness : F) : call := DrawCircle (place p) (f_mul fl radius (fst scale)) thickness.

(** dandy-draw/src/lib.rs:49-52 *)
Definition draw_centered_text (p : pos) (text : str) : call := DrawCenteredText (place p) text.

(** dandy-draw/src/lib.rs:59-65 *)
Definition draw_line (from to : pos) (thickness : F) : call := DrawLine (place from) (place to) thickness.

(** dandy-draw/src/lib.rs:173-182 *)
Definition x_pos (idx : nat) : F :=
  f_add fl (f_add fl (f_add fl (o_init_arrow_length opts) (o_center_line_padding opts)) (o_circle_radius opts))
           (f_mul fl (f_add fl (f_mul fl (o_circle_radius opts) f_2) (o_center_line_padding opts)) (f_of_usize fl idx)).

(** dandy-draw/src/lib.rs:180 *)
Definition x_from_pos (idx : nat) : F := f_add fl (x_pos idx) (o_from_line_offset opts).

(** dandy-draw/src/lib.rs:182 *)
Definition x_to_pos (idx : nat) : F := f_sub fl (x_pos idx) (o_to_line_offset opts).
(** dandy-draw/src/lib.rs:184-185 *)
Definition line_baseline (levels : nat) : F := f_mul fl (f_of_usize fl (levels + 1)) (o_floor_height opts).

(** dandy-draw/src/lib.rs:185 *)
Definition circle_center (levels : nat) : F :=
  f_add fl (f_add fl (line_baseline levels) (o_line_circle_margin opts)) (o_circle_radius opts).

(** dandy-draw/src/lib.rs:190-204: the arrow to the first state *)
Definition draw_entry (levels : nat) : list call :=
  let cc := circle_center levels in
  let arrow_base := (o_init_arrow_length opts, cc) in
  let arm := o_init_arrow_arms_length opts in
  [SetColor (o_line_color opts);
   draw_line (f_0, cc) arrow_base (o_init_arrow_width opts);
   draw_line (o_init_arrow_length opts, cc) (p_sub arrow_base (arm, arm)) (o_init_arrow_width opts);
   draw_line (o_init_arrow_length opts, cc) (p_sub arrow_base (arm, f_neg fl arm)) (o_init_arrow_width opts)].

(** dandy-draw/src/lib.rs:207-240: a state *)
Definition draw_a_state (levels : nat) (idx : nat) (state : draw_state) : list call :=
  let cc := (x_pos idx, circle_center levels) in
  [SetColor (o_circle_color opts); draw_circle cc (o_circle_radius opts) (o_circle_width opts)] ++
  (if st_accepting state then [draw_circle cc (o_accepting_circle_radius opts) (o_accepting_circle_width opts)] else []) ++
  (if st_initial state then
     let start := p_add cc (p_y (f_add fl (o_circle_radius opts) (o_center_line_padding opts))) in
     let arm := o_init_arrow_arms_length opts in
     [SetColor (o_line_color opts);
      draw_line start (p_add start (p_y (o_init_arrow_length opts))) (o_init_arrow_width opts);
      draw_line start (p_add start (arm, arm)) (o_init_arrow_width opts);
      draw_line start (p_add start (f_neg fl arm, arm)) (o_init_arrow_width opts)]
   else []) ++
  [SetColor (o_text_color opts); draw_centered_text cc (st_name state)].

(** dandy-draw/src/lib.rs:242-312: an arrow; [levels - arrow.level] must not underflow *)
Definition draw_an_arrow (levels : nat) (ga : grouped * nat) : R (list call) :=
  let '(g, level) := ga in
  if levels <? level then Panic else
  let line_height := f_mul fl (o_floor_height opts) (f_of_usize fl (levels - level)) in
  let base := line_baseline levels in
  let width := o_trans_line_width opts in
  let arm := o_trans_arrow_arms_length opts in
  let xl := x_from_pos (gr_left g) in
  let xr := x_to_pos (gr_right g) in
  let middle := f_div fl (f_add fl xl xr) f_2 in
  Ret ([SetColor (o_line_color opts);
        draw_line (xl, base) (xl, line_height) width;
        draw_line (xr, base) (xr, line_height) width;
        draw_line (xl, line_height) (xr, line_height) width] ++
       (if o_middle_arrow opts then
          let mul := if direction_eqb (gr_dir g) DLeft then f_1 else f_neg fl f_1 in
          let middle := f_sub fl middle (f_mul fl (f_mul fl arm mul) (f_half fl)) in
          [draw_line (middle, line_height) (f_add fl middle (f_mul fl mul arm), f_add fl line_height arm) width;
           draw_line (middle, line_height) (f_add fl middle (f_mul fl mul arm), f_sub fl line_height arm) width]
        else []) ++
       (if o_end_arrow opts then
          let tip := if direction_eqb (gr_dir g) DRight then (xr, base) else (xl, base) in
          [draw_line tip (p_sub tip (arm, arm)) width;
           draw_line tip (p_sub tip (f_neg fl arm, arm)) width]
        else []) ++
       [SetColor (o_text_color opts);
        draw_centered_text (middle, f_sub fl line_height (o_text_margin opts)) (gr_label g)]).

(** dandy-draw/src/lib.rs:156-314 [draw] *)
Definition draw (h : hash_order) (states : list draw_state) (arrows : list arrow) : R (list call) :=
  '(arrows, levels) <- place_grouped (group_arrows h arrows) ;;
  calls <- mapR (draw_an_arrow levels) arrows ;;
  Ret ([StartDrawing] ++ draw_entry levels ++
       concat (map (fun '(idx, s) => draw_a_state levels idx s) (enumerate states)) ++ concat calls ++ [FinishDrawing]).
End WithOptions.

(** dandy-draw/src/lib.rs:136-154 [draw_dfa_with_opts], [draw_nfa_with_opts] ([draw_dfa] and [draw_nfa] use the default options) *)
Definition draw_dfa (h : hash_order) (opts : draw_options) (d : dfa) : R (list call) :=
  arrows <- dfa_to_arrows d ;; draw opts h (map of_dfa_state (dfa_states d)) arrows.

(** dandy-draw/src/lib.rs:150-154 [draw_nfa_with_opts] *)
Definition draw_nfa (h : hash_order) (opts : draw_options) (n : nfa) : R (list call) :=
  arrows <- nfa_to_arrows n ;; draw opts h (map of_nfa_state (nfa_states n)) arrows.
End Draw.
