(** * PageHistorySpec: which click an output of the page comes from

    Nothing of the code is modelled here. *)
From Coq Require Import List NArith Arith Bool.
From Verif Require Import Base Spec TableSpec LayoutSpec DfaModel NfaModel RegexParserModel WasmSpec DrawModel DrawSpec CanvasModel CanvasSpec PageModel PageSpec.
Import ListNotations.

Section Page.
Context {fl : floats} (db : doubles fl) (seg : str -> list str).
Local Notation page := (page db).

(** The page before event [k] of a session, if [pg] is the first page and the [pgs] are the pages after each event *)
Definition before (pg : page) (pgs : list page) (k : nat) : page := nth k (pg :: pgs) pg.
(** Event [k] is a click on [b] *)
Definition clicked (b : button) (es : list event) (k : nat) : Prop := exists e, nth_error es k = Some e /\ clicks b e = true.
(** A click on [b] changes the output of [b]; an error message of the conversion to a DFA is shown in the output *)
Definition delivers (b : button) (pg : page) : Prop :=
  match b with
  | BNfaToDfa => True
  | BMinimize => exists d, loads_dfa (value db pg MinimizeIn) d
  | BRegex => exists t, parse_regex seg (value db pg RegexIn) = Ret (Some t)
  | BVisualize => exists n, loads_nfa (value db pg VisualizeIn) n
  | _ => False
  end.

(** [ms] is what is painted for the NFA with the text [u] *)
Definition picture (u : str) (ms : list (mark db)) : Prop :=
  exists n links levels, loads_nfa u n /\ layout (length (nfa_states n)) (nfa_labels n) links levels /\
    let sh := shapes (options_at fl (f_of_usize fl 0) (f_of_usize fl 0)) (map of_nfa_state (nfa_states n)) links levels in
    ms = map (shape_mark db) sh ++ again db sh.
(** The pictures painted in a session: one for each click with a legal text, in the order of the clicks *)
Inductive pictures : page -> list event -> list page -> list (list (mark db)) -> Prop :=
| pictures_none pg : pictures pg [] [] []
| pictures_one pg e es pg' pgs ms l : clicks BVisualize e = true -> picture (value db pg VisualizeIn) ms -> pictures pg' es pgs l ->
    pictures pg (e :: es) (pg' :: pgs) (ms :: l)
| pictures_skip pg e es pg' pgs l : (clicks BVisualize e = true -> ~ delivers BVisualize pg) -> pictures pg' es pgs l ->
    pictures pg (e :: es) (pg' :: pgs) l.
(** All numbers of drawings are finite, and widths and radii are proper *)
Definition all_drawable : Prop := forall sts links levels,
  Forall (fun cs : option colour * @shape fl => drawable db (snd cs)) (shapes (options_at fl (f_of_usize fl 0) (f_of_usize fl 0)) sts links levels).
End Page.
