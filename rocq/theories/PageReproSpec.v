(** * PageReproSpec: comparing two sessions with the page

    Nothing of the code is modelled here. *)
From Coq Require Import List NArith Arith Bool.
From Verif Require Import Base Spec TableSpec LayoutSpec DfaModel NfaModel WasmSpec DrawModel DrawSpec CanvasModel CanvasSpec PageModel PageSpec PageHistorySpec.
Import ListNotations.

(** The user does the same, but hash tables may have another order, and debug assertions may be on in one of them only *)
Inductive same_event : event -> event -> Prop :=
| same_edit a u : same_event (Edit a u) (Edit a u)
| same_click b h dbg h' dbg' : same_event (Click b h dbg) (Click b h' dbg').

(** The texts are tables of DFAs that differ only in the names and the order of their states *)
Definition tables_alike (u u' : str) : Prop :=
  exists d d', loads_dfa u d /\ loads_dfa u' d' /\ dfa_alphabet d = dfa_alphabet d' /\ (forall w, dfa_lang d w <-> dfa_lang d' w) /\
    length (dfa_states d) = length (dfa_states d') /\ exists f, dfa_iso d d' f.

Section Page.
Context {fl : floats} (db : doubles fl).
(** All texts are the same, but the output of the minimization may be another table *)
Definition looks_like (pg pg' : page db) : Prop :=
  (forall l, pg_text db pg l = pg_text db pg' l) /\
  (forall a, a <> MinimizeOut -> value db pg a = value db pg' a) /\
  (value db pg MinimizeOut = value db pg' MinimizeOut \/ tables_alike (value db pg MinimizeOut) (value db pg' MinimizeOut)).
(** The two lists are pictures of the same automata, in this order *)
Definition same_pictures (l l' : list (list (mark db))) : Prop := exists us, Forall2 (picture db) us l /\ Forall2 (picture db) us l'.
(** Event [k] of the session with the pages [pgs] paints the shapes of [n], in some layout, and nothing else *)
Definition draws_at (n : nfa) (pgs : list (page db)) (k : nat) : Prop :=
  let at_ := before db (page_init db) pgs in
  exists links levels ctx ctx', layout (length (nfa_states n)) (nfa_labels n) links levels /\
    canvas_of db (at_ k) = Some ctx /\ canvas_of db (at_ (S k)) = Some ctx' /\
    let sh := shapes (default_options fl) (map of_nfa_state (nfa_states n)) links levels in
    cx_marks db ctx' = cx_marks db ctx ++ map (shape_mark db) sh ++ again db sh.
End Page.
