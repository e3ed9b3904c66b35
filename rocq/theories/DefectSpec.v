(** * DefectSpec: which defect of a table is met first when it is read from the top, row by row and from left to right *)
From Coq Require Import List NArith Arith Bool.
From Verif Require Import Base Spec TableSpec.
Import ListNotations.

(** A row of a table: its name, the number of its entries, all states named in them from left to right, and whether it
    is marked as initial *)
Record row : Type := mk_row { row_name : str; row_entries : nat; row_targets : list str; row_initial : bool }.

Definition dfa_row (s : parsed_dfa_state) : row :=
  mk_row (pds_name s) (length (pds_transitions s)) (pds_transitions s) (pds_initial s).
Definition nfa_row (s : parsed_nfa_state) : row :=
  mk_row (pns_name s) (length (pns_transitions s)) (concat (pns_transitions s)) (pns_initial s).

(** The text of a header entry in error messages *)
Definition entry_text (e : nfa_entry) : str := match e with Element a => a | Eps => epsilon_str end.

(** [x] is the first element of [l] that occurred before *)
Definition first_repetition {A} (x : A) (l : list A) : Prop := exists l1 l2, l = l1 ++ x :: l2 /\ NoDup l1 /\ In x l1.

(** A row has as many entries as the header, and these name rows of the table only *)
Definition row_fine (width : nat) (rows : list row) (r : row) : Prop :=
  row_entries r = width /\ Forall (fun t => In t (map row_name rows)) (row_targets r).

(** Rows above a defect: fine, and at most one of them is initial *)
Definition rows_fine (width : nat) (rows above : list row) : Prop :=
  Forall (row_fine width rows) above /\ length (filter row_initial above) <= 1.

(** The first defect: a repeated header entry, then a repeated name, then the first row with a defect; in a row, the number
    of entries, then the first unknown state, then a second mark for the initial state; and a missing mark last *)
Inductive first_defect {E} (text : E -> str) (head : list E) (rows : list row) : parse_error -> Prop :=
| fd_head x : first_repetition x head -> first_defect text head rows (DuplicateAlphabetSymbol (text x))
| fd_name s : NoDup head -> first_repetition s (map row_name rows) -> first_defect text head rows (DuplicateStateDefinition s)
| fd_entries above r below : NoDup head -> NoDup (map row_name rows) -> rows = above ++ r :: below -> rows_fine (length head) rows above ->
    row_entries r <> length head ->
    first_defect text head rows (WrongNumberOfTransitions (row_name r) (row_entries r) (length head))
| fd_target above r below ts t ts' : NoDup head -> NoDup (map row_name rows) -> rows = above ++ r :: below -> rows_fine (length head) rows above ->
    row_entries r = length head -> row_targets r = ts ++ t :: ts' ->
    Forall (fun t => In t (map row_name rows)) ts -> ~ In t (map row_name rows) ->
    first_defect text head rows (TransitionDoesNotExist (row_name r) t)
| fd_initials above r below : NoDup head -> NoDup (map row_name rows) -> rows = above ++ r :: below -> rows_fine (length head) rows above ->
    row_fine (length head) rows r -> row_initial r = true -> (exists r', In r' above /\ row_initial r' = true) ->
    first_defect text head rows MultipleInitialStates
| fd_none : NoDup head -> NoDup (map row_name rows) -> rows_fine (length head) rows rows ->
    (forall r, In r rows -> row_initial r = false) -> first_defect text head rows MissingInitialState.
