(** * PageSpec: what the page shows

    Everything is stated about what can be seen on the page before and after an event. *)
From Coq Require Import Ascii String List NArith Arith Bool.
From Verif Require Import Base Spec TableSpec LayoutSpec DfaModel NfaModel RegexModel TableModel RegexParserModel Messages MessageSpec
  WasmModel WasmSpec DrawModel DrawSpec CanvasModel CanvasSpec PageModel.
Import ListNotations.
Close Scope string_scope.
Open Scope list_scope.

(** Where a button puts its result; the events that click it, or edit an area *)
Definition output_of (b : button) : option area :=
  match b with BNfaToDfa => Some NfaToDfaOut | BMinimize => Some MinimizeOut | BRegex => Some RegexOut | _ => None end.
Definition clicks (b : button) (e : event) : bool :=
  match e with
  | Click b' _ _ => match b, b' with
                    | BDfaEq, BDfaEq | BNfaEq, BNfaEq | BNfaToDfa, BNfaToDfa | BVisualize, BVisualize | BMinimize, BMinimize | BRegex, BRegex => true
                    | _, _ => false
                    end
  | Edit _ _ => false
  end.
Definition edits (a : area) (e : event) : bool := match e with Edit a' _ => if area_dec a a' then true else false | _ => false end.

(** The text a script reads from a text area: each CR LF, and each other CR, reads as one LF *)
Inductive reads_as : str -> str -> Prop :=
| reads_end : reads_as [] []
| reads_crlf u v : reads_as u v -> reads_as (13%N :: 10%N :: u) (10%N :: v)
| reads_cr u v : hd_error u <> Some 10%N -> reads_as u v -> reads_as (13%N :: u) (10%N :: v)
| reads_other c u v : c <> 13%N -> reads_as u v -> reads_as (c :: u) (c :: v).

Section Page.
Context {fl : floats} (db : doubles fl) (seg : str -> list str).
Context (dfa_syntax nfa_syntax regex_syntax : str -> str).
Local Notation page := (page db).

(** Error messages: of the syntax error, or of a real defect of the table *)
Definition dfa_error (u m : str) : Prop :=
  ((~ exists t, dfa_text t u) /\ m = dfa_syntax u) \/ (exists t e, dfa_text t u /\ dfa_defect t e /\ describes e m).
Definition nfa_error (u m : str) : Prop :=
  ((~ exists t, nfa_text t u) /\ m = nfa_syntax u) \/ (exists t e, nfa_text t u /\ nfa_defect t e /\ describes e m).
(** A line of complaints: nothing if the text is fine *)
Definition dfa_complaint (prefix : String.string) (u line : str) : Prop :=
  ((exists d, loads_dfa u d) /\ line = []) \/ ((~ exists d, loads_dfa u d) /\ exists m, dfa_error u m /\ line = of_string prefix ++ m ++ [10%N]).
Definition nfa_complaint (prefix : String.string) (u line : str) : Prop :=
  ((exists n, loads_nfa u n) /\ line = []) \/ ((~ exists n, loads_nfa u n) /\ exists m, nfa_error u m /\ line = of_string prefix ++ m ++ [10%N]).

(** The canvas of the page *)
Definition canvas_of (pg : page) : option (context db) :=
  match hm_get (of_string "nfa-visualization") (pg_doc db pg) with Some (ECanvas _ c) => c | _ => None end.

(** Nothing but the listed parts of the page changes *)
Definition kept (areas : list area) (labels : list label) (pg pg' : page) : Prop :=
  (forall a, ~ In a areas -> value db pg' a = value db pg a) /\ (forall l, ~ In l labels -> pg_text db pg' l = pg_text db pg l).

(** The verdict of a comparison *)
Definition verdict (equal : Prop) (text : str) : Prop :=
  (equal /\ text = of_string "Equivalent") \/ (~ equal /\ text = of_string "Not equivalent").

Definition click_shows (b : button) (pg pg' : page) : Prop :=
  let u a := value db pg a in
  match b with
  | BDfaEq =>
      kept [] [DfaEqCheck; DfaEqErrors] pg pg' /\ canvas_of pg' = canvas_of pg /\
      (exists l1 l2, dfa_complaint "Error parsing DFA 1: " (u DfaEq1) l1 /\ dfa_complaint "Error parsing DFA 2: " (u DfaEq2) l2 /\
         pg_text db pg' DfaEqErrors = l1 ++ l2) /\
      (forall d1 d2, loads_dfa (u DfaEq1) d1 -> loads_dfa (u DfaEq2) d2 ->
         verdict (same_set (dfa_alphabet d1) (dfa_alphabet d2) /\ forall w, dfa_lang d1 w <-> dfa_lang d2 w) (pg_text db pg' DfaEqCheck)) /\
      ((~ exists d, loads_dfa (u DfaEq1) d) \/ (~ exists d, loads_dfa (u DfaEq2) d) ->
         pg_text db pg' DfaEqCheck = of_string "Fix errors first!")
  | BNfaEq =>
      kept [] [NfaEqCheck; NfaEqErrors] pg pg' /\ canvas_of pg' = canvas_of pg /\
      (exists l1 l2, nfa_complaint "Error parsing NFA 1: " (u NfaEq1) l1 /\ nfa_complaint "Error parsing NFA 2: " (u NfaEq2) l2 /\
         pg_text db pg' NfaEqErrors = l1 ++ l2) /\
      (forall n1 n2, loads_nfa (u NfaEq1) n1 -> loads_nfa (u NfaEq2) n2 ->
         verdict (same_set (nfa_alphabet n1) (nfa_alphabet n2) /\ forall w, nfa_lang n1 w <-> nfa_lang n2 w) (pg_text db pg' NfaEqCheck)) /\
      ((~ exists n, loads_nfa (u NfaEq1) n) \/ (~ exists n, loads_nfa (u NfaEq2) n) ->
         pg_text db pg' NfaEqCheck = of_string "Fix errors first!")
  | BNfaToDfa =>
      kept [NfaToDfaOut] [] pg pg' /\ canvas_of pg' = canvas_of pg /\
      ((exists n d, loads_nfa (u NfaToDfaIn) n /\ dfa_valid d /\ dfa_alphabet d = nfa_alphabet n /\ (forall w, dfa_lang d w <-> nfa_lang n w) /\
          dfa_to_table d = Ret (value db pg' NfaToDfaOut) /\ (nfa_alphabet n <> [] -> loads_dfa (value db pg' NfaToDfaOut) d)) \/
       ((~ exists n, loads_nfa (u NfaToDfaIn) n) /\ exists m, nfa_error (u NfaToDfaIn) m /\
          pg_value db pg' NfaToDfaOut = m))
  | BMinimize =>
      kept [MinimizeOut] [MinimizeBtn] pg pg' /\ canvas_of pg' = canvas_of pg /\
      ((exists d d', loads_dfa (u MinimizeIn) d /\ pg_text db pg' MinimizeBtn = of_string "Minimize!" /\
          dfa_valid d' /\ dfa_alphabet d' = dfa_alphabet d /\ (forall w, dfa_lang d' w <-> dfa_lang d w) /\
          (forall e, dfa_valid e -> same_set (dfa_alphabet e) (dfa_alphabet d) -> (forall w, dfa_lang e w <-> dfa_lang d w) ->
             length (dfa_states d') <= length (dfa_states e)) /\
          dfa_to_table d' = Ret (value db pg' MinimizeOut) /\ loads_dfa (value db pg' MinimizeOut) d') \/
       ((~ exists d, loads_dfa (u MinimizeIn) d) /\ dfa_error (u MinimizeIn) (pg_text db pg' MinimizeBtn) /\
          value db pg' MinimizeOut = u MinimizeOut))
  | BRegex =>
      kept [RegexOut] [RegexBtn] pg pg' /\ canvas_of pg' = canvas_of pg /\
      ((exists t n table, parse_regex seg (u RegexIn) = Ret (Some t) /\ pg_text db pg' RegexBtn = of_string "Convert!" /\
          nfa_valid n /\ nfa_alphabet n = first_occurrences (regex_graphemes t) /\ (forall w, nfa_lang n w <-> matches t w) /\
          nfa_to_table n = Ret table /\ (~ In 13%N table -> value db pg' RegexOut = table) /\
          ((forall a, In a (nfa_alphabet n) -> legal_token a) -> loads_nfa (value db pg' RegexOut) n)) \/
       (parse_regex seg (u RegexIn) = Ret None /\ pg_text db pg' RegexBtn = regex_syntax (u RegexIn) /\
          value db pg' RegexOut = u RegexOut))
  | BVisualize =>
      kept [] [VisualizeBtn] pg pg' /\
      ((exists n links levels ctx ctx', loads_nfa (u VisualizeIn) n /\ pg_text db pg' VisualizeBtn = of_string "Visualize!" /\
          layout (length (nfa_states n)) (nfa_labels n) links levels /\ canvas_of pg = Some ctx /\ canvas_of pg' = Some ctx' /\
          let sh := shapes (options_at fl (f_of_usize fl 0) (f_of_usize fl 0)) (map of_nfa_state (nfa_states n)) links levels in
          (Forall (fun cs => drawable db (snd cs)) sh ->
             cx_marks db ctx' = cx_marks db ctx ++ map (shape_mark db) sh ++ again db sh)) \/
       ((~ exists n, loads_nfa (u VisualizeIn) n) /\ nfa_error (u VisualizeIn) (pg_text db pg' VisualizeBtn) /\
          canvas_of pg' = canvas_of pg))
  end.
Definition event_shows (e : event) (pg pg' : page) : Prop :=
  match e with
  | Edit a u =>
      kept [a] [] pg pg' /\ canvas_of pg' = canvas_of pg /\
      (editable a = true -> ~ In 13%N u -> value db pg' a = u) /\ (editable a = false -> value db pg' a = value db pg a)
  | Click b _ _ => click_shows b pg pg'
  end.
(** The pages of a session, one after each event *)
Fixpoint session_shows (pg : page) (es : list event) (pgs : list page) : Prop :=
  match es, pgs with
  | [], [] => True
  | e :: es, pg' :: pgs => event_shows e pg pg' /\ session_shows pg' es pgs
  | _, _ => False
  end.

(** How many automata and expressions the module stores *)
Definition stored (pg : page) : nat * nat * nat :=
  (length (ws_dfas (pg_wasm db pg)), length (ws_nfas (pg_wasm db pg)), length (ws_regexes (pg_wasm db pg))).
(** What a click leaves in the module for ever: DFAs and NFAs *)
Definition leaves (b : button) (pg : page) (nd nn : nat) : Prop :=
  let u a := value db pg a in
  let dfa_ok a := exists d, loads_dfa (u a) d in
  let nfa_ok a := exists n, loads_nfa (u a) n in
  match b with
  | BDfaEq => nn = 0 /\ (((dfa_ok DfaEq1 <-> dfa_ok DfaEq2) /\ nd = 0) \/ (~ (dfa_ok DfaEq1 <-> dfa_ok DfaEq2) /\ nd = 1))
  | BNfaEq => nd = 0 /\ (((nfa_ok NfaEq1 <-> nfa_ok NfaEq2) /\ nn = 0) \/ (~ (nfa_ok NfaEq1 <-> nfa_ok NfaEq2) /\ nn = 1))
  | BNfaToDfa => nd = 0 /\ nn = 0
  | BMinimize => nn = 0 /\ ((dfa_ok MinimizeIn /\ nd = 1) \/ (~ dfa_ok MinimizeIn /\ nd = 0))
  | BVisualize => nd = 0 /\ ((nfa_ok VisualizeIn /\ nn = 1) \/ (~ nfa_ok VisualizeIn /\ nn = 0))
  | BRegex => nd = 0 /\ (((exists t, parse_regex seg (u RegexIn) = Ret (Some t)) /\ nn = 1) \/
                         ((~ exists t, parse_regex seg (u RegexIn) = Ret (Some t)) /\ nn = 0))
  end.
Definition event_leaves (e : event) (pg pg' : page) : Prop :=
  match e with
  | Edit _ _ => stored pg' = stored pg
  | Click b _ _ => exists nd nn, leaves b pg nd nn /\
      stored pg' = (fst (fst (stored pg)) + nd, snd (fst (stored pg)) + nn, snd (stored pg))
  end.
Fixpoint session_leaves (pg : page) (es : list event) (pgs : list page) : Prop :=
  match es, pgs with
  | [], [] => True
  | e :: es, pg' :: pgs => event_leaves e pg pg' /\ session_leaves pg' es pgs
  | _, _ => False
  end.

(** The radii of the default circles are not negative *)
Definition proper_radii : Prop :=
  d_negative db (widen db (f_mul fl (f_of_usize fl 30) (f_of_usize fl 1))) = false /\
  d_negative db (widen db (f_mul fl (f_of_usize fl 25) (f_of_usize fl 1))) = false.
End Page.
