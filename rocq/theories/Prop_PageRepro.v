(** * The page from run to run: C92 *)
From Coq Require Import Ascii String List NArith ZArith Arith Bool Lia.
From Verif Require Import Base Spec Examples DfaModel NfaModel DrawModel DrawSpec CanvasModel CanvasSpec WasmSpec PageModel PageSpec PageProofs PageHistorySpec PageHistoryProofs
  PageReproSpec PageReproProofs Prop_Canvas Prop_Page F32Model F64Model F64Spec Prop_F64.
Import ListNotations.
Close Scope string_scope.
Open Scope list_scope.

(** Two sessions in which the user does the same, on builds that may differ: after each event all texts are the same; only the
    output of the minimization may be another table, of a DFA that differs in the names and the order of its states. *)
Theorem C92_texts : forall fl (db : doubles fl) seg cap cap' checks checks' dfa_syntax nfa_syntax regex_syntax type_error es es',
  finite_angles db -> proper_radii db -> Forall2 same_event es es' -> 2 * length es + 1 < cap -> 2 * length es' + 1 < cap' ->
  exists pgs pgs',
    page_run db seg cap checks dfa_syntax nfa_syntax regex_syntax type_error (page_init db) es = Ret pgs /\
    page_run db seg cap' checks' dfa_syntax nfa_syntax regex_syntax type_error (page_init db) es' = Ret pgs' /\
    Forall2 (looks_like db) pgs pgs'.
Proof.
  intros fl db seg cap cap' checks checks' ds ns rs te es es' FA PR S H H'.
  destruct (sessions_alike db seg ds ns rs te cap cap' checks checks' es es' FA PR S (page_init db) (page_init db)) as (pgs & pgs' & E & E' & F); auto using page_init_inv.
  - split; auto. split; [intros a _; auto|left; auto].
  - exists pgs, pgs'. split; auto. split; auto. clear - F. induction F; constructor; auto using twins_look.
Qed.
Print Assumptions C92_texts.

(** The canvas shows pictures of the same automata, in the same order *)
Theorem C92_canvas : forall fl (db : doubles fl) seg cap cap' checks checks' dfa_syntax nfa_syntax regex_syntax type_error es es',
  finite_angles db -> proper_radii db -> all_drawable db -> Forall2 same_event es es' -> 2 * length es + 1 < cap -> 2 * length es' + 1 < cap' ->
  exists pgs pgs' l l' ctx ctx',
    page_run db seg cap checks dfa_syntax nfa_syntax regex_syntax type_error (page_init db) es = Ret pgs /\
    page_run db seg cap' checks' dfa_syntax nfa_syntax regex_syntax type_error (page_init db) es' = Ret pgs' /\
    canvas_of db (last pgs (page_init db)) = Some ctx /\ cx_marks db ctx = concat l /\
    canvas_of db (last pgs' (page_init db)) = Some ctx' /\ cx_marks db ctx' = concat l' /\ same_pictures db l l'.
Proof.
  intros fl db seg cap cap' checks checks' ds ns rs te es es' FA PR AD S H H'.
  assert (T : twins db (page_init db) (page_init db)) by (split; auto; split; [intros a _; auto|left; auto]).
  destruct (sessions_alike db seg ds ns rs te cap cap' checks checks' es es' FA PR S (page_init db) (page_init db)) as (pgs & pgs' & E & E' & F); auto using page_init_inv.
  destruct (page_sessions db seg cap checks ds ns rs te es FA PR (page_init db) (page_init_inv db) H) as (x & Ex & S1 & _).
  rewrite E in Ex. injection Ex as <-.
  destruct (page_sessions db seg cap' checks' ds ns rs te es' FA PR (page_init db) (page_init_inv db) H') as (x & Ex & S2 & _).
  rewrite E' in Ex. injection Ex as <-.
  assert (C : exists ctx, canvas_of db (page_init db) = Some ctx /\ cx_marks db ctx = []) by (eexists; split; reflexivity).
  destruct C as (c & C & C0).
  destruct (canvas_history db seg ds ns rs AD es _ _ c S1 C) as (l & ctx & P & CL & ML).
  destruct (canvas_history db seg ds ns rs AD es' _ _ c S2 C) as (l' & ctx' & P' & CL' & ML').
  exists pgs, pgs', l, l', ctx, ctx'. rewrite C0 in ML, ML'. repeat (split; [assumption|]). exact (pictures_alike db seg es es' S _ _ _ _ l l' T F P P').
Qed.
Print Assumptions C92_canvas.

(** In a browser: a click that draws an NFA paints the shapes of the same NFA in both sessions, perhaps with another layout *)
Theorem C92_browser : forall seg cap cap' checks checks' dfa_syntax nfa_syntax regex_syntax type_error es es',
  Forall2 same_event es es' -> 2 * length es + 1 < cap -> 2 * length es' + 1 < cap' ->
  exists pgs pgs',
    page_run f64 seg cap checks dfa_syntax nfa_syntax regex_syntax type_error (page_init f64) es = Ret pgs /\
    page_run f64 seg cap' checks' dfa_syntax nfa_syntax regex_syntax type_error (page_init f64) es' = Ret pgs' /\
    Forall2 (looks_like f64) pgs pgs' /\
    forall k n, clicked BVisualize es k -> loads_nfa (value f64 (before f64 (page_init f64) pgs k) VisualizeIn) n ->
      (Z.of_nat (length (nfa_states n)) < 2 ^ 32)%Z -> draws_at f64 n pgs k /\ draws_at f64 n pgs' k.
Proof.
  intros seg cap cap' checks checks' ds ns rs te es es' S H H'. destruct C90_numbers as (FA & PR & _).
  destruct (C92_texts f32 f64 seg cap cap' checks checks' ds ns rs te es es' FA PR S H H') as (pgs & pgs' & E & E' & F).
  destruct (C90_sessions seg cap checks ds ns rs te es H) as (x & Ex & _ & P). rewrite E in Ex. injection Ex as <-.
  destruct (C90_sessions seg cap' checks' ds ns rs te es' H') as (x & Ex & _ & P'). rewrite E' in Ex. injection Ex as <-.
  exists pgs, pgs'. split; auto. split; auto. split; auto. intros k n C L B. cbv zeta in P, P'. split.
  - destruct (P k n C L B) as (links & levels & c & c' & LO & C1 & C2 & M & _). exists links, levels, c, c'. auto.
  - assert (C' : clicked BVisualize es' k) by (apply (clicked_same _ es); auto).
    rewrite (looks_before f64 pgs pgs' k F VisualizeIn) in L by discriminate.
    destruct (P' k n C' L B) as (links & levels & c & c' & LO & C1 & C2 & M & _). exists links, levels, c, c'. auto.
Qed.
Print Assumptions C92_browser.

(** ** Both exceptions occur, on the page as loaded *)
Theorem C92_minimize_refuted : exists h h' dbg dbg',
  value ex_doubles (ex_last [Click BMinimize h dbg]) MinimizeOut <> value ex_doubles (ex_last [Click BMinimize h' dbg']) MinimizeOut.
Proof. exists id_order, rev_order, false, false. intros E. vm_compute in E. discriminate. Qed.
Print Assumptions C92_minimize_refuted.
(** the texts on the canvas, with their places *)
Definition painted_texts (pg : page ex_doubles) : list (Z * Z * str) :=
  match canvas_of ex_doubles pg with
  | Some ctx => flat_map (fun m : mark ex_doubles => match m with MText _ _ _ _ x y t => [(x, y, t)] | _ => [] end) (cx_marks ex_doubles ctx)
  | None => []
  end.
Theorem C92_canvas_refuted : exists h h' dbg dbg',
  painted_texts (ex_last [Click BVisualize h dbg]) <> painted_texts (ex_last [Click BVisualize h' dbg']).
Proof. exists id_order, rev_order, false, false. intros E. vm_compute in E. discriminate. Qed.
Print Assumptions C92_canvas_refuted.

(** ** The hypotheses can be met: clicks on all buttons and an edit *)
Definition ex_session (h : hash_order) (dbg : bool) : list event :=
  Edit DfaEq1 [120%N] :: map (fun b => Click b h dbg) [BDfaEq; BNfaEq; BNfaToDfa; BVisualize; BMinimize; BRegex].
Example C92_example : finite_angles ex_doubles /\ proper_radii ex_doubles /\
  Forall2 same_event (ex_session id_order true) (ex_session rev_order false) /\
  length (value ex_doubles (ex_last (ex_session rev_order false)) NfaToDfaOut) = 98 /\
  value ex_doubles (ex_last (ex_session id_order true)) NfaToDfaOut = value ex_doubles (ex_last (ex_session rev_order false)) NfaToDfaOut.
Proof.
  split; [split; reflexivity|]. split; [split; reflexivity|]. split; [repeat constructor|]. split; vm_compute; reflexivity.
Qed.
