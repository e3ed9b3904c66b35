(** * Prop_Page: C58, C59 and C60 *)
From Coq Require Import Ascii String List NArith ZArith Arith Bool Lia.
From Verif Require Import Base BaseLemmas Spec TableSpec LayoutSpec DfaModel NfaModel RegexModel TableModel RegexParserModel Messages Examples
  ApiModel WasmModel WasmSpec DrawModel DrawSpec CanvasModel CanvasSpec CanvasProofs Prop_Draw Prop_Canvas PageModel PageSpec PageProofs.
Import ListNotations.
Close Scope string_scope.
Open Scope list_scope.

(** ** C58: every click shows the truth about what is on the page *)
Theorem C58_sessions : forall fl (db : doubles fl) seg cap checks dfa_syntax nfa_syntax regex_syntax type_error es,
  finite_angles db -> proper_radii db -> 2 * length es + 1 < cap ->
  exists pgs, page_run db seg cap checks dfa_syntax nfa_syntax regex_syntax type_error (page_init db) es = Ret pgs /\
    session_shows db seg dfa_syntax nfa_syntax regex_syntax (page_init db) es pgs.
Proof.
  intros fl db seg cap checks ds ns rs te es FA PR H.
  destruct (page_sessions db seg cap checks ds ns rs te es FA PR (page_init db) (page_init_inv db) H) as (pgs & E & S1 & _). exists pgs. auto.
Qed.
Print Assumptions C58_sessions.

(** what the script reads from a text area *)
Theorem C58_text_areas : forall fl (db : doubles fl) (pg : page db) a v, value db pg a = v <-> reads_as (pg_value db pg a) v.
Proof. intros fl db pg a v. split; [intros <-; apply normal_reads_as|intros H; eapply reads_as_once; [apply normal_reads_as|exact H]]. Qed.
Print Assumptions C58_text_areas.
Example C58_text_areas_example : reads_as [97; 13; 10; 98; 13]%N [97; 10; 98; 10]%N.
Proof. repeat (constructor; try discriminate). Qed.

(** the page as loaded: the DFAs are equivalent, the NFAs are not *)
Definition singles1 (u : str) : list str := map (fun c => [c]) u.
Definition no_text (u : str) : str := [].
Definition ex_run (es : list event) : list (page ex_doubles) :=
  match page_run ex_doubles singles1 100 true no_text no_text no_text [] (page_init ex_doubles) es with Ret l => l | _ => [] end.
Definition ex_last (es : list event) : page ex_doubles := last (ex_run es) (page_init ex_doubles).
Definition click (b : button) : event := Click b id_order false.
Example C58_example : finite_angles ex_doubles /\ proper_radii ex_doubles /\
  pg_text _ (ex_last [click BDfaEq]) DfaEqCheck = of_string "Equivalent" /\
  pg_text _ (ex_last [click BNfaEq]) NfaEqCheck = of_string "Not equivalent" /\
  pg_text _ (ex_last [Edit DfaEq1 [120%N]; click BDfaEq]) DfaEqCheck = of_string "Fix errors first!" /\
  pg_text _ (ex_last [Edit DfaEq1 [120%N]; click BDfaEq]) DfaEqErrors = of_string "Error parsing DFA 1: " ++ [10%N] /\
  length (value _ (ex_last [click BMinimize]) MinimizeOut) = 51 /\
  length (value _ (ex_last [click BNfaToDfa]) NfaToDfaOut) = 98 /\
  length (value _ (ex_last [click BRegex]) RegexOut) = 609.
Proof. split; [split; reflexivity|]. split; [split; reflexivity|]. repeat split; computed. Qed.

(** ** C59: outputs belong to inputs *)
(** After a click, the output is what C58 says, and it stays until the button is clicked again; inputs stay until they are
    edited.  (Missing: an output always belongs to the input beside it; see the refutations.) *)
Theorem C59_outputs_partial : forall fl (db : doubles fl) seg cap checks dfa_syntax nfa_syntax regex_syntax type_error es1 b h dbg es2,
  finite_angles db -> proper_radii db -> 2 * length (es1 ++ Click b h dbg :: es2) + 1 < cap ->
  exists pgs1 pg pgs2,
    page_run db seg cap checks dfa_syntax nfa_syntax regex_syntax type_error (page_init db) (es1 ++ Click b h dbg :: es2) = Ret (pgs1 ++ pg :: pgs2) /\
    click_shows db seg dfa_syntax nfa_syntax regex_syntax b (last pgs1 (page_init db)) pg /\
    (forall a, output_of b = Some a -> forallb (fun e => negb (clicks b e)) es2 = true -> value db (last pgs2 pg) a = value db pg a) /\
    (forall a, editable a = true -> forallb (fun e => negb (edits a e)) es2 = true -> value db (last pgs2 pg) a = value db pg a).
Proof.
  intros fl db seg cap checks ds ns rs te es1 b h dbg es2 FA PR H.
  destruct (C58_sessions fl db seg cap checks ds ns rs te _ FA PR H) as (pgs & E & S1).
  apply session_app in S1 as (pgs1 & pgs2 & -> & _ & S1 & S2). destruct pgs2 as [|pg pgs2]; [destruct S2|]. destruct S2 as (S2 & S3).
  exists pgs1, pg, pgs2. split; auto. split; auto. split.
  - intros a O N. apply (session_keeps db seg ds ns rs (clicks b) a) with (es := es2); auto. intros. eapply event_keeps_output; eauto.
  - intros a O N. apply (session_keeps db seg ds ns rs (edits a) a) with (es := es2); auto. intros. eapply event_keeps_input; eauto.
Qed.
Print Assumptions C59_outputs_partial.

Lemma loads_default r d : (match r with Ret (Some _) => true | _ => false end) = true -> r = Ret (Some (match r with Ret (Some y) => y | _ => d end)) :> R (option dfa).
Proof. destruct r as [[x|]| |]; auto; discriminate. Qed.
(** an error does not clear the output: it still shows the DFA of an earlier text *)
Theorem C59_stale_output_refuted : exists u d,
  let pg := ex_last [click BMinimize; Edit MinimizeIn u; click BMinimize] in
  value _ pg MinimizeIn = u /\ (~ exists d, loads_dfa u d) /\ loads_dfa (value _ pg MinimizeOut) d.
Proof.
  exists [120%N]. set (pg := ex_last _).
  assert (E : load_dfa (value _ pg MinimizeOut) = Ret (Some (match load_dfa (value _ pg MinimizeOut) with Ret (Some d) => d | _ => ex_one end)))
    by (apply loads_default; computed).
  eexists. split; [computed|]. split; [|exact (proj2 (load_dfa_ret _ _ E))].
  destruct (load_dfa_cases [120%N]) as [(d & F & _)|(_ & N)]; [discriminate (eq_trans (eq_sym F) (eq_refl : load_dfa [120%N] = Ret None))|exact N].
Qed.
Print Assumptions C59_stale_output_refuted.

(** the canvas is not cleared: the names and labels of the old automaton are still there after another one is drawn *)
Definition marks_of (pg : page ex_doubles) : list (mark ex_doubles) := match canvas_of _ pg with Some c => cx_marks _ c | None => [] end.
Definition texts_of (pg : page ex_doubles) : list str :=
  flat_map (fun m => match m with MText _ _ _ _ _ _ u => [u] | _ => [] end) (marks_of pg).
Definition ex_texts : list str := Eval vm_compute in texts_of (ex_last [click BVisualize]).
Theorem C59_canvas_refuted : exists u,
  texts_of (ex_last [Edit VisualizeIn u; click BVisualize]) = [[122%N]] /\ length ex_texts = 20 /\ ~ In [122%N] ex_texts /\
  texts_of (ex_last [click BVisualize]) = ex_texts /\
  texts_of (ex_last [click BVisualize; Edit VisualizeIn u; click BVisualize]) = ex_texts ++ [[122%N]].
Proof.
  exists (of_string " eps" ++ [10%N] ++ of_string "-> z {}"). split; [computed|]. split; [reflexivity|].
  split; [|split; computed]. unfold ex_texts. intros H. cbn [In] in H. repeat (destruct H as [H|H]; [discriminate H|]). exact H.
Qed.
Print Assumptions C59_canvas_refuted.

(** ** C60: what a click leaves in the module *)
Theorem C60_sessions : forall fl (db : doubles fl) seg cap checks dfa_syntax nfa_syntax regex_syntax type_error es,
  finite_angles db -> proper_radii db -> 2 * length es + 1 < cap ->
  exists pgs, page_run db seg cap checks dfa_syntax nfa_syntax regex_syntax type_error (page_init db) es = Ret pgs /\
    session_leaves db seg (page_init db) es pgs.
Proof.
  intros fl db seg cap checks ds ns rs te es FA PR H.
  destruct (page_sessions db seg cap checks ds ns rs te es FA PR (page_init db) (page_init_inv db) H) as (pgs & E & _ & S1). exists pgs. auto.
Qed.
Print Assumptions C60_sessions.

(** memory is not bounded: clicking n times on the page as loaded leaves n automata behind *)
Theorem C60_bounded_refuted : forall n, exists cap pgs,
  page_run ex_doubles singles1 cap true no_text no_text no_text [] (page_init ex_doubles) (repeat (click BMinimize) n) = Ret pgs /\
  stored _ (last pgs (page_init ex_doubles)) = (n, 0, 0).
Proof.
  intros n. assert (FA : finite_angles ex_doubles) by (split; reflexivity). assert (PR : proper_radii ex_doubles) by (split; reflexivity).
  exists (2 * n + 2). destruct (page_sessions ex_doubles singles1 (2 * n + 2) true no_text no_text no_text [] (repeat (click BMinimize) n) FA PR
    (page_init _) (page_init_inv _)) as (pgs & E & S1 & S2); [rewrite repeat_length; cbn; lia|].
  exists pgs. split; auto. clear E.
  assert (L : exists d, loads_dfa (value _ (page_init ex_doubles) MinimizeIn) d).
  { assert (E : load_dfa (value _ (page_init ex_doubles) MinimizeIn) =
              Ret (Some (match load_dfa (value _ (page_init ex_doubles) MinimizeIn) with Ret (Some d) => d | _ => ex_one end)))
      by (apply loads_default; computed).
    eexists. exact (proj2 (load_dfa_ret _ _ E)). }
  change (n, 0, 0) with (fst (fst (stored ex_doubles (page_init _))) + n, snd (fst (stored ex_doubles (page_init _))), snd (stored ex_doubles (page_init _))).
  revert S1 S2 L. generalize (page_init ex_doubles). revert pgs. induction n as [|n IH]; intros pgs pg S1 S2 (d & L); cbn [repeat] in S1, S2.
  - destruct pgs; [|destruct S1]. cbn [last]. destruct (stored _ pg) as ((x, y), z). cbn. rewrite Nat.add_0_r. reflexivity.
  - destruct pgs as [|pg' pgs]; [destruct S1|]. destruct S1 as (S1 & S1'), S2 as (S2 & S2').
    assert (stored _ pg' = (fst (fst (stored _ pg)) + 1, snd (fst (stored _ pg)), snd (stored _ pg))) as EP.
    { destruct S2 as (nd & nn & (-> & [(_ & ->)|(X & _)]) & ->); [rewrite Nat.add_0_r; reflexivity|exfalso; apply X; exists d; exact L]. }
    replace (last (pg' :: pgs) pg) with (last pgs pg') by (symmetry; apply last_step).
    rewrite (IH pgs pg' S1' S2').
    + rewrite EP. cbn [fst snd]. f_equal. f_equal. lia.
    + exists d. destruct S1 as ((K & _) & _). rewrite K by (cbn; intuition discriminate). exact L.
Qed.
Print Assumptions C60_bounded_refuted.
Example C60_example : stored _ (ex_last [click BMinimize; click BVisualize; click BRegex; click BNfaToDfa; click BDfaEq; click BNfaEq;
  Edit DfaEq1 [120%N]; click BDfaEq; Edit DfaEq2 []; click BDfaEq]) = (2, 2, 0).
Proof. computed. Qed.
