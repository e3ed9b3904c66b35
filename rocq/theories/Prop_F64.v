(** * Properties of the canvas and of the page with IEEE numbers *)
From Coq Require Import Ascii String List NArith ZArith QArith Arith Bool Lia.
From Verif Require Import Base Spec BaseLemmas Examples NfaBasics TableModel Messages DocSpec WasmModel WasmSpec WasmProofs DrawModel DrawSpec DrawProofs CanvasModel CanvasSpec CanvasProofs PageModel PageSpec PageProofs PageHistorySpec.
From Verif Require Import F32Model F32Spec F32Proofs F32Shapes F32Final F64Model F64Spec F64Proofs F64Finite F64Page Prop_Page FirstPageSpec Prop_FirstPage.
Import ListNotations.
Close Scope string_scope.
Open Scope list_scope.
Close Scope Q_scope.
Open Scope nat_scope.

(** ** C90: the canvas of a browser, with single precision coordinates given as double precision numbers *)

(** what C56 to C60 and C81 assume about numbers is true, and [as f64] does not change a number *)
Theorem C90_numbers : finite_angles f64 /\ proper_radii f64 /\ (forall x, single x -> f64_value (widen f64 x) = f32_value x).
Proof. split; [exact finite_turn|]. split; [exact good_radii|]. exact widen_value. Qed.
Print Assumptions C90_numbers.

(** nothing throws: the shapes are painted (and then the last outline once more); for a small drawing with exact coordinates *)
Theorem C90_canvas_dfa : forall h d ctx, dfa_valid d -> (Z.of_nat (length (dfa_states d)) < 2 ^ 32)%Z ->
  exists links levels calls ctx', layout (length (dfa_states d)) (dfa_labels d) links levels /\
    draw_dfa f32 h (default_options f32) d = Ret calls /\ canvas_calls f64 (drawer_new f64 ctx) calls = Ret ctx' /\
    let sh := shapes (default_options f32) (map of_dfa_state (dfa_states d)) links levels in
    cx_marks f64 ctx' = cx_marks f64 ctx ++ map (shape_mark f64) sh ++ again f64 sh /\
    (small_drawing (length (dfa_states d)) levels 0 0 ->
       Forall2 mark_is (map (shape_mark f64) sh) (shapes (default_options rationals) (map of_dfa_state (dfa_states d)) links levels)).
Proof.
  intros h d ctx V HN. destruct (draw_dfa_eq (default_options f32) h d V) as (links & levels & calls & L & E & P). pose proof L as L'.
  rewrite <- (map_length of_dfa_state (dfa_states d)) in L', HN.
  assert (NE : map of_dfa_state (dfa_states d) <> []) by (pose proof (dv_initial _ V); destruct (dfa_states d); [cbn in *; lia|discriminate]).
  destruct (canvas_shapes f64 _ _ _ _ _ P finite_turn (any_marks _ _ _ _ HN L') ctx) as (ctx' & E1 & E2).
  exists links, levels, calls, ctx'. split; [exact L|]. split; [exact E|]. split; [exact E1|]. split; [exact E2|]. intros SM.
  rewrite <- (map_length of_dfa_state (dfa_states d)) in SM. apply (small_marks _ _ _ _ NE L' SM).
Qed.
Print Assumptions C90_canvas_dfa.
Theorem C90_canvas_nfa : forall h n ctx, nfa_valid n -> (Z.of_nat (length (nfa_states n)) < 2 ^ 32)%Z ->
  exists links levels calls ctx', layout (length (nfa_states n)) (nfa_labels n) links levels /\
    draw_nfa f32 h (default_options f32) n = Ret calls /\ canvas_calls f64 (drawer_new f64 ctx) calls = Ret ctx' /\
    let sh := shapes (default_options f32) (map of_nfa_state (nfa_states n)) links levels in
    cx_marks f64 ctx' = cx_marks f64 ctx ++ map (shape_mark f64) sh ++ again f64 sh /\
    (small_drawing (length (nfa_states n)) levels 0 0 ->
       Forall2 mark_is (map (shape_mark f64) sh) (shapes (default_options rationals) (map of_nfa_state (nfa_states n)) links levels)).
Proof.
  intros h n ctx V HN. destruct (draw_nfa_eq (default_options f32) h n V) as (links & levels & calls & L & E & P). pose proof L as L'.
  rewrite <- (map_length of_nfa_state (nfa_states n)) in L', HN.
  assert (NE : map of_nfa_state (nfa_states n) <> []) by (pose proof (nv_initial _ V); destruct (nfa_states n); [cbn in *; lia|discriminate]).
  destruct (canvas_shapes f64 _ _ _ _ _ P finite_turn (any_marks _ _ _ _ HN L') ctx) as (ctx' & E1 & E2).
  exists links, levels, calls, ctx'. split; [exact L|]. split; [exact E|]. split; [exact E1|]. split; [exact E2|]. intros SM.
  rewrite <- (map_length of_nfa_state (nfa_states n)) in SM. apply (small_marks _ _ _ _ NE L' SM).
Qed.
Print Assumptions C90_canvas_nfa.

(** sessions on the page in a browser: no event fails, and every click that draws an NFA paints its shapes, with exact coordinates for
    up to 400 states *)
Theorem C90_sessions : forall seg cap checks dfa_syntax nfa_syntax regex_syntax type_error es, 2 * length es + 1 < cap ->
  exists pgs, page_run f64 seg cap checks dfa_syntax nfa_syntax regex_syntax type_error (page_init f64) es = Ret pgs /\
    session_shows f64 seg dfa_syntax nfa_syntax regex_syntax (page_init f64) es pgs /\
    let at_ := before f64 (page_init f64) pgs in
    forall k n, clicked BVisualize es k -> loads_nfa (value f64 (at_ k) VisualizeIn) n -> (Z.of_nat (length (nfa_states n)) < 2 ^ 32)%Z ->
      exists links levels ctx ctx', layout (length (nfa_states n)) (nfa_labels n) links levels /\
        canvas_of f64 (at_ k) = Some ctx /\ canvas_of f64 (at_ (S k)) = Some ctx' /\
        let sh := shapes (default_options f32) (map of_nfa_state (nfa_states n)) links levels in
        cx_marks f64 ctx' = cx_marks f64 ctx ++ map (shape_mark f64) sh ++ again f64 sh /\
        (length (nfa_states n) <= 400 ->
           Forall2 mark_is (map (shape_mark f64) sh) (shapes (default_options rationals) (map of_nfa_state (nfa_states n)) links levels)).
Proof.
  intros seg cap checks ds ns rs te es H.
  destruct (C58_sessions f32 f64 seg cap checks ds ns rs te es finite_turn good_radii H) as (pgs & E & S). exists pgs. split; [exact E|]. split; [exact S|].
  intros at_ k n K LN HN. exact (session_paints _ _ _ _ n HN _ _ _ k S K LN).
Qed.
Print Assumptions C90_sessions.

(** the first page: while its text is not edited, the NFA beside the canvas is painted exactly, whatever else is done *)
Theorem C90_first_page : forall seg cap checks dfa_syntax nfa_syntax regex_syntax type_error es h dbg,
  2 * length (es ++ [Click BVisualize h dbg]) + 1 < cap -> untouched [VisualizeIn] es ->
  exists pgs pg links levels ctx ctx' marks more,
    page_run f64 seg cap checks dfa_syntax nfa_syntax regex_syntax type_error (page_init f64) (es ++ [Click BVisualize h dbg]) = Ret (pgs ++ [pg]) /\
    pg_text f64 pg VisualizeBtn = of_string "Visualize!" /\ layout 6 (nfa_labels page_nfa2) links levels /\
    canvas_of f64 (last pgs (page_init f64)) = Some ctx /\ canvas_of f64 pg = Some ctx' /\ cx_marks f64 ctx' = cx_marks f64 ctx ++ marks ++ more /\
    Forall2 mark_is marks (shapes (default_options rationals) (map of_nfa_state (nfa_states page_nfa2)) links levels) /\
    more = again f64 (shapes (default_options f32) (map of_nfa_state (nfa_states page_nfa2)) links levels).
Proof.
  intros seg cap checks ds ns rs te es h dbg H U.
  destruct (C81_visualize f32 f64 seg cap checks ds ns rs te es h dbg finite_turn good_radii H U) as (pgs & pg & links & levels & c1 & c2 & E & T & L & C1 & C2 & M).
  assert (SM : small_drawing 6 levels 0 0) by (refine (small_400 6 _ _ _ 0 0 L _ _ _); lia).
  destruct (small_marks (map of_nfa_state (nfa_states page_nfa2)) _ links levels ltac:(discriminate) L SM) as [HD HM].
  exists pgs, pg, links, levels, c1, c2. eexists. eexists. split; [exact E|]. split; [exact T|]. split; [exact L|]. split; [exact C1|]. split; [exact C2|].
  split; [exact (M HD)|]. split; [exact HM|reflexivity].
Qed.
Print Assumptions C90_first_page.

(** ** Examples *)

(** a whole turn, as a double precision number, and single and double precision thirds *)
Example C90_numbers_example : f64_value (d_turn f64) = Some (884279719003555 # 140737488355328)%Q /\
  f64_value (widen f64 (f_div f32 (f_of_usize f32 1) (f_of_usize f32 3))) = Some (11184811 # 33554432)%Q /\ single (f_div f32 (f_of_usize f32 1) (f_of_usize f32 3)).
Proof. split; [vm_compute; reflexivity|]. split; [vm_compute; reflexivity|]. vm_compute. split; [reflexivity|split; discriminate]. Qed.
(** a click on the first page paints the circles of the six states, the last of them final *)
Example C90_example : match page_run f64 singles1 100 true no_text no_text no_text [] (page_init f64) [click BVisualize] with
  | Ret [pg] => match canvas_of f64 pg with
                | Some c => flat_map (fun m => match m with
                                     | MStroke _ _ _ [SArc _ x y r _ _] => [(f64_value x, f64_value y, f64_value r)]
                                     | _ => []
                                     end) (cx_marks f64 c)
                | None => []
                end
  | _ => []
  end = map (fun t => (Some (inject_Z (fst t)), Some 190%Q, Some (inject_Z (snd t)))) [(100, 30); (180, 30); (260, 30); (340, 30); (420, 30); (500, 30); (500, 25)]%Z.
Proof. vm_compute. reflexivity. Qed.
