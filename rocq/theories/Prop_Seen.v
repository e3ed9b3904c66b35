(** * What is seen determines the automaton: C91 *)
From Coq Require Import Ascii String List NArith ZArith QArith Arith Bool Lia.
From Verif Require Import Base Spec BaseLemmas Examples NfaBasics TableModel Messages DocSpec WasmModel WasmSpec WasmProofs DrawModel DrawSpec DrawProofs CanvasModel CanvasSpec CanvasProofs PageModel PageSpec PageProofs PageHistorySpec.
From Verif Require Import GeometrySpec PictureFinal Prop_Geometry Prop_Canvas F32Model F32Spec F32Shapes F32Final F64Model F64Spec F64Proofs F64Page Prop_Page Prop_F64 SeenProofs.
Import ListNotations.
Close Scope string_scope.
Open Scope list_scope.
Close Scope Q_scope.
Open Scope nat_scope.

(** The window of dandy-egui: two frames with the same shapes, for two texts: both are no automata, or they are the same automaton
    (up to the order of the alphabet), if they have at most 400 states *)
Theorem C91_window : forall h g inputs g' frames, gui_run (fl := f32) h g inputs = Ret (g', frames) ->
  forall i j u v f1 f2, nth_error (rendered (gui_to_render g) inputs) i = Some u -> nth_error (rendered (gui_to_render g) inputs) j = Some v ->
  nth_error frames i = Some f1 -> nth_error frames j = Some f2 -> (forall s, In s f1 <-> In s f2) ->
  ((~ exists d, loads_dfa u d) /\ (~ exists d, loads_dfa v d)) \/
  exists d1 d2, loads_dfa u d1 /\ loads_dfa v d2 /\
    (length (dfa_states d1) <= 400 -> length (dfa_states d2) <= 400 ->
       map of_dfa_state (dfa_states d1) = map of_dfa_state (dfa_states d2) /\ dfa_initial d1 = dfa_initial d2 /\
       (forall p a t, dfa_edge d1 p a t <-> dfa_edge d2 p a t) /\ (forall a, In a (dfa_alphabet d1) <-> In a (dfa_alphabet d2)) /\
       (forall w, dfa_lang d1 w <-> dfa_lang d2 w) /\ (dfa_alphabet d1 = dfa_alphabet d2 -> d1 = d2)).
Proof.
  intros h g inputs g' frames E i j u v f1 f2 Hu Hv Hf1 Hf2 HS. destruct (C57_window f32 h g inputs) as (g'' & frames' & E' & F).
  rewrite E in E'. injection E' as <- <-. pose proof (forall2_nth _ _ _ F _ _ _ Hu Hf1) as S1. pose proof (forall2_nth _ _ _ F _ _ _ Hv Hf2) as S2.
  destruct S1 as [(d1 & k1 & l1 & L1 & Y1 & M1)|[N1 ->]], S2 as [(d2 & k2 & l2 & L2 & Y2 & M2)|[N2 ->]].
  - right. exists d1, d2. split; [exact L1|]. split; [exact L2|]. intros H1 H2. pose proof (egui_picture _ _ _ _ M1 M2 HS) as SP.
    destruct (proj1 C78_loaded _ _ L1) as [V1 W1], (proj1 C78_loaded _ _ L2) as [V2 W2].
    assert (SP' : same_picture (shapes (opts_at 20 150 rationals) (map of_dfa_state (dfa_states d1)) k1 l1) (shapes (opts_at 20 150 rationals) (map of_dfa_state (dfa_states d2)) k2 l2)).
    { eapply picture_same; [| |exact SP]; eapply (small_same 20 150); try (apply dfa_states_ne; auto); rewrite ?map_length; eauto; lia. }
    destruct (dfa_shapes_picture rationals (fun q => q) rationals_exact _ _ _ _ _ _ d1 d2 V1 V2 W1 W2 Y1 Y2 SP') as (ES & EI & EL).
    split; [exact ES|]. split; [exact EI|]. apply dfa_same; auto.
  - exfalso. apply (f_equal (@length _)) in M1. destruct f1 as [|s f1]; [discriminate M1|]. apply (proj1 (HS s)). left. reflexivity.
  - exfalso. apply (f_equal (@length _)) in M2. destruct f2 as [|s f2]; [discriminate M2|]. apply (proj2 (HS s)). left. reflexivity.
  - left. auto.
Qed.
Print Assumptions C91_window.

(** The page: two clicks on Visualize that add the same marks to the canvas; then the NFAs in the text area were the same (up to the
    order of the alphabet and the symbols without transitions), if they have at most 400 states *)
Theorem C91_page : forall seg cap checks dfa_syntax nfa_syntax regex_syntax type_error es pgs, 2 * length es + 1 < cap ->
  page_run f64 seg cap checks dfa_syntax nfa_syntax regex_syntax type_error (page_init f64) es = Ret pgs ->
  let at_ := before f64 (page_init f64) pgs in
  forall k1 k2 n1 n2 c1 c1' c2 c2' marks1 marks2, clicked BVisualize es k1 -> clicked BVisualize es k2 ->
    loads_nfa (value f64 (at_ k1) VisualizeIn) n1 -> loads_nfa (value f64 (at_ k2) VisualizeIn) n2 ->
    length (nfa_states n1) <= 400 -> length (nfa_states n2) <= 400 ->
    canvas_of f64 (at_ k1) = Some c1 -> canvas_of f64 (at_ (S k1)) = Some c1' -> cx_marks f64 c1' = cx_marks f64 c1 ++ marks1 ->
    canvas_of f64 (at_ k2) = Some c2 -> canvas_of f64 (at_ (S k2)) = Some c2' -> cx_marks f64 c2' = cx_marks f64 c2 ++ marks2 ->
    (forall m, In m marks1 <-> In m marks2) ->
    map of_nfa_state (nfa_states n1) = map of_nfa_state (nfa_states n2) /\ nfa_initial n1 = nfa_initial n2 /\
    (forall p a t, nfa_edge n1 p a t <-> nfa_edge n2 p a t) /\ (forall p t, nfa_eps_edge n1 p t <-> nfa_eps_edge n2 p t) /\
    (forall w, nfa_lang n1 w <-> nfa_lang n2 w).
Proof.
  intros seg cap checks ds ns rs te es pgs H E at_ k1 k2 n1 n2 c1 c1' c2 c2' m1 m2 K1 K2 L1 L2 B1 B2 A1 A1' M1 A2 A2' M2 HM.
  destruct (C90_sessions seg cap checks ds ns rs te es H) as (pgs' & E' & _ & P). rewrite E in E'. injection E' as <-. fold at_ in P.
  assert (B : forall n, n <= 400 -> (Z.of_nat n < 2 ^ 32)%Z) by (intros; lia).
  destruct (P k1 n1 K1 L1 (B _ B1)) as (i1 & l1 & x1 & x1' & Y1 & C1 & C1' & N1 & Q1). destruct (P k2 n2 K2 L2 (B _ B2)) as (i2 & l2 & x2 & x2' & Y2 & C2 & C2' & N2 & Q2).
  rewrite A1 in C1. rewrite A1' in C1'. rewrite A2 in C2. rewrite A2' in C2'. injection C1 as <-. injection C1' as <-. injection C2 as <-. injection C2' as <-.
  rewrite M1 in N1. apply app_inv_head in N1. rewrite M2 in N2. apply app_inv_head in N2. rewrite N1, N2 in HM.
  pose proof (marks_picture _ _ _ _ _ _ _ _ _ _ (Q1 B1) (Q2 B2) HM) as SP.
  destruct (proj2 C78_loaded _ _ L1) as (V1 & W1 & X1), (proj2 C78_loaded _ _ L2) as (V2 & W2 & X2).
  destruct (nfa_shapes_picture rationals (fun q => q) rationals_exact _ _ _ _ _ _ n1 n2 V1 V2 W1 W2 Y1 Y2 SP) as (ES & EI & EL).
  split; [exact ES|]. split; [exact EI|]. apply nfa_same; auto.
Qed.
Print Assumptions C91_page.

(** ** Examples *)

(** the same automaton written with another line shows the same, and a text that is no automaton shows nothing *)
Definition all_values (s : @egui_shape f32) : list (option Q) * str * colour :=
  match s with
  | LineSegment p q t c => (map f32_value [fst p; snd p; fst q; snd q; t], [], c)
  | CircleStroke p r t c => (map f32_value [fst p; snd p; r; t], [], c)
  | CenteredText p u c => (map f32_value [fst p; snd p], u, c)
  end.
Example C91_window_example :
  match gui_run (fl := f32) (fun _ => id_order) (mk_gui [] []) [(file_example_dfa, true); ([10%N] ++ file_example_dfa, true); ([120%N], true)] with
  | Ret (_, [f1; f2; f3]) => (length f1, map all_values f1, length f3)
  | _ => (0, [], 0)
  end =
  match gui_run (fl := f32) (fun _ => id_order) (mk_gui [] []) [(file_example_dfa, true); ([10%N] ++ file_example_dfa, true); ([120%N], true)] with
  | Ret (_, [f1; f2; f3]) => (62, map all_values f2, 0)
  | _ => (1, [], 1)
  end.
Proof. vm_compute. reflexivity. Qed.
(** a click on the first page adds 132 marks, and another click as many *)
Example C91_page_example :
  match page_run f64 singles1 100 true no_text no_text no_text [] (page_init f64) [click BVisualize; click BVisualize] with
  | Ret [pg1; pg2] => match canvas_of f64 pg1, canvas_of f64 pg2 with
                      | Some c1, Some c2 => (length (cx_marks f64 c1), length (cx_marks f64 c2))
                      | _, _ => (0, 0)
                      end
  | _ => (0, 0)
  end = (132, 132 + 132).
Proof. vm_compute. reflexivity. Qed.
