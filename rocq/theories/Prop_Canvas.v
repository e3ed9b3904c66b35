(** * Drawings on a canvas, on the page and in egui: C56, C57 *)
From Coq Require Import Ascii String List NArith ZArith Arith Bool Lia.
From Verif Require Import Base BaseLemmas Spec DfaModel NfaModel ApiModel TableModel Messages Examples WasmModel WasmSpec WasmProofs
  DrawModel DrawSpec DrawProofs Prop_Draw CanvasModel CanvasSpec CanvasProofs.
Import ListNotations.
Close Scope string_scope.
Open Scope list_scope.

(** ** C56: a canvas.  All shapes are painted, with their colours, widths, places and centred texts; then the last line or circle
    is painted once more, closed, in the colour of the text.  Missing for the full claim: the last mark should not be there. *)
Theorem C56_canvas_dfa_partial : forall fl (db : doubles fl) h opts d, dfa_valid d -> finite_angles db ->
  exists links levels calls, layout (length (dfa_states d)) (dfa_labels d) links levels /\ draw_dfa fl h opts d = Ret calls /\
    let sh := shapes opts (map of_dfa_state (dfa_states d)) links levels in
    (Forall (fun cs => drawable db (snd cs)) sh -> forall ctx,
      exists ctx', canvas_calls db (drawer_new db ctx) calls = Ret ctx' /\ cx_marks db ctx' = cx_marks db ctx ++ map (shape_mark db) sh ++ again db sh).
Proof.
  intros fl db h opts d V FA. destruct (draw_dfa_eq opts h d V) as (links & levels & calls & L & E & P).
  exists links, levels, calls. split; auto. split; auto. intros sh HD ctx. eapply canvas_shapes; eauto.
Qed.
Print Assumptions C56_canvas_dfa_partial.
Theorem C56_canvas_nfa_partial : forall fl (db : doubles fl) h opts n, nfa_valid n -> finite_angles db ->
  exists links levels calls, layout (length (nfa_states n)) (nfa_labels n) links levels /\ draw_nfa fl h opts n = Ret calls /\
    let sh := shapes opts (map of_nfa_state (nfa_states n)) links levels in
    (Forall (fun cs => drawable db (snd cs)) sh -> forall ctx,
      exists ctx', canvas_calls db (drawer_new db ctx) calls = Ret ctx' /\ cx_marks db ctx' = cx_marks db ctx ++ map (shape_mark db) sh ++ again db sh).
Proof.
  intros fl db h opts n V FA. destruct (draw_nfa_eq opts h n V) as (links & levels & calls & L & E & P).
  exists links, levels, calls. split; auto. split; auto. intros sh HD ctx. eapply canvas_shapes; eauto.
Qed.
Print Assumptions C56_canvas_nfa_partial.

(** whatever was drawn before: a list of calls makes a canvas throw iff it has a circle of negative radius at a finite place *)
Theorem C56_throws_iff : forall fl (db : doubles fl) calls ctx, finite_angles db ->
  (canvas_calls db ctx calls = Panic <-> Exists (negative_circle db) calls) /\
  (~ Exists (negative_circle db) calls -> exists ctx', canvas_calls db ctx calls = Ret ctx').
Proof. intros fl db calls ctx FA. apply canvas_panics_iff; auto. Qed.
Print Assumptions C56_throws_iff.

(** any calls with any numbers, on any canvas: what they paint, if nothing is thrown *)
Theorem C56_any_calls : forall fl (db : doubles fl) calls ctx, finite_angles db -> ~ Exists (negative_circle db) calls ->
  exists ctx', canvas_calls db (drawer_new db ctx) (StartDrawing fl :: calls) = Ret ctx' /\
    cx_marks db ctx' = cx_marks db ctx ++
      marks_of db (of_string "center") (of_string "middle") (cx_stroke db ctx) (cx_fill db ctx) (cx_width db ctx) [] calls.
Proof.
  intros fl db calls ctx FA N. destruct (canvas_marks_of db (StartDrawing fl :: calls) FA) with (ctx := drawer_new db ctx) as (ctx' & E & M).
  { intros H. inversion H; subst; auto. }
  exists ctx'. split; auto.
Qed.
Print Assumptions C56_any_calls.

(** numbers of the examples: exact integers *)
Definition ex_doubles : doubles ex_floats :=
  mk_doubles ex_floats Z (fun x => x) 0%Z 1%Z 6%Z (fun _ => true) (fun x => (0 <? x)%Z) (fun x => (x <? 0)%Z).
Definition ex_one : dfa :=
  {| dfa_alphabet := [[97%N]]; dfa_states := [mk_dfa_state [48%N] true true [0]]; dfa_initial := 0 |}.

(** the canvas does not show exactly the shapes: a line of the last arrow is painted over in the colour of the text *)
Theorem C56_canvas_exact_refuted : exists (fl : floats) (db : doubles fl) h d calls ctx' links levels,
  dfa_valid d /\ layout (length (dfa_states d)) (dfa_labels d) links levels /\
  Forall (fun cs => drawable db (snd cs)) (shapes (default_options fl) (map of_dfa_state (dfa_states d)) links levels) /\
  draw_dfa fl h (default_options fl) d = Ret calls /\
  canvas_calls db (drawer_new db (new_context db)) calls = Ret ctx' /\
  cx_marks db ctx' <> map (shape_mark db) (shapes (default_options fl) (map of_dfa_state (dfa_states d)) links levels) /\
  exists width a b, last (cx_marks db ctx') (MText db [] [] [] (d_0 db) (d_0 db) []) =
    MStroke db (of_string "rgb(255 255 255)") width [SLine db a b; SLine db b a] /\
    In (MStroke db (of_string "rgb(0 255 255)") width [SLine db a b]) (cx_marks db ctx').
Proof.
  assert (V : dfa_valid ex_one) by (apply dfa_validb_valid; vm_compute; reflexivity).
  assert (FA : finite_angles ex_doubles) by (split; reflexivity).
  destruct (C56_canvas_dfa_partial ex_floats ex_doubles id_order (default_options ex_floats) ex_one V FA) as (links & levels & calls & L & E & H).
  assert (HD : Forall (fun cs => drawable ex_doubles (snd cs)) (shapes (default_options ex_floats) (map of_dfa_state (dfa_states ex_one)) links levels)).
  { unfold shapes. apply Forall_app. split; [|apply Forall_app; split].
    - repeat constructor.
    - repeat constructor.
    - rewrite flat_map_concat_map. apply Forall_concat, Forall_map, Forall_forall. intros l _. repeat constructor. }
  destruct (H HD (new_context ex_doubles)) as (ctx' & EC & M).
  exists ex_floats, ex_doubles, id_order, ex_one, calls, ctx', links, levels. split; auto. split; auto. split; auto. split; auto. split; auto. split.
  - rewrite M. cbn [new_context cx_marks app]. intros HE. apply (f_equal (@length _)) in HE. rewrite app_length in HE.
    apply (again_shapes ex_doubles (default_options ex_floats) (map of_dfa_state (dfa_states ex_one)) links levels).
    apply length_zero_iff_nil. lia.
  - assert (calls = match draw_dfa ex_floats id_order (default_options ex_floats) ex_one with Ret l => l | _ => [] end) as -> by (rewrite E; reflexivity).
    match type of EC with ?t = _ => assert (ctx' = match t with Ret c => c | _ => new_context ex_doubles end) as -> by (rewrite EC; reflexivity) end.
    exists 3%Z, (PAt ex_doubles 115%Z 50%Z), (PAt ex_doubles 120%Z 45%Z). split; [computed|].
    apply (nth_error_In _ 15). computed.
Qed.
Print Assumptions C56_canvas_exact_refuted.

(** A drawer made with [from_element] does not centre its texts *)
Theorem C56_from_element_refuted : exists (fl : floats) (db : doubles fl) h d calls ctx' style x y,
  dfa_valid d /\ draw_dfa fl h (default_options fl) d = Ret calls /\
  canvas_calls db (drawer_from_element db (new_context db)) calls = Ret ctx' /\
  In (MText db style (of_string "start") (of_string "alphabetic") x y [48%N]) (cx_marks db ctx').
Proof.
  exists ex_floats, ex_doubles, id_order, ex_one,
    (match draw_dfa ex_floats id_order (default_options ex_floats) ex_one with Ret l => l | _ => [] end).
  exists (match draw_dfa ex_floats id_order (default_options ex_floats) ex_one with
          | Ret l => match canvas_calls ex_doubles (new_context ex_doubles) l with Ret c => c | _ => new_context ex_doubles end
          | _ => new_context ex_doubles end).
  exists (of_string "rgb(255 255 255)"), 100%Z, 90%Z. split; [apply dfa_validb_valid; vm_compute; reflexivity|].
  assert (E : draw_dfa ex_floats id_order (default_options ex_floats) ex_one =
    Ret (match draw_dfa ex_floats id_order (default_options ex_floats) ex_one with Ret l => l | _ => [] end)) by (apply ret_default; computed).
  split; [exact E|]. split; [|apply (nth_error_In _ 8); computed].
  rewrite E. cbv iota. apply ret_default. computed.
Qed.
Print Assumptions C56_from_element_refuted.

(** ** The page: drawing by handle *)
Theorem C56_page_dfa_partial : forall fl (db : doubles fl) h seg cap checks calls st rs doc k id, S (length (filter creates calls)) < cap ->
  wasm_run seg cap checks wasm_init calls = Ret (st, rs) -> finite_angles db ->
  (known_dfa seg (session calls rs) k /\ hm_get id doc = Some (ECanvas db None) -> page_draw_dfa db h st doc k id = Panic) /\
  (~ known_dfa seg (session calls rs) k \/ hm_get id doc = None \/ hm_get id doc = Some (EOther db) ->
     page_draw_dfa db h st doc k id = Ret (doc, false)) /\
  (forall d ctx, live_dfa seg (session calls rs) k d -> hm_get id doc = Some (ECanvas db (Some ctx)) ->
     exists links levels, layout (length (dfa_states d)) (dfa_labels d) links levels /\
       let sh := shapes (options_at fl (f_of_usize fl 0) (f_of_usize fl 0)) (map of_dfa_state (dfa_states d)) links levels in
       (Forall (fun cs => drawable db (snd cs)) sh ->
        exists doc' ctx', page_draw_dfa db h st doc k id = Ret (doc', true) /\
          (forall i, hm_get i doc' = if eqb i id then Some (ECanvas db (Some ctx')) else hm_get i doc) /\
          cx_marks db ctx' = cx_marks db ctx ++ map (shape_mark db) sh ++ again db sh)).
Proof.
  intros fl db h seg cap checks calls st rs doc k id H E FA.
  destruct (run_correct seg cap checks calls wasm_init [] (winv_init seg) I H) as (st' & rs' & E' & _ & W & _).
  rewrite E in E'. injection E' as <- <-. rewrite app_nil_r in W. fold (session calls rs) in W. unfold page_draw_dfa, canvas_draw.
  destruct (dfa_lookup seg st _ k W) as [(d & EG & L & K)|(EG & K)]; rewrite EG.
  - split; [intros (_ & ->); reflexivity|]. split; [intros [N|[-> | ->]]; [exfalso; apply N; exists d; auto| |]; reflexivity|].
    intros d' ctx L' EH. assert (d' = d) as -> by (eapply (live_unique seg); eauto).
    destruct (C56_canvas_dfa_partial fl db h (default_options fl) d (proj1 (live_valid seg _) _ _ L) FA) as (links & levels & l & LO & ED & HM).
    exists links, levels. split; [exact LO|].
    intros HD. destruct (HM HD ctx) as (ctx' & EC & M). rewrite EH, ED. cbn [bind]. rewrite EC. cbn [bind].
    eexists. exists ctx'. split; [reflexivity|]. split; auto. intros i. apply hm_get_insert.
  - split; [intros (N & _); congruence|]. split; [reflexivity|]. intros d ctx L'. exfalso. apply K. exists d; auto.
Qed.
Print Assumptions C56_page_dfa_partial.
Theorem C56_page_nfa_partial : forall fl (db : doubles fl) h seg cap checks calls st rs doc k id, S (length (filter creates calls)) < cap ->
  wasm_run seg cap checks wasm_init calls = Ret (st, rs) -> finite_angles db ->
  (known_nfa seg (session calls rs) k /\ hm_get id doc = Some (ECanvas db None) -> page_draw_nfa db h st doc k id = Panic) /\
  (~ known_nfa seg (session calls rs) k \/ hm_get id doc = None \/ hm_get id doc = Some (EOther db) ->
     page_draw_nfa db h st doc k id = Ret (doc, false)) /\
  (forall n ctx, live_nfa seg (session calls rs) k n -> hm_get id doc = Some (ECanvas db (Some ctx)) ->
     exists links levels, layout (length (nfa_states n)) (nfa_labels n) links levels /\
       let sh := shapes (options_at fl (f_of_usize fl 0) (f_of_usize fl 0)) (map of_nfa_state (nfa_states n)) links levels in
       (Forall (fun cs => drawable db (snd cs)) sh ->
        exists doc' ctx', page_draw_nfa db h st doc k id = Ret (doc', true) /\
          (forall i, hm_get i doc' = if eqb i id then Some (ECanvas db (Some ctx')) else hm_get i doc) /\
          cx_marks db ctx' = cx_marks db ctx ++ map (shape_mark db) sh ++ again db sh)).
Proof.
  intros fl db h seg cap checks calls st rs doc k id H E FA.
  destruct (run_correct seg cap checks calls wasm_init [] (winv_init seg) I H) as (st' & rs' & E' & _ & W & _).
  rewrite E in E'. injection E' as <- <-. rewrite app_nil_r in W. fold (session calls rs) in W. unfold page_draw_nfa, canvas_draw.
  destruct (nfa_lookup seg st _ k W) as [(d & EG & L & K)|(EG & K)]; rewrite EG.
  - split; [intros (_ & ->); reflexivity|]. split; [intros [N|[-> | ->]]; [exfalso; apply N; exists d; auto| |]; reflexivity|].
    intros d' ctx L' EH. assert (d' = d) as -> by (eapply (live_unique seg); eauto).
    destruct (C56_canvas_nfa_partial fl db h (default_options fl) d (proj2 (live_valid seg _) _ _ L) FA) as (links & levels & l & LO & ED & HM).
    exists links, levels. split; [exact LO|].
    intros HD. destruct (HM HD ctx) as (ctx' & EC & M). rewrite EH, ED. cbn [bind]. rewrite EC. cbn [bind].
    eexists. exists ctx'. split; [reflexivity|]. split; auto. intros i. apply hm_get_insert.
  - split; [intros (N & _); congruence|]. split; [reflexivity|]. intros d ctx L'. exfalso. apply K. exists d; auto.
Qed.
Print Assumptions C56_page_nfa_partial.

(** ** C57: egui *)
Theorem C57_egui_dfa : forall fl (opts : draw_options fl) h d before, dfa_valid d ->
  exists links levels calls, layout (length (dfa_states d)) (dfa_labels d) links levels /\ draw_dfa fl h opts d = Ret calls /\
    map Some (ed_shapes (fold_left egui_call calls (egui_new before))) =
    map Some before ++ map egui_of (shapes opts (map of_dfa_state (dfa_states d)) links levels).
Proof.
  intros fl opts h d before V. destruct (draw_dfa_eq opts h d V) as (links & levels & calls & L & E & P).
  exists links, levels, calls. split; auto. split; auto. apply egui_shapes; auto.
Qed.
Print Assumptions C57_egui_dfa.
Theorem C57_egui_nfa : forall fl (opts : draw_options fl) h n before, nfa_valid n ->
  exists links levels calls, layout (length (nfa_states n)) (nfa_labels n) links levels /\ draw_nfa fl h opts n = Ret calls /\
    map Some (ed_shapes (fold_left egui_call calls (egui_new before))) =
    map Some before ++ map egui_of (shapes opts (map of_nfa_state (nfa_states n)) links levels).
Proof.
  intros fl opts h n before V. destruct (draw_nfa_eq opts h n V) as (links & levels & calls & L & E & P).
  exists links, levels, calls. split; auto. split; auto. apply egui_shapes; auto.
Qed.
Print Assumptions C57_egui_nfa.

(** any calls: their shapes are painted in the colour that was set last, before that in green *)
Theorem C57_any_calls : forall fl (calls : list (call fl)) before,
  map Some (ed_shapes (fold_left egui_call calls (egui_new before))) = map Some before ++ map egui_of (painted (Some (0, 255, 0)) calls).
Proof. intros fl calls before. apply egui_fold. Qed.
Print Assumptions C57_any_calls.

(** The window: it never panics, and each frame shows the automaton of the text that was rendered last, if it is one *)
Theorem C57_window : forall fl (h : nat -> hash_order) g inputs, exists g' frames, gui_run (fl := fl) h g inputs = Ret (g', frames) /\
  Forall2 frame_shows (rendered (gui_to_render g) inputs) frames.
Proof. intros fl h g inputs. apply gui_frames. Qed.
Print Assumptions C57_window.

(** The contents of the files *)
Definition ex_file_dfa : dfa := Eval vm_compute in match load_dfa file_example_dfa with Ret (Some d) => d | _ => ex_one end.
Definition ex_file2_dfa : dfa := Eval vm_compute in match load_dfa file_example2_dfa with Ret (Some d) => d | _ => ex_one end.
Definition ex_file2_nfa : nfa := Eval vm_compute in match load_nfa file_example2_nfa with Ret (Some d) => d | _ => dfa_to_nfa ex_one end.
Definition ex_table : str := Eval vm_compute in match dfa_to_table ex_file_dfa with Ret u => u | _ => [] end.

(** The program starts for all hash orders, and its first text is the table of the automaton in example.dfa *)
Theorem C57_start : forall h h', exists art art' table d, gui_start h h' = Ret (art ++ [10%N] ++ art' ++ [10%N], mk_gui table table) /\
  loads_dfa file_example_dfa d /\ loads_dfa table d /\
  (exists d2, loads_dfa file_example2_dfa d2 /\ dfa_ascii_art h d2 = Ret art) /\
  (exists n2, loads_nfa file_example2_nfa n2 /\ nfa_ascii_art h' n2 = Ret art').
Proof.
  intros h h'. unfold gui_start.
  destruct (load_dfa_ret file_example2_dfa ex_file2_dfa) as (E1 & L1); [vm_compute; reflexivity|]. rewrite E1. cbn [bind unwrap].
  destruct (load_nfa_ret file_example2_nfa ex_file2_nfa) as (E2 & L2); [vm_compute; reflexivity|].
  destruct (load_dfa_ret file_example_dfa ex_file_dfa) as (E3 & L3); [vm_compute; reflexivity|].
  destruct (dfa_art_eq h ex_file2_dfa 1) as (links & levels & _ & EA).
  { eapply loads_dfa_valid. exact L1. }
  { split; [|exists [120%N]; simpl; auto]. simpl. intros s H. repeat (destruct H as [<-|H]; [simpl; lia|]). destruct H. }
  { apply short_labels_fit. intros i j Hi Hj Hn. do 4 (destruct i as [|i]; [do 4 (destruct j as [|j]; [first [congruence|vm_compute; lia]|]); simpl in Hj; lia|]). simpl in Hi; lia. }
  destruct (nfa_art_eq h' ex_file2_nfa 2) as (links' & levels' & _ & EA').
  { eapply loads_nfa_valid. exact L2. }
  { split; [|exists (of_string "s" ++ [8320%N]); simpl; auto]. simpl. intros s H. repeat (destruct H as [<-|H]; [simpl; lia|]). destruct H. }
  { apply short_labels_fit. intros i j Hi Hj Hn. do 6 (destruct i as [|i]; [do 6 (destruct j as [|j]; [first [congruence|vm_compute; lia]|]); simpl in Hj; lia|]). simpl in Hi; lia. }
  rewrite EA. cbn [bind]. rewrite E2. cbn [bind unwrap]. rewrite EA'. cbn [bind]. rewrite E3. cbn [bind unwrap].
  assert (ET : dfa_to_table ex_file_dfa = Ret ex_table) by (vm_compute; reflexivity). rewrite ET. cbn [bind].
  eexists. eexists. exists ex_table, ex_file_dfa. split; [reflexivity|]. split; [exact L3|].
  split; [apply load_dfa_ret; vm_compute; reflexivity|]. split; eauto.
Qed.
Print Assumptions C57_start.

(** ** Examples *)
Example C56_example : exists links levels, layout (length (dfa_states ex_one)) (dfa_labels ex_one) links levels /\
  Forall (fun cs => drawable ex_doubles (snd cs)) (shapes (default_options ex_floats) (map of_dfa_state (dfa_states ex_one)) links levels) /\
  finite_angles ex_doubles /\ dfa_valid ex_one.
Proof.
  assert (V : dfa_valid ex_one) by (apply dfa_validb_valid; vm_compute; reflexivity).
  assert (FA : finite_angles ex_doubles) by (split; reflexivity).
  destruct (C56_canvas_dfa_partial ex_floats ex_doubles id_order (default_options ex_floats) ex_one V FA) as (links & levels & cs & L & _ & _).
  exists links, levels. split; auto. split; auto. unfold shapes. apply Forall_app. split; [|apply Forall_app; split].
  - repeat constructor.
  - repeat constructor.
  - rewrite flat_map_concat_map. apply Forall_concat, Forall_map, Forall_forall. intros l _. repeat constructor.
Qed.
(** a session: a broken text is rendered, then a table *)
Example C57_example : match gui_run (fl := ex_floats) (fun _ => id_order) (mk_gui [] [])
    [(of_string "x", true); (file_example_dfa, false); (file_example_dfa, true); ([], false)] with
  | Ret (g, frames) => (gui_dfa g, gui_to_render g, map (@length _) frames) = ([], file_example_dfa, [0; 0; 62; 62])
  | _ => False
  end.
Proof. vm_compute. reflexivity. Qed.
(** numbers above 1000 are not finite: a line to such a point leaves its first end, the width of the next line is ignored *)
Definition ex_limited : doubles ex_floats :=
  mk_doubles ex_floats Z (fun x => x) 0%Z 1%Z 6%Z (fun x => (x <? 1000)%Z) (fun x => (0 <? x)%Z) (fun x => (x <? 0)%Z).
Example C56_any_calls_example : exists ctx', canvas_calls ex_limited (drawer_new ex_limited (new_context ex_limited))
    [StartDrawing ex_floats; DrawLine ex_floats (1%Z, 2%Z) (3%Z, 4%Z) 5%Z; SetColor ex_floats (1, 2, 3); DrawLine ex_floats (1%Z, 2%Z) (3%Z, 4%Z) 0%Z;
     DrawCircle ex_floats (1%Z, 2000%Z) (-3)%Z 7%Z; DrawLine ex_floats (1%Z, 2%Z) (2000%Z, 4%Z) 8%Z; FinishDrawing ex_floats] = Ret ctx' /\
  cx_marks ex_limited ctx' =
    [MStroke ex_limited (of_string "#000000") 5%Z [SLine ex_limited (PAt ex_limited 1%Z 2%Z) (PAt ex_limited 3%Z 4%Z)];
     MStroke ex_limited (of_string "rgb(1 2 3)") 5%Z [SLine ex_limited (PAt ex_limited 1%Z 2%Z) (PAt ex_limited 3%Z 4%Z)];
     MStroke ex_limited (of_string "rgb(1 2 3)") 8%Z [SLine ex_limited (PAt ex_limited 1%Z 2%Z) (PAt ex_limited 1%Z 2%Z)]].
Proof.
  destruct (C56_any_calls ex_floats ex_limited) with (ctx := new_context ex_limited)
    (calls := [DrawLine ex_floats (1%Z, 2%Z) (3%Z, 4%Z) 5%Z; SetColor ex_floats (1, 2, 3); DrawLine ex_floats (1%Z, 2%Z) (3%Z, 4%Z) 0%Z;
     DrawCircle ex_floats (1%Z, 2000%Z) (-3)%Z 7%Z; DrawLine ex_floats (1%Z, 2%Z) (2000%Z, 4%Z) 8%Z; FinishDrawing ex_floats]) as (ctx' & E & M).
  - split; reflexivity.
  - intros H. apply Exists_exists in H. destruct H as (x & Hx & N). cbn in Hx.
    repeat (destruct Hx as [<-|Hx]; [cbn in N; try contradiction; destruct N as ((_ & F) & _); discriminate|]). destruct Hx.
  - exists ctx'. split; [exact E|]. rewrite M. vm_compute. reflexivity.
Qed.
