(** * Properties of the options of drawings *)
From Coq Require Import Ascii String List NArith ZArith QArith Arith Bool Lia.
From Verif Require Import Base Spec Examples NfaBasics DrawModel DrawSpec CanvasModel OptionsModel OptionsSpec OptionsProofs GeometrySpec PictureFinal Prop_Geometry.
Import ListNotations.
Close Scope string_scope.
Close Scope Q_scope.
Open Scope list_scope.
Open Scope nat_scope.

(** ** C80: options *)

(** a setter changes its option and no other; options are the same if all their values are *)
Theorem C80_setters : forall fl T (n : option_name (fl := fl) T) (v : T) (o : draw_options fl),
  read n (setter n v o) = v /\
  (forall U (m : option_name U), existT _ T n <> existT _ U m -> read m (setter n v o) = read m o).
Proof. intros fl T n v o. split; [apply read_set|]. intros U m. apply read_set_other. Qed.
Print Assumptions C80_setters.
Theorem C80_values : forall fl (o o' : draw_options fl), o = o' <-> forall T (n : option_name T), read n o = read n o'.
Proof. intros fl o o'. split; [intros ->; reflexivity|apply options_ext]. Qed.
Print Assumptions C80_values.
(** the constructor takes the values in the order of the declaration *)
Theorem C80_new : forall fl (n1 n2 n3 n4 n5 n6 n7 n8 n9 n10 n11 n12 n13 n14 n15 n16 n17 n18 n19 : F fl) (f1 f2 : bool) (c1 c2 c3 : colour),
  let o := options_new n1 n2 n3 n4 n5 n6 n7 n8 n9 n10 n11 n12 n13 n14 n15 n16 n17 n18 n19 f1 f2 c1 c2 c3 in
  [read XScale o; read YScale o; read XOffset o; read YOffset o; read CenterLinePadding o; read CircleRadius o; read CircleWidth o;
   read AcceptingCircleRadius o; read AcceptingCircleWidth o; read InitArrowLength o; read InitArrowArmsLength o; read InitArrowWidth o;
   read TransArrowArmsLength o; read TransLineWidth o; read FromLineOffset o; read ToLineOffset o; read FloorHeight o; read TextMargin o;
   read LineCircleMargin o] = [n1; n2; n3; n4; n5; n6; n7; n8; n9; n10; n11; n12; n13; n14; n15; n16; n17; n18; n19] /\
  [read EndArrow o; read MiddleArrow o] = [f1; f2] /\
  [read TextColor o; read CircleColor o; read LineColor o] = [c1; c2; c3].
Proof. intros. repeat split; reflexivity. Qed.
Print Assumptions C80_new.
Theorem C80_default : forall fl, let o := default_options fl in
  [read XScale o; read YScale o; read XOffset o; read YOffset o; read CenterLinePadding o; read CircleRadius o; read CircleWidth o;
   read AcceptingCircleRadius o; read AcceptingCircleWidth o; read InitArrowLength o; read InitArrowArmsLength o; read InitArrowWidth o;
   read TransArrowArmsLength o; read TransLineWidth o; read FromLineOffset o; read ToLineOffset o; read FloorHeight o; read TextMargin o;
   read LineCircleMargin o] = map (f_of_usize fl) [1; 1; 0; 0; 20; 30; 2; 25; 2; 50; 15; 3; 5; 3; 15; 15; 25; 15; 10] /\
  [read EndArrow o; read MiddleArrow o] = [true; true] /\
  [read TextColor o; read CircleColor o; read LineColor o] = [(255, 255, 255); (150, 255, 255); (0, 255, 255)].
Proof. intros fl. repeat split; reflexivity. Qed.
Print Assumptions C80_default.

(** the arrangement of the arrows does not depend on the options *)
Theorem C80_dfa_layout : forall h d, dfa_valid d -> exists links levels, layout (length (dfa_states d)) (dfa_labels d) links levels /\
  forall fl (o : draw_options fl), exists calls, draw_dfa fl h o d = Ret calls /\ paints_shapes o (map of_dfa_state (dfa_states d)) links levels calls.
Proof. apply dfa_all_options. Qed.
Print Assumptions C80_dfa_layout.
Theorem C80_nfa_layout : forall h n, nfa_valid n -> exists links levels, layout (length (nfa_states n)) (nfa_labels n) links levels /\
  forall fl (o : draw_options fl), exists calls, draw_nfa fl h o n = Ret calls /\ paints_shapes o (map of_nfa_state (nfa_states n)) links levels calls.
Proof. apply nfa_all_options. Qed.
Print Assumptions C80_nfa_layout.

(** offsets move the whole drawing, then scales stretch it; lines do not become thicker *)
Definition unmoved {fl} (o : draw_options fl) : draw_options fl :=
  setter XScale (f_of_usize fl 1) (setter YScale (f_of_usize fl 1) (setter XOffset (f_of_usize fl 0) (setter YOffset (f_of_usize fl 0) o))).
Theorem C80_offset_and_scale : forall fl (val : F fl -> Q) h (o : draw_options fl), exact fl val ->
  (forall d, dfa_valid d -> exists calls calls', draw_dfa fl h (unmoved o) d = Ret calls /\ draw_dfa fl h o d = Ret calls' /\
     Forall2 (moved val o) (painted None calls) (painted None calls')) /\
  (forall n, nfa_valid n -> exists calls calls', draw_nfa fl h (unmoved o) n = Ret calls /\ draw_nfa fl h o n = Ret calls' /\
     Forall2 (moved val o) (painted None calls) (painted None calls')).
Proof.
  intros fl val h o EX. split; intros a V.
  - destruct (dfa_all_options h a V) as (links & levels & _ & A). destruct (A fl (unmoved o)) as (c & E & P). destruct (A fl o) as (c' & E' & P').
    exists c, c'. split; [exact E|]. split; [exact E'|]. rewrite (painted_calls _ _ _ _ _ P), (painted_calls _ _ _ _ _ P'). apply (shapes_moved val EX).
  - destruct (nfa_all_options h a V) as (links & levels & _ & A). destruct (A fl (unmoved o)) as (c & E & P). destruct (A fl o) as (c' & E' & P').
    exists c, c'. split; [exact E|]. split; [exact E'|]. rewrite (painted_calls _ _ _ _ _ P), (painted_calls _ _ _ _ _ P'). apply (shapes_moved val EX).
Qed.
Print Assumptions C80_offset_and_scale.

(** colours: every kind of shape has its own one, and they change nothing else *)
Theorem C80_colours : forall fl h (o : draw_options fl) (text circle line : colour), let o' := setter TextColor text (setter CircleColor circle (setter LineColor line o)) in
  let recoloured := fun calls calls' : list (call fl) => map snd (painted None calls') = map snd (painted None calls) /\
    Forall (fun cs => fst cs = Some (coloured o (snd cs))) (painted None calls) /\
    Forall (fun cs : option colour * @shape fl => fst cs = Some (match snd cs with Line _ _ _ => line | Circle _ _ _ => circle | Text _ _ => text end)) (painted None calls') in
  (forall d, dfa_valid d -> exists calls calls', draw_dfa fl h o d = Ret calls /\ draw_dfa fl h o' d = Ret calls' /\ recoloured calls calls') /\
  (forall n, nfa_valid n -> exists calls calls', draw_nfa fl h o n = Ret calls /\ draw_nfa fl h o' n = Ret calls' /\ recoloured calls calls').
Proof.
  intros fl h o text circle line o' recoloured.
  split; intros a V.
  - destruct (dfa_all_options h a V) as (links & levels & _ & A). destruct (A fl o) as (c & E & P). destruct (A fl o') as (c' & E' & P').
    exists c, c'. split; [exact E|]. split; [exact E'|]. unfold recoloured. rewrite (painted_calls _ _ _ _ _ P), (painted_calls _ _ _ _ _ P').
    split; [apply shapes_recoloured|]. split; [apply shapes_coloured|apply (shapes_coloured o')].
  - destruct (nfa_all_options h a V) as (links & levels & _ & A). destruct (A fl o) as (c & E & P). destruct (A fl o') as (c' & E' & P').
    exists c, c'. split; [exact E|]. split; [exact E'|]. unfold recoloured. rewrite (painted_calls _ _ _ _ _ P), (painted_calls _ _ _ _ _ P').
    split; [apply shapes_recoloured|]. split; [apply shapes_coloured|apply (shapes_coloured o')].
Qed.
Print Assumptions C80_colours.

(** arrow heads can be left out: two lines each, for every two connected states, and nothing else *)
Theorem C80_arrow_heads : forall fl h (o : draw_options fl) (m e : bool), let draws := fun m e => setter MiddleArrow m (setter EndArrow e o) in
  let fewer := fun (links : list link) (calls calls' : list (call fl)) => part_of (painted None calls) (painted None calls') /\
    length (painted None calls') = length (painted None calls) + 2 * ((if m then 1 else 0) + (if e then 1 else 0)) * length links in
  (forall d, dfa_valid d -> exists links levels calls calls', layout (length (dfa_states d)) (dfa_labels d) links levels /\
     draw_dfa fl h (draws false false) d = Ret calls /\ draw_dfa fl h (draws m e) d = Ret calls' /\ fewer links calls calls') /\
  (forall n, nfa_valid n -> exists links levels calls calls', layout (length (nfa_states n)) (nfa_labels n) links levels /\
     draw_nfa fl h (draws false false) n = Ret calls /\ draw_nfa fl h (draws m e) n = Ret calls' /\ fewer links calls calls').
Proof.
  intros fl h o m e draws fewer. split; intros a V.
  - destruct (dfa_all_options h a V) as (links & levels & L & A). destruct (A fl (draws false false)) as (c & E & P). destruct (A fl (draws m e)) as (c' & E' & P').
    exists links, levels, c, c'. split; [exact L|]. split; [exact E|]. split; [exact E'|]. unfold fewer. rewrite (painted_calls _ _ _ _ _ P), (painted_calls _ _ _ _ _ P').
    apply shapes_heads.
  - destruct (nfa_all_options h a V) as (links & levels & L & A). destruct (A fl (draws false false)) as (c & E & P). destruct (A fl (draws m e)) as (c' & E' & P').
    exists links, levels, c, c'. split; [exact L|]. split; [exact E|]. split; [exact E'|]. unfold fewer. rewrite (painted_calls _ _ _ _ _ P), (painted_calls _ _ _ _ _ P').
    apply shapes_heads.
Qed.
Print Assumptions C80_arrow_heads.

(** ** Examples *)
Example C80_example :
  (* the offset of the window: both setters, in either order *)
  setter (fl := qfl) XOffset 20%Q (setter (fl := qfl) YOffset 150%Q (default_options qfl)) = setter (fl := qfl) YOffset 150%Q (setter (fl := qfl) XOffset 20%Q (default_options qfl)) /\
  setter (fl := qfl) XOffset 20%Q (setter (fl := qfl) YOffset 150%Q (default_options qfl)) = with_offset qfl 20%Q 150%Q (default_options qfl) /\
  unmoved (fl := qfl) (with_offset qfl 20%Q 150%Q (default_options qfl)) = default_options qfl /\
  exact qfl (fun x => x) /\ dfa_valid ex_touch /\
  (* eight lines are left out for two links *)
  match draw_dfa qfl id_order (default_options qfl) ex_touch,
        draw_dfa qfl id_order (setter (fl := qfl) MiddleArrow false (setter (fl := qfl) EndArrow false (default_options qfl))) ex_touch with
  | Ret calls, Ret calls' => (length (painted None calls), length (painted None calls')) = (27, 19)
  | _, _ => False
  end.
Proof.
  split; [reflexivity|]. split; [reflexivity|]. split; [reflexivity|]. split; [apply qfl_exact|].
  split; [apply dfa_validb_valid; vm_compute; reflexivity|]. vm_compute. reflexivity.
Qed.
