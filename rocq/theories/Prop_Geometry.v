(** * Properties of the places of the shapes in drawings

    In this file all arithmetic is exact ([exact]). *)
From Coq Require Import Ascii String List NArith ZArith QArith Arith Bool Lia Lqa.
From Verif Require Import Base Spec BaseLemmas TableModel Examples NfaBasics Messages DrawModel DrawSpec DrawProofs CanvasModel CanvasSpec GeometrySpec GeometryProofs PictureProofs PictureFinal.
From Verif Require Import LayoutSpec WasmSpec WasmProofs ApiProofs.
Import ListNotations.
Close Scope string_scope.
Open Scope list_scope.
Close Scope Q_scope.
Open Scope nat_scope.

(** ** C77: where the shapes of drawings are *)

(** the circles of different states have no common point; the horizontal lines of two arrows meet only where an arrow runs into a
    loop on the same level *)
Theorem C77_dfa : forall fl (val : F fl -> Q) (opts : draw_options fl) h d, exact fl val -> proper_options val opts -> dfa_valid d ->
  exists links levels calls, layout (length (dfa_states d)) (dfa_labels d) links levels /\
    draw_dfa fl h opts d = Ret calls /\ paints_shapes opts (map of_dfa_state (dfa_states d)) links levels calls /\
    (forall i j, i <> j ->
       discs_apart val (at_ opts (state_x opts i) (state_y opts levels)) (f_mul fl (o_circle_radius fl opts) (o_x_scale fl opts))
                       (at_ opts (state_x opts j) (state_y opts levels)) (f_mul fl (o_circle_radius fl opts) (o_x_scale fl opts))) /\
    (forall a b, In a links -> In b links -> a <> b ->
       (bars_meet val opts levels a b <-> lk_level a = lk_level b /\ (runs_into a b \/ runs_into b a))).
Proof.
  intros fl val opts h d EX PO V. destruct (draw_dfa_eq opts h d V) as (links & levels & calls & L & E & P).
  exists links, levels, calls. split; [exact L|]. split; [exact E|]. split; [exact P|]. split.
  - intros i j. apply circles_apart; auto.
  - intros a b Ha Hb Hne. apply (bars_meet_iff fl val EX opts PO _ _ _ _ a b L Ha Hb Hne).
Qed.
Print Assumptions C77_dfa.
Theorem C77_nfa : forall fl (val : F fl -> Q) (opts : draw_options fl) h n, exact fl val -> proper_options val opts -> nfa_valid n ->
  exists links levels calls, layout (length (nfa_states n)) (nfa_labels n) links levels /\
    draw_nfa fl h opts n = Ret calls /\ paints_shapes opts (map of_nfa_state (nfa_states n)) links levels calls /\
    (forall i j, i <> j ->
       discs_apart val (at_ opts (state_x opts i) (state_y opts levels)) (f_mul fl (o_circle_radius fl opts) (o_x_scale fl opts))
                       (at_ opts (state_x opts j) (state_y opts levels)) (f_mul fl (o_circle_radius fl opts) (o_x_scale fl opts))) /\
    (forall a b, In a links -> In b links -> a <> b ->
       (bars_meet val opts levels a b <-> lk_level a = lk_level b /\ (runs_into a b \/ runs_into b a))).
Proof.
  intros fl val opts h n EX PO V. destruct (draw_nfa_eq opts h n V) as (links & levels & calls & L & E & P).
  exists links, levels, calls. split; [exact L|]. split; [exact E|]. split; [exact P|]. split.
  - intros i j. apply circles_apart; auto.
  - intros a b Ha Hb Hne. apply (bars_meet_iff fl val EX opts PO _ _ _ _ a b L Ha Hb Hne).
Qed.
Print Assumptions C77_nfa.

(** with the default options, arrows are above the states: they do not run through the circles *)
Theorem C77_arrows_above_states : forall fl (val : F fl -> Q) x y h, exact fl val ->
  let opts := with_offset fl x y (default_options fl) in
  let arrows_above := fun links levels => exists base,
    (forall l c s, In l links -> In (c, s) (link_shapes opts levels l) -> above val base s) /\
    (forall c s, In (c, s) (entry_shapes opts levels) -> below val (base + 10) s) /\
    (forall i st c s, In (c, s) (state_shapes opts levels i st) -> below val (base + 10) s) in
  (forall d, dfa_valid d -> exists links levels calls, layout (length (dfa_states d)) (dfa_labels d) links levels /\
     draw_dfa fl h opts d = Ret calls /\ paints_shapes opts (map of_dfa_state (dfa_states d)) links levels calls /\ arrows_above links levels) /\
  (forall n, nfa_valid n -> exists links levels calls, layout (length (nfa_states n)) (nfa_labels n) links levels /\
     draw_nfa fl h opts n = Ret calls /\ paints_shapes opts (map of_nfa_state (nfa_states n)) links levels calls /\ arrows_above links levels).
Proof.
  intros fl val x y h EX opts arrows_above.
  assert (AA : forall n labels links levels, layout n labels links levels -> arrows_above links levels).
  { intros n labels links levels L. exists (qb levels + val y)%Q. split; [|split].
    - intros l c s Hl. apply (links_above fl val EX x y). apply (lo_level _ _ _ _ L l Hl).
    - intros c s. apply (entry_below fl val EX x y).
    - intros i st c s. apply (state_below fl val EX x y). }
  split.
  - intros d V. destruct (draw_dfa_eq opts h d V) as (links & levels & calls & L & E & P). exists links, levels, calls. eauto.
  - intros n V. destruct (draw_nfa_eq opts h n V) as (links & levels & calls & L & E & P). exists links, levels, calls. eauto.
Qed.
Print Assumptions C77_arrows_above_states.

(** with the default options a drawing fits into a rectangle exactly if that is large enough for the states and the levels *)
Theorem C77_dfa_size : forall fl (val : F fl -> Q) h d, exact fl val -> dfa_valid d ->
  exists links levels calls, layout (length (dfa_states d)) (dfa_labels d) links levels /\
    draw_dfa fl h (default_options fl) d = Ret calls /\
    forall W H, (forall c s, In (c, s) (painted None calls) -> in_box val (inject_Z (Z.of_nat W)) (inject_Z (Z.of_nat H)) s) <->
      80 * length (dfa_states d) + 50 <= W /\ 25 * levels + 165 <= H.
Proof.
  intros fl val h d EX V. destruct (draw_dfa_eq (default_options fl) h d V) as (links & levels & calls & L & E & P).
  exists links, levels, calls. split; [exact L|]. split; [exact E|]. intros W H. rewrite (painted_calls _ _ _ _ _ P).
  apply (size fl val EX (f_of_usize fl 0) (f_of_usize fl 0)); [apply (ex_num _ _ EX)|apply (ex_num _ _ EX)|apply map_length| |].
  - destruct (nth_error_lt _ _ (dv_initial _ V)) as [s Hs]. exists (dfa_initial d), (of_dfa_state s).
    split; [apply map_nth_error; exact Hs|]. apply (dv_flag _ V _ _ Hs). reflexivity.
  - intros l Hl. destruct (lo_real _ _ _ _ L l Hl) as (A & B & _). split; [exact A|]. split; [exact B|]. apply (lo_level _ _ _ _ L l Hl).
Qed.
Print Assumptions C77_dfa_size.
Theorem C77_nfa_size : forall fl (val : F fl -> Q) h n, exact fl val -> nfa_valid n ->
  exists links levels calls, layout (length (nfa_states n)) (nfa_labels n) links levels /\
    draw_nfa fl h (default_options fl) n = Ret calls /\
    forall W H, (forall c s, In (c, s) (painted None calls) -> in_box val (inject_Z (Z.of_nat W)) (inject_Z (Z.of_nat H)) s) <->
      80 * length (nfa_states n) + 50 <= W /\ 25 * levels + 165 <= H.
Proof.
  intros fl val h n EX V. destruct (draw_nfa_eq (default_options fl) h n V) as (links & levels & calls & L & E & P).
  exists links, levels, calls. split; [exact L|]. split; [exact E|]. intros W H. rewrite (painted_calls _ _ _ _ _ P).
  apply (size fl val EX (f_of_usize fl 0) (f_of_usize fl 0)); [apply (ex_num _ _ EX)|apply (ex_num _ _ EX)|apply map_length| |].
  - destruct (nth_error_lt _ _ (nv_initial _ V)) as [s Hs]. exists (nfa_initial n), (of_nfa_state s).
    split; [apply map_nth_error; exact Hs|]. apply (nv_flag _ V _ _ Hs). reflexivity.
  - intros l Hl. destruct (lo_real _ _ _ _ L l Hl) as (A & B & _). split; [exact A|]. split; [exact B|]. apply (lo_level _ _ _ _ L l Hl).
Qed.
Print Assumptions C77_nfa_size.
(** on the canvas of the web page: up to eight states and thirteen levels *)
Theorem C77_page_canvas : forall fl (val : F fl -> Q) h n, exact fl val -> nfa_valid n ->
  exists links levels calls, layout (length (nfa_states n)) (nfa_labels n) links levels /\
    draw_nfa fl h (default_options fl) n = Ret calls /\
    ((forall c s, In (c, s) (painted None calls) -> in_box val 700 500 s) <-> length (nfa_states n) <= 8 /\ levels <= 13).
Proof.
  intros fl val h n EX V. destruct (C77_nfa_size fl val h n EX V) as (links & levels & calls & L & E & S).
  exists links, levels, calls. split; [exact L|]. split; [exact E|]. specialize (S (7 * 100) (5 * 100)).
  change (inject_Z (Z.of_nat (7 * 100))) with 700%Q in S. change (inject_Z (Z.of_nat (5 * 100))) with 500%Q in S. rewrite S. lia.
Qed.
Print Assumptions C77_page_canvas.

(** arrows and loops on one level can touch *)
Definition qfl : floats := mk_floats Q Qplus Qminus Qmult Qdiv Qopp (fun n => inject_Z (Z.of_nat n)) (1 # 2)%Q.
Definition ex_touch : dfa :=
  {| dfa_alphabet := [el_a]; dfa_states := [ mk_dfa_state [48%N] true false [1]; mk_dfa_state [49%N] false true [1] ]; dfa_initial := 0 |}.
Lemma qfl_exact : exact qfl (fun x => x).
Proof. split; intros; reflexivity. Qed.
Lemma default_proper : proper_options (fl := qfl) (fun x => x) (default_options qfl).
Proof. split; cbn; try (split; reflexivity); reflexivity. Qed.
Theorem C77_touch_refuted : exists fl (val : F fl -> Q) opts h d links levels calls a b,
  exact fl val /\ proper_options val opts /\ dfa_valid d /\ layout (length (dfa_states d)) (dfa_labels d) links levels /\
  draw_dfa fl h opts d = Ret calls /\ paints_shapes opts (map of_dfa_state (dfa_states d)) links levels calls /\
  In a links /\ In b links /\ a <> b /\ bars_meet val opts levels a b.
Proof.
  set (a := mk_link 0 1 [el_a] 0). set (b := mk_link 1 1 [el_a] 0).
  destruct (draw_dfa_eq (default_options qfl) rev_order ex_touch) as (links & levels & calls & L & E & P);
    [apply dfa_validb_valid; vm_compute; reflexivity|].
  assert (L' : layout (length (dfa_states ex_touch)) (dfa_labels ex_touch) [a; b] 1).
  { split.
    - repeat constructor; cbn; intuition discriminate.
    - intros l [<-|[<-|[]]]; cbn; repeat split; (lia || discriminate).
    - intros i j Hi Hl. destruct i as [|[|i]]; [| |cbn in Hi; lia]; destruct j as [|[|j]]; cbn in Hl; try congruence.
      + exists a. cbn. auto.
      + exists b. cbn. auto.
    - intros l [<-|[<-|[]]]; cbn; lia.
    - intros k Hk. exists a. cbn. split; [auto|lia].
    - intros x y [<-|[<-|[]]] [<-|[<-|[]]] _; auto; right; unfold apart, before; cbn; lia. }
  exists qfl, (fun x => x), (default_options qfl), rev_order, ex_touch, [a; b], 1, calls, a, b.
  split; [apply qfl_exact|]. split; [apply default_proper|]. split; [apply dfa_validb_valid; vm_compute; reflexivity|]. split; [exact L'|].
  split; [exact E|]. split.
  - destruct P as (body & EB & F & N & _). exists body. split; [exact EB|]. split; [exact F|]. split; [exact N|].
    rewrite <- (painted_finish body). change (painted None (StartDrawing qfl :: body ++ [FinishDrawing qfl]) = shapes (default_options qfl) (map of_dfa_state (dfa_states ex_touch)) [a; b] 1).
    rewrite <- EB. assert (calls = match draw_dfa qfl rev_order (default_options qfl) ex_touch with Ret c => c | _ => [] end) as -> by (rewrite E; reflexivity).
    vm_compute. reflexivity.
  - split; [left; reflexivity|]. split; [right; left; reflexivity|]. split; [discriminate|].
    apply (bars_meet_iff qfl (fun x => x) qfl_exact _ default_proper _ _ _ _ a b L'); [left; reflexivity|right; left; reflexivity|discriminate|].
    split; [reflexivity|]. left. repeat split.
Qed.
Print Assumptions C77_touch_refuted.

(** ** C78: drawings determine automata *)
Theorem C78_dfa : forall fl (val : F fl -> Q) x y h1 h2 d1 d2 calls1 calls2, exact fl val ->
  dfa_valid d1 -> dfa_valid d2 -> no_spaces (dfa_alphabet d1) -> no_spaces (dfa_alphabet d2) ->
  draw_dfa fl h1 (with_offset fl x y (default_options fl)) d1 = Ret calls1 ->
  draw_dfa fl h2 (with_offset fl x y (default_options fl)) d2 = Ret calls2 ->
  same_picture (painted None calls1) (painted None calls2) ->
  map of_dfa_state (dfa_states d1) = map of_dfa_state (dfa_states d2) /\ dfa_initial d1 = dfa_initial d2 /\
  (forall p a t, dfa_edge d1 p a t <-> dfa_edge d2 p a t) /\
  (forall a, In a (dfa_alphabet d1) <-> In a (dfa_alphabet d2)) /\
  (forall w, dfa_lang d1 w <-> dfa_lang d2 w) /\
  (dfa_alphabet d1 = dfa_alphabet d2 -> d1 = d2).
Proof.
  intros fl val x y h1 h2 d1 d2 c1 c2 EX V1 V2 S1 S2 E1 E2 SP.
  destruct (dfa_picture fl val EX x y h1 h2 d1 d2 c1 c2 V1 V2 S1 S2 E1 E2 SP) as (ES & EI & EL).
  split; [exact ES|]. split; [exact EI|]. apply dfa_same; auto.
Qed.
Print Assumptions C78_dfa.
Theorem C78_nfa : forall fl (val : F fl -> Q) x y h1 h2 n1 n2 calls1 calls2, exact fl val ->
  nfa_valid n1 -> nfa_valid n2 -> no_spaces (nfa_alphabet n1) -> no_spaces (nfa_alphabet n2) ->
  ~ In [949%N] (nfa_alphabet n1) -> ~ In [949%N] (nfa_alphabet n2) ->
  draw_nfa fl h1 (with_offset fl x y (default_options fl)) n1 = Ret calls1 ->
  draw_nfa fl h2 (with_offset fl x y (default_options fl)) n2 = Ret calls2 ->
  same_picture (painted None calls1) (painted None calls2) ->
  map of_nfa_state (nfa_states n1) = map of_nfa_state (nfa_states n2) /\ nfa_initial n1 = nfa_initial n2 /\
  (forall p a t, nfa_edge n1 p a t <-> nfa_edge n2 p a t) /\ (forall p t, nfa_eps_edge n1 p t <-> nfa_eps_edge n2 p t) /\
  (forall w, nfa_lang n1 w <-> nfa_lang n2 w).
Proof.
  intros fl val x y h1 h2 n1 n2 c1 c2 EX V1 V2 S1 S2 A1 A2 E1 E2 SP.
  destruct (nfa_picture fl val EX x y h1 h2 n1 n2 c1 c2 V1 V2 S1 S2 E1 E2 SP) as (ES & EI & EL).
  split; [exact ES|]. split; [exact EI|]. apply nfa_same; auto.
Qed.
Print Assumptions C78_nfa.
(** automata that were read from texts can be told apart *)
Theorem C78_loaded :
  (forall u d, loads_dfa u d -> dfa_valid d /\ no_spaces (dfa_alphabet d)) /\
  (forall u n, loads_nfa u n -> nfa_valid n /\ no_spaces (nfa_alphabet n) /\ ~ In [949%N] (nfa_alphabet n)).
Proof.
  assert (NS : forall al, Forall legal_token al -> no_spaces al /\ ~ In [949%N] al).
  { intros al H. rewrite Forall_forall in H. split.
    - intros a c Ha Hc ->. destruct (H a Ha) as (_ & W & _). apply (proj1 (W _ Hc)). unfold whitespace. auto.
    - intros Ha. destruct (H _ Ha) as (_ & _ & R). apply R. left. reflexivity. }
  split.
  - intros u d L. split; [eapply loads_dfa_valid; eauto|]. destruct L as (t & H1 & _ & H2). apply NS. eapply dfa_text_legal; eauto.
  - intros u n L. split; [eapply loads_nfa_valid; eauto|]. destruct L as (t & H1 & _ & H2). apply NS. eapply nfa_text_legal; eauto.
Qed.
Print Assumptions C78_loaded.

(** ** Examples *)
Example C77_example : exact qfl (fun x => x) /\ proper_options (fl := qfl) (fun x => x) (default_options qfl) /\ dfa_valid ex_touch /\
  (forall links levels, layout (length (dfa_states ex_touch)) (dfa_labels ex_touch) links levels -> 1 <= levels).
Proof.
  split; [apply qfl_exact|]. split; [apply default_proper|]. split; [apply dfa_validb_valid; vm_compute; reflexivity|].
  intros links levels L. destruct (lo_all _ _ _ _ L 0 1) as (l & Hl & _); [cbn; lia|discriminate|]. apply (lo_level _ _ _ _ L) in Hl. lia.
Qed.
(** the drawing of an automaton with two states: 210 x 190 is enough, and nothing less *)
Example C77_size_example : exists calls, draw_dfa qfl id_order (default_options qfl) ex_touch = Ret calls /\
  forall W H, (forall c s, In (c, s) (painted None calls) -> in_box (fl := qfl) (fun x => x) (inject_Z (Z.of_nat W)) (inject_Z (Z.of_nat H)) s) -> 210 <= W /\ 190 <= H.
Proof.
  assert (V : dfa_valid ex_touch) by (apply dfa_validb_valid; vm_compute; reflexivity).
  destruct (C77_dfa_size qfl (fun x => x) id_order ex_touch qfl_exact V) as (links & levels & calls & L & E & S).
  exists calls. split; [exact E|]. intros W H B. apply S in B. change (length (dfa_states ex_touch)) with 2 in B.
  pose proof (proj2 (proj2 (proj2 C77_example)) links levels L). lia.
Qed.
(** different automata, different pictures *)
Example C78_example : exists calls1 calls2,
  draw_dfa qfl id_order (with_offset qfl 20%Q 150%Q (default_options qfl)) ex_touch = Ret calls1 /\
  draw_dfa qfl id_order (with_offset qfl 20%Q 150%Q (default_options qfl)) ex_even = Ret calls2 /\
  no_spaces (dfa_alphabet ex_touch) /\ no_spaces (dfa_alphabet ex_even) /\
  ~ same_picture (painted None calls1) (painted None calls2).
Proof.
  assert (V : dfa_valid ex_touch) by (apply dfa_validb_valid; vm_compute; reflexivity).
  assert (V' : dfa_valid ex_even) by (apply dfa_validb_valid; vm_compute; reflexivity).
  assert (N : no_spaces (dfa_alphabet ex_touch)) by (intros a c [<-|[]] [<-|[]]; discriminate).
  assert (N' : no_spaces (dfa_alphabet ex_even)) by (intros a c [<-|[<-|[]]] [<-|[]]; discriminate).
  destruct (draw_dfa_eq (with_offset qfl 20%Q 150%Q (default_options qfl)) id_order ex_touch V) as (_ & _ & c1 & _ & E1 & _).
  destruct (draw_dfa_eq (with_offset qfl 20%Q 150%Q (default_options qfl)) id_order ex_even V') as (_ & _ & c2 & _ & E2 & _).
  exists c1, c2. split; [exact E1|]. split; [exact E2|]. split; [exact N|]. split; [exact N'|]. intros SP.
  destruct (C78_dfa qfl (fun x => x) 20%Q 150%Q _ _ _ _ _ _ qfl_exact V V' N N' E1 E2 SP) as (X & _). discriminate X.
Qed.
