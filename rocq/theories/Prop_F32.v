(** * Properties of drawings in single precision *)
From Coq Require Import Ascii String List NArith ZArith QArith Arith Bool Lia.
From Verif Require Import Base Spec BaseLemmas Examples NfaBasics DrawModel DrawSpec DrawProofs CanvasModel GeometrySpec PictureProofs PictureFinal F32Model F32Spec F32Proofs F32Shapes F32Final.
From Verif Require Import Prop_Geometry.
Import ListNotations.
Close Scope string_scope.
Open Scope list_scope.
Close Scope Q_scope.
Open Scope nat_scope.

(** ** C89: with the default options, small drawings are exact in single precision *)

(** what is drawn is what would be drawn if all calculations were exact *)
Theorem C89_dfa : forall x y h d, dfa_valid d ->
  let opts := fun fl => with_offset fl (f_of_usize fl x) (f_of_usize fl y) (default_options fl) in
  exact rationals (fun q => q) /\
  exists links levels calls calls', layout (length (dfa_states d)) (dfa_labels d) links levels /\
    draw_dfa f32 h (opts f32) d = Ret calls /\ draw_dfa rationals h (opts rationals) d = Ret calls' /\
    paints_shapes (opts f32) (map of_dfa_state (dfa_states d)) links levels calls /\
    (small_drawing (length (dfa_states d)) levels x y -> Forall2 same_shape (painted None calls) (painted None calls')).
Proof.
  intros x y h d V opts. split; [apply rationals_exact|]. destruct (dfa_layout h d V) as (links & levels & E1 & E2 & L).
  rewrite <- (map_length of_dfa_state (dfa_states d)) in L.
  destruct (drawing_same x y h (map of_dfa_state (dfa_states d)) _ _ _ _ ltac:(pose proof (dv_initial _ V); destruct (dfa_states d); [cbn in *; lia|discriminate]) L E2)
    as (c1 & c2 & H1 & H2 & H3 & _ & H4).
  rewrite map_length in L, H4. exists links, levels, c1, c2. split; [exact L|]. unfold draw_dfa. rewrite E1. cbn [bind]. auto.
Qed.
Print Assumptions C89_dfa.
Theorem C89_nfa : forall x y h n, nfa_valid n ->
  let opts := fun fl => with_offset fl (f_of_usize fl x) (f_of_usize fl y) (default_options fl) in
  exact rationals (fun q => q) /\
  exists links levels calls calls', layout (length (nfa_states n)) (nfa_labels n) links levels /\
    draw_nfa f32 h (opts f32) n = Ret calls /\ draw_nfa rationals h (opts rationals) n = Ret calls' /\
    paints_shapes (opts f32) (map of_nfa_state (nfa_states n)) links levels calls /\
    (small_drawing (length (nfa_states n)) levels x y -> Forall2 same_shape (painted None calls) (painted None calls')).
Proof.
  intros x y h n V opts. split; [apply rationals_exact|]. destruct (nfa_layout h n V) as (links & levels & E1 & E2 & L).
  rewrite <- (map_length of_nfa_state (nfa_states n)) in L.
  destruct (drawing_same x y h (map of_nfa_state (nfa_states n)) _ _ _ _ ltac:(pose proof (nv_initial _ V); destruct (nfa_states n); [cbn in *; lia|discriminate]) L E2)
    as (c1 & c2 & H1 & H2 & H3 & _ & H4).
  rewrite map_length in L, H4. exists links, levels, c1, c2. split; [exact L|]. unfold draw_nfa. rewrite E1. cbn [bind]. auto.
Qed.
Print Assumptions C89_nfa.
(** all drawings of automata with up to 400 states are small *)
Theorem C89_small : forall n labels links levels x y, layout n labels links levels -> n <= 400 -> x <= 1000 -> y <= 1000 ->
  small_drawing n levels x y.
Proof. exact small_400. Qed.
Print Assumptions C89_small.

(** drawings in single precision determine automata *)
Theorem C89_dfa_picture : forall x y h1 h2 d1 d2 calls1 calls2,
  let opts := with_offset f32 (f_of_usize f32 x) (f_of_usize f32 y) (default_options f32) in
  x <= 1000 -> y <= 1000 -> length (dfa_states d1) <= 400 -> length (dfa_states d2) <= 400 ->
  dfa_valid d1 -> dfa_valid d2 -> no_spaces (dfa_alphabet d1) -> no_spaces (dfa_alphabet d2) ->
  draw_dfa f32 h1 opts d1 = Ret calls1 -> draw_dfa f32 h2 opts d2 = Ret calls2 -> same_picture (painted None calls1) (painted None calls2) ->
  map of_dfa_state (dfa_states d1) = map of_dfa_state (dfa_states d2) /\ dfa_initial d1 = dfa_initial d2 /\
  (forall p a t, dfa_edge d1 p a t <-> dfa_edge d2 p a t) /\
  (forall a, In a (dfa_alphabet d1) <-> In a (dfa_alphabet d2)) /\
  (forall w, dfa_lang d1 w <-> dfa_lang d2 w) /\
  (dfa_alphabet d1 = dfa_alphabet d2 -> d1 = d2).
Proof.
  intros x y h1 h2 d1 d2 c1 c2 opts Hx Hy N1 N2 V1 V2 S1 S2 E1 E2 SP.
  destruct (C89_dfa x y h1 d1 V1) as (EX & links1 & levels1 & a1 & b1 & L1 & A1 & B1 & _ & Q1).
  destruct (C89_dfa x y h2 d2 V2) as (_ & links2 & levels2 & a2 & b2 & L2 & A2 & B2 & _ & Q2).
  change (draw_dfa f32 h1 opts d1 = Ret a1) in A1. change (draw_dfa f32 h2 opts d2 = Ret a2) in A2.
  rewrite E1 in A1. rewrite E2 in A2. injection A1 as <-. injection A2 as <-.
  refine (C78_dfa rationals (fun q => q) _ _ h1 h2 d1 d2 b1 b2 EX V1 V2 S1 S2 B1 B2 (picture_same _ _ _ _ (Q1 _) (Q2 _) SP)); eapply small_400; eauto.
Qed.
Print Assumptions C89_dfa_picture.
Theorem C89_nfa_picture : forall x y h1 h2 n1 n2 calls1 calls2,
  let opts := with_offset f32 (f_of_usize f32 x) (f_of_usize f32 y) (default_options f32) in
  x <= 1000 -> y <= 1000 -> length (nfa_states n1) <= 400 -> length (nfa_states n2) <= 400 ->
  nfa_valid n1 -> nfa_valid n2 -> no_spaces (nfa_alphabet n1) -> no_spaces (nfa_alphabet n2) ->
  ~ In [949%N] (nfa_alphabet n1) -> ~ In [949%N] (nfa_alphabet n2) ->
  draw_nfa f32 h1 opts n1 = Ret calls1 -> draw_nfa f32 h2 opts n2 = Ret calls2 -> same_picture (painted None calls1) (painted None calls2) ->
  map of_nfa_state (nfa_states n1) = map of_nfa_state (nfa_states n2) /\ nfa_initial n1 = nfa_initial n2 /\
  (forall p a t, nfa_edge n1 p a t <-> nfa_edge n2 p a t) /\ (forall p t, nfa_eps_edge n1 p t <-> nfa_eps_edge n2 p t) /\
  (forall w, nfa_lang n1 w <-> nfa_lang n2 w).
Proof.
  intros x y h1 h2 n1 n2 c1 c2 opts Hx Hy N1 N2 V1 V2 S1 S2 I1 I2 E1 E2 SP.
  destruct (C89_nfa x y h1 n1 V1) as (EX & links1 & levels1 & a1 & b1 & L1 & A1 & B1 & _ & Q1).
  destruct (C89_nfa x y h2 n2 V2) as (_ & links2 & levels2 & a2 & b2 & L2 & A2 & B2 & _ & Q2).
  change (draw_nfa f32 h1 opts n1 = Ret a1) in A1. change (draw_nfa f32 h2 opts n2 = Ret a2) in A2.
  rewrite E1 in A1. rewrite E2 in A2. injection A1 as <-. injection A2 as <-.
  refine (C78_nfa rationals (fun q => q) _ _ h1 h2 n1 n2 b1 b2 EX V1 V2 S1 S2 I1 I2 B1 B2 (picture_same _ _ _ _ (Q1 _) (Q2 _) SP)); eapply small_400; eauto.
Qed.
Print Assumptions C89_nfa_picture.

(** the drawing of the page is inside of its canvas exactly if there are at most eight states and thirteen levels *)
Theorem C89_page_canvas : forall h n, nfa_valid n -> length (nfa_states n) <= 400 ->
  exists links levels calls, layout (length (nfa_states n)) (nfa_labels n) links levels /\
    draw_nfa f32 h (default_options f32) n = Ret calls /\
    ((forall c s, In (c, s) (painted None calls) -> in_box f32_val 700 500 s) <-> length (nfa_states n) <= 8 /\ levels <= 13).
Proof.
  intros h n V N. destruct (nfa_layout h n V) as (links & levels & E1 & E2 & L). pose proof L as L'.
  rewrite <- (map_length of_nfa_state (nfa_states n)) in L'.
  destruct (drawing_same 0 0 h (map of_nfa_state (nfa_states n)) _ _ _ _ ltac:(pose proof (nv_initial _ V); destruct (nfa_states n); [cbn in *; lia|discriminate]) L' E2)
    as (c1 & c2 & H1 & H2 & _ & P & H4).
  rewrite map_length in H4. exists links, levels, c1. split; [exact L|]. split; [unfold draw_nfa; rewrite E1; exact H1|].
  assert (FF : Forall2 same_shape (painted None c1) (painted None c2)) by (apply H4; eapply small_400; eauto; lia).
  assert (S : (forall c s, In (c, s) (painted None c2) -> in_box (fun q : F rationals => q) 700 500 s) <-> length (nfa_states n) <= 8 /\ levels <= 13).
  { rewrite (painted_calls _ _ _ _ _ P).
    pose proof (size rationals (fun q => q) rationals_exact (f_of_usize rationals 0) (f_of_usize rationals 0)
                 (map of_nfa_state (nfa_states n)) links levels (length (nfa_states n)) (7 * 100) (5 * 100)) as S.
    change (inject_Z (Z.of_nat (7 * 100))) with 700%Q in S. change (inject_Z (Z.of_nat (5 * 100))) with 500%Q in S.
    unfold opts_at. rewrite S; [lia|reflexivity|reflexivity|apply map_length| |].
    - destruct (nth_error_lt _ _ (nv_initial _ V)) as [s Hs]. exists (nfa_initial n), (of_nfa_state s).
      split; [apply map_nth_error; exact Hs|]. apply (nv_flag _ V _ _ Hs). reflexivity.
    - intros l Hl. destruct (lo_real _ _ _ _ L l Hl) as (A & B & _). split; [exact A|]. split; [exact B|]. apply (lo_level _ _ _ _ L l Hl). }
  rewrite <- S. split; intros H c s Hs.
  - destruct (Forall2_in_r _ _ _ _ FF Hs) as ([c' s'] & Hs' & R). apply (box_same _ _ _ _ R). apply (H c'). exact Hs'.
  - destruct (Forall2_in_l _ _ _ _ FF Hs) as ([c' s'] & Hs' & R). apply (box_same _ _ _ _ R). apply (H c'). exact Hs'.
Qed.
Print Assumptions C89_page_canvas.

(** large drawings in single precision do not determine automata: numbers that are too large are rounded *)
Theorem C89_large_refuted : exists h d1 d2 calls1 calls2, dfa_valid d1 /\ dfa_valid d2 /\ no_spaces (dfa_alphabet d1) /\ no_spaces (dfa_alphabet d2) /\
  draw_dfa f32 h (default_options f32) d1 = Ret calls1 /\ draw_dfa f32 h (default_options f32) d2 = Ret calls2 /\
  same_picture (painted None calls1) (painted None calls2) /\ map of_dfa_state (dfa_states d1) <> map of_dfa_state (dfa_states d2).
Proof.
  assert (K : exists p, Z.of_nat p = (2 ^ 24)%Z) by (exists (Z.to_nat (2 ^ 24)); apply Z2Nat.id; discriminate). destruct K as [p HP].
  destruct (rows_same p HP id_order) as (c1 & c2 & E1 & E2 & SP & NE).
  exists id_order, (row p (fun i => i)), (row p (swap p)), c1, c2.
  split; [apply row_valid; auto|]. split; [apply row_valid; intros i j H; rewrite <- (swap_swap p i), H; apply swap_swap|].
  split; [intros a c []|]. split; [intros a c []|]. auto.
Qed.
Print Assumptions C89_large_refuted.

(** ** Examples *)

(** the middle of an arrow: the point of its head is 2.5 away from it *)
Example C89_example : dfa_valid ex_touch /\ small_drawing (length (dfa_states ex_touch)) 1 20 150 /\
  match draw_dfa f32 id_order (with_offset f32 (f_of_usize f32 20) (f_of_usize f32 150) (default_options f32)) ex_touch with
  | Ret calls => existsb (fun s => match snd s with
                                   | Line p _ _ => match f32_value (fst p) with Some q => Qeq_bool q (325 # 2) | None => false end
                                   | _ => false
                                   end) (painted None calls)
  | _ => false
  end = true.
Proof.
  split; [apply dfa_validb_valid; vm_compute; reflexivity|]. split; [split; vm_compute; reflexivity|]. vm_compute. reflexivity.
Qed.
Example C89_round_example : f32_value (f_add f32 (f_of_usize f32 1) (f_half f32)) = Some (3 # 2)%Q /\
  f32_value (f_div f32 (f_of_usize f32 1) (f_of_usize f32 3)) = Some (11184811 # 33554432)%Q.
Proof. vm_compute. auto. Qed.
