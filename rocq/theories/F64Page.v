(** * The canvas and the page with IEEE numbers *)
From Coq Require Import Ascii String List NArith ZArith QArith Arith Bool Lia.
From Verif Require Import Base Spec BaseLemmas NfaBasics WasmSpec WasmProofs DrawModel DrawSpec DrawProofs CanvasModel CanvasSpec CanvasProofs PageModel PageSpec PageProofs PageHistorySpec PageHistoryProofs.
From Verif Require Import F32Model F32Spec F32Proofs F32Shapes F32Final F64Model F64Spec F64Proofs F64Finite.
Import ListNotations.
Close Scope string_scope.
Open Scope list_scope.
Close Scope Q_scope.
Open Scope nat_scope.

Lemma session_length seg ds ns rs es : forall pg pgs, session_shows f64 seg ds ns rs pg es pgs -> length pgs = length es.
Proof.
  induction es as [|e es IH]; intros pg [|pg' pgs] S; try reflexivity; try (destruct S; fail). destruct S as [_ S]. cbn. rewrite (IH _ _ S). reflexivity.
Qed.

Lemma session_paints seg ds ns rs n : (Z.of_nat (length (nfa_states n)) < 2 ^ 32)%Z ->
  forall es pg pgs k, session_shows f64 seg ds ns rs pg es pgs -> clicked BVisualize es k -> loads_nfa (value f64 (before f64 pg pgs k) VisualizeIn) n ->
  exists links levels ctx ctx', layout (length (nfa_states n)) (nfa_labels n) links levels /\
    canvas_of f64 (before f64 pg pgs k) = Some ctx /\ canvas_of f64 (before f64 pg pgs (S k)) = Some ctx' /\
    let sh := shapes (default_options f32) (map of_nfa_state (nfa_states n)) links levels in
    cx_marks f64 ctx' = cx_marks f64 ctx ++ map (shape_mark f64) sh ++ again f64 sh /\
    (length (nfa_states n) <= 400 -> Forall2 mark_is (map (shape_mark f64) sh) (shapes (default_options rationals) (map of_nfa_state (nfa_states n)) links levels)).
Proof.
  intros HN. induction es as [|e0 es IH]; intros pg pgs k S (e & Ek & Ce) LN; [destruct k; discriminate|].
  destruct pgs as [|pg' pgs]; [destruct S|]. destruct S as [S1 S2]. destruct k as [|k].
  - injection Ek as ->. destruct e as [|b h dbg]; [discriminate|]. destruct b; try discriminate. destruct S1 as (_ & S1).
    change (before f64 pg (pg' :: pgs) 0) with pg in *. change (before f64 pg (pg' :: pgs) 1) with pg'.
    destruct S1 as [(n' & links & levels & c1 & c2 & L0 & T & LO & C1 & C2 & M)|(N & _)]; [|exfalso; apply N; eexists; exact LN].
    assert (n' = n) as -> by exact (loads_nfa_unique _ _ _ L0 LN). pose proof (loads_nfa_valid _ _ LN) as V.
    exists links, levels, c1, c2. split; [exact LO|]. split; [exact C1|]. split; [exact C2|]. pose proof LO as LO'.
    rewrite <- (map_length of_nfa_state (nfa_states n)) in LO', HN. split; [exact (M (any_marks _ _ _ _ HN LO'))|]. intros H4.
    pose proof (small_400 _ _ _ _ 0 0 LO H4 ltac:(lia) ltac:(lia)) as SM. rewrite <- (map_length of_nfa_state (nfa_states n)) in SM.
    assert (NE : map of_nfa_state (nfa_states n) <> []) by (pose proof (nv_initial _ V); destruct (nfa_states n); [cbn in *; lia|discriminate]).
    apply (small_marks _ _ _ _ NE LO' SM).
  - pose proof (session_length _ _ _ _ _ _ _ S2) as LE. assert (k < length es) by (apply nth_error_Some; cbn in Ek; congruence).
    rewrite !before_S in * by lia. apply (IH pg' pgs k S2); [exists e; split; assumption|exact LN].
Qed.
