(** * GeometryProofs: where the shapes of a drawing are *)
From Coq Require Import List NArith Arith Bool ZArith QArith Lqa Lia Setoid.
From Verif Require Import Base Spec DrawModel DrawSpec GeometrySpec.
Import ListNotations.
Close Scope Q_scope.
Open Scope nat_scope.

Definition q (n : nat) : Q := inject_Z (Z.of_nat n).
Lemma q_lt i j : i < j -> (q i + 1 <= q j)%Q.
Proof. intros H. unfold q. change 1%Q with (inject_Z 1). rewrite <- inject_Z_plus, <- Zle_Qle. lia. Qed.
Lemma q_le i j : i <= j -> (q i <= q j)%Q.
Proof. intros H. unfold q. rewrite <- Zle_Qle. lia. Qed.
Lemma q_inj i j : (q i == q j)%Q -> i = j.
Proof. intros H. destruct (lt_eq_lt_dec i j) as [[D|D]|D]; auto; apply q_lt in D; lra. Qed.
Lemma q_pos i : (0 <= q i)%Q.
Proof. change 0%Q with (q 0). apply q_le. lia. Qed.
Lemma q_sub i j : j <= i -> (q (i - j) == q i - q j)%Q.
Proof. intros H. unfold q. rewrite Nat2Z.inj_sub by lia. unfold Zminus. rewrite inject_Z_plus, inject_Z_opp. reflexivity. Qed.
Lemma q_add i j : (q (i + j) == q i + q j)%Q.
Proof. unfold q. rewrite Nat2Z.inj_add, inject_Z_plus. reflexivity. Qed.

Section Exact.
Context (fl : floats) (val : F fl -> Q) (EX : exact fl val).

Lemma v_num n : (val (f_of_usize fl n) == q n)%Q.
Proof. apply (ex_num _ _ EX). Qed.

Section Options.
Context (opts : draw_options fl) (PO : proper_options val opts).
Local Notation xs := (val (o_x_scale fl opts)).
Local Notation ys := (val (o_y_scale fl opts)).
Local Notation ox := (val (o_x_offset fl opts)).
Local Notation oy := (val (o_y_offset fl opts)).
Local Notation rad := (val (o_circle_radius fl opts)).
Local Notation pad := (val (o_center_line_padding fl opts)).
Local Notation fo := (val (o_from_line_offset fl opts)).
Local Notation to := (val (o_to_line_offset fl opts)).
Local Notation fh := (val (o_floor_height fl opts)).

Definition pitch : Q := (2 * rad + pad)%Q.
Definition base : Q := (val (o_init_arrow_length fl opts) + pad + rad)%Q.
Definition X (i : nat) : Q := (base + pitch * q i)%Q.

Lemma v_at x y : (val (fst (at_ opts x y)) == (val x + ox) * xs)%Q /\ (val (snd (at_ opts x y)) == (val y + oy) * ys)%Q.
Proof. unfold at_. cbn [fst snd]. rewrite !(ex_mul _ _ EX), !(ex_add _ _ EX). split; reflexivity. Qed.
Lemma v_state_x i : (val (state_x opts i) == X i)%Q.
Proof.
  unfold state_x, X, base, pitch. rewrite !(ex_add _ _ EX), !(ex_mul _ _ EX), !(ex_add _ _ EX), !(ex_mul _ _ EX), !v_num. change (q 2) with 2%Q. lra.
Qed.
Lemma v_link_y levels k : (val (link_y opts levels k) == fh * q (levels - k))%Q.
Proof. unfold link_y. rewrite (ex_mul _ _ EX), v_num. reflexivity. Qed.

Lemma pitch_pos : (fo + to < pitch)%Q /\ (0 < pitch)%Q.
Proof. destruct PO as [? ? ? ? ? [? ?] [? ?]]. unfold pitch. split; lra. Qed.
Lemma X_lt i j : i < j -> (X i + pitch <= X j)%Q.
Proof. intros H. apply q_lt in H. pose proof pitch_pos as [_ P]. unfold X. nra. Qed.

(** ** Circles *)
Theorem circles_apart i j levels : i <> j ->
  discs_apart val (at_ opts (state_x opts i) (state_y opts levels)) (f_mul fl (o_circle_radius fl opts) (o_x_scale fl opts))
                  (at_ opts (state_x opts j) (state_y opts levels)) (f_mul fl (o_circle_radius fl opts) (o_x_scale fl opts)).
Proof.
  intros H. pose proof PO as [P1 P2 P3 P4 P5 [P6 P7] [P8 P9]]. unfold discs_apart.
  destruct (v_at (state_x opts i) (state_y opts levels)) as [-> ->]. destruct (v_at (state_x opts j) (state_y opts levels)) as [-> ->].
  rewrite !(ex_mul _ _ EX), !v_state_x. assert (R : (0 <= rad * xs)%Q) by nra. split; [exact R|]. split; [exact R|].
  assert (G : (X i + pitch <= X j \/ X j + pitch <= X i)%Q).
  { destruct (lt_eq_lt_dec i j) as [[D|D]|D]; [left|congruence|right]; apply X_lt; auto. }
  assert (S : ((rad * xs + rad * xs) * (rad * xs + rad * xs) < (pitch * xs) * (pitch * xs))%Q).
  { assert (rad * xs + rad * xs < pitch * xs)%Q by (unfold pitch; nra). nra. }
  assert (E : (((X i - X j) * xs) * ((X i - X j) * xs) >= (pitch * xs) * (pitch * xs))%Q).
  { assert (Hp : (0 < pitch * xs)%Q) by (pose proof pitch_pos; nra). destruct G as [G|G].
    - assert (pitch * xs <= (X j - X i) * xs)%Q by nra. nra.
    - assert (pitch * xs <= (X i - X j) * xs)%Q by nra. nra. }
  nra.
Qed.

(** ** Crossbars *)
Definition lo (l : link) : Q := (if lk_loop l then X (lk_right l) - to else X (lk_left l) + fo)%Q.
Definition hi (l : link) : Q := (if lk_loop l then X (lk_left l) + fo else X (lk_right l) - to)%Q.
Lemma lk_cases l : (lk_loop l = true /\ lk_left l = lk_from l /\ lk_right l = lk_from l) \/ (lk_loop l = false /\ lk_left l < lk_right l).
Proof.
  unfold lk_loop, lk_left, lk_right. destruct (Nat.eqb_spec (lk_from l) (lk_to l)); [left; split; [auto|split; lia]|right; split; [auto|lia]].
Qed.
Lemma lo_hi l : (lo l <= hi l)%Q.
Proof.
  pose proof pitch_pos as [P1 P2]. pose proof PO as [? ? ? ? ? [? ?] [? ?]]. unfold lo, hi.
  destruct (lk_cases l) as [(-> & -> & ->)|(-> & HL)]; [lra|]. apply X_lt in HL. lra.
Qed.
Lemma on_bar levels l x y :
  on_horizontal val (fst (crossbar opts levels l)) (snd (crossbar opts levels l)) x y <->
  ((fh * q (levels - lk_level l) + oy) * ys == y /\ (lo l + ox) * xs <= x /\ x <= (hi l + ox) * xs)%Q.
Proof.
  unfold on_horizontal, crossbar, between. cbn [fst snd].
  destruct (v_at (f_add fl (state_x opts (lk_left l)) (o_from_line_offset fl opts)) (link_y opts levels (lk_level l))) as [-> ->].
  destruct (v_at (f_sub fl (state_x opts (lk_right l)) (o_to_line_offset fl opts)) (link_y opts levels (lk_level l))) as [-> ->].
  rewrite (ex_add _ _ EX), (ex_sub _ _ EX), !v_state_x, !v_link_y.
  pose proof (lo_hi l) as B. unfold lo, hi in *. pose proof PO as [P _ _ _ _ _ _]. 
  destruct (lk_loop l) eqn:L.
  - assert ((X (lk_right l) - to + ox) * xs <= (X (lk_left l) + fo + ox) * xs)%Q by nra.
    split; [intros [[H1 H2] [[H3 H4]|[H3 H4]]]|intros (H1 & H2 & H3)]; repeat split; try lra; try (right; lra).
  - assert ((X (lk_left l) + fo + ox) * xs <= (X (lk_right l) - to + ox) * xs)%Q by nra.
    split; [intros [[H1 H2] [[H3 H4]|[H3 H4]]]|intros (H1 & H2 & H3)]; repeat split; try lra; try (left; lra).
Qed.
Lemma same_height levels a b : lk_level a < levels -> lk_level b < levels ->
  ((fh * q (levels - lk_level a) + oy) * ys == (fh * q (levels - lk_level b) + oy) * ys)%Q -> lk_level a = lk_level b.
Proof.
  intros Ha Hb E. pose proof PO as [_ P2 _ _ P5 _ _].
  assert (E1 : (fh * q (levels - lk_level a) == fh * q (levels - lk_level b))%Q) by nra.
  assert (E2 : (q (levels - lk_level a) == q (levels - lk_level b))%Q) by nra.
  apply q_inj in E2. lia.
Qed.
Lemma before_hi_lo a b : before (lk_left a) (lk_right a) (lk_left b) (lk_right b) ->
  (hi a < lo b)%Q \/ runs_into a b /\ (hi a == lo b)%Q.
Proof.
  pose proof pitch_pos as [P1 P2]. pose proof PO as [? ? ? ? ? [? ?] [? ?]]. unfold before, hi, lo, runs_into.
  destruct (lk_cases a) as [(-> & Ea & Ea')|(-> & Ha)]; [rewrite Ea, Ea', Nat.eqb_refl|destruct (Nat.eqb_spec (lk_left a) (lk_right a)); [lia|]];
    (destruct (lk_cases b) as [(-> & Eb & Eb')|(-> & Hb)]; [rewrite Eb, ?Eb'|]); intros H4.
  - left. apply X_lt in H4. lra.
  - left. apply X_lt in H4. lra.
  - destruct (Nat.eq_dec (lk_right a) (lk_from b)) as [E|E]; [right; rewrite E; split; [auto|reflexivity]|].
    left. assert (H5 : lk_right a < lk_from b) by lia. apply X_lt in H5. lra.
  - left. destruct (Nat.eq_dec (lk_right a) (lk_left b)) as [E|E]; [rewrite E; lra|].
    assert (H5 : lk_right a < lk_left b) by lia. apply X_lt in H5. lra.
Qed.
Lemma runs_into_hi_lo a b : runs_into a b -> (hi a == lo b)%Q /\ (lo a <= hi b)%Q.
Proof.
  intros (A & B & E). pose proof (lo_hi a). pose proof (lo_hi b). assert (H1 : (hi a == lo b)%Q).
  { unfold hi, lo. rewrite A, B. destruct (lk_cases b) as [(_ & _ & ->)|(B' & _)]; [|congruence]. rewrite E. reflexivity. }
  split; [exact H1|lra].
Qed.
Theorem bars_meet_iff n labels links levels a b : layout n labels links levels -> In a links -> In b links -> a <> b ->
  (bars_meet val opts levels a b <-> lk_level a = lk_level b /\ (runs_into a b \/ runs_into b a)).
Proof.
  intros L Ha Hb Hne. pose proof PO as [P _ _ _ _ _ _]. unfold bars_meet. split.
  - intros (x & y & H1 & H2). apply on_bar in H1, H2. destruct H1 as (Y1 & A1 & B1), H2 as (Y2 & A2 & B2).
    assert (E : lk_level a = lk_level b).
    { apply (same_height levels); [apply (lo_level _ _ _ _ L); auto| apply (lo_level _ _ _ _ L); auto|]. rewrite Y1, Y2. reflexivity. }
    split; [exact E|]. destruct (lo_apart _ _ _ _ L a b Ha Hb E) as [->|[H|H]]; [congruence| |].
    + apply before_hi_lo in H. destruct H as [H|[H _]]; [|auto]. exfalso. nra.
    + apply before_hi_lo in H. destruct H as [H|[H _]]; [|auto]. exfalso. nra.
  - intros [E [R|R]]; apply runs_into_hi_lo in R; destruct R as [R1 R2]; pose proof (lo_hi a); pose proof (lo_hi b).
    + exists ((hi a + ox) * xs)%Q, ((fh * q (levels - lk_level a) + oy) * ys)%Q.
      split; apply on_bar; rewrite ?E; (split; [reflexivity|split; nra]).
    + exists ((hi b + ox) * xs)%Q, ((fh * q (levels - lk_level a) + oy) * ys)%Q.
      split; apply on_bar; rewrite ?E; (split; [reflexivity|split; nra]).
Qed.
End Options.
End Exact.
