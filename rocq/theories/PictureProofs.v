(** * PictureProofs: what a drawing with the standard options tells *)
From Coq Require Import Ascii String List NArith Arith Bool ZArith QArith Lqa Lia Setoid.
From Verif Require Import Base Spec BaseLemmas TableModel Messages DrawModel DrawSpec CanvasSpec GeometrySpec GeometryProofs.
Import ListNotations.
Close Scope string_scope.
Open Scope list_scope.
Close Scope Q_scope.
Open Scope nat_scope.

Section Exact.
Context (fl : floats) (val : F fl -> Q) (EX : exact fl val) (x0 y0 : F fl).
Local Notation o := (options_at fl x0 y0).
Local Notation ax := (val x0).
Local Notation ay := (val y0).

(** ** Shapes in exact coordinates *)
Inductive qshape : Type := QL (x y x' y' : Q) | QC (x y r : Q) | QT (x y : Q) (s : str).
Definition qeq (a b : qshape) : Prop :=
  match a, b with
  | QL x y x' y', QL u v u' v' => (x == u /\ y == v /\ x' == u' /\ y' == v')%Q
  | QC x y r, QC u v t => (x == u /\ y == v /\ r == t)%Q
  | QT x y s, QT u v t => (x == u /\ y == v)%Q /\ s = t
  | _, _ => False
  end.
Definition q_of (s : shape) : qshape :=
  match s with
  | Line p p' _ => QL (val (fst p) - ax) (val (snd p) - ay) (val (fst p') - ax) (val (snd p') - ay)
  | Circle p r _ => QC (val (fst p) - ax) (val (snd p) - ay) (val r)
  | Text p s => QT (val (fst p) - ax) (val (snd p) - ay) s
  end.
Definition qx (i : nat) : Q := (100 + 80 * q i)%Q.
Definition qb (L : nat) : Q := (25 * q L + 25)%Q.
Definition qy (L : nat) : Q := (25 * q L + 65)%Q.
Definition ql (L k : nat) : Q := (25 * (q L - q k))%Q.
Definition qentry (L : nat) : list qshape :=
  [QL 0 (qy L) 50 (qy L); QL 50 (qy L) 35 (qy L - 15); QL 50 (qy L) 35 (qy L + 15)].
Definition qstate (L i : nat) (s : draw_state) : list qshape :=
  [QC (qx i) (qy L) 30] ++
  (if st_accepting s then [QC (qx i) (qy L) 25] else []) ++
  (if st_initial s then [QL (qx i) (qy L + 50) (qx i) (qy L + 100); QL (qx i) (qy L + 50) (qx i + 15) (qy L + 65); QL (qx i) (qy L + 50) (qx i - 15) (qy L + 65)] else []) ++
  [QT (qx i) (qy L) (st_name s)].
Definition qmid (l : link) : Q := (100 + 40 * (q (lk_left l) + q (lk_right l)))%Q.
Definition qback (l : link) : Q := if lk_to l <? lk_from l then 1%Q else (-1)%Q.
Definition qgoal (l : link) : Q := (if lk_from l <? lk_to l then qx (lk_to l) - 15 else qx (lk_to l) + 15)%Q.
Definition qlink (L : nat) (l : link) : list qshape :=
  let xl := (qx (lk_left l) + 15)%Q in
  let xr := (qx (lk_right l) - 15)%Q in
  let y := ql L (lk_level l) in
  let tip := (qmid l - (5 # 2) * qback l)%Q in
  [QL xl (qb L) xl y; QL xr (qb L) xr y; QL xl y xr y;
   QL tip y (tip + 5 * qback l) (y + 5); QL tip y (tip + 5 * qback l) (y - 5);
   QL (qgoal l) (qb L) (qgoal l - 5) (qb L - 5); QL (qgoal l) (qb L) (qgoal l + 5) (qb L - 5);
   QT (qmid l) (y - 15) (lk_label l)].
Definition qshapes (states : list draw_state) (links : list link) (L : nat) : list qshape :=
  qentry L ++ concat (map (fun '(i, s) => qstate L i s) (enumerate states)) ++ flat_map (qlink L) links.

Lemma n_num n : (val (f_of_usize fl n) == q n)%Q.
Proof. apply (ex_num _ _ EX). Qed.
Lemma n_x i : (val (state_x o i) == qx i)%Q.
Proof.
  unfold state_x, qx. cbn [options_at o_init_arrow_length o_center_line_padding o_circle_radius].
  rewrite !(ex_add _ _ EX), !(ex_mul _ _ EX), !(ex_add _ _ EX), !(ex_mul _ _ EX), !n_num. change (q 50) with 50%Q. change (q 20) with 20%Q. change (q 30) with 30%Q. change (q 2) with 2%Q. lra.
Qed.
Lemma n_b L : (val (base_y o L) == qb L)%Q.
Proof. unfold base_y, qb. cbn [options_at o_floor_height]. rewrite (ex_mul _ _ EX), !n_num, q_add. change (q 25) with 25%Q. change (q 1) with 1%Q. lra. Qed.
Lemma n_y L : (val (state_y o L) == qy L)%Q.
Proof.
  unfold state_y, qy. rewrite !(ex_add _ _ EX), n_b. cbn [options_at o_circle_radius o_line_circle_margin]. rewrite !n_num.
  change (q 10) with 10%Q. change (q 30) with 30%Q. unfold qb. lra.
Qed.
Lemma n_l L k : k <= L -> (val (link_y o L k) == ql L k)%Q.
Proof. intros H. unfold link_y, ql. cbn [options_at o_floor_height]. rewrite (ex_mul _ _ EX), !n_num, q_sub by auto. change (q 25) with 25%Q. lra. Qed.
Lemma n_at x y : (val (fst (at_ o x y)) - ax == val x)%Q /\ (val (snd (at_ o x y)) - ay == val y)%Q.
Proof.
  unfold at_. cbn [fst snd options_at o_x_offset o_y_offset o_x_scale o_y_scale]. rewrite !(ex_mul _ _ EX), !(ex_add _ _ EX), !n_num. change (q 1) with 1%Q. split; lra.
Qed.
Definition shows (cs : option colour * shape) (d : qshape) : Prop := qeq (q_of (snd cs)) d.
Lemma shows_line x y x' y' t a b a' b' : (val x == a)%Q -> (val y == b)%Q -> (val x' == a')%Q -> (val y' == b')%Q ->
  shows (line_to o x y x' y' t) (QL a b a' b').
Proof.
  intros E1 E2 E3 E4. unfold shows, line_to. cbn [snd q_of qeq]. destruct (n_at x y) as [A B], (n_at x' y') as [C D].
  split; [lra|split; [lra|split; lra]].
Qed.
Lemma shows_circle x y r t a b c : (val x == a)%Q -> (val y == b)%Q -> (val r == c)%Q -> shows (circle_at o x y r t) (QC a b c).
Proof.
  intros E1 E2 E3. unfold shows, circle_at. cbn [snd q_of qeq]. destruct (n_at x y) as [A B].
  split; [lra|split; [lra|]]. cbn [options_at o_x_scale]. rewrite (ex_mul _ _ EX), n_num. change (q 1) with 1%Q. lra.
Qed.
Lemma shows_text x y s a b : (val x == a)%Q -> (val y == b)%Q -> shows (text_at o x y s) (QT a b s).
Proof.
  intros E1 E2. unfold shows, text_at. cbn [snd q_of qeq]. destruct (n_at x y) as [A B]. split; [split; lra|reflexivity].
Qed.

Ltac f2 := repeat (apply Forall2_nil || (apply Forall2_cons; [|])).
Ltac nums :=
  repeat first [rewrite (ex_add _ _ EX) | rewrite (ex_sub _ _ EX) | rewrite (ex_mul _ _ EX) | rewrite (ex_neg _ _ EX) | rewrite (ex_half _ _ EX)
               | rewrite n_x | rewrite n_b | rewrite n_y];
  rewrite ?n_num; change (q 0) with 0%Q; change (q 1) with 1%Q; change (q 50) with 50%Q; change (q 15) with 15%Q; change (q 30) with 30%Q; change (q 25) with 25%Q;
  change (q 20) with 20%Q; change (q 5) with 5%Q.

Lemma entry_shows L : Forall2 shows (entry_shapes o L) (qentry L).
Proof.
  unfold entry_shapes, qentry. cbv zeta. cbn [options_at o_init_arrow_length o_init_arrow_arms_length o_init_arrow_width].
  f2; apply shows_line; nums; lra.
Qed.
Lemma state_shows L i s : Forall2 shows (state_shapes o L i s) (qstate L i s).
Proof.
  unfold state_shapes, qstate. cbv zeta.
  cbn [options_at o_init_arrow_length o_init_arrow_arms_length o_init_arrow_width o_circle_radius o_circle_width o_accepting_circle_radius
       o_accepting_circle_width o_center_line_padding].
  apply Forall2_app; [|apply Forall2_app; [|apply Forall2_app]].
  - f2. apply shows_circle; nums; lra.
  - destruct (st_accepting s); f2. apply shows_circle; nums; lra.
  - destruct (st_initial s); f2; apply shows_line; nums; unfold qy; lra.
  - f2. apply shows_text; nums; lra.
Qed.
Lemma link_shows L l : lk_level l <= L -> Forall2 shows (link_shapes o L l) (qlink L l).
Proof.
  intros HL. unfold link_shapes, qlink. cbv zeta.
  cbn [options_at o_from_line_offset o_to_line_offset o_trans_arrow_arms_length o_trans_line_width o_middle_arrow o_end_arrow o_text_margin app].
  pose proof (n_l L (lk_level l) HL) as NL.
  set (xl := f_add fl (state_x o (lk_left l)) (f_of_usize fl 15)).
  set (xr := f_sub fl (state_x o (lk_right l)) (f_of_usize fl 15)).
  assert (XL : (val xl == qx (lk_left l) + 15)%Q) by (unfold xl; nums; lra).
  assert (XR : (val xr == qx (lk_right l) - 15)%Q) by (unfold xr; nums; lra).
  set (mid := f_div fl (f_add fl xl xr) (f_of_usize fl 2)).
  assert (M : (val mid == qmid l)%Q).
  { unfold mid. rewrite (ex_div _ _ EX) by (rewrite n_num; change (q 2) with 2%Q; lra).
    rewrite (ex_add _ _ EX), XL, XR, n_num. change (q 2) with 2%Q. unfold qmid, qx. field. }
  set (back := if lk_to l <? lk_from l then f_of_usize fl 1 else f_neg fl (f_of_usize fl 1)).
  assert (B : (val back == qback l)%Q).
  { unfold back, qback. destruct (lk_to l <? lk_from l); nums; lra. }
  set (tip := f_sub fl mid (f_mul fl (f_mul fl (f_of_usize fl 5) back) (f_half fl))).
  assert (T : (val tip == qmid l - (5 # 2) * qback l)%Q).
  { unfold tip. rewrite (ex_sub _ _ EX), M, !(ex_mul _ _ EX), B, (ex_half _ _ EX), n_num. change (q 5) with 5%Q. field. }
  set (goal := if lk_from l <? lk_to l then f_sub fl (state_x o (lk_to l)) (f_of_usize fl 15) else f_add fl (state_x o (lk_to l)) (f_of_usize fl 15)).
  assert (G : (val goal == qgoal l)%Q).
  { unfold goal, qgoal. destruct (lk_from l <? lk_to l); nums; lra. }
  f2; (apply shows_line || apply shows_text); rewrite ?XL, ?XR, ?M, ?T, ?G, ?NL; nums; rewrite ?T, ?B, ?G, ?NL; try lra.
Qed.
Lemma Forall2_concat_map {A B C} (R : B -> C -> Prop) (f : A -> list B) (g : A -> list C) l :
  (forall x, In x l -> Forall2 R (f x) (g x)) -> Forall2 R (concat (map f l)) (concat (map g l)).
Proof. induction l as [|x l IH]; intros H; [constructor|]. cbn. apply Forall2_app; [apply H; left; auto|apply IH; intros; apply H; right; auto]. Qed.
Theorem shapes_show states links L : (forall l, In l links -> lk_level l <= L) -> Forall2 shows (shapes o states links L) (qshapes states links L).
Proof.
  intros H. unfold shapes, qshapes. apply Forall2_app; [apply entry_shows|]. apply Forall2_app.
  - apply Forall2_concat_map. intros [i s] _. apply state_shows.
  - rewrite !flat_map_concat_map. apply Forall2_concat_map. intros l Hl. apply link_shows. auto.
Qed.
Lemma shown_in states links L d : (forall l, In l links -> lk_level l <= L) -> In d (qshapes states links L) ->
  exists cs, In cs (shapes o states links L) /\ shows cs d.
Proof.
  intros H. pose proof (shapes_show states links L H) as F. induction F as [|cs d' l l' S F IH]; [intros []|].
  intros [->|Hd]; [exists cs; split; [left; auto|auto]|]. destruct (IH Hd) as (cs' & I & S'). exists cs'. split; [right; auto|auto].
Qed.
Lemma in_shown states links L cs : (forall l, In l links -> lk_level l <= L) -> In cs (shapes o states links L) ->
  exists d, In d (qshapes states links L) /\ shows cs d.
Proof.
  intros H. pose proof (shapes_show states links L H) as F. induction F as [|cs' d l l' S F IH]; [intros []|].
  intros [->|Hd]; [exists d; split; [left; auto|auto]|]. destruct (IH Hd) as (d' & I & S'). exists d'. split; [right; auto|auto].
Qed.
Lemma qshapes_In states links L d : In d (qshapes states links L) <->
  In d (qentry L) \/ (exists i s, nth_error states i = Some s /\ In d (qstate L i s)) \/ (exists l, In l links /\ In d (qlink L l)).
Proof.
  unfold qshapes. rewrite !in_app_iff, in_flat_map, <- flat_map_concat_map, in_flat_map. split.
  - intros [H|[([i s] & H1 & H2)|(l & H1 & H2)]]; [auto| |eauto 6]. right. left. exists i, s. split; [|auto]. apply enumerate_In in H1. exact H1.
  - intros [H|[(i & s & H1 & H2)|(l & H1 & H2)]]; [auto| |eauto 6]. right. left. exists (i, s). split; [|auto]. apply enumerate_In. exact H1.
Qed.

(** ** The size of a drawing *)
Definition qbox (w h : Q) (d : qshape) : Prop :=
  match d with
  | QL x y x' y' => (0 <= x /\ x <= w /\ 0 <= y /\ y <= h) /\ (0 <= x' /\ x' <= w /\ 0 <= y' /\ y' <= h)
  | QC x y r => 0 <= x - r /\ x + r <= w /\ 0 <= y - r /\ y + r <= h
  | QT x y _ => 0 <= x /\ x <= w /\ 0 <= y /\ y <= h
  end%Q.
Lemma box_shows w h cs d : (ax == 0)%Q -> (ay == 0)%Q -> shows cs d -> (in_box val w h (snd cs) <-> qbox w h d).
Proof.
  intros A B. destruct cs as [c s]. unfold shows. cbn [snd]. destruct s, d; cbn [q_of qeq in_box qbox]; try contradiction; unfold point_in_box.
  - intros (E1 & E2 & E3). split; intros (H1 & H2 & H3 & H4); repeat split; lra.
  - intros [[E1 E2] _]. split; intros (H1 & H2 & H3 & H4); repeat split; lra.
  - intros (E1 & E2 & E3 & E4). split; intros ((H1 & H2 & H3 & H4) & H5 & H6 & H7 & H8); repeat split; lra.
Qed.
(** ** Links are above the states *)
Lemma shown_list l l' cs : Forall2 shows l l' -> In cs l -> exists d, In d l' /\ shows cs d.
Proof.
  intros F. induction F as [|cs' d l l' S F IH]; [intros []|].
  intros [->|Hd]; [exists d; split; [left; auto|auto]|]. destruct (IH Hd) as (d' & I & S'). exists d'. split; [right; auto|auto].
Qed.
Theorem links_above L l c s : lk_level l < L -> In (c, s) (link_shapes o L l) -> above val (qb L + ay) s.
Proof.
  intros HL Hs. destruct (shown_list _ _ _ (link_shows L l ltac:(lia)) Hs) as (d & Hd & S).
  assert (Hk1 : (q (lk_level l) + 1 <= q L)%Q) by (apply q_lt; lia). assert (Hk2 := q_pos (lk_level l)).
  unfold qlink in Hd. cbv zeta in Hd. unfold ql in Hd. unfold qb in *. cbn [In] in Hd. unfold shows in S. cbn [snd] in S.
  repeat (destruct Hd as [<-|Hd]; [destruct s; cbn [q_of qeq above] in *; try contradiction; lra|]). destruct Hd.
Qed.
Theorem entry_below L c s : In (c, s) (entry_shapes o L) -> below val (qb L + ay + 10) s.
Proof.
  intros Hs. destruct (shown_list _ _ _ (entry_shows L) Hs) as (d & Hd & S).
  unfold qentry in Hd. unfold qy in Hd. unfold qb in *. cbn [In] in Hd. unfold shows in S. cbn [snd] in S.
  repeat (destruct Hd as [<-|Hd]; [destruct s; cbn [q_of qeq below] in *; try contradiction; lra|]). destruct Hd.
Qed.
Theorem state_below L i st c s : In (c, s) (state_shapes o L i st) -> below val (qb L + ay + 10) s.
Proof.
  intros Hs. destruct (shown_list _ _ _ (state_shows L i st) Hs) as (d & Hd & S).
  unfold qstate in Hd. unfold qy in Hd. unfold qb in *. rewrite !in_app_iff in Hd. unfold shows in S. cbn [snd] in S.
  destruct Hd as [Hd|[Hd|[Hd|Hd]]];
    [|destruct (st_accepting st); [|destruct Hd]|destruct (st_initial st); [|destruct Hd]|];
    cbn [In] in Hd; repeat (destruct Hd as [<-|Hd]; [destruct s; cbn [q_of qeq below] in *; try contradiction; lra|]); destruct Hd.
Qed.

Lemma qbox_all states links L n W H : length states = n -> (exists i s, nth_error states i = Some s /\ st_initial s = true) ->
  (forall l, In l links -> lk_from l < n /\ lk_to l < n /\ lk_level l < L) ->
  ((forall d, In d (qshapes states links L) -> qbox (q W) (q H) d) <-> 80 * n + 50 <= W /\ 25 * L + 165 <= H).
Proof.
  intros Hn (i0 & s0 & Hs0 & I0) HL. split.
  - intros All. split.
    + assert (P : 0 < n) by (assert (nth_error states i0 <> None) as Hs0' by congruence; apply nth_error_Some in Hs0'; lia).
      destruct (nth_error states (n - 1)) as [s|] eqn:E; [|apply nth_error_None in E; lia].
      assert (B : qbox (q W) (q H) (QC (qx (n - 1)) (qy L) 30)).
      { apply All. apply qshapes_In. right. left. exists (n - 1), s. split; [auto|]. left. reflexivity. }
      destruct B as (_ & B & _). unfold qx in B. rewrite q_sub in B by lia.
      assert (C : (q (80 * n + 50) <= q W)%Q).
      { rewrite q_add. unfold q in *. rewrite Nat2Z.inj_mul, inject_Z_mult. change (inject_Z (Z.of_nat 80)) with 80%Q. change (inject_Z (Z.of_nat 50)) with 50%Q.
        change (inject_Z (Z.of_nat 1)) with 1%Q in B. lra. }
      unfold q in C. rewrite <- Zle_Qle in C. lia.
    + assert (B : qbox (q W) (q H) (QL (qx i0) (qy L + 50) (qx i0) (qy L + 100))).
      { apply All. apply qshapes_In. right. left. exists i0, s0. split; [auto|]. unfold qstate. rewrite I0, !in_app_iff. right. right. left. left. reflexivity. }
      destruct B as [_ (_ & _ & _ & B)]. unfold qy in B.
      assert (C : (q (25 * L + 165) <= q H)%Q).
      { rewrite q_add. unfold q in *. rewrite Nat2Z.inj_mul, inject_Z_mult. change (inject_Z (Z.of_nat 25)) with 25%Q. change (inject_Z (Z.of_nat 165)) with 165%Q. lra. }
      unfold q in C. rewrite <- Zle_Qle in C. lia.
  - intros [HW HH] d Hd.
    assert (W' : (80 * q n + 50 <= q W)%Q).
    { apply q_le in HW. rewrite q_add in HW. unfold q in *. rewrite Nat2Z.inj_mul, inject_Z_mult in HW.
      change (inject_Z (Z.of_nat 80)) with 80%Q in HW. change (inject_Z (Z.of_nat 50)) with 50%Q in HW. exact HW. }
    assert (H' : (25 * q L + 165 <= q H)%Q).
    { apply q_le in HH. rewrite q_add in HH. unfold q in *. rewrite Nat2Z.inj_mul, inject_Z_mult in HH.
      change (inject_Z (Z.of_nat 25)) with 25%Q in HH. change (inject_Z (Z.of_nat 165)) with 165%Q in HH. exact HH. }
    clear HW HH. assert (Lp := q_pos L). assert (Np : (1 <= q n)%Q).
    { change 1%Q with (q 1). apply q_le. assert (nth_error states i0 <> None) as Hs0' by congruence; apply nth_error_Some in Hs0'. lia. }
    apply qshapes_In in Hd. destruct Hd as [Hd|[(i & s & Hs & Hd)|(l & Hl & Hd)]].
    + cbn [qentry In] in Hd. unfold qy in Hd. repeat (destruct Hd as [<-|Hd]; [cbn [qbox]; repeat split; lra|]). destruct Hd.
    + assert (Hi : (q i + 1 <= q n)%Q) by (apply q_lt; assert (nth_error states i <> None) as Hs' by congruence; apply nth_error_Some in Hs'; lia). assert (Hi' := q_pos i).
      unfold qstate, qx, qy in Hd. rewrite !in_app_iff in Hd.
      destruct Hd as [Hd|[Hd|[Hd|Hd]]];
        [|destruct (st_accepting s); [|destruct Hd]|destruct (st_initial s); [|destruct Hd]|];
        cbn [In] in Hd; repeat (destruct Hd as [<-|Hd]; [cbn [qbox]; repeat split; lra|]); destruct Hd.
    + destruct (HL l Hl) as (A & B & C).
      assert (Hl1 : (q (lk_left l) + 1 <= q n)%Q) by (apply q_lt; unfold lk_left; lia).
      assert (Hr1 : (q (lk_right l) + 1 <= q n)%Q) by (apply q_lt; unfold lk_right; lia).
      assert (Ht1 : (q (lk_to l) + 1 <= q n)%Q) by (apply q_lt; lia).
      assert (Hl2 := q_pos (lk_left l)). assert (Hr2 := q_pos (lk_right l)). assert (Ht2 := q_pos (lk_to l)).
      assert (Hk1 : (q (lk_level l) + 1 <= q L)%Q) by (apply q_lt; lia). assert (Hk2 := q_pos (lk_level l)).
      unfold qlink in Hd. cbv zeta in Hd. unfold qmid, qgoal, qback, ql, qb, qx in Hd. cbn [In] in Hd.
      destruct (lk_to l <? lk_from l), (lk_from l <? lk_to l);
        repeat (destruct Hd as [<-|Hd]; [cbn [qbox]; repeat split; lra|]); destruct Hd.
Qed.
Theorem size states links L n W H : (ax == 0)%Q -> (ay == 0)%Q -> length states = n -> (exists i s, nth_error states i = Some s /\ st_initial s = true) ->
  (forall l, In l links -> lk_from l < n /\ lk_to l < n /\ lk_level l < L) ->
  ((forall c s, In (c, s) (shapes o states links L) -> in_box val (q W) (q H) s) <-> 80 * n + 50 <= W /\ 25 * L + 165 <= H).
Proof.
  intros A B Hn HI HL. rewrite <- (qbox_all states links L n W H Hn HI HL).
  assert (HL' : forall l, In l links -> lk_level l <= L) by (intros l Hl; apply HL in Hl; lia). split.
  - intros All d Hd. destruct (shown_in _ _ _ _ HL' Hd) as ([c s] & I & S). apply (box_shows _ _ _ _ A B S). cbn [snd]. eauto.
  - intros All c s Hd. destruct (in_shown _ _ _ _ HL' Hd) as (d & I & S). apply (box_shows _ _ _ _ A B S). auto.
Qed.

(** ** What a picture determines *)
Lemma qeq_via s d d' : qeq (q_of s) d -> qeq (q_of s) d' -> qeq d d'.
Proof.
  destruct (q_of s), d, d'; cbn; try contradiction.
  - intros (? & ? & ? & ?) (? & ? & ? & ?). repeat split; lra.
  - intros (? & ? & ?) (? & ? & ?). repeat split; lra.
  - intros ((? & ?) & ?) ((? & ?) & ?). repeat split; try lra. congruence.
Qed.

Section Two.
Context (states1 states2 : list draw_state) (links1 links2 : list link) (L1 L2 : nat)
        (HL1 : forall l, In l links1 -> lk_level l < L1) (HL2 : forall l, In l links2 -> lk_level l < L2)
        (Apart : forall a b, In a links2 -> In b links2 -> lk_level a = lk_level b -> a = b \/ apart a b)
        (Sub : forall cs, In cs (shapes o states1 links1 L1) -> In cs (shapes o states2 links2 L2)).

Lemma seen d : In d (qshapes states1 links1 L1) -> exists d', In d' (qshapes states2 links2 L2) /\ qeq d d'.
Proof.
  intros H. destruct (shown_in states1 links1 L1 d) as (cs & I & S); [intros l Hl; apply HL1 in Hl; lia|exact H|].
  apply Sub in I. apply in_shown in I; [|intros l Hl; apply HL2 in Hl; lia]. destruct I as (d' & I & S'). exists d'. split; [exact I|]. exact (qeq_via _ _ _ S S').
Qed.

Ltac none := cbn [qeq] in *; exfalso; first [contradiction | lra].
(** sorts out the shapes that cannot be meant *)
Ltac seek I Q :=
  apply qshapes_In in I;
  let i := fresh "i" in let s := fresh "s" in let l := fresh "l" in let Hs := fresh "Hs" in let Hl := fresh "Hl" in
  destruct I as [I|[(i & s & Hs & I)|(l & Hl & I)]];
  [ cbn [qentry In] in I; unfold qy, qx, qb, ql in *; repeat (destruct I as [<-|I]; [none|]); destruct I
  | unfold qstate in I; rewrite !in_app_iff in I;
    destruct I as [I|[I|[I|I]]]; [|destruct (st_accepting s) eqn:?; [|destruct I]|destruct (st_initial s) eqn:?; [|destruct I]|];
    cbn [In] in I; repeat (destruct I as [I|I]; [subst; cbn [qeq] in Q; unfold qy, qx, qb, ql in *; try (exfalso; first [contradiction | lra])|]); try (destruct I; fail)
  | assert (q (lk_level l) + 1 <= q L2)%Q by (apply q_lt; apply HL2; exact Hl);
    assert (0 <= q (lk_level l))%Q by apply q_pos;
    unfold qlink in I; cbv zeta in I; cbn [In] in I;
    repeat (destruct I as [I|I]; [subst; cbn [qeq] in Q; unfold qy, qx, qb, ql in *; try (exfalso; first [contradiction | lra])|]); try (destruct I; fail) ].

Lemma same_levels : 0 < length states1 -> L1 = L2.
Proof.
  intros H. destruct states1 as [|s0 r] eqn:E; [cbn in H; lia|]. clear H. rewrite <- E in *.
  destruct (seen (QC (qx 0) (qy L1) 30)) as (d & I & Q).
  { apply qshapes_In. right. left. exists 0, s0. split; [rewrite E; reflexivity|left; reflexivity]. }
  seek I Q; apply q_inj; destruct Q as (_ & Q & _); lra.
Qed.

Lemma state_seen i s1 : L1 = L2 -> nth_error states1 i = Some s1 -> exists s2, nth_error states2 i = Some s2 /\ st_name s1 = st_name s2 /\
  (st_accepting s1 = true -> st_accepting s2 = true) /\ (st_initial s1 = true -> st_initial s2 = true).
Proof.
  intros EL H.
  assert (IN : forall d, In d (qstate L1 i s1) -> In d (qshapes states1 links1 L1)).
  { intros d Hd. apply qshapes_In. right. left. eauto. }
  assert (N : exists s2, nth_error states2 i = Some s2 /\ st_name s1 = st_name s2).
  { destruct (seen (QT (qx i) (qy L1) (st_name s1))) as (d & I & Q); [apply IN; unfold qstate; rewrite !in_app_iff; right; right; right; left; reflexivity|].
    rewrite EL in Q. seek I Q. destruct Q as [[Q _] Q']. exists s. split; [|exact Q']. replace i with i0; [exact Hs|]. apply q_inj. lra. }
  destruct N as (s2 & Hs2 & N). exists s2. split; [exact Hs2|]. split; [exact N|]. split.
  - intros A. destruct (seen (QC (qx i) (qy L1) 25)) as (d & I & Q); [apply IN; unfold qstate; rewrite A, !in_app_iff; right; left; left; reflexivity|].
    rewrite EL in Q. seek I Q. assert (i = i0) by (apply q_inj; lra). congruence.
  - intros A. destruct (seen (QL (qx i) (qy L1 + 50) (qx i) (qy L1 + 100))) as (d & I & Q);
      [apply IN; unfold qstate; rewrite A, !in_app_iff; right; right; left; left; reflexivity|].
    rewrite EL in Q. seek I Q. assert (i = i0) by (apply q_inj; lra). congruence.
Qed.

Lemma same_middle a b : In a links2 -> In b links2 -> lk_level a = lk_level b -> (qmid a == qmid b)%Q -> a = b.
Proof.
  intros Ha Hb E M. destruct (Apart a b Ha Hb E) as [H|H]; [exact H|]. exfalso. unfold qmid in M.
  assert (M' : lk_left a + lk_right a = lk_left b + lk_right b).
  { apply q_inj. rewrite !q_add. lra. }
  assert (lk_left a <= lk_right a) by (unfold lk_left, lk_right; lia). assert (lk_left b <= lk_right b) by (unfold lk_left, lk_right; lia).
  unfold apart, before in H. destruct (Nat.eqb_spec (lk_left a) (lk_right a)), (Nat.eqb_spec (lk_left b) (lk_right b)); lia.
Qed.
Lemma link_seen l1 : L1 = L2 -> In l1 links1 -> exists l2, In l2 links2 /\ lk_from l2 = lk_from l1 /\ lk_to l2 = lk_to l1 /\ lk_label l2 = lk_label l1.
Proof.
  intros EL H. assert (K1 : (q (lk_level l1) + 1 <= q L2)%Q) by (rewrite <- EL; apply q_lt; apply HL1; exact H).
  assert (K2 : (0 <= q (lk_level l1))%Q) by apply q_pos.
  assert (IN : forall d, In d (qlink L1 l1) -> In d (qshapes states1 links1 L1)).
  { intros d Hd. apply qshapes_In. right. right. eauto. }
  assert (C : exists l2, In l2 links2 /\ lk_level l2 = lk_level l1 /\ lk_left l2 = lk_left l1 /\ lk_right l2 = lk_right l1).
  { destruct (seen (QL (qx (lk_left l1) + 15) (ql L1 (lk_level l1)) (qx (lk_right l1) - 15) (ql L1 (lk_level l1)))) as (d & I & Q);
      [apply IN; unfold qlink; cbv zeta; do 2 right; left; reflexivity|].
    rewrite EL in Q. seek I Q. exists l. split; [exact Hl|]. split; [apply q_inj; lra|]. split; apply q_inj; lra. }
  destruct C as (l2 & Hl2 & V & A & B).
  assert (U : forall l, In l links2 -> (q (lk_level l) == q (lk_level l1))%Q -> (qmid l == qmid l1)%Q -> l = l2).
  { intros l Hl V' M. apply same_middle; [exact Hl|exact Hl2|rewrite V; apply q_inj; exact V'|]. rewrite M. unfold qmid. rewrite A, B. reflexivity. }
  exists l2. split; [exact Hl2|].
  assert (D : (qback l2 == qback l1)%Q).
  { destruct (seen (QL (qmid l1 - (5 # 2) * qback l1) (ql L1 (lk_level l1)) (qmid l1 - (5 # 2) * qback l1 + 5 * qback l1) (ql L1 (lk_level l1) + 5))) as (d & I & Q);
      [apply IN; unfold qlink; cbv zeta; do 3 right; left; reflexivity|].
    rewrite EL in Q. seek I Q. rewrite <- (U l); [lra|exact Hl|lra|lra]. }
  assert (T : lk_label l2 = lk_label l1).
  { destruct (seen (QT (qmid l1) (ql L1 (lk_level l1) - 15) (lk_label l1))) as (d & I & Q);
      [apply IN; unfold qlink; cbv zeta; do 7 right; left; reflexivity|].
    rewrite EL in Q. seek I Q. destruct Q as [Q Q']. rewrite Q', <- (U l); [reflexivity|exact Hl|lra|lra]. }
  split; [|split; [|exact T]]; unfold lk_left, lk_right, qback in *;
    destruct (Nat.ltb_spec (lk_to l2) (lk_from l2)), (Nat.ltb_spec (lk_to l1) (lk_from l1)); try lia; exfalso; lra.
Qed.
End Two.

Theorem picture_determines n1 n2 labels1 labels2 states1 states2 links1 links2 L1 L2 :
  layout n1 labels1 links1 L1 -> layout n2 labels2 links2 L2 -> length states1 = n1 -> length states2 = n2 -> 0 < n1 ->
  same_picture (shapes o states1 links1 L1) (shapes o states2 links2 L2) ->
  states1 = states2 /\ forall i j, i < n1 -> (labels1 i j = [] <-> labels2 i j = []) /\ joined (of_string ", ") (labels1 i j) = joined (of_string ", ") (labels2 i j).
Proof.
  intros Lo1 Lo2 N1 N2 P SP.
  assert (S12 : forall cs, In cs (shapes o states1 links1 L1) -> In cs (shapes o states2 links2 L2)) by (intros cs; apply SP).
  assert (S21 : forall cs, In cs (shapes o states2 links2 L2) -> In cs (shapes o states1 links1 L1)) by (intros cs; apply SP).
  assert (EL : L1 = L2).
  { eapply (same_levels states1 states2 links1 links2 L1 L2); [apply (lo_level _ _ _ _ Lo1)|apply (lo_level _ _ _ _ Lo2)|exact S12|lia]. }
  pose proof (state_seen states1 states2 links1 links2 L1 L2 (lo_level _ _ _ _ Lo1) (lo_level _ _ _ _ Lo2) S12) as F1.
  pose proof (state_seen states2 states1 links2 links1 L2 L1 (lo_level _ _ _ _ Lo2) (lo_level _ _ _ _ Lo1) S21) as F2.
  pose proof (fun l H => link_seen states1 states2 links1 links2 L1 L2 (lo_level _ _ _ _ Lo1) (lo_level _ _ _ _ Lo2) (lo_apart _ _ _ _ Lo2) S12 l EL H) as K1.
  pose proof (fun l H => link_seen states2 states1 links2 links1 L2 L1 (lo_level _ _ _ _ Lo2) (lo_level _ _ _ _ Lo1) (lo_apart _ _ _ _ Lo1) S21 l (eq_sym EL) H) as K2.
  assert (ES : states1 = states2).
  { apply nth_error_ext. intros i. destruct (nth_error states1 i) as [s1|] eqn:E1.
    - destruct (F1 i s1 EL E1) as (s2 & E2 & A1 & A2 & A3). destruct (F2 i s2 (eq_sym EL) E2) as (s1' & E1' & B1 & B2 & B3).
      rewrite E2. f_equal. rewrite E1 in E1'. injection E1' as <-. destruct s1 as [a b c], s2 as [a' b' c']. cbn in *. subst.
      destruct b, b', c, c'; try reflexivity; exfalso; auto; (discriminate (A2 eq_refl) || discriminate (A3 eq_refl) || discriminate (B2 eq_refl) || discriminate (B3 eq_refl)).
    - destruct (nth_error states2 i) as [s2|] eqn:E2; [|reflexivity]. destruct (F2 i s2 (eq_sym EL) E2) as (s1 & E & _). congruence. }
  split; [exact ES|]. assert (EN : n1 = n2) by (rewrite <- N1, <- N2, ES; reflexivity).
  intros i j Hi.
  assert (G1 : labels1 i j <> [] -> labels2 i j <> [] /\ joined (of_string ", ") (labels1 i j) = joined (of_string ", ") (labels2 i j)).
  { intros H. destruct (lo_all _ _ _ _ Lo1 i j Hi H) as (l & Hl & <- & <-). destruct (K1 l Hl) as (l' & Hl' & E1 & E2 & E3).
    destruct (lo_real _ _ _ _ Lo1 l Hl) as (_ & _ & A & _). destruct (lo_real _ _ _ _ Lo2 l' Hl') as (_ & _ & B & C).
    rewrite E1, E2 in B. unfold lk_label in E3. rewrite <- A, <- B. auto. }
  assert (G2 : labels2 i j <> [] -> labels1 i j <> []).
  { intros H. destruct (lo_all _ _ _ _ Lo2 i j ltac:(lia) H) as (l & Hl & <- & <-). destruct (K2 l Hl) as (l' & Hl' & E1 & E2 & _).
    destruct (lo_real _ _ _ _ Lo1 l' Hl') as (_ & _ & B & C). rewrite E1, E2 in B. congruence. }
  destruct (labels1 i j) as [|x r] eqn:E1.
  - destruct (labels2 i j) as [|y t] eqn:E2; [split; [tauto|reflexivity]|]. exfalso. apply G2; [discriminate|reflexivity].
  - destruct (G1 ltac:(discriminate)) as [G3 G4]. split; [split; [discriminate|intros; contradiction]|exact G4].
Qed.
End Exact.

(** ** Labels *)
Lemma split_at_space (u1 u2 r1 r2 : str) : ~ In 32%N u1 -> ~ In 32%N u2 -> u1 ++ 32%N :: r1 = u2 ++ 32%N :: r2 -> u1 = u2 /\ r1 = r2.
Proof.
  revert u2. induction u1 as [|c u1 IH]; intros [|c' u2] H1 H2 E; cbn in E.
  - injection E as ->. auto.
  - injection E as E1 _. exfalso. apply H2. left. auto.
  - injection E as E1 _. exfalso. apply H1. left. auto.
  - injection E as -> E. destruct (IH u2) as [-> ->]; auto; intros X; [apply H1|apply H2]; right; exact X.
Qed.
Lemma join_cons2 (x y : str) r : joined (of_string ", ") (x :: y :: r) = (x ++ [44%N]) ++ 32%N :: joined (of_string ", ") (y :: r).
Proof. rewrite <- app_assoc. reflexivity. Qed.
Lemma join_no_spaces (l1 l2 : list str) : no_spaces l1 -> no_spaces l2 -> (l1 = [] <-> l2 = []) ->
  joined (of_string ", ") l1 = joined (of_string ", ") l2 -> l1 = l2.
Proof.
  assert (W : forall (x : str) r, no_spaces (x :: r) -> ~ In 32%N x /\ ~ In 32%N (x ++ [44%N]) /\ no_spaces r).
  { intros x r H. assert (A : ~ In 32%N x) by (intros I; apply (H x _ (or_introl eq_refl) I); reflexivity). split; [exact A|]. split.
    - rewrite in_app_iff. intros [I|[I|[]]]; [auto|discriminate].
    - intros a c Ha Hc. apply (H a c); [right; exact Ha|exact Hc]. }
  revert l2. induction l1 as [|x r IH]; intros [|y t] N1 N2 E0 E; [reflexivity|exfalso; destruct E0 as [E0 _]; discriminate (E0 eq_refl)|exfalso; destruct E0 as [_ E0]; discriminate (E0 eq_refl)|].
  destruct (W x r N1) as (A1 & A2 & A3), (W y t N2) as (B1 & B2 & B3).
  destruct r as [|x' r], t as [|y' t].
  - cbn in E. congruence.
  - exfalso. rewrite join_cons2 in E. cbn [joined] in E. apply A1. rewrite E. apply in_or_app. right. left. reflexivity.
  - exfalso. rewrite join_cons2 in E. cbn [joined] in E. apply B1. rewrite <- E. apply in_or_app. right. left. reflexivity.
  - rewrite !join_cons2 in E. apply split_at_space in E; [|exact A2|exact B2]. destruct E as [E E']. apply app_inj_tail in E. destruct E as [-> _].
    f_equal. apply IH; [exact A3|exact B3|split; discriminate|exact E'].
Qed.
