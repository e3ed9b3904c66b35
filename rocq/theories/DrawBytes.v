(** * DrawBytes: ASCII art with labels of any length and any characters *)
From Coq Require Import Ascii String List NArith Arith Bool Lia Permutation Sorted.
From Verif Require Import Base BaseLemmas Spec TableModel Messages DrawModel DrawSpec DrawProofs DrawOver Utf8Spec Utf8Proofs DrawBytesSpec.
Import ListNotations.
Close Scope string_scope.
Open Scope list_scope.

Lemma flat_map_ext_In {A B} (f g : A -> list B) l : (forall x, In x l -> f x = g x) -> flat_map f l = flat_map g l.
Proof. induction l as [|x l IH]; intros H; [reflexivity|]. cbn. rewrite H by (left; auto). f_equal. apply IH. intros y Hy. apply H. right. auto. Qed.
Section Bytes.
Context (w : nat).
Lemma draw_label_loop s l : lk_loop l = true -> draw_label w s (grouped_of l) = Ret s.
Proof.
  intros H. unfold draw_label. change (gr_left (grouped_of l)) with (lk_left l). change (gr_right (grouped_of l)) with (lk_right l).
  unfold lk_loop in H. apply Nat.eqb_eq in H. unfold lk_left, lk_right. rewrite H, Nat.min_id, Nat.max_id, Nat.eqb_refl. reflexivity.
Qed.
Lemma draw_label_iff s l t : lk_loop l = false -> (draw_label w s (grouped_of l) = Ret t <-> put_label s (lk_start w l) (lk_label l) t).
Proof.
  intros H. unfold draw_label. change (gr_left (grouped_of l)) with (lk_left l). change (gr_right (grouped_of l)) with (lk_right l).
  change (gr_label (grouped_of l)) with (lk_label l). destruct (link_ends w l) as [(L & _)|(_ & E & Es & _)]; [congruence|].
  rewrite (proj2 (Nat.eqb_neq (lk_left l) (lk_right l))) by lia. cbn [negb]. change (right_x_idx w (lk_left l)) with (right_x w (lk_left l)). rewrite <- Es.
  unfold put_label. split.
  - intros D. destruct (char_offset s (lk_start w l)) as [b| |] eqn:C; cbn [bind] in D; try discriminate D.
    apply char_offset_iff in C as [C1 C2]. apply replace_range_iff in D as (i & j & D1 & D2 & _ & ->).
    assert (i = S (lk_start w l)) as ->.
    { destruct C2 as [C2 C3]. pose proof (char_at_le s _ _ _ _ D1 (conj C2 C3)) as X. pose proof D1 as D1'.
      assert (Y : char_at s (S (lk_start w l)) (length (bytes (firstn (S (lk_start w l)) s)))) by (split; [lia|reflexivity]).
      pose proof (char_at_le s _ _ _ _ Y D1) as Z. pose proof (char_at_le s _ _ _ _ D1 Y) as Z'.
      assert (P : b < length (bytes (firstn (S (lk_start w l)) s))).
      { assert (Q : char_at s (lk_start w l) b) by (split; auto). pose proof (char_at_le s _ _ _ _ Y Q) as M. lia. }
      lia. }
    exists b, j. replace (b + length (lk_label l) + 1) with (b + 1 + length (lk_label l)) in D2 by lia. auto.
  - intros (b & j & H1 & H2 & H3 & H4 & ->). rewrite (proj2 (char_offset_iff s (lk_start w l) b)) by auto. cbn [bind].
    apply replace_range_iff. exists (S (lk_start w l)), j. split; [exact H3|]. split; [|split; [lia|reflexivity]].
    replace (b + length (lk_label l) + 1) with (b + 1 + length (lk_label l)) by lia. exact H4.
Qed.
Lemma draw_label_total s l : draw_label w s (grouped_of l) <> Diverge.
Proof.
  unfold draw_label. destruct (negb _); [|discriminate]. unfold char_offset. destruct (_ <? _); cbn [bind]; [|discriminate]. apply replace_range_total.
Qed.
Lemma draw_labels_iff : forall ls s t, draw_labels w s (map grouped_of ls) = Ret t <-> put_labels w s (filter (fun l => negb (lk_loop l)) ls) t.
Proof.
  induction ls as [|l ls IH]; intros s t; cbn [draw_labels map filter].
  - split; [intros E; injection E as <-; constructor|]. intros H. inversion H; subst. reflexivity.
  - destruct (lk_loop l) eqn:L; cbn [negb].
    + rewrite draw_label_loop by auto. cbn [bind]. apply IH.
    + split.
      * intros E. destruct (draw_label w s (grouped_of l)) as [s1| |] eqn:E1; cbn [bind] in E; try discriminate E.
        apply (put_next w s l _ s1); [apply draw_label_iff; auto|]. apply IH. exact E.
      * intros H. inversion H as [|a b c s1 d H1 H2]; subst. apply draw_label_iff in H1; auto. rewrite H1. cbn [bind]. apply IH. exact H2.
Qed.
Lemma draw_labels_total : forall ls s, draw_labels w s (map grouped_of ls) <> Diverge.
Proof.
  induction ls as [|l ls IH]; intros s; cbn [draw_labels map]; [discriminate|].
  destruct (draw_label w s (grouped_of l)) eqn:E; cbn [bind]; [apply IH|discriminate|]. exfalso. apply (draw_label_total s l). exact E.
Qed.

Lemma sorted_unique (a b : list link) : Permutation a b -> StronglySorted (fun x y => lk_left x < lk_left y) a ->
  StronglySorted (fun x y => lk_left x < lk_left y) b -> a = b.
Proof.
  revert b. induction a as [|x a IH]; intros b P Sa Sb; [symmetry; apply Permutation_nil; auto|].
  destruct b as [|y b]; [exfalso; apply (Permutation_nil_cons (l := a) (x := x)); apply Permutation_sym; auto|].
  inversion Sa as [|? ? Sa' Fa]; subst. inversion Sb as [|? ? Sb' Fb]; subst. rewrite Forall_forall in Fa, Fb.
  assert (x = y) as <-.
  { assert (Hx : In x (y :: b)) by (apply (Permutation_in _ P); left; auto).
    assert (Hy : In y (x :: a)) by (apply (Permutation_in _ (Permutation_sym P)); left; auto).
    destruct Hx as [Hx|Hx]; [auto|]. destruct Hy as [Hy|Hy]; [auto|]. specialize (Fa y Hy). specialize (Fb x Hx). lia. }
  f_equal. apply IH; auto. apply Permutation_cons_inv in P. exact P.
Qed.
Lemma sorted_strong ls : sorted_links ls -> StronglySorted (fun x y => lk_left x < lk_left y) (filter (fun l => negb (lk_loop l)) ls).
Proof.
  intros H. apply (filter_sorted (fun l => negb (lk_loop l))) in H. induction H as [|x l F H IH]; [constructor|]. constructor; [exact IH|].
  rewrite Forall_forall in *. intros y Hy. apply before_left. auto.
Qed.

Lemma draw_levels_iff h n links : (forall l, In l links -> lk_from l < n /\ lk_to l < n) ->
  ForallOrdPairs (fun a b => lk_level a = lk_level b -> before (lk_left a) (lk_right a) (lk_left b) (lk_right b)) links ->
  forall k bars, (forall x, In x bars <-> existsb (fun l => (k <=? lk_level l) && lk_bar w l x) links = true) ->
  (forall lines, draw_levels h w (art_width w n) (map placed_of links) bars k = Ret lines <->
    exists lower : nat -> str, (forall j, j < k -> lower_line w n links j (lower j)) /\
      lines = flat_map (fun j => [map (top_cell w links j) (seq 0 (art_width w n)); lower j]) (rev (seq 0 k))) /\
  draw_levels h w (art_width w n) (map placed_of links) bars k <> Diverge.
Proof.
  intros Hn HO. induction k as [|k IH]; intros bars HB.
  { split; [|discriminate]. intros lines. cbn [draw_levels seq rev flat_map]. split.
    - intros E. injection E as <-. exists (fun _ => []). split; [intros j Hj; lia|reflexivity].
    - intros (lower & _ & ->). reflexivity. }
  cbn [draw_levels].
  set (here := filter (fun l => lk_level l =? k) links).
  assert (Hbars : forall x, existsb (Nat.eqb x) (ho h [81; k] bars) = existsb (fun l => (k <? lk_level l) && lk_bar w l x) links).
  { intros x. apply eq_true_iff_eq. rewrite existsb_exists. unfold Nat.ltb. rewrite <- HB. split.
    - intros (y & Hy & E). apply Nat.eqb_eq in E. subst y. rewrite ho_In in Hy. auto.
    - intros Hx. exists x. split; [rewrite ho_In; auto|apply Nat.eqb_refl]. }
  assert (Hrange : forall x, In x (ho h [81; k] bars) -> x < art_width w n).
  { intros x Hx. rewrite ho_In, HB, existsb_exists in Hx. destruct Hx as (l & Hl & E). apply andb_true_iff in E as [_ E].
    destruct (Hn l Hl) as (? & ?). apply (bar_range w l n); auto. }
  rewrite repeat_line, set_bytes_line by auto. cbn [bind]. rewrite filter_placed. fold here.
  assert (HS : sorted_links here).
  { unfold here, sorted_links. clear -HO. induction HO as [|x l HF H IH]; simpl; [constructor|]. destruct (Nat.eqb_spec (lk_level x) k) as [E|_]; auto.
    constructor; auto. rewrite Forall_forall in *. intros y Hy. apply filter_In in Hy as [Hy Ey]. apply Nat.eqb_eq in Ey. apply HF; auto. congruence. }
  assert (Ha : all_apart here).
  { unfold all_apart. clear -HS. induction HS as [|x l HF H IH]; intros a b; [intros []|]. rewrite Forall_forall in HF.
    intros [<-|Ia] [<-|Ib]; auto; right; [left|right]; apply HF; auto. }
  assert (Hh : forall l, In l here -> lk_from l < n /\ lk_to l < n).
  { intros l Hl. apply Hn. apply filter_In in Hl. tauto. }
  set (f0 := fun y => if existsb (Nat.eqb y) (ho h [81; k] bars) then 124%N else 32%N).
  destruct (draw_shapes_line w n here f0 f0 bars Ha) as (bars' & E & Hb'). { intros l Hl. specialize (Hh l Hl). tauto. }
  rewrite E. cbn [bind]. specialize (IH bars').
  match type of IH with ?P -> _ => assert (HB' : P) end.
  { intros x. rewrite Hb', HB. unfold here. rewrite existsb_filter, (bars_split w k), orb_true_iff. unfold Nat.ltb. tauto. }
  specialize (IH HB'). destruct IH as [IH IHd].
  assert (Etop : line (top_over w here f0) (art_width w n) = map (top_cell w links k) (seq 0 (art_width w n))).
  { apply line_ext. intros x _. unfold top_over, top_cell, here. rewrite find_filter, existsb_filter.
    rewrite (find_ext' _ (fun l => (lk_level l =? k) && (lk_head w l =? x))) by reflexivity.
    destruct (find _ links); auto. rewrite (existsb_ext' (fun l => (lk_level l =? k) && (lk_start w l <=? x) && (x <=? lk_stop w l)) (fun l => (lk_level l =? k) && cover w l x)) by (intros; unfold cover; rewrite andb_assoc; auto).
    destruct (existsb _ links); auto. unfold f0. rewrite Hbars. reflexivity. }
  assert (Ebot : line (bot_over w here f0) (art_width w n) = map (bar_cell w links k) (seq 0 (art_width w n))).
  { apply line_ext. intros x _. unfold bot_over, bar_cell, f0, here. rewrite existsb_filter, Hbars.
    rewrite (bars_split w k links x). destruct (existsb _ links); auto. }
  rewrite Etop, Ebot.
  assert (Elow : forall t, draw_labels w (map (bar_cell w links k) (seq 0 (art_width w n))) (map grouped_of here) = Ret t <-> lower_line w n links k t).
  { intros t. rewrite draw_labels_iff. unfold lower_line.
    assert (Ef : filter (fun l => (lk_level l =? k) && negb (lk_loop l)) links = filter (fun l => negb (lk_loop l)) here) by (unfold here; rewrite filter_filter'; reflexivity).
    rewrite Ef. split.
    - intros H. exists (filter (fun l => negb (lk_loop l)) here). split; [reflexivity|]. split; [apply sorted_strong; auto|exact H].
    - intros (ls & P & SS & H). rewrite <- (sorted_unique ls (filter (fun l => negb (lk_loop l)) here)); auto. apply sorted_strong. auto. }
  split.
  - intros lines. split.
    + intros D. apply bind_Ret_inv in D as (low & D1 & D). apply bind_Ret_inv in D as (rest & D2 & D). injection D as <-.
      apply Elow in D1. apply IH in D2 as (lower & H1 & ->). exists (fun j => if j =? k then low else lower j). split.
      * intros j Hj. destruct (Nat.eqb_spec j k) as [->|Hne]; [exact D1|apply H1; lia].
      * rewrite seq_S, Nat.add_0_l, rev_app_distr. cbn [rev app flat_map]. rewrite Nat.eqb_refl. f_equal. f_equal.
        apply flat_map_ext_In. intros j Hj. rewrite <- in_rev, in_seq in Hj. rewrite (proj2 (Nat.eqb_neq j k)) by lia. reflexivity.
    + intros (lower & H1 & ->). rewrite (proj2 (Elow (lower k))) by (apply H1; lia). cbn [bind].
      rewrite (proj2 (IH (flat_map (fun j => [map (top_cell w links j) (seq 0 (art_width w n)); lower j]) (rev (seq 0 k))))).
      * cbn [bind]. rewrite seq_S, Nat.add_0_l, rev_app_distr. reflexivity.
      * exists lower. split; [intros j Hj; apply H1; lia|reflexivity].
  - destruct (draw_labels w _ (map grouped_of here)) eqn:D; cbn [bind]; [|discriminate|exact (fun _ => draw_labels_total _ _ D)].
    destruct (draw_levels h w (art_width w n) (map placed_of links) bars' k); cbn [bind]; [discriminate|discriminate|]. contradiction.
Qed.
End Bytes.

Lemma ascii_art_iff h states ts links levels labels w : widest (map st_name states) w ->
  place_grouped (group_arrows h (map arrow_of ts)) = Ret (map placed_of links, levels) ->
  layout (length states) labels links levels ->
  (forall art, ascii_art h states (map arrow_of ts) = Ret art <-> picture_is w states links levels art) /\ ascii_art h states (map arrow_of ts) <> Diverge.
Proof.
  intros Hw E L. unfold ascii_art.
  replace (map (fun s => length (st_name s)) states) with (map (@length N) (map st_name states)) by (rewrite map_map; reflexivity).
  rewrite (max_of_widest _ _ Hw). cbn [unwrap bind]. pose proof (placed_sorted h ts links levels E) as HO. rewrite E. cbn [bind].
  replace (right_x_idx w (length states) - 1) with (art_width w (length states)) by (unfold right_x_idx, art_width; lia).
  destruct (draw_levels_iff w h (length states) links) with (k := levels) (bars := @nil nat) as [HI HD]; auto.
  - intros l Hl. destruct (lo_real _ _ _ _ L l Hl) as (H1 & H2 & _). auto.
  - intros x. split; [intros []|]. intros Hx. apply existsb_exists in Hx as (l & Hl & Hx). apply andb_true_iff in Hx as [Hx _].
    apply Nat.leb_le in Hx. pose proof (lo_level _ _ _ _ L l Hl). lia.
  - rewrite last_line_eq by (intros s Hs; apply Hw; apply in_map; auto). split.
    + intros art. unfold picture_is. split.
      * intros D. apply bind_Ret_inv in D as (lines & D1 & D). injection D as <-. apply HI in D1 as (lower & H1 & ->). exists lower. auto.
      * intros (lower & H1 & ->). erewrite (proj2 (HI (flat_map (fun k => [map (top_cell w links k) (seq 0 (art_width w (length states))); lower k]) (rev (seq 0 levels))))); [reflexivity|].
        exists lower. split; [exact H1|reflexivity].
    + destruct (draw_levels h w _ _ _ _); cbn [bind]; [discriminate|discriminate|]. contradiction.
Qed.
Theorem dfa_art_iff h d w : dfa_valid d -> widest (map ds_name (dfa_states d)) w ->
  exists links levels, layout (length (dfa_states d)) (dfa_labels d) links levels /\
    (forall art, dfa_ascii_art h d = Ret art <-> picture_is w (map of_dfa_state (dfa_states d)) links levels art) /\ dfa_ascii_art h d <> Diverge.
Proof.
  intros V Hw. destruct (dfa_layout h d V) as (links & levels & E1 & E2 & L). unfold dfa_ascii_art. rewrite E1. cbn [bind].
  exists links, levels. split; [exact L|]. apply (ascii_art_iff _ _ _ _ _ (dfa_labels d)); rewrite ?map_map, ?map_length; auto.
Qed.
Theorem nfa_art_iff h n w : nfa_valid n -> widest (map ns_name (nfa_states n)) w ->
  exists links levels, layout (length (nfa_states n)) (nfa_labels n) links levels /\
    (forall art, nfa_ascii_art h n = Ret art <-> picture_is w (map of_nfa_state (nfa_states n)) links levels art) /\ nfa_ascii_art h n <> Diverge.
Proof.
  intros V Hw. destruct (nfa_layout h n V) as (links & levels & E1 & E2 & L). unfold nfa_ascii_art. rewrite E1. cbn [bind].
  exists links, levels. split; [exact L|]. apply (ascii_art_iff _ _ _ _ _ (nfa_labels n)); rewrite ?map_map, ?map_length; auto.
Qed.
