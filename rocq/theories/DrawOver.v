(** * DrawOver: ASCII art with labels that are longer than their arrows *)
From Coq Require Import Ascii String List NArith Arith Bool Lia Permutation.
From Verif Require Import Base BaseLemmas Spec TableModel Messages DrawModel DrawSpec DrawProofs.
Import ListNotations.
Close Scope string_scope.
Open Scope list_scope.

Section Over.
Context (w : nat).
Definition inside (n : nat) (l : link) : bool := lk_loop l || (lk_start w l + length (lk_label l) <? art_width w n).
Definition narrow (l : link) : Prop := fits w l \/ forall c, In c (lk_label l) -> (c < 128)%N.

Lemma boundary_behind : forall s k, length s < k -> (forall c, In c s -> (c < 128)%N) -> boundary s k = None.
Proof.
  induction s as [|c s IH]; intros k Hk Ha; simpl in Hk; destruct k as [|k]; try lia; [reflexivity|]. cbn [boundary].
  assert (Hc : (c < 128)%N) by (apply Ha; left; auto). unfold utf8_len at 1 2. rewrite (proj2 (N.ltb_lt c 128) Hc).
  cbn [Nat.ltb Nat.leb Nat.sub]. rewrite Nat.sub_0_r. rewrite IH; [reflexivity|lia|]. intros c' H'. apply Ha. right; auto.
Qed.
Lemma boundary_behind_at : forall i k s, i <= length s -> length s < i + k -> (forall j c, i <= j -> nth_error s j = Some c -> (c < 128)%N) ->
  boundary s (byte_len (firstn i s) + k) = None.
Proof.
  induction i as [|i IH]; intros k s Hi Hl H.
  - simpl. apply boundary_behind; [lia|]. intros c Hc. apply In_nth_error in Hc as (j & Hj). apply (H j); [lia|auto].
  - destruct s as [|c s]; simpl in Hi, Hl; [lia|]. cbn [firstn byte_len]. pose proof (utf8_len_pos c).
    destruct (utf8_len c + byte_len (firstn i s) + k) as [|b] eqn:Eb; [lia|]. cbn [boundary].
    rewrite (proj2 (Nat.ltb_ge _ _)) by lia. replace (S b - utf8_len c) with (byte_len (firstn i s) + k) by lia.
    rewrite IH; [reflexivity|lia|lia|]. intros j c' Hj Hn. apply (H (S j)); [lia|auto].
Qed.
Lemma replace_behind f W a (s : str) : a < W -> W <= a + length s -> (forall x, a <= x -> (f x < 128)%N) ->
  (start <- char_offset (line f W) a ;; replace_range (line f W) (start + 1) (start + length s + 1) s) = Panic.
Proof.
  intros H Hs Ha. unfold char_offset. rewrite line_length, (proj2 (Nat.ltb_lt a W)) by lia. cbn [bind]. unfold replace_range.
  replace (byte_len (firstn a (line f W)) + length s + 1) with (byte_len (firstn a (line f W)) + (length s + 1)) by lia.
  rewrite (boundary_behind_at a (length s + 1)); try (rewrite line_length; lia).
  - destruct (boundary _ _); reflexivity.
  - intros j c Hj Hn. assert (j < W). { rewrite <- (line_length f W). apply nth_error_Some. congruence. }
    rewrite line_nth in Hn by lia. injection Hn as <-. apply Ha. lia.
Qed.

Lemma draw_label_over n f l : lk_from l < n -> lk_to l < n -> (lk_loop l = false -> forall x, lk_start w l <= x -> (f x < 128)%N) ->
  draw_label w (line f (art_width w n)) (grouped_of l) =
  if inside n l then Ret (line (label_over w [l] f) (art_width w n)) else Panic.
Proof.
  intros H1 H2 Ha. unfold draw_label, inside. change (gr_left (grouped_of l)) with (lk_left l). change (gr_right (grouped_of l)) with (lk_right l).
  pose proof (span_range w l n H1 H2) as Hs. pose proof (head_range w l) as [Hh _].
  destruct (link_ends w l) as [(L & E & _)|(L & E & Es & _)].
  - rewrite (proj2 (Nat.eqb_eq _ _) E), L. cbn [negb orb]. apply (f_equal (@Ret str)), line_ext. intros x _. unfold label_over, written. cbn [find]. rewrite L. reflexivity.
  - rewrite (proj2 (Nat.eqb_neq (lk_left l) (lk_right l))), L by lia. cbn [negb orb]. change (gr_label (grouped_of l)) with (lk_label l).
    change (right_x_idx w (lk_left l)) with (right_x w (lk_left l)). rewrite <- Es. destruct (Nat.ltb_spec (lk_start w l + length (lk_label l)) (art_width w n)) as [Hi|Hi].
    + rewrite replace_line; [|lia|intros x Hx; apply Ha; [auto|lia]].
      apply (f_equal (@Ret str)), line_ext. intros x _. unfold label_over, written. cbn [find]. rewrite L. cbn [negb andb]. destruct ((lk_start w l <? x) && _); reflexivity.
    + apply replace_behind; [lia|lia|auto].
Qed.

Definition sorted_links : list link -> Prop := ForallOrdPairs (fun a b => before (lk_left a) (lk_right a) (lk_left b) (lk_right b)).
Fixpoint labels_over (ls : list link) (f : nat -> N) : nat -> N :=
  match ls with [] => f | l :: r => labels_over r (label_over w [l] f) end.
Lemma before_left a b : before (lk_left a) (lk_right a) (lk_left b) (lk_right b) -> lk_left a < lk_left b.
Proof.
  unfold before. assert (lk_left a <= lk_right a) by (unfold lk_left, lk_right; lia). destruct (Nat.eqb_spec (lk_left a) (lk_right a)); lia.
Qed.
Lemma rightmost_In : forall ls m, rightmost ls = Some m -> In m ls.
Proof.
  induction ls as [|l ls IH]; simpl; intros m H; [discriminate|]. destruct (rightmost ls) as [m'|] eqn:E.
  - destruct (_ <? _); injection H as <-; auto.
  - injection H as <-. auto.
Qed.
Lemma rightmost_none ls : rightmost ls = None -> ls = [].
Proof. destruct ls as [|l ls]; simpl; auto. destruct (rightmost ls); [destruct (_ <? _)|]; discriminate. Qed.
Lemma labels_over_rightmost : forall ls f x, sorted_links ls ->
  labels_over ls f x = match rightmost (filter (fun l => lk_writes w l x) ls) with
                       | Some l => nth (x - lk_start w l - 1) (lk_label l) 32%N
                       | None => f x
                       end.
Proof.
  induction ls as [|l ls IH]; intros f x HS; [reflexivity|]. inversion HS as [|? ? HF HS']; subst. cbn [labels_over filter]. rewrite IH by auto.
  rewrite Forall_forall in HF. unfold label_over. cbn [find]. change (written w l x) with (lk_writes w l x).
  destruct (rightmost (filter _ ls)) as [m|] eqn:Em.
  - destruct (lk_writes w l x); [|rewrite Em; auto]. cbn [rightmost]. rewrite Em.
    apply rightmost_In, filter_In in Em as [Hm _]. apply HF, before_left in Hm. rewrite (proj2 (Nat.ltb_lt _ _) Hm). reflexivity.
  - destruct (lk_writes w l x); [cbn [rightmost]|]; rewrite Em; reflexivity.
Qed.

Lemma draw_labels_over n : forall ls f, sorted_links ls -> (forall l, In l ls -> lk_from l < n /\ lk_to l < n /\ narrow l) ->
  (forall l x, In l ls -> lk_loop l = false -> lk_start w l <= x -> (f x < 128)%N) ->
  draw_labels w (line f (art_width w n)) (map grouped_of ls) =
  if forallb (inside n) ls then Ret (line (labels_over ls f) (art_width w n)) else Panic.
Proof.
  induction ls as [|l ls IH]; intros f HS Hn Ha; [reflexivity|]. inversion HS as [|? ? HF HS']; subst. rewrite Forall_forall in HF.
  cbn [draw_labels map forallb]. destruct (Hn l) as (H1 & H2 & H3); [left; auto|].
  rewrite draw_label_over; auto. 2:{ intros HL x Hx. apply (Ha l x); auto. left; auto. }
  destruct (inside n l); cbn [bind andb]; [|reflexivity]. rewrite IH; auto.
  - intros b Hb. apply Hn. right; auto.
  - intros b x Hb HL Hx. unfold label_over. cbn [find]. destruct (written w l x) eqn:El.
    + destruct H3 as [H3|H3].
      * exfalso. apply written_range in El; auto. pose proof (before_stop w l b (HF b Hb)). lia.
      * unfold written in El. rewrite !andb_true_iff, Nat.ltb_lt, Nat.leb_le in El.
        destruct (nth_in_or_default (x - lk_start w l - 1) (lk_label l) 32%N) as [Hi|Hd]; [apply H3; auto|]. rewrite Hd. lia.
    + apply (Ha b x); auto. right; auto.
Qed.

Lemma filter_sorted (P : link -> bool) (Q : link -> link -> Prop) l : ForallOrdPairs Q l -> ForallOrdPairs Q (filter P l).
Proof.
  induction 1 as [|x l HF H IH]; simpl; [constructor|]. destruct (P x); auto. constructor; auto.
  rewrite Forall_forall in *. intros y Hy. apply filter_In in Hy as [Hy _]. auto.
Qed.
Lemma forallb_level n k links : forallb (inside n) (filter (fun l => lk_level l <? S k) links) =
  forallb (inside n) (filter (fun l => lk_level l =? k) links) && forallb (inside n) (filter (fun l => lk_level l <? k) links).
Proof.
  induction links as [|l links IH]; simpl; auto.
  destruct (Nat.ltb_spec (lk_level l) (S k)), (Nat.eqb_spec (lk_level l) k), (Nat.ltb_spec (lk_level l) k); try lia; simpl; rewrite IH;
    destruct (inside n l); simpl; auto; rewrite ?andb_false_r; auto.
Qed.
Lemma filter_filter' {A} (p q : A -> bool) l : filter p (filter q l) = filter (fun x => q x && p x) l.
Proof. induction l as [|x l IH]; simpl; auto. destruct (q x) eqn:Eq; simpl; rewrite ?IH; auto. Qed.

Lemma draw_levels_over h n links : (forall l, In l links -> lk_from l < n /\ lk_to l < n /\ narrow l) ->
  ForallOrdPairs (fun a b => lk_level a = lk_level b -> before (lk_left a) (lk_right a) (lk_left b) (lk_right b)) links ->
  forall k bars, (forall x, In x bars <-> existsb (fun l => (k <=? lk_level l) && lk_bar w l x) links = true) ->
  draw_levels h w (art_width w n) (map placed_of links) bars k =
  if forallb (inside n) (filter (fun l => lk_level l <? k) links) then Ret (flat_map (over_lines w n links) (rev (seq 0 k))) else Panic.
Proof.
  intros Hn HO. induction k as [|k IH]; intros bars HB.
  { replace (filter (fun l => lk_level l <? 0) links) with (@nil link); [reflexivity|]. clear. induction links; simpl; auto. }
  cbn [draw_levels]. rewrite forallb_level.
  set (here := filter (fun l => lk_level l =? k) links).
  assert (Hbars : forall x, existsb (Nat.eqb x) (ho h [81; k] bars) = existsb (fun l => (k <? lk_level l) && lk_bar w l x) links).
  { intros x. apply eq_true_iff_eq. rewrite existsb_exists. unfold Nat.ltb. rewrite <- HB. split.
    - intros (y & Hy & E). apply Nat.eqb_eq in E. subst y. rewrite ho_In in Hy. auto.
    - intros Hx. exists x. split; [rewrite ho_In; auto|apply Nat.eqb_refl]. }
  assert (Hrange : forall x, In x (ho h [81; k] bars) -> x < art_width w n).
  { intros x Hx. rewrite ho_In, HB, existsb_exists in Hx. destruct Hx as (l & Hl & E). apply andb_true_iff in E as [_ E].
    destruct (Hn l Hl) as (? & ? & _). apply (bar_range w l n); auto. }
  rewrite repeat_line, set_bytes_line by auto. cbn [bind]. rewrite filter_placed. fold here.
  assert (HS : sorted_links here).
  { unfold here, sorted_links. clear -HO. induction HO as [|x l HF H IH]; simpl; [constructor|]. destruct (Nat.eqb_spec (lk_level x) k) as [E|_]; auto.
    constructor; auto. rewrite Forall_forall in *. intros y Hy. apply filter_In in Hy as [Hy Ey]. apply Nat.eqb_eq in Ey. apply HF; auto. congruence. }
  assert (Ha : all_apart here).
  { unfold all_apart. clear -HS. induction HS as [|x l HF H IH]; intros a b; [intros []|]. rewrite Forall_forall in HF.
    intros [<-|Ia] [<-|Ib]; auto; right; [left|right]; apply HF; auto. }
  assert (Hh : forall l, In l here -> lk_from l < n /\ lk_to l < n /\ narrow l).
  { intros l Hl. apply Hn. apply filter_In in Hl. tauto. }
  set (f0 := fun y => if existsb (Nat.eqb y) (ho h [81; k] bars) then 124%N else 32%N).
  destruct (draw_shapes_line w n here f0 f0 bars Ha) as (bars' & E & Hb'). { intros l Hl. specialize (Hh l Hl). tauto. }
  rewrite E. cbn [bind]. rewrite draw_labels_over; auto.
  - destruct (forallb (inside n) here); cbn [bind andb]; [|reflexivity]. rewrite IH.
    + destruct (forallb (inside n) _); cbn [bind]; [|reflexivity].
      rewrite seq_S, Nat.add_0_l, rev_app_distr. cbn [bind rev app flat_map]. unfold over_lines at 2. cbn [app]. apply (f_equal (@Ret (list str))).
      f_equal; [|f_equal].
      * apply line_ext. intros x _. unfold top_over, top_cell, here. rewrite find_filter, existsb_filter.
        rewrite (find_ext' _ (fun l => (lk_level l =? k) && (lk_head w l =? x))) by reflexivity.
        destruct (find _ links); auto. rewrite (existsb_ext' (fun l => (lk_level l =? k) && (lk_start w l <=? x) && (x <=? lk_stop w l)) (fun l => (lk_level l =? k) && cover w l x)) by (intros; unfold cover; rewrite andb_assoc; auto).
        destruct (existsb _ links); auto. unfold f0. rewrite Hbars. reflexivity.
      * apply line_ext. intros x _. rewrite labels_over_rightmost by auto. unfold over_cell, here. rewrite filter_filter'.
        destruct (rightmost _); auto. unfold bot_over, f0. rewrite existsb_filter, Hbars.
        rewrite (bars_split w k links x). destruct (existsb _ links); auto.
    + intros x. rewrite Hb', HB. unfold here. rewrite existsb_filter, (bars_split w k), orb_true_iff. unfold Nat.ltb. tauto.
  - intros l x _ _ _. unfold bot_over, f0. destruct (existsb _ here); [lia|]. destruct (existsb _ _); lia.
Qed.
End Over.

Lemma placed_sorted h ts links levels : place_grouped (group_arrows h (map arrow_of ts)) = Ret (map placed_of links, levels) ->
  ForallOrdPairs (fun a b => lk_level a = lk_level b -> before (lk_left a) (lk_right a) (lk_left b) (lk_right b)) links.
Proof.
  intros E. destruct (group_arrows_spec h (map arrow_of ts)) as [_ HG].
  destruct (place_arrows_spec gr_left gr_right (group_arrows h (map arrow_of ts))) as (placed & lv & E2 & _ & _ & _ & HO & _).
  { intros g Hg. apply HG in Hg as [Eg Hne]. rewrite Eg in Hne. apply labels_at_key in Hne as (i & j & _ & _ & Ek). injection Ek as -> -> _. lia. }
  unfold place_grouped in E. rewrite E2 in E. injection E as -> ->. unfold ordered in HO. clear -HO.
  remember (map placed_of links) as ps eqn:Eps. revert links Eps. induction HO as [|p ps HF H IH]; intros [|l links] Eps; try discriminate; constructor.
  - injection Eps as -> ->. rewrite Forall_forall in *. intros b Hb El. apply (HF (placed_of b)); [apply in_map; auto|exact El].
  - apply IH. injection Eps as _ ->. reflexivity.
Qed.

Lemma join_ascii (ls : list str) : (forall a c, In a ls -> In c a -> (c < 128)%N) -> forall c, In c (joined (of_string ", ") ls) -> (c < 128)%N.
Proof.
  intros H. induction ls as [|a ls IH]; simpl; intros c Hc; [destruct Hc|]. destruct ls as [|b ls]; [apply (H a c); [left|]; auto|].
  apply in_app_or in Hc as [Hc|Hc]; [apply (H a c); [left|]; auto|]. destruct Hc as [<-|[<-|Hc]].
  - lia.
  - lia.
  - apply IH; auto. intros a' c' Ha'. apply H. right; auto.
Qed.

Lemma ascii_art_over h states ts links levels labels w : widest (map st_name states) w ->
  place_grouped (group_arrows h (map arrow_of ts)) = Ret (map placed_of links, levels) ->
  layout (length states) labels links levels -> long_labels_ascii w (length states) labels ->
  ascii_art h states (map arrow_of ts) = if forallb (inside w (length states)) links then Ret (picture_over w states links levels) else Panic.
Proof.
  intros Hw E L HA. unfold ascii_art.
  replace (map (fun s => length (st_name s)) states) with (map (@length N) (map st_name states)) by (rewrite map_map; reflexivity).
  rewrite (max_of_widest _ _ Hw). cbn [unwrap bind]. pose proof (placed_sorted h ts links levels E) as HO. rewrite E. cbn [bind].
  replace (right_x_idx w (length states) - 1) with (art_width w (length states)) by (unfold right_x_idx, art_width; lia).
  rewrite draw_levels_over; auto.
  - replace (filter (fun l => lk_level l <? levels) links) with links.
    + destruct (forallb _ links); cbn [bind]; [|reflexivity]. rewrite last_line_eq; [reflexivity|]. intros s Hs. apply Hw. apply in_map. auto.
    + pose proof (lo_level _ _ _ _ L) as HL. clear -HL. induction links as [|l links IH]; simpl; auto.
      rewrite (proj2 (Nat.ltb_lt (lk_level l) levels)) by (apply HL; left; auto). f_equal. apply IH. intros. apply HL. right; auto.
  - intros l Hl. destruct (lo_real _ _ _ _ L l Hl) as (H1 & H2 & H3 & _). split; auto. split; auto.
    destruct (link_ends w l) as [(HL & _)|(HL & _ & Es & Et & _)]; [left; left; auto|].
    destruct (HA (lk_from l) (lk_to l) H1 H2) as [HF|HF]. { unfold lk_loop in HL. apply Nat.eqb_neq in HL. auto. }
    + left. right. rewrite Es, Et. unfold lk_label. rewrite H3. exact HF.
    + right. unfold lk_label. rewrite H3. apply join_ascii. exact HF.
  - intros x. split; [intros []|]. intros Hx. apply existsb_exists in Hx as (l & Hl & Hx). apply andb_true_iff in Hx as [Hx _].
    apply Nat.leb_le in Hx. pose proof (lo_level _ _ _ _ L l Hl). lia.
Qed.
Lemma inside_links w n labels links levels : layout n labels links levels -> (forall i j, ~ i < n -> labels i j = []) ->
  (forallb (inside w n) links = true <-> (forall i j, i <> j -> labels i j <> [] -> ends_inside w n labels i j)).
Proof.
  intros L Hout. rewrite forallb_forall. split.
  - intros H i j Hne Hl. destruct (Nat.ltb_spec i n) as [Hi|Hi]; [|exfalso; apply Hl, Hout; lia].
    destruct (lo_all _ _ _ _ L i j Hi Hl) as (l & Hin & <- & <-). specialize (H l Hin). destruct (lo_real _ _ _ _ L l Hin) as (_ & _ & E & _).
    unfold inside in H. destruct (link_ends w l) as [(HL & _)|(HL & _ & Es & _)].
    + unfold lk_loop in HL. apply Nat.eqb_eq in HL. congruence.
    + rewrite HL, Es in H. cbn [orb] in H. apply Nat.ltb_lt in H. unfold lk_label in H. rewrite E in H. exact H.
  - intros H l Hin. destruct (lo_real _ _ _ _ L l Hin) as (_ & _ & E & Hl). unfold inside.
    destruct (link_ends w l) as [(HL & _)|(HL & _ & Es & _)]; [rewrite HL; reflexivity|]. rewrite HL, Es. cbn [orb]. apply Nat.ltb_lt.
    unfold lk_label. rewrite E. unfold lk_loop in HL. apply Nat.eqb_neq in HL. apply H; auto. rewrite <- E. auto.
Qed.

Definition drawn_over (w : nat) (states : list draw_state) (labels : nat -> nat -> list str) (art : R str) : Prop :=
  ((forall i j, i <> j -> labels i j <> [] -> ends_inside w (length states) labels i j) ->
   exists links levels, layout (length states) labels links levels /\ art = Ret (picture_over w states links levels)) /\
  ((exists i j, i <> j /\ labels i j <> [] /\ ~ ends_inside w (length states) labels i j) -> art = Panic).
Lemma drawn_over_intro h states ts links levels labels w : widest (map st_name states) w ->
  place_grouped (group_arrows h (map arrow_of ts)) = Ret (map placed_of links, levels) ->
  layout (length states) labels links levels -> long_labels_ascii w (length states) labels -> (forall i j, ~ i < length states -> labels i j = []) ->
  drawn_over w states labels (ascii_art h states (map arrow_of ts)).
Proof.
  intros Hw E L HA Hout. rewrite (ascii_art_over h states ts links levels labels w) by auto. pose proof (inside_links w _ _ _ _ L Hout) as HI. split.
  - intros H. apply HI in H. rewrite H. eauto.
  - intros (i & j & Hne & Hl & Hx). destruct (forallb _ links) eqn:Ef; auto. exfalso. apply Hx. apply (proj1 HI); auto.
Qed.
Theorem dfa_art_over h d w : dfa_valid d -> widest (map ds_name (dfa_states d)) w -> long_labels_ascii w (length (dfa_states d)) (dfa_labels d) ->
  drawn_over w (map of_dfa_state (dfa_states d)) (dfa_labels d) (dfa_ascii_art h d).
Proof.
  intros V Hw HA. destruct (dfa_layout h d V) as (links & levels & E1 & E2 & L). unfold dfa_ascii_art. rewrite E1. cbn [bind].
  apply (drawn_over_intro _ _ _ links levels); rewrite ?map_map, ?map_length; auto.
  intros i j Hi. unfold dfa_labels. rewrite (proj2 (nth_error_None _ _)) by lia. reflexivity.
Qed.
Theorem nfa_art_over h n w : nfa_valid n -> widest (map ns_name (nfa_states n)) w -> long_labels_ascii w (length (nfa_states n)) (nfa_labels n) ->
  drawn_over w (map of_nfa_state (nfa_states n)) (nfa_labels n) (nfa_ascii_art h n).
Proof.
  intros V Hw HA. destruct (nfa_layout h n V) as (links & levels & E1 & E2 & L). unfold nfa_ascii_art. rewrite E1. cbn [bind].
  apply (drawn_over_intro _ _ _ links levels); rewrite ?map_map, ?map_length; auto.
  intros i j Hi. unfold nfa_labels. rewrite (proj2 (nth_error_None _ _)) by lia. reflexivity.
Qed.

(** ** The last line *)
Lemma ascii_art_last h states arrows w art : widest (map st_name states) w -> ascii_art h states arrows = Ret art ->
  exists above, art = concat (map (fun l => l ++ [10%N]) above) ++ states_line w states.
Proof.
  intros Hw E. unfold ascii_art in E.
  replace (map (fun s => length (st_name s)) states) with (map (@length N) (map st_name states)) in E by (rewrite map_map; reflexivity).
  rewrite (max_of_widest _ _ Hw) in E. cbn [unwrap bind] in E. apply bind_Ret_inv in E as ([placed levels] & _ & E).
  apply bind_Ret_inv in E as (lines & _ & E). injection E as <-. exists lines. rewrite join_snoc. f_equal. apply last_line_eq.
  intros s Hs. apply Hw. apply in_map. auto.
Qed.
Lemma dfa_art_last h d w art : widest (map ds_name (dfa_states d)) w -> dfa_ascii_art h d = Ret art ->
  exists above, art = concat (map (fun l => l ++ [10%N]) above) ++ states_line w (map of_dfa_state (dfa_states d)).
Proof. intros Hw E. unfold dfa_ascii_art in E. apply bind_Ret_inv in E as (arrows & _ & E). eapply ascii_art_last; [|exact E]. rewrite map_map. exact Hw. Qed.
Lemma nfa_art_last h n w art : widest (map ns_name (nfa_states n)) w -> nfa_ascii_art h n = Ret art ->
  exists above, art = concat (map (fun l => l ++ [10%N]) above) ++ states_line w (map of_nfa_state (nfa_states n)).
Proof. intros Hw E. unfold nfa_ascii_art in E. apply bind_Ret_inv in E as (arrows & _ & E). eapply ascii_art_last; [|exact E]. rewrite map_map. exact Hw. Qed.
