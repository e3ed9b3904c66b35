(** * ArtProofs: reading ASCII art *)
From Coq Require Import Ascii String List NArith Arith Bool Lia.
From Verif Require Import Base BaseLemmas Spec TableModel Messages DrawModel DrawSpec DrawProofs GeometrySpec PictureProofs PictureFinal ArtSpec.
Import ListNotations.
Close Scope string_scope.
Open Scope list_scope.

(** ** Cells *)
Section Cells.
Variables (w n : nat) (labels : nat -> nat -> list str) (links : list link) (levels : nat).
Hypothesis W : 1 <= w.
Hypothesis L : layout n labels links levels.

Lemma col_lt a b : a < b -> (7 + w) * a + (7 + w) <= (7 + w) * b.
Proof. intros H. replace ((7 + w) * a + (7 + w)) with ((7 + w) * S a) by lia. apply Nat.mul_le_mono_l. lia. Qed.
Lemma col_cases a b : a = b \/ (7 + w) * a + (7 + w) <= (7 + w) * b \/ (7 + w) * b + (7 + w) <= (7 + w) * a.
Proof. destruct (Nat.lt_total a b) as [H|[H|H]]; [right; left; apply col_lt; auto|auto|right; right; apply col_lt; auto]. Qed.

Lemma head_right l i : lk_head w l = right_x w i + 2 -> lk_from l = i /\ lk_from l < lk_to l.
Proof.
  unfold lk_head, right_x, left_x. destruct (Nat.compare_spec (lk_from l) (lk_to l)) as [E|E|E]; intros H;
    pose proof (col_cases (lk_from l) i); lia.
Qed.
Lemma head_loop l i : lk_head w l = left_x w i + 1 -> lk_from l = i /\ lk_from l = lk_to l.
Proof.
  unfold lk_head, right_x, left_x. destruct (Nat.compare_spec (lk_from l) (lk_to l)) as [E|E|E]; intros H;
    pose proof (col_cases (lk_from l) i); lia.
Qed.
Lemma head_left l i : lk_head w l = left_x w i - 1 -> lk_from l = i /\ lk_to l < lk_from l.
Proof.
  unfold lk_head, right_x, left_x. destruct (Nat.compare_spec (lk_from l) (lk_to l)) as [E|E|E]; intros H;
    pose proof (col_cases (lk_from l) i); lia.
Qed.

Lemma top_head k x l : In l links -> lk_level l = k -> lk_head w l = x -> exists l', In l' links /\ lk_level l' = k /\ lk_head w l' = x /\ top_cell w links k x = lk_tip l'.
Proof.
  intros H1 H2 H3. unfold top_cell. destruct (find _ links) as [l'|] eqn:F.
  - apply find_some in F as (I & B). apply andb_prop in B as (B1 & B2). apply Nat.eqb_eq in B1, B2. exists l'. auto.
  - apply (find_none _ _ F) in H1. rewrite H2, H3, !Nat.eqb_refl in H1. discriminate.
Qed.
Lemma top_tip k x c : c = 60%N \/ c = 62%N -> top_cell w links k x = c -> exists l, In l links /\ lk_level l = k /\ lk_head w l = x /\ lk_tip l = c.
Proof.
  intros Hc. unfold top_cell. destruct (find _ links) as [l'|] eqn:F.
  - apply find_some in F as (I & B). apply andb_prop in B as (B1 & B2). apply Nat.eqb_eq in B1, B2. intros <-. exists l'. auto.
  - destruct (existsb _ links); [intros <-; intuition discriminate|]. destruct (existsb _ links); intros <-; intuition discriminate.
Qed.
Lemma top_line k x : top_cell w links k x = 45%N <-> (~ exists l, In l links /\ lk_level l = k /\ lk_head w l = x) /\
  exists l, In l links /\ lk_level l = k /\ lk_start w l <= x <= lk_stop w l.
Proof.
  unfold top_cell. destruct (find _ links) as [l'|] eqn:F.
  - apply find_some in F as (I & B). apply andb_prop in B as (B1 & B2). apply Nat.eqb_eq in B1, B2. split.
    + unfold lk_tip. intros C. destruct (_ <? _) in C; discriminate C.
    + intros (N & _). destruct N. exists l'. auto.
  - destruct (existsb _ links) eqn:E.
    + apply existsb_exists in E as (l & I & B). apply andb_prop in B as (B & B3). apply andb_prop in B as (B1 & B2).
      apply Nat.eqb_eq in B1. apply Nat.leb_le in B2, B3. split; [|auto]. intros _. split; [|exists l; auto].
      intros (l' & I' & E1 & E2). apply (find_none _ _ F) in I'. rewrite E1, E2, !Nat.eqb_refl in I'. discriminate.
    + split; [intros C; destruct (existsb _ links) in C; discriminate C|]. intros (_ & l & I & E1 & E2 & E3).
      assert (H : existsb (fun l => (lk_level l =? k) && (lk_start w l <=? x) && (x <=? lk_stop w l)) links = true); [|congruence].
      apply existsb_exists. exists l. split; auto. rewrite E1, Nat.eqb_refl. cbn [andb]. apply andb_true_intro. split; apply Nat.leb_le; auto.
Qed.

(** links leave state [i] to the right, to the left, or return to it *)
Lemma cell_right k i : top_cell w links k (right_x w i + 2) = 62%N <-> exists l, In l links /\ lk_level l = k /\ lk_from l = i /\ i < lk_to l.
Proof.
  split.
  - intros H. apply top_tip in H as (l & I & E & Hh & _); auto. apply head_right in Hh as (<- & H). exists l. auto.
  - intros (l & I & E & <- & H). destruct (top_head k (right_x w (lk_from l) + 2) l I E) as (l' & I' & E' & Hh & ->).
    + unfold lk_head. destruct (Nat.compare_spec (lk_from l) (lk_to l)); lia.
    + apply head_right in Hh as (_ & H'). unfold lk_tip. destruct (Nat.ltb_spec (lk_to l') (lk_from l')); [lia|reflexivity].
Qed.
Lemma cell_left k i : top_cell w links k (left_x w i - 1) = 60%N <-> exists l, In l links /\ lk_level l = k /\ lk_from l = i /\ lk_to l < i.
Proof.
  split.
  - intros H. apply top_tip in H as (l & I & E & Hh & _); auto. apply head_left in Hh as (<- & H). exists l. auto.
  - intros (l & I & E & <- & H). destruct (top_head k (left_x w (lk_from l) - 1) l I E) as (l' & I' & E' & Hh & ->).
    + unfold lk_head. destruct (Nat.compare_spec (lk_from l) (lk_to l)); lia.
    + apply head_left in Hh as (_ & H'). unfold lk_tip. destruct (Nat.ltb_spec (lk_to l') (lk_from l')); [reflexivity|lia].
Qed.
Lemma cell_loop k i : top_cell w links k (left_x w i + 1) = 62%N <-> exists l, In l links /\ lk_level l = k /\ lk_from l = i /\ lk_to l = i.
Proof.
  split.
  - intros H. apply top_tip in H as (l & I & E & Hh & _); auto. apply head_loop in Hh as (<- & H). exists l. auto.
  - intros (l & I & E & <- & H). destruct (top_head k (left_x w (lk_from l) + 1) l I E) as (l' & I' & E' & Hh & ->).
    + unfold lk_head. destruct (Nat.compare_spec (lk_from l) (lk_to l)); lia.
    + apply head_loop in Hh as (_ & H'). unfold lk_tip. destruct (Nat.ltb_spec (lk_to l') (lk_from l')); [lia|reflexivity].
Qed.

Lemma apart_cases a b : apart a b -> 
  (lk_right a <= lk_left b /\ (lk_left a = lk_right a -> lk_right a < lk_left b)) \/
  (lk_right b <= lk_left a /\ (lk_left b = lk_right b -> lk_right b < lk_left a)).
Proof.
  unfold apart, before. intros [H|H].
  - destruct (Nat.eqb_spec (lk_left a) (lk_right a)); lia.
  - destruct (Nat.eqb_spec (lk_left b) (lk_right b)); lia.
Qed.
Lemma loop_iff l : lk_loop l = true <-> lk_left l = lk_right l.
Proof. unfold lk_loop, lk_left, lk_right. rewrite Nat.eqb_eq. lia. Qed.
Lemma left_right l : lk_left l <= lk_right l.
Proof. unfold lk_left, lk_right. lia. Qed.

(** a link covers the inside of the states that it passes over, and not of those where it ends *)
Lemma cell_passed k l m : In l links -> lk_level l = k -> lk_left l < m < lk_right l -> top_cell w links k (left_x w m + 1) = 45%N.
Proof.
  intros I E H. apply top_line. split.
  - intros (l' & I' & E' & Hh). apply head_loop in Hh as (H1 & H2).
    assert (lk_left l' = m /\ lk_right l' = m) as (A & B) by (unfold lk_left, lk_right; lia).
    destruct (lo_apart _ _ _ _ L l l' I I') as [->|H3]; [congruence|lia|]. apply apart_cases in H3. lia.
  - exists l. split; auto. split; auto. unfold lk_start, lk_stop.
    assert (lk_loop l = false) as -> by (apply not_true_iff_false; rewrite loop_iff; lia).
    unfold left_x, right_x. pose proof (col_lt (lk_left l) m). pose proof (col_lt m (lk_right l)). lia.
Qed.
Lemma cell_ended k l m : In l links -> lk_level l = k -> lk_left l <> lk_right l -> m = lk_left l \/ m = lk_right l -> top_cell w links k (left_x w m + 1) <> 45%N.
Proof.
  intros I E H M C. apply top_line in C as (N & l' & I' & E' & S1 & S2).
  destruct (lk_loop l') eqn:Lp.
  - apply N. exists l'. split; auto. split; auto. pose proof (proj1 (loop_iff l') Lp) as Q. unfold lk_start, lk_stop in S1, S2. rewrite Lp in S1, S2.
    assert (lk_from l' = lk_left l' /\ lk_to l' = lk_left l') as (F & T) by (unfold lk_left, lk_right in *; lia).
    unfold left_x, right_x in *. pose proof (col_cases (lk_left l') m) as CC. rewrite <- Q in *.
    assert (lk_left l' = m) as Em by lia. unfold lk_head. destruct (Nat.compare_spec (lk_from l') (lk_to l')); try lia. unfold left_x. rewrite F, Em. reflexivity.
  - unfold lk_start, lk_stop in S1, S2. rewrite Lp in S1, S2. unfold left_x, right_x in *.
    pose proof (col_cases (lk_left l') m) as C1. pose proof (col_cases (lk_right l') m) as C2.
    assert (lk_left l' < m) by (destruct (Nat.lt_ge_cases (lk_left l') m) as [|G]; auto; destruct (Nat.eq_dec (lk_left l') m) as [Q|]; [rewrite Q in S1; lia|]; pose proof (col_lt m (lk_left l')); lia).
    assert (m < lk_right l') by (destruct (Nat.lt_ge_cases m (lk_right l')) as [|G]; auto; destruct (Nat.eq_dec (lk_right l') m) as [Q|]; [rewrite Q in S2; lia|]; pose proof (col_lt (lk_right l') m); lia).
    destruct (lo_apart _ _ _ _ L l l' I I') as [->|H3]; [congruence|lia|]. apply apart_cases in H3. pose proof (left_right l). lia.
Qed.
End Cells.

(** ** Two layouts with the same upper lines *)
Definition same_top (w n levels : nat) (links1 links2 : list link) : Prop :=
  forall k x, k < levels -> x < art_width w n -> top_cell w links1 k x = top_cell w links2 k x.

Lemma link_seen w n labels1 labels2 links1 links2 levels l1 : 1 <= w -> layout n labels1 links1 levels -> layout n labels2 links2 levels ->
  same_top w n levels links1 links2 -> In l1 links1 ->
  exists l2, In l2 links2 /\ lk_from l2 = lk_from l1 /\ lk_to l2 = lk_to l1 /\ lk_level l2 = lk_level l1.
Proof.
  intros W L1 L2 ST I. destruct (lo_real _ _ _ _ L1 l1 I) as (R1 & R2 & _). pose proof (lo_level _ _ _ _ L1 l1 I) as HL.
  set (k := lk_level l1) in *. set (i := lk_from l1) in *. set (j := lk_to l1) in *.
  assert (B : forall m, m < n -> right_x w m + 2 < art_width w n /\ left_x w m + 1 < art_width w n).
  { intros m Hm. pose proof (col_lt w W m n Hm). unfold right_x, left_x, art_width. lia. }
  destruct (Nat.lt_total i j) as [H|[H|H]].
  - assert (C : top_cell w links2 k (right_x w i + 2) = 62%N).
    { rewrite <- ST by (auto; apply B; auto). apply cell_right; auto. exists l1. auto. }
    apply cell_right in C as (l2 & I2 & E2 & F2 & T2); auto. exists l2. split; auto. split; auto. split; auto.
    assert (Q1 : lk_left l1 = i /\ lk_right l1 = j) by (unfold lk_left, lk_right; subst i j; lia).
    assert (Q2 : lk_left l2 = i /\ lk_right l2 = lk_to l2) by (unfold lk_left, lk_right; lia).
    destruct (lo_real _ _ _ _ L2 l2 I2) as (_ & R3 & _). destruct (Nat.lt_total (lk_to l2) j) as [C|[C|C]]; auto; exfalso.
    + apply (cell_ended w n labels2 links2 levels W L2 k l2 (lk_to l2) I2 E2); [lia|lia|].
      rewrite <- ST by (auto; apply B; auto). apply (cell_passed w n labels1 links1 levels W L1 k l1); auto. lia.
    + apply (cell_ended w n labels1 links1 levels W L1 k l1 j I eq_refl); [lia|lia|].
      rewrite ST by (auto; apply B; auto). apply (cell_passed w n labels2 links2 levels W L2 k l2); auto. lia.
  - assert (C : top_cell w links2 k (left_x w i + 1) = 62%N).
    { rewrite <- ST by (auto; apply B; auto). apply cell_loop; auto. exists l1. auto. }
    apply cell_loop in C as (l2 & I2 & E2 & F2 & T2); auto. exists l2. repeat split; auto. congruence.
  - assert (X : left_x w i - 1 < art_width w n) by (pose proof (B i R1); lia).
    assert (C : top_cell w links2 k (left_x w i - 1) = 60%N).
    { rewrite <- ST by auto. apply cell_left; auto. exists l1. auto. }
    apply cell_left in C as (l2 & I2 & E2 & F2 & T2); auto. exists l2. split; auto. split; auto. split; auto.
    assert (Q1 : lk_left l1 = j /\ lk_right l1 = i) by (unfold lk_left, lk_right; subst i j; lia).
    assert (Q2 : lk_left l2 = lk_to l2 /\ lk_right l2 = i) by (unfold lk_left, lk_right; lia).
    destruct (lo_real _ _ _ _ L2 l2 I2) as (_ & R3 & _). destruct (Nat.lt_total (lk_to l2) j) as [C|[C|C]]; auto; exfalso.
    + apply (cell_ended w n labels1 links1 levels W L1 k l1 j I eq_refl); [lia|lia|].
      rewrite ST by (auto; apply B; auto). apply (cell_passed w n labels2 links2 levels W L2 k l2); auto. lia.
    + apply (cell_ended w n labels2 links2 levels W L2 k l2 (lk_to l2) I2 E2); [lia|lia|].
      rewrite <- ST by (auto; apply B; auto). apply (cell_passed w n labels1 links1 levels W L1 k l1); auto. lia.
Qed.

(** ** Labels *)
Definition plain_labels (labels : nat -> nat -> list str) : Prop := forall i j a, In a (labels i j) -> plain_symbol a.

Lemma join_chars (l : list str) c : In c (joined (of_string ", ") l) -> c = 44%N \/ c = 32%N \/ exists a, In a l /\ In c a.
Proof.
  induction l as [|x [|y r] IH]; [intros []|cbn [joined]; intros H; right; right; exists x; split; [left|]; auto|].
  rewrite join_cons2, <- app_assoc, !in_app_iff. intros [H|[[<-|[]]|[<-|H]]]; auto.
  - right; right. exists x. split; [left|]; auto.
  - destruct (IH H) as [H'|[H'|(a & I & H')]]; auto. right; right. exists a. split; [right|]; auto.
Qed.
Lemma last_in (c : N) (u : str) : u <> [] -> In (last u c) u.
Proof. intros H. rewrite (app_removelast_last c H) at 2. apply in_or_app. right. left. reflexivity. Qed.
Lemma last_app_ne (u v : str) c : v <> [] -> last (u ++ v) c = last v c.
Proof. intros H. induction u as [|x u IH]; [reflexivity|]. cbn [app last]. destruct (u ++ v) eqn:E; [apply app_eq_nil in E as (_ & ->); contradiction|exact IH]. Qed.
Lemma join_last (l : list str) : l <> [] -> (forall a, In a l -> plain_symbol a) ->
  joined (of_string ", ") l <> [] /\ last (joined (of_string ", ") l) 0%N <> 32%N /\ last (joined (of_string ", ") l) 0%N <> 124%N.
Proof.
  induction l as [|x [|y r] IH]; [contradiction| |]; intros _ P.
  - cbn [joined]. destruct (P x (or_introl eq_refl)) as (A & B & _ & C). split; auto. pose proof (last_in 0%N x A) as I.
    split; intros E; rewrite E in I; auto.
  - destruct IH as (A & B & C); [discriminate|intros a Ha; apply P; right; exact Ha|]. rewrite join_cons2. split; [destruct x; discriminate|].
    replace ((x ++ [44%N]) ++ 32%N :: joined (of_string ", ") (y :: r)) with (((x ++ [44%N]) ++ [32%N]) ++ joined (of_string ", ") (y :: r)) by (rewrite <- !app_assoc; reflexivity).
    rewrite last_app_ne by exact A. auto.
Qed.
Lemma nth_last (u : str) d : u <> [] -> nth (length u - 1) u d = last u 0%N.
Proof.
  intros H. rewrite (app_removelast_last 0%N H) at 1 2. rewrite app_length. cbn [length].
  rewrite app_nth2 by lia. replace (length (removelast u) + 1 - 1 - length (removelast u)) with 0 by lia. reflexivity.
Qed.

Section Labels.
Variables (w n : nat) (labels : nat -> nat -> list str) (links : list link) (levels : nat).
Hypothesis W : 1 <= w.
Hypothesis L : layout n labels links levels.
Hypothesis Fit : labels_fit w n labels.

Lemma link_fits l : In l links -> lk_loop l = false -> lk_start w l + length (lk_label l) < lk_stop w l.
Proof.
  intros I H. destruct (lo_real _ _ _ _ L l I) as (R1 & R2 & E & _). unfold lk_start, lk_stop, lk_label. rewrite H, E.
  unfold lk_loop in H. apply Nat.eqb_neq in H. apply (Fit _ _ R1 R2 H).
Qed.
Lemma bot_inside l x : In l links -> lk_loop l = false -> lk_start w l < x < lk_stop w l ->
  (x <= lk_start w l + length (lk_label l) -> bot_cell w links (lk_level l) x = nth (x - lk_start w l - 1) (lk_label l) 32%N) /\
  (lk_start w l + length (lk_label l) < x -> bot_cell w links (lk_level l) x = 124%N \/ bot_cell w links (lk_level l) x = 32%N).
Proof.
  intros I Hl Hx. unfold bot_cell. destruct (find _ links) as [l'|] eqn:F.
  - apply find_some in F as (I' & B). apply andb_prop in B as (B & B4). apply andb_prop in B as (B & B3). apply andb_prop in B as (B1 & B2).
    apply Nat.eqb_eq in B1. apply negb_true_iff in B2. apply Nat.ltb_lt in B3. apply Nat.leb_le in B4.
    pose proof (link_fits l' I' B2) as F'.
    assert (l' = l) as ->; [|split; [reflexivity|lia]].
    destruct (lo_apart _ _ _ _ L l' l I' I B1) as [E|A]; auto. exfalso.
    assert (K : forall a b, lk_loop a = false -> lk_loop b = false -> lk_right a <= lk_left b -> lk_stop w a < lk_start w b).
    { intros a b Ha Hb H. unfold lk_stop, lk_start. rewrite Ha, Hb. unfold left_x, right_x.
      pose proof (Nat.mul_le_mono_l (lk_right a) (lk_left b) (7 + w) H). lia. }
    eapply apart_cases in A; eauto. destruct A as [(H & _)|(H & _)]; apply K in H; auto; lia.
  - split.
    + intros H. exfalso. apply (find_none _ _ F) in I. rewrite Nat.eqb_refl, Hl in I. cbn [negb andb] in I.
      destruct (Nat.ltb_spec (lk_start w l) x); [|lia]. destruct (Nat.leb_spec x (lk_start w l + length (lk_label l))); [discriminate|lia].
    + intros _. destruct (existsb _ links); auto.
Qed.
End Labels.

Definition same_bot (w n levels : nat) (links1 links2 : list link) : Prop :=
  forall k x, k < levels -> x < art_width w n -> bot_cell w links1 k x = bot_cell w links2 k x.

Lemma label_shorter w n labels1 labels2 links1 links2 levels l1 l2 : 1 <= w -> layout n labels1 links1 levels -> layout n labels2 links2 levels ->
  labels_fit w n labels1 -> labels_fit w n labels2 -> plain_labels labels2 -> same_bot w n levels links1 links2 ->
  In l1 links1 -> In l2 links2 -> lk_from l2 = lk_from l1 -> lk_to l2 = lk_to l1 -> lk_level l2 = lk_level l1 -> lk_loop l1 = false ->
  length (lk_label l2) <= length (lk_label l1).
Proof.
  intros W L1 L2 F1 F2 P2 SB I1 I2 E1 E2 E3 Hl. destruct (Nat.le_gt_cases (length (lk_label l2)) (length (lk_label l1))) as [|G]; auto. exfalso.
  assert (Hl2 : lk_loop l2 = false) by (unfold lk_loop in *; rewrite E1, E2; exact Hl).
  assert (ES : lk_start w l2 = lk_start w l1) by (unfold lk_start, lk_loop, lk_left; rewrite E1, E2; reflexivity).
  assert (ET : lk_stop w l2 = lk_stop w l1) by (unfold lk_stop, lk_loop, lk_right; rewrite E1, E2; reflexivity).
  pose proof (link_fits w n labels2 links2 levels L2 F2 l2 I2 Hl2) as Q2.
  set (x := lk_start w l2 + length (lk_label l2)) in *.
  destruct (bot_inside w n labels1 links1 levels W L1 F1 l1 x I1 Hl) as (_ & C1); [lia|].
  destruct (bot_inside w n labels2 links2 levels W L2 F2 l2 x I2 Hl2) as (C2 & _); [lia|].
  specialize (C1 ltac:(lia)). specialize (C2 (Nat.le_refl _)).
  destruct (lo_real _ _ _ _ L2 l2 I2) as (R1 & R2 & E & NE).
  assert (X : x < art_width w n).
  { unfold lk_stop in Q2. rewrite Hl2 in Q2. assert (lk_right l2 < n) as R by (unfold lk_right; lia). pose proof (col_lt w W _ _ R). unfold left_x in Q2. unfold art_width. lia. }
  rewrite (SB (lk_level l1) x (lo_level _ _ _ _ L1 l1 I1) X) in C1. rewrite E3 in C2.
  destruct (join_last (lk_labels l2) NE) as (J1 & J2 & J3); [intros a Ha; rewrite E in Ha; apply (P2 _ _ _ Ha)|].
  fold (lk_label l2) in J1, J2, J3. replace (x - lk_start w l2 - 1) with (length (lk_label l2) - 1) in C2 by (subst x; lia).
  rewrite nth_last in C2 by exact J1. rewrite C2 in C1. destruct C1; auto.
Qed.
Lemma label_seen w n labels1 labels2 links1 links2 levels l1 l2 : 1 <= w -> layout n labels1 links1 levels -> layout n labels2 links2 levels ->
  labels_fit w n labels1 -> labels_fit w n labels2 -> plain_labels labels1 -> plain_labels labels2 -> same_bot w n levels links1 links2 ->
  In l1 links1 -> In l2 links2 -> lk_from l2 = lk_from l1 -> lk_to l2 = lk_to l1 -> lk_level l2 = lk_level l1 -> lk_loop l1 = false ->
  lk_labels l1 = lk_labels l2.
Proof.
  intros W L1 L2 F1 F2 P1 P2 SB I1 I2 E1 E2 E3 Hl.
  assert (Hl2 : lk_loop l2 = false) by (unfold lk_loop in *; rewrite E1, E2; exact Hl).
  assert (ES : lk_start w l2 = lk_start w l1) by (unfold lk_start, lk_loop, lk_left; rewrite E1, E2; reflexivity).
  assert (ET : lk_stop w l2 = lk_stop w l1) by (unfold lk_stop, lk_loop, lk_right; rewrite E1, E2; reflexivity).
  assert (SB' : same_bot w n levels links2 links1) by (intros k x Hk Hx; symmetry; apply SB; auto).
  pose proof (label_shorter _ _ _ _ _ _ _ l1 l2 W L1 L2 F1 F2 P2 SB I1 I2 E1 E2 E3 Hl) as G1.
  pose proof (label_shorter _ _ _ _ _ _ _ l2 l1 W L2 L1 F2 F1 P1 SB' I2 I1 (eq_sym E1) (eq_sym E2) (eq_sym E3) Hl2) as G2.
  destruct (lo_real _ _ _ _ L1 l1 I1) as (_ & _ & Q1 & N1). destruct (lo_real _ _ _ _ L2 l2 I2) as (R1 & R2 & Q2 & N2).
  pose proof (link_fits w n labels2 links2 levels L2 F2 l2 I2 Hl2) as LF.
  apply join_no_spaces.
  - intros a c Ha Hc ->. rewrite Q1 in Ha. destruct (P1 _ _ _ Ha) as (_ & B & _). auto.
  - intros a c Ha Hc ->. rewrite Q2 in Ha. destruct (P2 _ _ _ Ha) as (_ & B & _). auto.
  - tauto.
  - change (lk_label l1 = lk_label l2). apply (nth_ext _ _ 32%N 32%N); [lia|]. intros k Hk.
    set (x := lk_start w l1 + 1 + k).
    assert (X : x < art_width w n).
    { unfold lk_stop in LF. rewrite Hl2 in LF. assert (lk_right l2 < n) as R by (unfold lk_right; lia). pose proof (col_lt w W _ _ R). unfold left_x in LF. unfold art_width. lia. }
    destruct (bot_inside w n labels1 links1 levels W L1 F1 l1 x I1 Hl) as (C1 & _); [lia|].
    destruct (bot_inside w n labels2 links2 levels W L2 F2 l2 x I2 Hl2) as (C2 & _); [lia|].
    specialize (C1 ltac:(lia)). specialize (C2 ltac:(lia)). rewrite E3, ES, <- (SB _ _ (lo_level _ _ _ _ L1 l1 I1) X), C1 in C2.
    replace (x - lk_start w l1 - 1) with k in C2 by lia. exact C2.
Qed.

Lemma labels_seen w n labels1 labels2 links1 links2 levels : 1 <= w -> layout n labels1 links1 levels -> layout n labels2 links2 levels ->
  labels_fit w n labels1 -> labels_fit w n labels2 -> plain_labels labels1 -> plain_labels labels2 ->
  same_top w n levels links1 links2 -> same_bot w n levels links1 links2 ->
  forall i j, i < n -> (labels1 i j = [] -> labels2 i j = []) /\ (i <> j -> labels1 i j = labels2 i j).
Proof.
  intros W L1 L2 F1 F2 P1 P2 ST SB i j Hi.
  assert (ST' : same_top w n levels links2 links1) by (intros k x Hk Hx; symmetry; apply ST; auto).
  assert (A : labels1 i j = [] -> labels2 i j = []).
  { intros H. destruct (labels2 i j) as [|x r] eqn:E; auto. exfalso.
    destruct (lo_all _ _ _ _ L2 i j Hi) as (l & I & <- & <-); [rewrite E; discriminate|].
    destruct (link_seen w n labels2 labels1 links2 links1 levels l W L2 L1 ST' I) as (l' & I' & E1 & E2 & _).
    destruct (lo_real _ _ _ _ L1 l' I') as (_ & _ & Q & N). rewrite E1, E2, H in Q. auto. }
  split; [exact A|]. intros Hij. destruct (labels1 i j) as [|x r] eqn:E; [symmetry; auto|]. rewrite <- E.
  destruct (lo_all _ _ _ _ L1 i j Hi) as (l & I & F & T); [rewrite E; discriminate|].
  destruct (link_seen w n labels1 labels2 links1 links2 levels l W L1 L2 ST I) as (l' & I' & E1 & E2 & E3).
  assert (Hl : lk_loop l = false) by (unfold lk_loop; apply Nat.eqb_neq; lia).
  pose proof (label_seen w n labels1 labels2 links1 links2 levels l l' W L1 L2 F1 F2 P1 P2 SB I I' E1 E2 E3 Hl) as K.
  destruct (lo_real _ _ _ _ L1 l I) as (_ & _ & Q1 & _). destruct (lo_real _ _ _ _ L2 l' I') as (_ & _ & Q2 & _).
  rewrite F, T in Q1. rewrite E1, E2, F, T in Q2. congruence.
Qed.

(** ** The states *)
Definition state_cell (w : nat) (s : draw_state) : str :=
  of_string (if st_accepting s then "(( " else "(  ") ++ st_name s ++ repeat 32%N (w - length (st_name s)) ++ of_string (if st_accepting s then " )) " else "  ) ").
Lemma spaces_seen a b (r1 r2 : str) : repeat 32%N a ++ 41%N :: r1 = repeat 32%N b ++ 41%N :: r2 -> a = b /\ r1 = r2.
Proof.
  revert b. induction a as [|a IH]; intros [|b] E; cbn [repeat app] in E; [injection E; auto|discriminate|discriminate|].
  injection E as E. destruct (IH b E). auto.
Qed.
Lemma repeat_snoc {A} (x : A) n r : repeat x n ++ x :: r = repeat x (S n) ++ r.
Proof. induction n as [|n IH]; [reflexivity|]. cbn [repeat app]. f_equal. exact IH. Qed.
Lemma cell_seen w1 w2 s1 s2 r1 r2 : plain_name (st_name s1) -> plain_name (st_name s2) -> length (st_name s1) <= w1 -> length (st_name s2) <= w2 ->
  state_cell w1 s1 ++ r1 = state_cell w2 s2 ++ r2 -> w1 = w2 /\ st_name s1 = st_name s2 /\ st_accepting s1 = st_accepting s2 /\ r1 = r2.
Proof.
  intros (_ & A1 & _) (_ & A2 & _) L1 L2 E. unfold state_cell in E.
  assert (EA : st_accepting s1 = st_accepting s2).
  { destruct (st_accepting s1), (st_accepting s2); auto; rewrite <- !app_assoc in E; cbn in E; discriminate E. }
  rewrite EA in E. rewrite <- !app_assoc in E. apply app_inv_head in E.
  destruct (st_accepting s2).
  - change (of_string " )) " ++ r1) with (32%N :: 41%N :: 41%N :: 32%N :: r1) in E. change (of_string " )) " ++ r2) with (32%N :: 41%N :: 41%N :: 32%N :: r2) in E.
    rewrite !repeat_snoc in E. apply split_at_space in E as (E1 & E2); auto. apply spaces_seen in E2 as (E2 & E3). injection E3 as E3. rewrite E1 in *. repeat split; auto. lia.
  - change (of_string "  ) " ++ r1) with (32%N :: 32%N :: 41%N :: 32%N :: r1) in E. change (of_string "  ) " ++ r2) with (32%N :: 32%N :: 41%N :: 32%N :: r2) in E.
    rewrite !repeat_snoc in E. apply split_at_space in E as (E1 & E2); auto.
    change (repeat 32%N (S (w1 - length (st_name s1))) ++ 41%N :: 32%N :: r1 = repeat 32%N (S (w2 - length (st_name s2))) ++ 41%N :: 32%N :: r2) in E2. apply spaces_seen in E2 as (E2 & E3). injection E3 as E3. rewrite E1 in *. repeat split; auto. lia.
Qed.
Definition plain_states (w : nat) (l : list draw_state) : Prop := forall s, In s l -> plain_name (st_name s) /\ length (st_name s) <= w.
Definition seen_of (s : draw_state) : str * bool := (st_name s, st_accepting s).
Lemma cells_seen w1 w2 l1 : forall l2, plain_states w1 l1 -> plain_states w2 l2 -> 
  concat (map (state_cell w1) l1) = concat (map (state_cell w2) l2) -> (l1 <> [] -> w1 = w2) /\ map seen_of l1 = map seen_of l2.
Proof.
  induction l1 as [|s l1 IH]; intros [|t l2] P1 P2 E; cbn [map concat] in E; try (unfold state_cell in E; destruct (st_accepting _) in E; discriminate E).
  - split; [intros C; contradiction|reflexivity].
  - destruct (P1 s (or_introl eq_refl)) as (A1 & A2), (P2 t (or_introl eq_refl)) as (B1 & B2).
    apply cell_seen in E as (E1 & E2 & E3 & E4); auto. split; auto. cbn [map]. unfold seen_of at 1 3. rewrite E2, E3. f_equal.
    apply (IH l2); auto; intros x Hx; [apply P1|apply P2]; right; exact Hx.
Qed.

(** ** Lines *)
Lemma lines_seen (l1 l2 : list str) : (forall u, In u l1 -> ~ In 10%N u) -> (forall u, In u l2 -> ~ In 10%N u) -> l1 <> [] -> l2 <> [] ->
  joined [10%N] l1 = joined [10%N] l2 -> l1 = l2.
Proof.
  assert (S : forall u1 u2 r1 r2 : str, ~ In 10%N u1 -> ~ In 10%N u2 -> u1 ++ 10%N :: r1 = u2 ++ 10%N :: r2 -> u1 = u2 /\ r1 = r2).
  { induction u1 as [|c u1 IH]; intros [|c' u2] r1 r2 H1 H2 E; cbn in E.
    - injection E as ->. auto.
    - injection E as E1 _. exfalso. apply H2. left. auto.
    - injection E as E1 _. exfalso. apply H1. left. auto.
    - injection E as -> E. destruct (IH u2 r1 r2) as [-> ->]; auto; intros X; [apply H1|apply H2]; right; exact X. }
  revert l2. induction l1 as [|x [|x' r] IH]; intros [|y [|y' t]] H1 H2 N1 N2 E; try contradiction.
  - cbn in E. congruence.
  - exfalso. cbn [joined] in E. apply (H1 x (or_introl eq_refl)). rewrite E. apply in_or_app. right. left. reflexivity.
  - exfalso. cbn [joined] in E. apply (H2 y (or_introl eq_refl)). rewrite <- E. apply in_or_app. right. left. reflexivity.
  - change (x ++ 10%N :: joined [10%N] (x' :: r) = y ++ 10%N :: joined [10%N] (y' :: t)) in E.
    apply S in E as (-> & E); [|apply H1; left; auto|apply H2; left; auto]. f_equal. apply IH; auto; try discriminate.
    + intros u Hu. apply H1. right. exact Hu.
    + intros u Hu. apply H2. right. exact Hu.
Qed.
Lemma top_no_lf w links k x : top_cell w links k x <> 10%N.
Proof.
  unfold top_cell. destruct (find _ links); [unfold lk_tip; destruct (_ <? _); discriminate|].
  destruct (existsb _ links); [discriminate|]. destruct (existsb _ links); discriminate.
Qed.
Lemma bot_no_lf w n labels links levels k x : layout n labels links levels -> plain_labels labels -> bot_cell w links k x <> 10%N.
Proof.
  intros L P. unfold bot_cell. destruct (find _ links) as [l|] eqn:F.
  - apply find_some in F as (I & _). destruct (lo_real _ _ _ _ L l I) as (_ & _ & E & _).
    destruct (nth_in_or_default (x - lk_start w l - 1) (lk_label l) 32%N) as [H| ->]; [|discriminate].
    intros C. rewrite C in H. apply join_chars in H as [H|[H|(a & Ha & H)]]; try discriminate.
    rewrite E in Ha. destruct (P _ _ _ Ha) as (_ & _ & X & _). auto.
  - destruct (existsb _ links); discriminate.
Qed.
Lemma states_no_lf w l : plain_states w l -> ~ In 10%N (states_line w l).
Proof.
  intros P H. unfold states_line in H. apply in_app_or in H as [H|H]; [cbn in H; intuition discriminate|].
  apply in_concat in H as (u & Hu & H). apply in_map_iff in Hu as (s & <- & Hs). rewrite !in_app_iff in H. destruct H as [H|[H|[H|H]]].
  - destruct (st_accepting s); cbn in H; intuition discriminate.
  - destruct (P s Hs) as ((_ & _ & X) & _). auto.
  - apply repeat_spec in H. discriminate.
  - destruct (st_accepting s); cbn in H; intuition discriminate.
Qed.

Lemma flat_map_len {A} (f : nat -> list A) l : (forall k, length (f k) = 2) -> length (flat_map f l) = 2 * length l.
Proof. intros H. induction l as [|x l IH]; [reflexivity|]. cbn [flat_map length]. rewrite app_length, H, IH. lia. Qed.
Lemma flat_map_seen {A} (f g : nat -> list A) l : (forall k, length (f k) = 2) -> (forall k, length (g k) = 2) -> flat_map f l = flat_map g l -> forall k, In k l -> f k = g k.
Proof.
  intros Hf Hg. induction l as [|x l IH]; [intros _ k []|]. cbn [flat_map]. intros E k.
  assert (E1 : f x = g x).
  { apply (f_equal (firstn 2)) in E. rewrite !firstn_app, Hf, Hg in E. change (2 - 2) with 0 in E. rewrite !firstn_O, !app_nil_r, !firstn_all2 in E by (rewrite ?Hf, ?Hg; lia). exact E. }
  rewrite E1 in E. apply app_inv_head in E.
  intros [<-|I]; auto.
Qed.

(** ** Drawings *)
Lemma picture_seen w1 w2 states1 states2 labels1 labels2 links1 links2 levels1 levels2 :
  states1 <> [] -> plain_states w1 states1 -> plain_states w2 states2 ->
  layout (length states1) labels1 links1 levels1 -> layout (length states2) labels2 links2 levels2 ->
  labels_fit w1 (length states1) labels1 -> labels_fit w2 (length states2) labels2 -> plain_labels labels1 -> plain_labels labels2 ->
  picture w1 states1 links1 levels1 = picture w2 states2 links2 levels2 ->
  map seen_of states1 = map seen_of states2 /\
  forall i j, i < length states1 -> (labels1 i j = [] <-> labels2 i j = []) /\ (i <> j -> labels1 i j = labels2 i j).
Proof.
  intros N1 S1 S2 L1 L2 F1 F2 P1 P2 E. unfold picture in E. apply lines_seen in E.
  - apply app_inj_tail in E as (E & ES). unfold states_line in ES. apply app_inv_head in ES.
    destruct (cells_seen w1 w2 states1 states2 S1 S2 ES) as (EW & EM). split; [exact EM|]. specialize (EW N1). subst w2.
    assert (EL : length states1 = length states2) by (apply (f_equal (@length _)) in EM; rewrite !map_length in EM; exact EM).
    rewrite <- EL in *. set (n := length states1) in *.
    assert (W : 1 <= w1).
    { destruct states1 as [|s r]; [contradiction|]. destruct (S1 s (or_introl eq_refl)) as ((A & _) & B). destruct (st_name s); [contradiction|]. cbn in B. lia. }
    assert (Elv : levels1 = levels2).
    { apply (f_equal (@length _)) in E. rewrite !flat_map_len, !rev_length, !seq_length in E by reflexivity. lia. }
    subst levels2. pose proof (flat_map_seen (level_lines w1 n links1) (level_lines w1 n links2) _ (fun _ => eq_refl) (fun _ => eq_refl) E) as K.
    assert (ST : same_top w1 n levels1 links1 links2).
    { intros k x Hk Hx. assert (Ik : In k (rev (seq 0 levels1))) by (apply in_rev; rewrite rev_involutive; apply in_seq; lia).
      specialize (K k Ik). apply (f_equal (@hd str [])) in K. cbn [level_lines hd] in K. apply (ext_in_map K). apply in_seq. lia. }
    assert (SB : same_bot w1 n levels1 links1 links2).
    { intros k x Hk Hx. assert (Ik : In k (rev (seq 0 levels1))) by (apply in_rev; rewrite rev_involutive; apply in_seq; lia).
      specialize (K k Ik). apply (f_equal (fun l => @hd str [] (@tl str l))) in K. cbn [level_lines hd tl] in K. apply (ext_in_map K). apply in_seq. lia. }
    intros i j Hi. destruct (labels_seen w1 n labels1 labels2 links1 links2 levels1 W L1 L2 F1 F2 P1 P2 ST SB i j Hi) as (A & B).
    destruct (labels_seen w1 n labels2 labels1 links2 links1 levels1 W L2 L1 F2 F1 P2 P1) with (i := i) (j := j) as (A' & _); auto.
    + intros k x Hk Hx. symmetry. auto.
    + intros k x Hk Hx. symmetry. auto.
    + split; auto. split; auto.
  - intros u Hu. apply in_app_or in Hu as [Hu|[<-|[]]]; [|apply states_no_lf; exact S1].
    apply in_flat_map in Hu as (k & _ & [<-|[<-|[]]]); intros H; apply in_map_iff in H as (x & H & _); [eapply top_no_lf; exact H|apply (bot_no_lf _ _ _ _ _ _ _ L1 P1 H)].
  - intros u Hu. apply in_app_or in Hu as [Hu|[<-|[]]]; [|apply states_no_lf; exact S2].
    apply in_flat_map in Hu as (k & _ & [<-|[<-|[]]]); intros H; apply in_map_iff in H as (x & H & _); [eapply top_no_lf; exact H|apply (bot_no_lf _ _ _ _ _ _ _ L2 P2 H)].
  - intros C. apply app_eq_nil in C as (_ & C). discriminate C.
  - intros C. apply app_eq_nil in C as (_ & C). discriminate C.
Qed.

(** ** Automata *)
Lemma dfa_plain_seen h1 h2 d1 d2 : dfa_plain d1 -> dfa_plain d2 -> dfa_ascii_art h1 d1 = dfa_ascii_art h2 d2 ->
  map (fun s => (ds_name s, ds_accepting s)) (dfa_states d1) = map (fun s => (ds_name s, ds_accepting s)) (dfa_states d2) /\
  forall i j, i < length (dfa_states d1) -> (dfa_labels d1 i j = [] <-> dfa_labels d2 i j = []) /\ (i <> j -> dfa_labels d1 i j = dfa_labels d2 i j).
Proof.
  intros P1 P2 E. destruct (dp_fit _ P1) as (w1 & W1 & F1), (dp_fit _ P2) as (w2 & W2 & F2).
  destruct (dfa_art_eq h1 d1 w1 (dp_valid _ P1) W1 F1) as (k1 & v1 & L1 & E1). destruct (dfa_art_eq h2 d2 w2 (dp_valid _ P2) W2 F2) as (k2 & v2 & L2 & E2).
  rewrite E1, E2 in E. injection E as E.
  assert (N : map of_dfa_state (dfa_states d1) <> []) by (intros C; apply map_eq_nil in C; pose proof (dv_initial _ (dp_valid _ P1)) as I; rewrite C in I; cbn in I; lia).
  assert (S : forall d w, dfa_plain d -> widest (map ds_name (dfa_states d)) w -> plain_states w (map of_dfa_state (dfa_states d))).
  { intros d w P (W & _) s Hs. apply in_map_iff in Hs as (t & <- & Ht). split; [apply (dp_names _ P _ Ht)|]. apply W. apply (in_map ds_name). exact Ht. }
  assert (Q : forall d, dfa_plain d -> plain_labels (dfa_labels d)).
  { intros d P i j a Ha. apply (dp_symbols _ P). eapply dfa_labels_alphabet. exact Ha. }
  rewrite <- (map_length of_dfa_state) in L1, L2, F1, F2.
  destruct (picture_seen _ _ _ _ _ _ _ _ _ _ N (S _ _ P1 W1) (S _ _ P2 W2) L1 L2 F1 F2 (Q _ P1) (Q _ P2) E) as (A & B).
  rewrite !map_map in A. split; [exact A|]. rewrite map_length in B. exact B.
Qed.
Lemma nfa_plain_seen h1 h2 n1 n2 : nfa_plain n1 -> nfa_plain n2 -> nfa_ascii_art h1 n1 = nfa_ascii_art h2 n2 ->
  map (fun s => (ns_name s, ns_accepting s)) (nfa_states n1) = map (fun s => (ns_name s, ns_accepting s)) (nfa_states n2) /\
  forall i j, i < length (nfa_states n1) -> (nfa_labels n1 i j = [] <-> nfa_labels n2 i j = []) /\ (i <> j -> nfa_labels n1 i j = nfa_labels n2 i j).
Proof.
  intros P1 P2 E. destruct (np_fit _ P1) as (w1 & W1 & F1), (np_fit _ P2) as (w2 & W2 & F2).
  destruct (nfa_art_eq h1 n1 w1 (np_valid _ P1) W1 F1) as (k1 & v1 & L1 & E1). destruct (nfa_art_eq h2 n2 w2 (np_valid _ P2) W2 F2) as (k2 & v2 & L2 & E2).
  rewrite E1, E2 in E. injection E as E.
  assert (N : map of_nfa_state (nfa_states n1) <> []) by (intros C; apply map_eq_nil in C; pose proof (nv_initial _ (np_valid _ P1)) as I; rewrite C in I; cbn in I; lia).
  assert (S : forall d w, nfa_plain d -> widest (map ns_name (nfa_states d)) w -> plain_states w (map of_nfa_state (nfa_states d))).
  { intros d w P (W & _) s Hs. apply in_map_iff in Hs as (t & <- & Ht). split; [apply (np_names _ P _ Ht)|]. apply W. apply (in_map ns_name). exact Ht. }
  assert (Q : forall d, nfa_plain d -> plain_labels (nfa_labels d)).
  { intros d P i j a Ha. apply nfa_labels_alphabet in Ha as [-> | Ha]; [|apply (np_symbols _ P _ Ha)]. split; [discriminate|]. cbn. intuition discriminate. }
  rewrite <- (map_length of_nfa_state) in L1, L2, F1, F2.
  destruct (picture_seen _ _ _ _ _ _ _ _ _ _ N (S _ _ P1 W1) (S _ _ P2 W2) L1 L2 F1 F2 (Q _ P1) (Q _ P2) E) as (A & B).
  rewrite !map_map in A. split; [exact A|]. rewrite map_length in B. exact B.
Qed.

Lemma dfa_edge_lt d p a t : dfa_edge d p a t -> p < length (dfa_states d).
Proof. intros (i & s & _ & H & _). apply nth_error_Some. congruence. Qed.
Lemma nfa_edge_lt n p a t : nfa_edge n p a t -> p < length (nfa_states n).
Proof. intros (i & s & ts & _ & H & _). apply nth_error_Some. congruence. Qed.
Lemma nfa_eps_lt n p t : nfa_eps_edge n p t -> p < length (nfa_states n).
Proof. intros (s & H & _). apply nth_error_Some. congruence. Qed.
Lemma nonempty_in {A} (l : list A) : (exists a, In a l) <-> l <> [].
Proof. destruct l as [|x l]; split; [intros (a & [])|contradiction|discriminate|exists x; left; reflexivity]. Qed.

Lemma dfa_edges_seen h1 h2 d1 d2 : dfa_plain d1 -> dfa_plain d2 -> dfa_ascii_art h1 d1 = dfa_ascii_art h2 d2 ->
  (forall p a t, p <> t -> (dfa_edge d1 p a t <-> dfa_edge d2 p a t)) /\
  (forall p, (exists a, dfa_edge d1 p a p) <-> (exists a, dfa_edge d2 p a p)).
Proof.
  intros P1 P2 E. destruct (dfa_plain_seen _ _ _ _ P1 P2 E) as (A & B).
  assert (EN : length (dfa_states d1) = length (dfa_states d2)) by (apply (f_equal (@length _)) in A; rewrite !map_length in A; exact A).
  split.
  - intros p a t Hpt. rewrite <- !dfa_labels_edge by (apply dp_valid; auto).
    destruct (Nat.lt_ge_cases p (length (dfa_states d1))) as [Hp|Hp].
    + destruct (B p t Hp) as (_ & X); rewrite (X Hpt); tauto.
    + rewrite !dfa_labels_edge by (apply dp_valid; auto). split; intros H; apply dfa_edge_lt in H; lia.
  - intros p. assert (K : forall d, dfa_plain d -> ((exists a, dfa_edge d p a p) <-> dfa_labels d p p <> [])).
    { intros d P. rewrite <- nonempty_in. split; intros (a & H); exists a; apply (dfa_labels_edge d p a p (dp_valid _ P)); exact H. }
    destruct (Nat.lt_ge_cases p (length (dfa_states d1))) as [Hp|Hp].
    + rewrite !K by auto. destruct (B p p Hp) as (H & _). tauto.
    + split; intros (a & H); apply dfa_edge_lt in H; lia.
Qed.
Lemma nfa_edges_seen h1 h2 n1 n2 : nfa_plain n1 -> nfa_plain n2 -> nfa_ascii_art h1 n1 = nfa_ascii_art h2 n2 ->
  (forall p a t, p <> t -> (nfa_edge n1 p a t <-> nfa_edge n2 p a t)) /\
  (forall p t, p <> t -> (nfa_eps_edge n1 p t <-> nfa_eps_edge n2 p t)) /\
  (forall p, (nfa_eps_edge n1 p p \/ exists a, nfa_edge n1 p a p) <-> (nfa_eps_edge n2 p p \/ exists a, nfa_edge n2 p a p)).
Proof.
  intros P1 P2 E. destruct (nfa_plain_seen _ _ _ _ P1 P2 E) as (A & B).
  assert (EN : length (nfa_states n1) = length (nfa_states n2)) by (apply (f_equal (@length _)) in A; rewrite !map_length in A; exact A).
  assert (NE : forall n p t a, nfa_plain n -> nfa_edge n p a t -> a <> [949%N]).
  { intros n p t a P (k & s & ts & Hk & _). apply nth_error_In in Hk. apply (np_symbols _ P _ Hk). }
  assert (NI : forall n, nfa_plain n -> ~ In [949%N] (nfa_alphabet n)) by (intros n P C; apply (np_symbols _ P _ C); reflexivity).
  assert (LE : forall n p a t, nfa_plain n -> (nfa_edge n p a t <-> a <> [949%N] /\ In a (nfa_labels n p t))).
  { intros n p a t P. split.
    - intros H. split; [eapply NE; eauto|]. apply nfa_labels_edge; auto using np_valid. eapply NE; eauto.
    - intros (H1 & H2). apply nfa_labels_edge in H2; auto using np_valid. }
  split; [|split].
  - intros p a t Hpt. destruct (Nat.lt_ge_cases p (length (nfa_states n1))) as [Hp|Hp].
    + rewrite !LE by auto. destruct (B p t Hp) as (_ & X); rewrite (X Hpt); tauto.
    + split; intros H; apply nfa_edge_lt in H; lia.
  - intros p t Hpt. destruct (Nat.lt_ge_cases p (length (nfa_states n1))) as [Hp|Hp].
    + rewrite <- !nfa_labels_eps by auto using np_valid. destruct (B p t Hp) as (_ & X); rewrite (X Hpt); tauto.
    + split; intros H; apply nfa_eps_lt in H; lia.
  - intros p. assert (K : forall n, nfa_plain n -> ((nfa_eps_edge n p p \/ exists a, nfa_edge n p a p) <-> nfa_labels n p p <> [])).
    { intros n P. rewrite <- nonempty_in. rewrite <- nfa_labels_eps by auto using np_valid. split.
      - intros [H|(a & H)]; [exists [949%N]; exact H|exists a; apply LE in H; tauto].
      - intros (a & H). destruct (list_eq_dec N.eq_dec a [949%N]) as [-> |Ha]; [left; exact H|]. right. exists a. apply LE; auto. }
    destruct (Nat.lt_ge_cases p (length (nfa_states n1))) as [Hp|Hp].
    + rewrite !K by auto. destruct (B p p Hp) as (H & _). tauto.
    + split; (intros [H|(a & H)]; [apply nfa_eps_lt in H|apply nfa_edge_lt in H]; lia).
Qed.

(** a DFA has one transition for every state and symbol *)
Lemma dfa_edge_total d p a : dfa_valid d -> p < length (dfa_states d) -> In a (dfa_alphabet d) -> exists t, dfa_edge d p a t.
Proof.
  intros V Hp Ha. apply In_nth_error in Ha as (k & Hk). destruct (nth_error_lt _ _ Hp) as (s & Hs).
  destruct (nth_error (ds_transitions s) k) as [t|] eqn:Ht; [exists t, k, s; auto|].
  apply nth_error_None in Ht. rewrite (dv_width _ V _ _ Hs) in Ht. apply nth_error_None in Ht. congruence.
Qed.
Lemma dfa_edge_unique d p a t t' : dfa_valid d -> dfa_edge d p a t -> dfa_edge d p a t' -> t = t'.
Proof.
  intros V (k & s & A1 & A2 & A3) (k' & s' & B1 & B2 & B3). rewrite A2 in B2. injection B2 as <-.
  assert (k = k') as <-; [|congruence]. apply (proj1 (NoDup_nth_error _) (dv_alphabet _ V)); [apply nth_error_Some; congruence|congruence].
Qed.
Lemma dfa_all_seen h1 h2 d1 d2 : dfa_plain d1 -> dfa_plain d2 -> same_set (dfa_alphabet d1) (dfa_alphabet d2) -> dfa_ascii_art h1 d1 = dfa_ascii_art h2 d2 ->
  forall p a t, dfa_edge d1 p a t <-> dfa_edge d2 p a t.
Proof.
  intros P1 P2 SA E. destruct (dfa_edges_seen _ _ _ _ P1 P2 E) as (A & _). destruct (dfa_plain_seen _ _ _ _ P1 P2 E) as (EN & _).
  apply (f_equal (@length _)) in EN. rewrite !map_length in EN.
  assert (K : forall d d', dfa_plain d -> dfa_plain d' -> (forall x, In x (dfa_alphabet d) -> In x (dfa_alphabet d')) -> length (dfa_states d) = length (dfa_states d') ->
    (forall p a t, p <> t -> dfa_edge d' p a t -> dfa_edge d p a t) -> forall p a, dfa_edge d p a p -> dfa_edge d' p a p).
  { intros d d' P P' SA' EN' AA p a H.
    destruct (dfa_edge_total d' p a (dp_valid _ P')) as (t & Ht).
    - apply dfa_edge_lt in H. lia.
    - apply SA'. destruct H as (k & s & Hk & _). eapply nth_error_In. exact Hk.
    - destruct (Nat.eq_dec p t) as [<-|Hne]; [exact Ht|]. exfalso. apply Hne. apply (dfa_edge_unique d p a); auto using dp_valid. }
  intros p a t. destruct (Nat.eq_dec p t) as [<-|Hne]; [|auto]. split; apply K; auto.
  - intros x. apply SA.
  - intros q b u Hq. apply A. exact Hq.
  - intros x. apply SA.
  - intros q b u Hq. apply A. exact Hq.
Qed.
Lemma dfa_shown_seen h1 h2 d1 d2 : dfa_plain d1 -> dfa_plain d2 -> dfa_alphabet d1 = dfa_alphabet d2 -> dfa_ascii_art h1 d1 = dfa_ascii_art h2 d2 ->
  map dfa_shown (dfa_states d1) = map dfa_shown (dfa_states d2).
Proof.
  intros P1 P2 EA E. destruct (dfa_plain_seen _ _ _ _ P1 P2 E) as (ES & _).
  pose proof (dfa_all_seen h1 h2 d1 d2 P1 P2 ltac:(rewrite EA; intros x; tauto) E) as ED.
  apply nth_error_ext. intros p. rewrite !nth_error_map. assert (X := f_equal (fun l => nth_error l p) ES). cbn in X. rewrite !nth_error_map in X.
  destruct (nth_error (dfa_states d1) p) as [s1|] eqn:H1, (nth_error (dfa_states d2) p) as [s2|] eqn:H2; try discriminate; [|reflexivity].
  injection X as X1 X2. cbn. unfold dfa_shown. rewrite X1, X2. f_equal. f_equal.
  pose proof (dv_width _ (dp_valid _ P1) _ _ H1) as W1. pose proof (dv_width _ (dp_valid _ P2) _ _ H2) as W2.
  apply nth_error_ext. intros k. destruct (nth_error (ds_transitions s1) k) as [t|] eqn:T.
  - assert (HK : k < length (dfa_alphabet d1)) by (rewrite <- W1; apply nth_error_Some; congruence).
    destruct (nth_error_lt _ _ HK) as [a Ha].
    assert (D : dfa_edge d1 p a t) by (exists k, s1; auto). apply ED in D. destruct D as (k' & s' & D1 & D2 & D3). rewrite H2 in D2. injection D2 as <-.
    replace k with k'; [auto|]. rewrite <- EA in D1. apply (proj1 (NoDup_nth_error _) (dv_alphabet _ (dp_valid _ P1))); [apply nth_error_Some; congruence|congruence].
  - apply nth_error_None in T. symmetry. apply nth_error_None. rewrite W2, <- EA, <- W1. exact T.
Qed.

(** art does not show which state is initial *)
Lemma mapR_view {A V B} (view : A -> V) (g : nat -> V -> R B) (l1 l2 : list A) : map view l1 = map view l2 ->
  mapR (fun '(i, s) => g i (view s)) (enumerate l1) = mapR (fun '(i, s) => g i (view s)) (enumerate l2).
Proof.
  unfold enumerate. generalize 0 as k. revert l2. induction l1 as [|x l1 IH]; intros [|y l2] k E; try discriminate; [reflexivity|].
  injection E as E1 E2. cbn [length seq combine mapR]. rewrite E1. destruct (g k (view y)); try reflexivity. cbn [bind]. rewrite (IH l2 (S k) E2). reflexivity.
Qed.
Lemma ascii_art_view h states1 states2 arrows : map seen_of states1 = map seen_of states2 -> ascii_art h states1 arrows = ascii_art h states2 arrows.
Proof.
  intros E. unfold ascii_art.
  assert (E1 : map (fun s => length (st_name s)) states1 = map (fun s => length (st_name s)) states2).
  { apply (f_equal (map (fun p => length (fst p)))) in E. rewrite !map_map in E. exact E. }
  assert (E2 : forall w, last_line w states1 = last_line w states2).
  { intros w. unfold last_line. f_equal. f_equal.
    apply (f_equal (map (fun p => state_text w (mk_draw_state (fst p) (snd p) true)))) in E. rewrite !map_map in E. exact E. }
  assert (E3 : length states1 = length states2) by (apply (f_equal (@length _)) in E; rewrite !map_length in E; exact E).
  rewrite E1, E3. destruct (unwrap _) as [w| | ]; try reflexivity. cbn [bind]. destruct (place_grouped _) as [[arrs levels]| | ]; try reflexivity. cbn [bind].
  rewrite E2. reflexivity.
Qed.
Lemma dfa_art_shown h d1 d2 : dfa_alphabet d1 = dfa_alphabet d2 -> map dfa_shown (dfa_states d1) = map dfa_shown (dfa_states d2) -> dfa_ascii_art h d1 = dfa_ascii_art h d2.
Proof.
  intros EA ES. unfold dfa_ascii_art. assert (E : dfa_to_arrows d1 = dfa_to_arrows d2).
  { unfold dfa_to_arrows. rewrite EA.
    apply (f_equal (map snd)) in ES. rewrite !map_map in ES.
    rewrite (mapR_view ds_transitions (fun from ts => mapR (fun '(idx, to) => a <- index (dfa_alphabet d2) idx ;; Ret (arrow_new from to a)) (enumerate ts)) _ _ ES). reflexivity. }
  rewrite E. destruct (dfa_to_arrows d2) as [arrs| | ]; try reflexivity. cbn [bind]. apply ascii_art_view.
  apply (f_equal (map fst)) in ES. rewrite !map_map in ES. rewrite !map_map. exact ES.
Qed.
Lemma nfa_art_shown h n1 n2 : nfa_alphabet n1 = nfa_alphabet n2 -> map nfa_shown (nfa_states n1) = map nfa_shown (nfa_states n2) -> nfa_ascii_art h n1 = nfa_ascii_art h n2.
Proof.
  intros EA ES. unfold nfa_ascii_art. assert (E : nfa_to_arrows n1 = nfa_to_arrows n2).
  { unfold nfa_to_arrows. rewrite EA.
    pose proof (f_equal (map (fun p => (snd (fst p), snd p))) ES) as EV. rewrite !map_map in EV.
    rewrite (mapR_view (fun s => (ns_transitions s, ns_eps s)) (fun from '(tss, eps) =>
      l <- mapR (fun '(idx, tos) => mapR (fun to => a <- index (nfa_alphabet n2) idx ;; Ret (arrow_new from to a)) tos) (enumerate tss) ;;
      Ret (concat l ++ map (fun to => arrow_new from to eps_label) eps)) _ _ EV). reflexivity. }
  rewrite E. destruct (nfa_to_arrows n2) as [arrs| | ]; try reflexivity. cbn [bind]. apply ascii_art_view.
  apply (f_equal (map (fun p => fst (fst p)))) in ES. rewrite !map_map in ES. rewrite !map_map. exact ES.
Qed.
Lemma dfa_view_lang d1 d2 : map (fun s => (ds_name s, ds_accepting s)) (dfa_states d1) = map (fun s => (ds_name s, ds_accepting s)) (dfa_states d2) ->
  (forall p a t, dfa_edge d1 p a t <-> dfa_edge d2 p a t) -> forall p u, dfa_state_lang d1 p u <-> dfa_state_lang d2 p u.
Proof.
  intros ES ED p u.
  assert (AC : forall t, dfa_accepting d1 t <-> dfa_accepting d2 t).
  { intros t. unfold dfa_accepting. assert (X := f_equal (fun l => nth_error l t) ES). cbn in X. rewrite !nth_error_map in X.
    destruct (nth_error (dfa_states d1) t) as [s1|], (nth_error (dfa_states d2) t) as [s2|]; try discriminate; [|split; intros (s & H & _); discriminate].
    injection X as _ X. split; intros (s & H & A); injection H as <-; eexists; (split; [reflexivity|congruence]). }
  unfold dfa_state_lang. split; intros (t & P & A); exists t; (split; [|apply AC; exact A]); (eapply dfa_paths; [|exact P]); intros; apply ED; auto.
Qed.
