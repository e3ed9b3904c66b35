(** * F32Final: drawings in single precision *)
From Coq Require Import List NArith ZArith QArith Bool SpecFloat Lia.
From Verif Require Import Base BaseLemmas Spec DrawModel DrawSpec DrawProofs CanvasModel GeometrySpec PictureProofs PictureFinal F32Model F32Spec F32Proofs F32Shapes.
Import ListNotations.
Close Scope Q_scope.
Local Open Scope nat_scope.

Lemma rationals_exact : exact rationals (fun x => x).
Proof. split; intros; cbn [F f_add f_sub f_mul f_div f_neg f_of_usize f_half rationals]; try apply Qred_correct; reflexivity. Qed.

Lemma drawing_same x y h states arrows labels links levels : states <> [] -> layout (length states) labels links levels ->
  place_grouped (group_arrows h arrows) = Ret (map placed_of links, levels) ->
  exists calls callsq, draw f32 (opts_at x y f32) h states arrows = Ret calls /\ draw rationals (opts_at x y rationals) h states arrows = Ret callsq /\
    paints_shapes (opts_at x y f32) states links levels calls /\ paints_shapes (opts_at x y rationals) states links levels callsq /\
    (small_drawing (length states) levels x y -> Forall2 same_shape (painted None calls) (painted None callsq)).
Proof.
  intros NE L E. destruct (draw_eq (opts_at x y f32) h states arrows links levels E (lo_level _ _ _ _ L)) as (c1 & E1 & P1).
  destruct (draw_eq (opts_at x y rationals) h states arrows links levels E (lo_level _ _ _ _ L)) as (c2 & E2 & P2).
  exists c1, c2. split; [exact E1|]. split; [exact E2|]. split; [exact P1|]. split; [exact P2|]. intros [BX BY].
  rewrite (painted_calls _ _ _ _ _ P1), (painted_calls _ _ _ _ _ P2). apply (shapes_same x y (length states)); auto.
  - destruct states; [contradiction|cbn; lia].
  - intros l Hl. destruct (lo_real _ _ _ _ L l Hl) as (A & B & _). split; [exact A|]. split; [exact B|]. apply (lo_level _ _ _ _ L l Hl).
Qed.

(** There are at most as many levels as pairs of states. *)
Lemma levels_bound n labels links levels : layout n labels links levels -> levels <= n * n.
Proof.
  intros L. assert (H1 : levels <= length links).
  { rewrite <- (seq_length levels 0), <- (map_length lk_level links). apply NoDup_incl_length; [apply seq_NoDup|].
    intros k Hk. apply in_seq in Hk. destruct (lo_used _ _ _ _ L k) as (l & Hl & <-); [lia|]. apply in_map. exact Hl. }
  assert (H2 : length links <= length (list_prod (seq 0 n) (seq 0 n))).
  { rewrite <- (map_length (fun l => (lk_from l, lk_to l)) links). apply NoDup_incl_length; [apply (lo_once _ _ _ _ L)|].
    intros p Hp. apply in_map_iff in Hp. destruct Hp as (l & <- & Hl). destruct (lo_real _ _ _ _ L l Hl) as (A & B & _).
    apply in_prod; apply in_seq; lia. }
  rewrite prod_length, seq_length in H2. lia.
Qed.
Lemma small_400 n labels links levels x y : layout n labels links levels -> n <= 400 -> x <= 1000 -> y <= 1000 -> small_drawing n levels x y.
Proof. intros L Hn Hx Hy. pose proof (levels_bound _ _ _ _ L). unfold small_drawing. assert (n * n <= 400 * 400) by (apply Nat.mul_le_mono; auto). lia. Qed.

(** The rational shape is determined. *)
Lemma same_point_fun p q q' : same_point p q -> same_point p q' -> q = q'.
Proof.
  destruct q as [a b], q' as [a' b']. unfold same_point. cbn [fst snd]. intros [H1 H2] [H3 H4]. rewrite H1 in H3. rewrite H2 in H4.
  injection H3 as ->. injection H4 as ->. reflexivity.
Qed.
Lemma same_shape_fun p q q' : same_shape p q -> same_shape p q' -> q = q'.
Proof.
  destruct p as [c s], q as [c1 s1], q' as [c2 s2]. unfold same_shape. cbn [fst snd]. intros [-> H1] [-> H2]. f_equal.
  destruct s, s1, s2; try contradiction.
  - destruct H1 as (A1 & B1 & C1), H2 as (A2 & B2 & C2). rewrite B1 in B2. rewrite C1 in C2. injection B2 as ->. injection C2 as ->.
    rewrite (same_point_fun _ _ _ A1 A2). reflexivity.
  - destruct H1 as (A1 & <-), H2 as (A2 & <-). rewrite (same_point_fun _ _ _ A1 A2). reflexivity.
  - destruct H1 as (A1 & B1 & C1), H2 as (A2 & B2 & C2). rewrite C1 in C2. injection C2 as ->.
    rewrite (same_point_fun _ _ _ A1 A2), (same_point_fun _ _ _ B1 B2). reflexivity.
Qed.
Lemma Forall2_in_l {A B} (R : A -> B -> Prop) l l' x : Forall2 R l l' -> In x l -> exists y, In y l' /\ R x y.
Proof. intros F. induction F as [|a b l l' H F IH]; [intros []|]. intros [<-|Hx]; [exists b; cbn; auto|]. destruct (IH Hx) as (y & Hy & Ry). exists y. cbn. auto. Qed.
Lemma Forall2_in_r {A B} (R : A -> B -> Prop) l l' y : Forall2 R l l' -> In y l' -> exists x, In x l /\ R x y.
Proof. intros F. induction F as [|a b l l' H F IH]; [intros []|]. intros [<-|Hy]; [exists a; cbn; auto|]. destruct (IH Hy) as (x & Hx & Rx). exists x. cbn. auto. Qed.
Lemma picture_same p1 p2 q1 q2 : Forall2 same_shape p1 q1 -> Forall2 same_shape p2 q2 -> same_picture p1 p2 -> same_picture q1 q2.
Proof.
  intros F1 F2 SP s. split; intros H.
  - destruct (Forall2_in_r _ _ _ _ F1 H) as (p & Hp & R). destruct (Forall2_in_l _ _ _ _ F2 (proj1 (SP p) Hp)) as (s' & Hs & R').
    rewrite (same_shape_fun _ _ _ R R'). exact Hs.
  - destruct (Forall2_in_r _ _ _ _ F2 H) as (p & Hp & R). destruct (Forall2_in_l _ _ _ _ F1 (proj2 (SP p) Hp)) as (s' & Hs & R').
    rewrite (same_shape_fun _ _ _ R R'). exact Hs.
Qed.
Lemma box_same w h p q : same_shape p q -> (in_box f32_val w h (snd p) <-> in_box (fun x : F rationals => x) w h (snd q)).
Proof.
  assert (V : forall x r, f32_value x = Some r -> f32_val x = r) by (intros x r H; unfold f32_val; rewrite H; reflexivity).
  assert (B : forall a b, same_point a b -> (point_in_box f32_val w h a <-> point_in_box (fun x : F rationals => x) w h b)).
  { intros [a1 a2] [b1 b2] [H1 H2]. unfold point_in_box. cbn [fst snd] in *. rewrite (V _ _ H1), (V _ _ H2). reflexivity. }
  destruct p as [c s], q as [c' s']. unfold same_shape. cbn [fst snd]. intros [_ H]. destruct s, s'; try contradiction; cbn [in_box].
  - destruct H as ([H1 H2] & H3 & _). rewrite (V _ _ H1), (V _ _ H2), (V _ _ H3). reflexivity.
  - destruct H as [H _]. apply B. exact H.
  - destruct H as (H1 & H2 & _). rewrite (B _ _ H1), (B _ _ H2). reflexivity.
Qed.

(** ** Large drawings *)
Section Large.
Context (p : nat).
Hypothesis HP : Z.of_nat p = (2 ^ 24)%Z.
Definition swap (i : nat) : nat := if i =? p then S p else if i =? S p then p else i.
Definition row (names : nat -> nat) : dfa :=
  {| dfa_alphabet := [];
     dfa_states := map (fun i => mk_dfa_state (repeat 97%N (names i)) (i =? 0) false []) (seq 0 (S (S p))); dfa_initial := 0 |}.
Lemma swap_swap i : swap (swap i) = i.
Proof. unfold swap. destruct (Nat.eqb_spec i p); [|destruct (Nat.eqb_spec i (S p))]; subst; rewrite ?Nat.eqb_refl.
  - destruct (Nat.eqb_spec (S p) p); auto; lia.
  - reflexivity.
  - destruct (Nat.eqb_spec i p); [contradiction|]. destruct (Nat.eqb_spec i (S p)); [contradiction|]. reflexivity.
Qed.
Lemma swap_lt i : i < S (S p) -> swap i < S (S p).
Proof. unfold swap. destruct (Nat.eqb_spec i p); [|destruct (Nat.eqb_spec i (S p))]; lia. Qed.
Lemma swap_0 i : (swap i =? 0) = (i =? 0).
Proof.
  assert (p <> 0) by lia. unfold swap. destruct (Nat.eqb_spec i p) as [->|]; [|destruct (Nat.eqb_spec i (S p)) as [->|]]; auto.
  all: destruct p; [contradiction|reflexivity].
Qed.
Lemma swap_num i : f_of_usize f32 (swap i) = f_of_usize f32 i.
Proof.
  assert (K : f_of_usize f32 (S p) = f_of_usize f32 p). { cbn [f_of_usize f32]. rewrite Nat2Z.inj_succ, HP. reflexivity. }
  unfold swap. destruct (Nat.eqb_spec i p) as [->|]; [|destruct (Nat.eqb_spec i (S p)) as [->|]]; auto.
Qed.
Lemma row_nth names i s : nth_error (dfa_states (row names)) i = Some s <-> i < S (S p) /\ s = mk_dfa_state (repeat 97%N (names i)) (i =? 0) false [].
Proof.
  unfold row. cbn [dfa_states]. rewrite nth_error_map. split.
  - destruct (nth_error (seq 0 (S (S p))) i) as [k|] eqn:E; cbn [option_map]; [|discriminate]. intros H. injection H as <-.
    assert (HL : i < S (S p)). { rewrite <- (seq_length (S (S p)) 0). apply nth_error_Some. rewrite E. discriminate. }
    rewrite (nth_error_nth' _ 0) in E by (rewrite seq_length; auto). rewrite seq_nth in E by auto. injection E as <-. auto.
  - intros [H ->]. rewrite (nth_error_nth' _ 0) by (rewrite seq_length; auto). rewrite seq_nth by auto. reflexivity.
Qed.
Lemma row_valid names : (forall i j, names i = names j -> i = j) -> dfa_valid (row names).
Proof.
  intros HN. split.
  - constructor.
  - unfold row. cbn [dfa_states]. rewrite map_map. cbn [ds_name]. apply FinFun.Injective_map_NoDup; [|apply seq_NoDup].
    intros i j H. apply HN. apply (f_equal (@length N)) in H. rewrite !repeat_length in H. exact H.
  - unfold row. cbn [dfa_states dfa_initial]. rewrite map_length, seq_length. lia.
  - intros q s H. apply row_nth in H. destruct H as [_ ->]. cbn [ds_initial]. apply Nat.eqb_eq.
  - intros q s H. apply row_nth in H. destruct H as [_ ->]. reflexivity.
  - intros q s t H. apply row_nth in H. destruct H as [_ ->]. intros [].
Qed.
Lemma row_shapes names s : In s (concat (map (fun '(i, st) => state_shapes (default_options f32) 0 i st)
    (combine (seq 0 (length (map of_dfa_state (dfa_states (row names))))) (map of_dfa_state (dfa_states (row names)))))) <->
  exists i, i < S (S p) /\ In s (state_shapes (default_options f32) 0 i (mk_draw_state (repeat 97%N (names i)) false (i =? 0))).
Proof.
  rewrite in_concat. split.
  - intros (l & Hl & Hs). apply in_map_iff in Hl. destruct Hl as ([i st] & <- & Hi). exists i.
    assert (E : nth_error (map of_dfa_state (dfa_states (row names))) i = Some st) by (apply (enumerate_In (map of_dfa_state (dfa_states (row names)))); exact Hi).
    rewrite nth_error_map in E. destruct (nth_error (dfa_states (row names)) i) as [u|] eqn:E'; [|discriminate]. injection E as <-.
    apply row_nth in E'. destruct E' as [H ->]. split; [exact H|]. exact Hs.
  - intros (i & Hi & Hs). eexists. split; [|exact Hs]. apply in_map_iff. eexists (i, _). split; [reflexivity|].
    apply (enumerate_In (map of_dfa_state (dfa_states (row names)))). rewrite nth_error_map, (proj2 (row_nth names i _) (conj Hi eq_refl)). reflexivity.
Qed.
Lemma row_state i st : state_shapes (default_options f32) 0 (swap i) st = state_shapes (default_options f32) 0 i st.
Proof. unfold state_shapes, state_x. rewrite swap_num. reflexivity. Qed.
Lemma row_drawn h names : (forall i j, names i = names j -> i = j) -> exists calls, draw_dfa f32 h (default_options f32) (row names) = Ret calls /\
  painted None calls = shapes (default_options f32) (map of_dfa_state (dfa_states (row names))) [] 0.
Proof.
  intros HN. destruct (draw_dfa_eq (default_options f32) h (row names) (row_valid names HN)) as (links & levels & calls & L & E & P).
  assert (links = []) as ->.
  { destruct links as [|l links]; auto. exfalso. destruct (lo_real _ _ _ _ L l (or_introl eq_refl)) as (_ & _ & H1 & H2).
    apply H2. rewrite H1. unfold dfa_labels. destruct (nth_error (dfa_states (row names)) (lk_from l)); reflexivity. }
  assert (levels = 0) as ->. { destruct levels; auto. destruct (lo_used _ _ _ _ L 0) as (l & [] & _). lia. }
  exists calls. split; [exact E|]. apply (painted_calls _ _ _ _ _ P).
Qed.
Lemma rows_same h : exists calls1 calls2,
  draw_dfa f32 h (default_options f32) (row (fun i => i)) = Ret calls1 /\ draw_dfa f32 h (default_options f32) (row swap) = Ret calls2 /\
  same_picture (painted None calls1) (painted None calls2) /\
  map of_dfa_state (dfa_states (row (fun i => i))) <> map of_dfa_state (dfa_states (row swap)).
Proof.
  assert (SI : forall i j, swap i = swap j -> i = j). { intros i j H. rewrite <- (swap_swap i), H. apply swap_swap. }
  destruct (row_drawn h (fun i => i)) as (c1 & E1 & P1); [auto|]. destruct (row_drawn h swap SI) as (c2 & E2 & P2).
  exists c1, c2. split; [exact E1|]. split; [exact E2|]. split.
  - intros s. rewrite P1, P2. unfold shapes. rewrite !in_app_iff, !row_shapes. apply or_iff_compat_l. apply or_iff_compat_r. split.
    + intros (i & Hi & H). exists (swap i). split; [apply swap_lt; auto|]. rewrite swap_swap, swap_0, row_state. exact H.
    + intros (i & Hi & H). exists (swap i). split; [apply swap_lt; auto|]. rewrite swap_0, row_state. exact H.
  - intros H. apply (f_equal (fun l => nth_error l p)) in H. rewrite !nth_error_map in H.
    rewrite (proj2 (row_nth (fun i => i) p _) (conj (Nat.lt_lt_succ_r _ _ (Nat.lt_succ_diag_r p)) eq_refl)) in H.
    rewrite (proj2 (row_nth swap p _) (conj (Nat.lt_lt_succ_r _ _ (Nat.lt_succ_diag_r p)) eq_refl)) in H.
    cbn [option_map of_dfa_state ds_name ds_accepting ds_initial] in H. injection H as H. apply (f_equal (@length N)) in H.
    rewrite !repeat_length in H. unfold swap in H. rewrite Nat.eqb_refl in H. lia.
Qed.
End Large.
