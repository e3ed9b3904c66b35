(** * Properties of drawings: layout of arrows, ASCII art, graphical drawings *)
From Coq Require Import Ascii String List NArith ZArith Arith Bool Lia Permutation.
From Verif Require Import Base Spec DfaModel NfaModel Examples NfaBasics TableModel Messages DrawModel DrawSpec DrawProofs DrawOver Utf8Spec Utf8Proofs DrawBytesSpec DrawBytes.
Import ListNotations.
Close Scope string_scope.
Open Scope list_scope.

(** ** C45: every arrow is placed once, below the number of levels, and arrows on one level do not overlap *)
Theorem C45_place_arrows : forall (T : Type) (left right : T -> nat) (arrows : list T),
  (forall a, In a arrows -> left a <= right a) ->
  exists placed levels, place_arrows left right arrows = Ret (placed, levels) /\
    Permutation (map fst placed) arrows /\
    (forall a k, In (a, k) placed -> k < levels) /\
    (forall k, k < levels -> exists a, In (a, k) placed) /\
    (forall pre a k mid b post, placed = pre ++ (a, k) :: mid ++ (b, k) :: post -> before (left a) (right a) (left b) (right b)).
Proof.
  intros T left right arrows H. destruct (place_arrows_spec left right arrows H) as (placed & levels & E & HP & HL & HU & HO & _).
  exists placed, levels. split; [exact E|]. split; [exact HP|]. split.
  { intros a k Hi. rewrite Forall_forall in HL. apply (HL _ Hi). }
  split; [exact HU|]. intros pre a k mid b post ->.
  assert (O : ordered left right ((a, k) :: mid ++ (b, k) :: post)).
  { clear -HO. induction pre as [|x pre IH]; [exact HO|]. inversion HO; auto. }
  inversion O as [|? ? HF _]; subst. rewrite Forall_forall in HF. apply (HF (b, k)); [apply in_or_app; right; left; auto|reflexivity].
Qed.
Print Assumptions C45_place_arrows.

(** An arrow is above a level only if an arrow of that level that does not end behind it takes its room *)
Theorem C45_levels_compact : forall (T : Type) (left right : T -> nat) (arrows : list T) placed levels,
  (forall a, In a arrows -> left a <= right a) -> place_arrows left right arrows = Ret (placed, levels) ->
  forall a k j, In (a, k) placed -> j < k ->
    exists b, In (b, j) placed /\ right b <= right a /\ ~ before (left b) (right b) (left a) (right a).
Proof.
  intros T left right arrows placed levels H E a k j Hi Hj.
  destruct (place_arrows_spec left right arrows H) as (placed' & levels' & E' & _ & _ & _ & _ & HC).
  rewrite E in E'. injection E' as <- <-. destruct (HC a k j Hi Hj) as (b & Hb & H1 & H2). exists b. split; [exact Hb|]. split; [exact H1|].
  intros HB. apply (precedes_end left right b a) in HB. lia.
Qed.
Print Assumptions C45_levels_compact.

(** ** C46: ASCII art *)
Theorem C46_dfa_partial : forall h d w, dfa_valid d -> widest (map ds_name (dfa_states d)) w ->
  labels_fit w (length (dfa_states d)) (dfa_labels d) ->
  exists links levels, layout (length (dfa_states d)) (dfa_labels d) links levels /\
    dfa_ascii_art h d = Ret (picture w (map of_dfa_state (dfa_states d)) links levels).
Proof. exact dfa_art_eq. Qed.
Print Assumptions C46_dfa_partial.
Theorem C46_nfa_partial : forall h n w, nfa_valid n -> widest (map ns_name (nfa_states n)) w ->
  labels_fit w (length (nfa_states n)) (nfa_labels n) ->
  exists links levels, layout (length (nfa_states n)) (nfa_labels n) links levels /\
    nfa_ascii_art h n = Ret (picture w (map of_nfa_state (nfa_states n)) links levels).
Proof. exact nfa_art_eq. Qed.
Print Assumptions C46_nfa_partial.

(** labels of at most five characters always fit *)
Theorem C46_short_labels_partial : forall h,
  (forall d, dfa_valid d -> (forall i j, i <> j -> length (joined (of_string ", ") (dfa_labels d i j)) <= 5) ->
     exists art, dfa_ascii_art h d = Ret art) /\
  (forall n, nfa_valid n -> (forall i j, i <> j -> length (joined (of_string ", ") (nfa_labels n i j)) <= 5) ->
     exists art, nfa_ascii_art h n = Ret art).
Proof.
  intros h. split; intros d V HL.
  - destruct (widest_exists (map ds_name (dfa_states d))) as (w & Hw).
    { intros E. apply map_eq_nil in E. pose proof (dv_initial d V) as HI. rewrite E in HI. simpl in HI. lia. }
    destruct (dfa_art_eq h d w V Hw) as (links & levels & _ & E); [apply short_labels_fit; auto|]. eauto.
  - destruct (widest_exists (map ns_name (nfa_states d))) as (w & Hw).
    { intros E. apply map_eq_nil in E. pose proof (nv_initial d V) as HI. rewrite E in HI. simpl in HI. lia. }
    destruct (nfa_art_eq h d w V Hw) as (links & levels & _ & E); [apply short_labels_fit; auto|]. eauto.
Qed.
Print Assumptions C46_short_labels_partial.

(** a label behind the right end of the drawing *)
Definition ex_six : dfa :=
  {| dfa_alphabet := map of_string ["a"; "b"; "c"; "d"; "e"; "f"]%string;
     dfa_states := [ mk_dfa_state [48%N] true  true  [1; 1; 1; 1; 1; 1];
                     mk_dfa_state [49%N] false false [1; 1; 1; 1; 1; 1] ];
     dfa_initial := 0 |}.
(** a label that puts a character of two bytes where the next arrow starts *)
Definition ex_wide : dfa :=
  {| dfa_alphabet := [of_string "a"; of_string "cd"; [233%N]];
     dfa_states := [ mk_dfa_state [48%N] true  true  [1; 1; 1];
                     mk_dfa_state [49%N] false false [2; 2; 2];
                     mk_dfa_state [50%N] false false [3; 3; 3];
                     mk_dfa_state [51%N] false false [3; 3; 3] ];
     dfa_initial := 0 |}.
Theorem C46_long_label_refuted : exists h d, dfa_valid d /\ dfa_ascii_art h d = Panic.
Proof. exists id_order, ex_six. split; [apply dfa_validb_valid|]; vm_compute; reflexivity. Qed.
Print Assumptions C46_long_label_refuted.
Theorem C46_wide_label_refuted : exists h d, dfa_valid d /\ length (dfa_alphabet d) = 3 /\ dfa_ascii_art h d = Panic.
Proof. exists id_order, ex_wide. split; [apply dfa_validb_valid; vm_compute; reflexivity|]. split; vm_compute; reflexivity. Qed.
Print Assumptions C46_wide_label_refuted.

(** longer labels: if their characters have one byte each, the drawing succeeds exactly if all labels end within the line, and
    they are written over what is to the right of their arrows *)
Theorem C46_dfa_long_labels : forall h d w, dfa_valid d -> widest (map ds_name (dfa_states d)) w ->
  long_labels_ascii w (length (dfa_states d)) (dfa_labels d) ->
  ((forall i j, i <> j -> dfa_labels d i j <> [] -> ends_inside w (length (dfa_states d)) (dfa_labels d) i j) ->
   exists links levels, layout (length (dfa_states d)) (dfa_labels d) links levels /\
     dfa_ascii_art h d = Ret (picture_over w (map of_dfa_state (dfa_states d)) links levels)) /\
  ((exists i j, i <> j /\ dfa_labels d i j <> [] /\ ~ ends_inside w (length (dfa_states d)) (dfa_labels d) i j) ->
   dfa_ascii_art h d = Panic).
Proof. intros h d w V Hw HA. destruct (dfa_art_over h d w V Hw HA) as [H1 H2]. rewrite map_length in *. auto. Qed.
Print Assumptions C46_dfa_long_labels.
Theorem C46_nfa_long_labels : forall h n w, nfa_valid n -> widest (map ns_name (nfa_states n)) w ->
  long_labels_ascii w (length (nfa_states n)) (nfa_labels n) ->
  ((forall i j, i <> j -> nfa_labels n i j <> [] -> ends_inside w (length (nfa_states n)) (nfa_labels n) i j) ->
   exists links levels, layout (length (nfa_states n)) (nfa_labels n) links levels /\
     nfa_ascii_art h n = Ret (picture_over w (map of_nfa_state (nfa_states n)) links levels)) /\
  ((exists i j, i <> j /\ nfa_labels n i j <> [] /\ ~ ends_inside w (length (nfa_states n)) (nfa_labels n) i j) ->
   nfa_ascii_art h n = Panic).
Proof. intros h n w V Hw HA. destruct (nfa_art_over h n w V Hw HA) as [H1 H2]. rewrite map_length in *. auto. Qed.
Print Assumptions C46_nfa_long_labels.

(** labels of any length and any characters: the drawing succeeds exactly if every label can be written into the bytes of its line *)
Theorem C46_dfa_exact : forall h d w, dfa_valid d -> widest (map ds_name (dfa_states d)) w ->
  exists links levels, layout (length (dfa_states d)) (dfa_labels d) links levels /\
    (forall art, dfa_ascii_art h d = Ret art <-> picture_is w (map of_dfa_state (dfa_states d)) links levels art) /\
    dfa_ascii_art h d <> Diverge.
Proof. apply dfa_art_iff. Qed.
Print Assumptions C46_dfa_exact.
Theorem C46_nfa_exact : forall h n w, nfa_valid n -> widest (map ns_name (nfa_states n)) w ->
  exists links levels, layout (length (nfa_states n)) (nfa_labels n) links levels /\
    (forall art, nfa_ascii_art h n = Ret art <-> picture_is w (map of_nfa_state (nfa_states n)) links levels art) /\
    nfa_ascii_art h n <> Diverge.
Proof. apply nfa_art_iff. Qed.
Print Assumptions C46_nfa_exact.
(** the operations on bytes that are used for it, on texts of any characters *)
Theorem C46_bytes : forall s,
  (forall n b, char_offset s n = Ret b <-> n < length s /\ char_at s n b) /\
  (forall a b r t, replace_range s a b r = Ret t <->
     exists i j, char_at s i a /\ char_at s j b /\ a <= b /\ t = firstn i s ++ r ++ skipn j s) /\
  (forall a b r t, replace_range s a b r = Ret t -> bytes t = firstn a (bytes s) ++ bytes r ++ skipn b (bytes s)).
Proof. intros s. split; [apply char_offset_iff|]. split; [apply replace_range_iff|apply replace_range_bytes]. Qed.
Print Assumptions C46_bytes.

(** ** C54: what ASCII art tells about the automaton *)
(** if the first state is initial, the arrow of the last line leads to the initial state *)
Theorem C54_first_state_partial : forall h d w s art, dfa_valid d -> widest (map ds_name (dfa_states d)) w ->
  dfa_ascii_art h d = Ret art -> dfa_initial d = 0 -> nth_error (dfa_states d) (dfa_initial d) = Some s ->
  exists above more, art =
    concat (map (fun l => l ++ [10%N]) above) ++
    of_string "-> " ++ of_string (if ds_accepting s then "(( " else "(  ") ++ ds_name s ++ more.
Proof.
  intros h d w s art V Hw E H0 Hs. destruct (dfa_art_last h d w art Hw E) as (above & ->).
  rewrite H0 in Hs. destruct (dfa_states d) as [|s0 states]; [discriminate|]. injection Hs as ->. eexists. eexists.
  unfold states_line. cbn [map concat st_name st_accepting of_dfa_state]. rewrite <- !app_assoc. reflexivity.
Qed.
Print Assumptions C54_first_state_partial.
Theorem C54_nfa_first_state_partial : forall h n w s art, nfa_valid n -> widest (map ns_name (nfa_states n)) w ->
  nfa_ascii_art h n = Ret art -> nfa_initial n = 0 -> nth_error (nfa_states n) (nfa_initial n) = Some s ->
  exists above more, art =
    concat (map (fun l => l ++ [10%N]) above) ++
    of_string "-> " ++ of_string (if ns_accepting s then "(( " else "(  ") ++ ns_name s ++ more.
Proof.
  intros h n w s art V Hw E H0 Hs. destruct (nfa_art_last h n w art Hw E) as (above & ->).
  rewrite H0 in Hs. destruct (nfa_states n) as [|s0 states]; [discriminate|]. injection Hs as ->. eexists. eexists.
  unfold states_line. cbn [map concat st_name st_accepting of_nfa_state]. rewrite <- !app_assoc. reflexivity.
Qed.
Print Assumptions C54_nfa_first_state_partial.
(** whatever is drawn above, the last line shows all states in their order, which of them accept, and their names *)
Theorem C54_last_line : forall h w art,
  (forall d, widest (map ds_name (dfa_states d)) w -> dfa_ascii_art h d = Ret art ->
     exists above, art = concat (map (fun l => l ++ [10%N]) above) ++ states_line w (map of_dfa_state (dfa_states d))) /\
  (forall n, widest (map ns_name (nfa_states n)) w -> nfa_ascii_art h n = Ret art ->
     exists above, art = concat (map (fun l => l ++ [10%N]) above) ++ states_line w (map of_nfa_state (nfa_states n))).
Proof. intros h w art. split; [intros d; apply dfa_art_last|intros n; apply nfa_art_last]. Qed.
Print Assumptions C54_last_line.

(** otherwise it does not: automata that differ in their initial states have the same drawing *)
Definition ex_pair (i : nat) : dfa :=
  {| dfa_alphabet := [el_a];
     dfa_states := [ mk_dfa_state [48%N] (i =? 0) false [1]; mk_dfa_state [49%N] (i =? 1) true [0] ];
     dfa_initial := i |}.
Theorem C54_initial_refuted : exists h d d' art, dfa_valid d /\ dfa_valid d' /\ dfa_ascii_art h d = Ret art /\ dfa_ascii_art h d' = Ret art /\ ~ dfa_lang d [] /\ dfa_lang d' [].
Proof.
  exists id_order, (ex_pair 0), (ex_pair 1). eexists. split; [apply dfa_validb_valid; vm_compute; reflexivity|].
  split; [apply dfa_validb_valid; vm_compute; reflexivity|]. split; [vm_compute; reflexivity|]. split; [vm_compute; reflexivity|].
  split.
  - intros (q & P & s & H & A). inversion P; subst. injection H as <-. discriminate.
  - exists 1. split; [constructor|]. eexists. split; vm_compute; reflexivity.
Qed.
Print Assumptions C54_initial_refuted.

(** and the labels of loops are not shown: these automata have the same drawing, too *)
Definition ex_loop (sym other : nat) : nfa :=
  {| nfa_alphabet := [el_a; el_b];
     nfa_states := [ mk_nfa_state [48%N] true true [] [if sym =? 0 then [0] else []; if sym =? 1 then [0] else []] ];
     nfa_initial := other |}.
Theorem C54_loops_refuted : exists h n n' art, nfa_valid n /\ nfa_valid n' /\ nfa_ascii_art h n = Ret art /\ nfa_ascii_art h n' = Ret art /\ nfa_lang n [el_a] /\ ~ nfa_lang n' [el_a].
Proof.
  exists id_order, (ex_loop 0 0), (ex_loop 1 0). eexists. split; [apply nfa_validb_valid; vm_compute; reflexivity|].
  split; [apply nfa_validb_valid; vm_compute; reflexivity|]. split; [vm_compute; reflexivity|]. split; [vm_compute; reflexivity|].
  split.
  - destruct (nfa_accepts_correct (ex_loop 0 0) [el_a]) as (b & E & <-); [apply nfa_validb_valid; vm_compute; reflexivity|].
    vm_compute in E. congruence.
  - destruct (nfa_accepts_correct (ex_loop 1 0) [el_a]) as (b & E & <-); [apply nfa_validb_valid; vm_compute; reflexivity|].
    vm_compute in E. congruence.
Qed.
Print Assumptions C54_loops_refuted.

(** ** C55: graphical drawings *)
Theorem C55_draw_dfa : forall fl (opts : draw_options fl) h d, dfa_valid d ->
  exists links levels calls, layout (length (dfa_states d)) (dfa_labels d) links levels /\
    draw_dfa fl h opts d = Ret calls /\ paints_shapes opts (map of_dfa_state (dfa_states d)) links levels calls.
Proof. intros fl opts h d. apply draw_dfa_eq. Qed.
Print Assumptions C55_draw_dfa.
Theorem C55_draw_nfa : forall fl (opts : draw_options fl) h n, nfa_valid n ->
  exists links levels calls, layout (length (nfa_states n)) (nfa_labels n) links levels /\
    draw_nfa fl h opts n = Ret calls /\ paints_shapes opts (map of_nfa_state (nfa_states n)) links levels calls.
Proof. intros fl opts h n. apply draw_nfa_eq. Qed.
Print Assumptions C55_draw_nfa.

(** ** Examples *)
Example C45_example : place_arrows fst snd [(0, 2); (2, 3); (1, 1); (0, 1); (2, 2)] =
  Ret ([((0, 1), 0); ((1, 1), 0); ((2, 2), 0); ((0, 2), 1); ((2, 3), 1)], 2).
Proof. vm_compute. reflexivity. Qed.
Example C46_example : widest (map ds_name (dfa_states ex_even)) 1 /\ labels_fit 1 5 (dfa_labels ex_even) /\
  dfa_ascii_art id_order ex_even = Ret (joined [10%N] (map of_string [
    "       -----------------------------<-        ";
    "       |a                            |        ";
    "       -->--------------------       |        ";
    "       |b                    |       |        ";
    "       ---------------------<-       |        ";
    "       |b                    |       |        ";
    "       -->---- -->---- -->----       |        ";
    "       |a    | |b    | |a    |       |        ";
    "       -----<- -----<- -----<-       ->-      ";
    "       |a    | |b    | |a    |       | |      ";
    "-> (( 0 )) (  1  ) (  2  ) (( 3 )) (( 4 )) "]%string)).
Proof.
  split; [|split].
  - split; [|exists [48%N]; simpl; auto]. simpl. intros s H. repeat (destruct H as [<-|H]; [simpl; auto|]). destruct H.
  - apply short_labels_fit. intros i j Hi Hj _. do 5 (destruct i as [|i]; [do 5 (destruct j as [|j]; [vm_compute; lia|]); lia|]). lia.
  - vm_compute. reflexivity.
Qed.
(** a label that is longer than its arrow but ends within the line, and one that does not *)
Definition ex_over : dfa :=
  {| dfa_alphabet := map of_string ["abc"; "def"; "g"]%string;
     dfa_states := [ mk_dfa_state [48%N] true  true  [1; 1; 2];
                     mk_dfa_state [49%N] false false [2; 1; 1];
                     mk_dfa_state [50%N] false false [2; 2; 2] ];
     dfa_initial := 0 |}.
Example C46_long_labels_example :
  dfa_valid ex_over /\ widest (map ds_name (dfa_states ex_over)) 1 /\ long_labels_ascii 1 3 (dfa_labels ex_over) /\
  (forall i j, i <> j -> dfa_labels ex_over i j <> [] -> ends_inside 1 3 (dfa_labels ex_over) i j) /\
  dfa_ascii_art id_order ex_over = Ret (joined [10%N] (map of_string [
    "       -->------------        ";
    "       |g            |        ";
    "       -->---- -->----        ";
    "       |abc, defabc  |        ";
    "       |     ->-     ->-      ";
    "       |     | |     | |      ";
    "-> (( 0 )) (  1  ) (  2  ) "]%string)) /\
  dfa_valid ex_six /\ long_labels_ascii 1 2 (dfa_labels ex_six) /\ dfa_labels ex_six 0 1 <> [] /\ ~ ends_inside 1 2 (dfa_labels ex_six) 0 1.
Proof.
  split; [apply dfa_validb_valid; vm_compute; reflexivity|]. split.
  { split; [|exists [48%N]; simpl; auto]. simpl. intros s H. repeat (destruct H as [<-|H]; [simpl; auto|]). destruct H. }
  split.
  { intros i j Hi Hj _. right. do 3 (destruct i as [|i]; [do 3 (destruct j as [|j]; [cbn; intros a c Ha Hc; repeat (destruct Ha as [<-|Ha]; [repeat (destruct Hc as [<-|Hc]; [lia|]); destruct Hc|]); destruct Ha|]); lia|]). lia. }
  split.
  { intros i j Hne Hl. unfold ends_inside. do 3 (destruct i as [|i]; [do 3 (destruct j as [|j]; [vm_compute; lia|]); vm_compute in Hl; congruence|]). destruct i; vm_compute in Hl; congruence. }
  split; [vm_compute; reflexivity|]. split; [apply dfa_validb_valid; vm_compute; reflexivity|]. split.
  { intros i j Hi Hj _. right. do 2 (destruct i as [|i]; [do 2 (destruct j as [|j]; [cbn; intros a c Ha Hc; repeat (destruct Ha as [<-|Ha]; [repeat (destruct Hc as [<-|Hc]; [lia|]); destruct Hc|]); destruct Ha|]); lia|]). lia. }
  split; [discriminate|]. vm_compute. lia.
Qed.
(** a label with a character of two bytes behind the start of the next link, whose label replaces this character by two others: this
    line becomes longer *)
Definition ex_bytes (label : str) : dfa :=
  {| dfa_alphabet := [label; of_string "xy"];
     dfa_states := [ mk_dfa_state [48%N] true  true  [1; 0];
                     mk_dfa_state [49%N] false false [1; 2];
                     mk_dfa_state [50%N] false false [2; 2];
                     mk_dfa_state [51%N] false false [3; 3] ];
     dfa_initial := 0 |}.
Example C46_exact_example :
  dfa_valid (ex_bytes (of_string "abcdefgh" ++ [233%N])) /\ widest (map ds_name (dfa_states (ex_bytes (of_string "abcdefgh" ++ [233%N])))) 1 /\
  dfa_ascii_art id_order (ex_bytes (of_string "abcdefgh" ++ [233%N])) = Ret (joined [10%N] (map of_string [
    "       -->---- -->----                ";
    "       |abcdefghxy    |                ";
    "     ->-     ->-     ->-     ->-      ";
    "     | |     | |     | |     | |      ";
    "-> (( 0 )) (  1  ) (  2  ) (  3  ) "]%string)) /\
  dfa_ascii_art id_order (ex_bytes (of_string "abcdefgh" ++ [8364%N])) = Panic /\
  bytes [97; 8364; 128512; 233]%N = [97; 226; 130; 172; 240; 159; 152; 128; 195; 169]%N.
Proof.
  split; [apply dfa_validb_valid; vm_compute; reflexivity|]. split; [|split; [vm_compute; reflexivity|split; vm_compute; reflexivity]].
  split; [|exists [48%N]; simpl; auto]. simpl. intros s H. repeat (destruct H as [<-|H]; [simpl; auto|]). destruct H.
Qed.
(** numbers: the integers with the exact operations *)
Definition ex_floats : floats :=
  mk_floats Z Z.add Z.sub Z.mul Z.div Z.opp Z.of_nat 0%Z.
Definition ex_opts : draw_options ex_floats :=
  mk_draw_options ex_floats 1%Z 1%Z 0%Z 0%Z 30%Z 30%Z 2%Z 25%Z 2%Z 60%Z 20%Z 2%Z 10%Z 2%Z 15%Z 15%Z 60%Z 20%Z 10%Z true true
    (0, 0, 0) (0, 0, 9) (9, 0, 0).
Lemma ret_default {A} (r : R A) x : (match r with Ret _ => true | _ => false end) = true -> r = Ret (match r with Ret y => y | _ => x end).
Proof. destruct r; auto; discriminate. Qed.
(** checks an equation with a closed value by computation; no normal form of the left side is stored in the proof *)
Ltac computed := match goal with |- _ = ?r => vm_cast_no_check (eq_refl r) end.
Example C55_example : exists calls, draw_dfa ex_floats id_order ex_opts (ex_pair 1) = Ret calls /\
  filter (fun x => match x with (_, Text _ _) => true | _ => false end) (painted None calls) =
    [(Some (0, 0, 0), Text (fl := ex_floats) (120, 220)%Z [48%N]); (Some (0, 0, 0), Text (fl := ex_floats) (210, 220)%Z [49%N]);
     (Some (0, 0, 0), Text (fl := ex_floats) (165, 100)%Z el_a); (Some (0, 0, 0), Text (fl := ex_floats) (165, 40)%Z el_a)].
Proof. eexists. split; [apply (ret_default _ []); computed|computed]. Qed.
