(** * FaParserProofs: the table parsers accept exactly the documented layouts *)
From Coq Require Import List NArith Arith Bool Lia.
From Verif Require Import Base BaseLemmas Spec TableSpec LayoutSpec ParserModel ParserBasics.
Import ListNotations.

(** ** Characters *)
Lemma is_whitespace_spec c : is_whitespace c = true <-> whitespace c.
Proof.
  unfold is_whitespace, whitespace. rewrite !orb_true_iff, !andb_true_iff, !N.leb_le, !N.eqb_eq. tauto.
Qed.
Lemma token_end_spec c : token_end c = true <-> whitespace c \/ c = 35%N \/ c = 123%N \/ c = 125%N.
Proof.
  unfold token_end. rewrite orb_true_iff, is_whitespace_spec. simpl. rewrite !orb_true_iff, !N.eqb_eq. intuition discriminate.
Qed.
Lemma is_space_spec c : is_space c = true <-> c = 32%N \/ c = 9%N.
Proof. unfold is_space. rewrite orb_true_iff, !N.eqb_eq. reflexivity. Qed.

Definition stop_tok (k : str) : Prop := match k with [] => True | c :: _ => token_end c = true end.
Definition nonspace (k : str) : Prop := match k with [] => True | c :: _ => is_space c = false end.
Definition line_rest (k : str) : Prop := k = [] \/ exists e k', eol e /\ k = e ++ k'.
(** a character that begins a token, an arrow or a star *)
Definition starts (c : N) : Prop := token_end c = false.

Lemma reserved_eq : reserved = reserved_words. Proof. reflexivity. Qed.

Lemma legal_token_iff t :
  legal_token t <-> t <> [] /\ (forall c, In c t -> token_end c = false) /\ mem t reserved = false.
Proof.
  unfold legal_token. split; intros (H1 & H2 & H3); (split; [auto|split]).
  - intros c Hc. apply H2 in Hc as (A & B & C & D). apply not_true_iff_false. rewrite token_end_spec. tauto.
  - destruct (mem_spec t reserved) as [Hm|]; auto. destruct (H3 Hm).
  - intros c Hc. apply H2 in Hc. apply not_true_iff_false in Hc. rewrite token_end_spec in Hc. tauto.
  - intros Hm. rewrite <- reserved_eq in Hm. destruct (mem_spec t reserved) as [|Hn]; [discriminate|auto].
Qed.

Lemma starts_space c : starts c -> is_space c = false.
Proof.
  intros H. apply not_true_iff_false. intros E. apply is_space_spec in E. unfold starts in H.
  destruct E as [-> | ->]; vm_compute in H; discriminate.
Qed.
Lemma space_token_end c : is_space c = true -> token_end c = true.
Proof. intros E. apply is_space_spec in E as [-> | ->]; reflexivity. Qed.
Lemma legal_starts t : legal_token t -> exists c t', t = c :: t' /\ starts c.
Proof.
  intros H. apply legal_token_iff in H as (H1 & H2 & _). destruct t as [|c t]; [congruence|].
  exists c, t. split; auto. apply H2. left; auto.
Qed.

Lemma blank_spec b : blank b <-> forall c, In c b -> is_space c = true.
Proof. unfold blank. split; intros H c Hc; apply is_space_spec; auto. Qed.
Lemma blank_nil : blank []. Proof. intros c []. Qed.
Lemma blank1_stop b k : blank1 b -> stop_tok (b ++ k).
Proof.
  intros (Hb & Hn). destruct b as [|c b]; [congruence|]. simpl. apply space_token_end. apply blank_spec with (b := c :: b); auto.
  left; auto.
Qed.

Lemma state_name_ok t k : legal_token t -> stop_tok k -> ok state_name (t ++ k) k t.
Proof.
  intros Ht Hk. apply legal_token_iff in Ht as (H1 & H2 & H3). unfold state_name. apply pverify_ok.
  - unfold ok, take_till1. rewrite span_app.
    + destruct t; [congruence|reflexivity].
    + intros c Hc. rewrite (H2 c Hc). reflexivity.
    + destruct k as [|c k]; auto. simpl in Hk. rewrite Hk. reflexivity.
  - rewrite H3. reflexivity.
Qed.
Lemma take_till1_inv f i i' t : ok (take_till1 f) i i' t ->
  i = t ++ i' /\ t <> [] /\ (forall c, In c t -> f c = false) /\ match i' with [] => True | c :: _ => f c = true end.
Proof.
  unfold ok, take_till1. intros E. pose proof (span_spec (fun c => negb (f c)) i) as H.
  destruct (span (fun c => negb (f c)) i) as [u v]. destruct H as (-> & H1 & H2).
  destruct u as [|c u]; [discriminate|]. injection E as <- <-. repeat split; auto.
  - congruence.
  - intros d Hd. apply negb_true_iff. auto.
  - destruct v as [|d v]; auto. apply negb_false_iff in H2. auto.
Qed.
Lemma state_name_inv i i' t : ok state_name i i' t -> i = t ++ i' /\ legal_token t /\ stop_tok i'.
Proof.
  intros H. apply pverify_inv in H as (H & Hv). apply take_till1_inv in H as (-> & H1 & H2 & H3).
  split; auto. split; [|exact H3]. apply legal_token_iff. repeat split; auto. apply negb_true_iff. auto.
Qed.
Lemma state_name_bad i : stop_tok i -> bad state_name i.
Proof.
  intros H. unfold state_name. apply pverify_bad. unfold bad, take_till1. destruct i as [|c i]; simpl; auto.
  simpl in H. rewrite H. reflexivity.
Qed.
Lemma state_name_bad_reserved t k : In t reserved_words -> stop_tok k -> bad state_name (t ++ k).
Proof.
  intros Ht Hk. unfold state_name. apply (pverify_bad2 _ _ _ k t).
  - unfold ok, take_till1. rewrite span_app.
    + destruct t; [|reflexivity]. vm_compute in Ht. intuition discriminate.
    + intros c Hc. assert (E : token_end c = false); [|rewrite E; reflexivity].
      simpl in Ht. destruct Ht as [<- |[<- |[<- |[<- |[<- |[]]]]]]; simpl in Hc; intuition (subst; reflexivity).
    + destruct k as [|c k]; auto. simpl in Hk. rewrite Hk. reflexivity.
  - rewrite (proj2 (mem_In t reserved)); auto.
Qed.

Lemma space0_ok b k : blank b -> nonspace k -> ok space0 (b ++ k) k b.
Proof. intros Hb Hk. unfold ok, space0. rewrite span_app; auto. apply blank_spec; auto. Qed.
Lemma space0_inv i i' b : ok space0 i i' b -> i = b ++ i' /\ blank b /\ nonspace i'.
Proof.
  unfold ok, space0. pose proof (span_spec is_space i) as H. destruct (span is_space i) as [u v].
  destruct H as (-> & H1 & H2). intros [= <- <-]. split; auto. split; [apply blank_spec; auto|auto].
Qed.
Lemma space1_ok b k : blank1 b -> nonspace k -> ok space1 (b ++ k) k b.
Proof.
  intros (Hb & Hn) Hk. unfold ok, space1. rewrite span_app; auto; [|apply blank_spec; auto]. destruct b; [congruence|auto].
Qed.
Lemma space1_inv i i' b : ok space1 i i' b -> i = b ++ i' /\ blank1 b /\ nonspace i'.
Proof.
  unfold ok, space1. pose proof (span_spec is_space i) as H. destruct (span is_space i) as [u v].
  destruct H as (-> & H1 & H2). destruct u as [|c u]; [discriminate|]. intros [= <- <-]. split; auto.
  split; [split; [apply blank_spec; auto|congruence]|auto].
Qed.
Lemma space1_bad i : nonspace i -> bad space1 i.
Proof. intros H. unfold bad, space1. destruct i as [|c i]; simpl; auto. simpl in H. rewrite H. reflexivity. Qed.

(** ** Line ends and comments *)
Lemma line_ending_ok e k : eol e -> ok line_ending (e ++ k) k tt.
Proof.
  intros [-> | ->]; unfold line_ending.
  - apply palt_ok_l. apply (tag_ok [10%N]).
  - apply palt_ok_r; [reflexivity|]. apply (tag_ok [13%N; 10%N]).
Qed.
Lemma line_ending_inv i i' x : ok line_ending i i' x -> exists e, i = e ++ i' /\ eol e.
Proof.
  intros H. apply palt_inv in H as [H|[_ H]]; apply tag_inv in H as ->; eexists; split; eauto; unfold eol; auto.
Qed.
Lemma line_ending_bad c k : c <> 10%N -> c <> 13%N -> bad line_ending (c :: k).
Proof. intros H1 H2. apply palt_bad; apply tag_bad; intros k' [= E]; congruence. Qed.
Lemma eol_head e k : eol e -> exists c k', e ++ k = c :: k' /\ (c = 10%N \/ c = 13%N).
Proof. intros [-> | ->]; simpl; eauto. Qed.
Lemma eol_nonempty e : eol e -> e <> [].
Proof. intros [-> | ->]; discriminate. Qed.
Lemma line_rest_nonspace k : line_rest k -> nonspace k.
Proof. intros [->|(e & k' & He & ->)]; simpl; auto. destruct He as [-> | ->]; reflexivity. Qed.
Lemma line_rest_stop k : line_rest k -> stop_tok k.
Proof. intros [->|(e & k' & He & ->)]; simpl; auto. destruct He as [-> | ->]; reflexivity. Qed.
Lemma line_rest_eol e k : eol e -> line_rest (e ++ k).
Proof. intros H. right. exists e, k. auto. Qed.
Lemma line_rest_no_comment k : line_rest k -> bad p_comment k.
Proof.
  intros H. apply pmap_bad, pbind_bad. apply tag_bad. intros k' ->. destruct H as [H|(e & k'' & He & H)]; [discriminate|].
  destruct He as [-> | ->]; discriminate.
Qed.

Lemma not_line_ending_ok t k : (forall c, In c t -> c <> 10%N /\ c <> 13%N) -> line_rest k -> ok not_line_ending (t ++ k) k t.
Proof.
  intros Ht Hk. unfold ok, not_line_ending. rewrite span_app.
  - destruct Hk as [->|(e & k' & He & ->)]; auto. destruct He as [-> | ->]; reflexivity.
  - intros c Hc. apply Ht in Hc as [H1 H2]. apply N.eqb_neq in H1, H2. rewrite H1, H2. reflexivity.
  - destruct Hk as [->|(e & k' & He & ->)]; auto. destruct He as [-> | ->]; reflexivity.
Qed.
Lemma not_line_ending_inv i i' t : ok not_line_ending i i' t ->
  i = t ++ i' /\ (forall c, In c t -> c <> 10%N /\ c <> 13%N) /\ line_rest i'.
Proof.
  unfold ok, not_line_ending. pose proof (span_spec (fun c => negb (N.eqb c 10 || N.eqb c 13)) i) as H.
  destruct (span _ i) as [u v]. destruct H as (-> & H1 & H2). intros E.
  assert (Hu : forall c, In c u -> c <> 10%N /\ c <> 13%N).
  { intros c Hc. apply H1 in Hc. apply negb_true_iff, orb_false_iff in Hc as [Ha Hb].
    apply N.eqb_neq in Ha, Hb. auto. }
  destruct v as [|c v].
  - injection E as <- <-. repeat split; auto; try apply Hu; auto. left; auto.
  - apply negb_false_iff, orb_true_iff in H2. destruct (N.eqb_spec c 13) as [->|Hn].
    + destruct v as [|d v]; [discriminate|]. destruct (N.eqb_spec d 10) as [->|]; [|discriminate].
      injection E as <- <-. repeat split; auto; try apply Hu; auto. right. exists [13%N; 10%N], v. split; [right; auto|auto].
    + destruct H2 as [H2|]; [|discriminate]. apply N.eqb_eq in H2 as ->. injection E as <- <-.
      repeat split; auto; try apply Hu; auto. right. exists [10%N], v. split; [left; auto|auto].
Qed.

Lemma p_comment_ok c k : comment c -> line_rest k -> ok p_comment (c ++ k) k tt.
Proof.
  intros (t & -> & Ht) Hk. unfold p_comment. apply (pmap_ok (fun _ => tt) _ _ _ (tt, t)).
  eapply ppair_ok; [exact (tag_ok [35%N] (t ++ k))|]. apply not_line_ending_ok; auto.
Qed.
Lemma p_comment_inv i i' x : ok p_comment i i' x -> exists c, i = c ++ i' /\ comment c /\ line_rest i'.
Proof.
  intros H. apply pmap_inv in H as (ab & H & _). apply ppair_inv in H as (i1 & a & b & H1 & H2 & _).
  apply tag_inv in H1 as ->. apply not_line_ending_inv in H2 as (-> & H2 & H3).
  exists (35%N :: b). split; auto. split; auto. exists b. auto.
Qed.

Lemma space_comment_ok t k : trail t -> line_rest k -> ok space_comment (t ++ k) k tt.
Proof.
  intros (b & c & -> & Hb & Hc) Hk. unfold space_comment. rewrite <- app_assoc.
  destruct Hc as [->|Hc].
  - apply (pmap_ok (fun _ => tt) _ _ _ (b, None)). eapply ppair_ok.
    + apply space0_ok; auto. apply line_rest_nonspace; auto.
    + apply popt_none. apply line_rest_no_comment. auto.
  - apply (pmap_ok (fun _ => tt) _ _ _ (b, Some tt)). eapply ppair_ok.
    + apply space0_ok; auto. destruct Hc as (t & -> & _). reflexivity.
    + apply popt_some. apply p_comment_ok; auto.
Qed.
Lemma space_comment_stay i b : nonspace i -> bad p_comment i -> b = tt -> ok space_comment i i b.
Proof.
  intros H1 H2 ->. apply (pmap_ok (fun _ => tt) _ _ _ ([], None)). eapply ppair_ok.
  - exact (space0_ok [] i blank_nil H1).
  - apply popt_none. auto.
Qed.
Lemma space_comment_inv i i' x : ok space_comment i i' x ->
  exists t, i = t ++ i' /\ trail t /\ ok space_comment i' i' tt.
Proof.
  intros H. apply pmap_inv in H as (ab & H & _). apply ppair_inv in H as (i1 & b & o & H1 & H2 & _).
  apply space0_inv in H1 as (-> & Hb & Hn). apply popt_inv in H2. destruct o as [[]|].
  - apply p_comment_inv in H2 as (c & -> & Hc & Hl). exists (b ++ c). rewrite <- app_assoc. split; auto. split.
    + exists b, c. auto.
    + apply space_comment_stay; auto; [apply line_rest_nonspace|apply line_rest_no_comment]; auto.
  - destruct H2 as [H2 ->]. exists b. split; auto. split.
    + exists b, []. rewrite app_nil_r. auto.
    + apply space_comment_stay; auto.
Qed.

Lemma trail_nil : trail []. Proof. exists [], []. split; auto. split; [apply blank_nil|auto]. Qed.
Lemma trail_blank b : blank b -> trail b.
Proof. intros H. exists b, []. rewrite app_nil_r. auto. Qed.

(** ** Junk lines *)
Lemma junk_line_nonempty l : junk_line l -> l <> [].
Proof. intros (t & e & -> & _ & He) E. apply app_eq_nil in E as [_ E]. exact (eol_nonempty e He E). Qed.

Lemma scl_ok_line l k : junk_line l -> ok space_comment_line (l ++ k) k tt.
Proof.
  intros Hj. pose proof (junk_line_nonempty l Hj) as Hn. destruct Hj as (t & e & -> & Ht & He).
  unfold space_comment_line. apply (pmap_ok (fun _ => tt) _ _ _ (t ++ e)). apply pverify_ok.
  - apply recognize_ok with (a := tt). eapply terminated_ok.
    + rewrite <- app_assoc. apply space_comment_ok; auto. apply line_rest_eol; auto.
    + apply palt_ok_l. apply line_ending_ok; auto.
  - destruct (t ++ e); [congruence|reflexivity].
Qed.
Lemma scl_ok_end t : trail t -> t <> [] -> ok space_comment_line t [] tt.
Proof.
  intros Ht Hn. unfold space_comment_line. apply (pmap_ok (fun _ => tt) _ _ _ t). apply pverify_ok.
  - rewrite <- (app_nil_r t) at 1. apply recognize_ok with (a := tt). eapply terminated_ok.
    + apply space_comment_ok; auto. left; auto.
    + apply palt_ok_r; [reflexivity|reflexivity].
  - destruct t; [congruence|reflexivity].
Qed.
Lemma scl_bad_nil : bad space_comment_line [].
Proof. reflexivity. Qed.
Lemma scl_bad_starts b c k : blank b -> starts c -> bad space_comment_line (b ++ c :: k).
Proof.
  intros Hb Hc. apply pmap_bad, pverify_bad, recognize_bad.
  assert (Hne : forall x, token_end x = true -> c <> x) by (intros x Hx ->; unfold starts in Hc; congruence).
  eapply terminated_bad2 with (i1 := c :: k) (a := tt).
  - apply (pmap_ok (fun _ => tt) _ _ _ (b, None)). eapply ppair_ok.
    + apply space0_ok; auto. simpl. apply starts_space; auto.
    + apply popt_none. apply pmap_bad, pbind_bad. apply tag_bad. intros k' [= E _]. revert E. apply Hne. reflexivity.
  - apply palt_bad.
    + apply line_ending_bad; apply Hne; reflexivity.
    + reflexivity.
Qed.
Lemma scl_inv i i' x : ok space_comment_line i i' x ->
  (exists l, junk_line l /\ i = l ++ i') \/ (i' = [] /\ trail i /\ i <> []).
Proof.
  intros H. apply pmap_inv in H as (u & H & _). apply pverify_inv in H as (H & Hu).
  apply recognize_inv in H as (a & H & ->); [|auto 10 with total].
  apply terminated_inv in H as (i1 & b & H1 & H2). apply space_comment_inv in H1 as (t & E & Ht & _).
  apply palt_inv in H2 as [H2|[_ H2]].
  - left. apply line_ending_inv in H2 as (e & -> & He). exists (t ++ e). split; [|rewrite <- app_assoc; auto].
    exists t, e. auto.
  - right. unfold ok, eof in H2. destruct i1; [|discriminate]. injection H2 as <-. rewrite !app_nil_r in *. subst u.
    split; auto. split; auto. destruct t; [discriminate|congruence].
Qed.
Lemma scl_inv_eol i i' x : ok space_comment i i tt -> ok space_comment_line i i' x -> exists e, eol e /\ i = e ++ i'.
Proof.
  intros Hs H. apply pmap_inv in H as (u & H & _). apply pverify_inv in H as (H & Hu).
  apply recognize_inv in H as (a & H & E); [|auto 10 with total].
  apply terminated_inv in H as (i1 & b & H1 & H2). unfold ok in H1, Hs. rewrite Hs in H1. injection H1 as <- <-.
  apply palt_inv in H2 as [H2|[_ H2]].
  - apply line_ending_inv in H2 as (e & -> & He). exists e. auto.
  - unfold ok, eof in H2. destruct i; [|discriminate]. injection H2 as <-. rewrite app_nil_r in E. subst u. discriminate.
Qed.

(** the loop of [many0]/[many1] over complete lines *)
Lemma many_loop_lines : forall ls fuel acc k, Forall junk_line ls -> length (concat ls ++ k) < fuel ->
  exists fuel' acc', length k < fuel' /\
  many_loop fuel space_comment_line acc (concat ls ++ k) = many_loop fuel' space_comment_line acc' k.
Proof.
  induction ls as [|l ls IH]; intros fuel acc k HF Hl.
  - exists fuel, acc. auto.
  - inversion HF as [|? ? Hj HF']; subst. destruct fuel as [|fuel]; [lia|]. cbn [concat many_loop] in *.
    pose proof (junk_line_nonempty l Hj) as Hn. rewrite <- app_assoc in *.
    pose proof (scl_ok_line l (concat ls ++ k) Hj) as E. unfold ok in E. rewrite E. cbn [bind].
    assert (0 < length l) by (destruct l; [congruence|simpl; lia]).
    destruct (Nat.eqb_spec (length (concat ls ++ k)) (length (l ++ concat ls ++ k))) as [C|_]; [rewrite (app_length l) in C; lia|].
    apply IH; auto. rewrite (app_length l) in Hl. lia.
Qed.
Lemma many_loop_stop k fuel acc : bad space_comment_line k -> length k < fuel ->
  many_loop fuel space_comment_line acc k = Ret (Some (k, acc)).
Proof. intros H Hf. destruct fuel; [lia|]. cbn [many_loop]. unfold bad in H. rewrite H. reflexivity. Qed.
Lemma many_loop_end t fuel acc : trail t -> length t < fuel ->
  exists acc', many_loop fuel space_comment_line acc t = Ret (Some ([], acc')).
Proof.
  intros Ht Hf. destruct t as [|c t].
  - exists acc. apply many_loop_stop; auto. apply scl_bad_nil.
  - assert (H : ok space_comment_line (c :: t) [] tt) by (apply scl_ok_end; [auto|discriminate]).
    destruct fuel; [lia|]. cbn [many_loop]. unfold ok in H. rewrite H. cbn [bind length Nat.eqb].
    exists (acc ++ [tt]). apply many_loop_stop; [apply scl_bad_nil|]. simpl in *. lia.
Qed.

Lemma many0_scl_ok ls k : Forall junk_line ls -> bad space_comment_line k ->
  exists x, ok (many0 space_comment_line) (concat ls ++ k) k x.
Proof.
  intros HF Hk. unfold ok, many0. destruct (many_loop_lines ls (S (length (concat ls ++ k))) [] k HF) as (f & a & Hf & ->); [lia|].
  exists a. apply many_loop_stop; auto.
Qed.
Lemma many0_scl_end ls t : Forall junk_line ls -> trail t -> exists x, ok (many0 space_comment_line) (concat ls ++ t) [] x.
Proof.
  intros HF Hk. unfold ok, many0. destruct (many_loop_lines ls (S (length (concat ls ++ t))) [] t HF) as (f & a & Hf & ->); [lia|].
  apply many_loop_end; auto.
Qed.
Lemma many1_scl_ok l ls k : junk_line l -> Forall junk_line ls -> bad space_comment_line k ->
  exists x, ok (many1 space_comment_line) (l ++ concat ls ++ k) k x.
Proof.
  intros Hj HF Hk. destruct (many_loop_lines ls (S (length (concat ls ++ k))) [tt] k HF) as (f & a & Hf & E); [lia|].
  exists a. unfold many1. eapply pbind_ok; [apply scl_ok_line; auto|]. unfold ok. rewrite E. apply many_loop_stop; auto.
Qed.
Lemma many1_scl_end l ls t : junk_line l -> Forall junk_line ls -> trail t ->
  exists x, ok (many1 space_comment_line) (l ++ concat ls ++ t) [] x.
Proof.
  intros Hj HF Hk. destruct (many_loop_lines ls (S (length (concat ls ++ t))) [tt] t HF) as (f & a & Hf & E); [lia|].
  destruct (many_loop_end t f a Hk Hf) as (a' & E').
  exists a'. unfold many1. eapply pbind_ok; [apply scl_ok_line; auto|]. unfold ok. rewrite E. auto.
Qed.

Lemma many_loop_inv : forall fuel acc i i' l, many_loop fuel space_comment_line acc i = Ret (Some (i', l)) ->
  exists ls t, i = concat ls ++ t ++ i' /\ Forall junk_line ls /\ trail t /\ (t = [] \/ i' = []).
Proof.
  induction fuel as [|fuel IH]; intros acc i i' l; cbn [many_loop]; [discriminate|].
  intros E. apply bind_Ret_inv in E as ([[i1 o]|] & E1 & E2).
  - destruct (length i1 =? length i); [discriminate|]. apply IH in E2 as (ls & t & -> & HF & Ht & Ho).
    apply scl_inv in E1 as [(l1 & Hj & ->)|(E & Ht' & Hn)].
    + exists (l1 :: ls), t. simpl. rewrite <- app_assoc. auto.
    + apply app_eq_nil in E as [E1 E]. apply app_eq_nil in E as [_ ->]. exists [], i. rewrite app_nil_r. auto.
  - injection E2 as <- <-. exists [], []. simpl. split; auto. split; [constructor|]. split; [apply trail_nil|auto].
Qed.

Lemma many0_scl_inv i i' l : ok (many0 space_comment_line) i i' l ->
  exists ls t, i = concat ls ++ t ++ i' /\ Forall junk_line ls /\ trail t /\ (t = [] \/ i' = []).
Proof. apply many_loop_inv. Qed.

(** when blanks and comments have just been skipped *)
Lemma many0_scl_inv_eol i i' l : ok space_comment i i tt -> ok (many0 space_comment_line) i i' l -> i' = [] ->
  i = [] \/ exists e ls t, i = e ++ concat ls ++ t /\ eol e /\ Forall junk_line ls /\ trail t.
Proof.
  intros Hs H ->. unfold ok, many0 in H. cbn [many_loop] in H.
  apply bind_Ret_inv in H as ([[i1 o]|] & E1 & E2).
  - right. destruct (length i1 =? length i); [discriminate|]. apply many_loop_inv in E2 as (ls & t & -> & HF & Ht & _).
    apply (scl_inv_eol _ _ _ Hs) in E1 as (e & He & ->). rewrite app_nil_r. exists e, ls, t. auto.
  - left. congruence.
Qed.
Lemma many1_scl_inv_eol i i' l : ok space_comment i i tt -> ok (many1 space_comment_line) i i' l -> i' <> [] ->
  exists e ls, i = e ++ concat ls ++ i' /\ eol e /\ Forall junk_line ls.
Proof.
  intros Hs H Hn. unfold many1 in H. apply pbind_inv in H as (i1 & a & H1 & H2).
  apply (scl_inv_eol _ _ _ Hs) in H1 as (e & He & ->). unfold ok in H2.
  apply many_loop_inv in H2 as (ls & t & -> & HF & Ht & [->|?]); [|congruence]. exists e, ls. auto.
Qed.

(** ** Separated lists *)
Section SepComplete.
  Context {A B : Type} (sep : P B) (p : P A) (S : str -> Prop) (I : A -> str -> Prop) (F : str -> Prop).
  Hypothesis HI : forall a u k, I a u -> F k -> ok p (u ++ k) k a.
  Hypothesis HS : forall s a u k, S s -> I a u -> exists b, ok sep (s ++ u ++ k) (u ++ k) b.
  Hypothesis HSn : forall s, S s -> s <> [].
  Hypothesis HF : forall s k, S s -> F (s ++ k).

  Definition sep_stop (rest : str) : Prop :=
    F rest /\ (bad sep rest \/ exists i1 b, ok sep rest i1 b /\ length i1 <> length rest /\ bad p i1).

  Lemma sep_loop_stop rest acc fuel : sep_stop rest -> length rest < fuel ->
    sep_loop fuel sep p acc rest = Ret (Some (rest, acc)).
  Proof.
    intros [_ Hs] Hf. destruct fuel; [lia|]. cbn [sep_loop]. destruct Hs as [Hs|(i1 & b & H1 & H2 & H3)].
    - unfold bad in Hs. rewrite Hs. reflexivity.
    - unfold ok, bad in *. rewrite H1. cbn [bind]. apply Nat.eqb_neq in H2. rewrite H2, H3. reflexivity.
  Qed.

  Lemma sep_loop_ok l v : sep_by S I l v -> forall s rest acc fuel, S s -> sep_stop rest ->
    length (s ++ v ++ rest) < fuel -> sep_loop fuel sep p acc (s ++ v ++ rest) = Ret (Some (rest, acc ++ l)).
  Proof.
    induction 1 as [a u Hu|a u s' l v Hu Hs' Hv IH]; intros s rest acc fuel Hs Hr Hf;
      (destruct fuel as [|fuel]; [lia|]); cbn [sep_loop].
    - destruct (HS s a u rest Hs Hu) as (b & E). unfold ok in E. rewrite E. cbn [bind].
      assert (0 < length s) by (pose proof (HSn s Hs); destruct s; [congruence|simpl; lia]).
      destruct (Nat.eqb_spec (length (u ++ rest)) (length (s ++ u ++ rest))) as [C|_]; [rewrite (app_length s) in C; lia|].
      pose proof (HI a u rest Hu (proj1 Hr)) as E'. unfold ok in E'. rewrite E'. cbn [bind].
      apply sep_loop_stop; auto. rewrite !app_length in Hf. lia.
    - rewrite <- !app_assoc in *. destruct (HS s a u (s' ++ v ++ rest) Hs Hu) as (b & E). unfold ok in E. rewrite E. cbn [bind].
      assert (0 < length s) by (pose proof (HSn s Hs); destruct s; [congruence|simpl; lia]).
      destruct (Nat.eqb_spec (length (u ++ s' ++ v ++ rest)) (length (s ++ u ++ s' ++ v ++ rest))) as [C|_];
        [rewrite (app_length s) in C; lia|].
      pose proof (HI a u (s' ++ v ++ rest) Hu (HF _ _ Hs')) as E'. unfold ok in E'. rewrite E'. cbn [bind].
      rewrite IH; auto.
      + rewrite <- app_assoc. reflexivity.
      + rewrite !app_length in *. lia.
  Qed.

  Lemma separated_list1_ok l v rest : sep_by S I l v -> sep_stop rest -> ok (separated_list1 sep p) (v ++ rest) rest l.
  Proof.
    intros Hv Hr. unfold separated_list1. inversion Hv; subst.
    - eapply pbind_ok; [apply HI; eauto; apply Hr|]. apply sep_loop_stop; auto.
    - rewrite <- !app_assoc. eapply pbind_ok; [apply HI; eauto|]. unfold ok. erewrite sep_loop_ok; eauto. reflexivity.
  Qed.

  Lemma separated_list0_ok l v rest : sep_by S I l v -> sep_stop rest -> ok (separated_list0 sep p) (v ++ rest) rest l.
  Proof.
    intros Hv Hr. pose proof (separated_list1_ok l v rest Hv Hr) as H. unfold separated_list1, separated_list0, ok, pbind in *.
    destruct (p (v ++ rest)) as [[[i1 a]|]| |]; cbn [bind] in *; auto. discriminate.
  Qed.
End SepComplete.

Section SepSound.
  Context {A B : Type} (sep : P B) (p : P A) (S : str -> Prop) (I : A -> str -> Prop).
  Hypothesis HI : forall i i' a, ok p i i' a -> exists u, i = u ++ i' /\ I a u.
  Hypothesis HS : forall i i' b, ok sep i i' b -> exists s, i = s ++ i' /\ S s.

  Lemma sep_loop_inv : forall fuel acc i i' l, sep_loop fuel sep p acc i = Ret (Some (i', l)) ->
    (l = acc /\ i' = i) \/ exists s v l2, l = acc ++ l2 /\ i = s ++ v ++ i' /\ S s /\ sep_by S I l2 v.
  Proof.
    induction fuel as [|fuel IH]; intros acc i i' l; cbn [sep_loop]; [discriminate|].
    intros E. apply bind_Ret_inv in E as ([[i1 b]|] & E1 & E2); [|injection E2 as <- <-; auto].
    destruct (length i1 =? length i); [discriminate|].
    apply bind_Ret_inv in E2 as ([[i2 a]|] & E2 & E3); [|injection E3 as <- <-; auto].
    apply HS in E1 as (s & -> & Hs). apply HI in E2 as (u & -> & Hu). right.
    apply IH in E3 as [(-> & ->)|(s' & v & l2 & -> & -> & Hs' & Hv)].
    - exists s, u, [a]. repeat split; auto. constructor. auto.
    - exists s, (u ++ s' ++ v), (a :: l2). rewrite <- !app_assoc. repeat split; auto. constructor; auto.
  Qed.

  Lemma separated_list1_inv i i' l : ok (separated_list1 sep p) i i' l -> exists v, i = v ++ i' /\ sep_by S I l v.
  Proof.
    intros H. apply pbind_inv in H as (i1 & a & H1 & H2). apply HI in H1 as (u & -> & Hu). unfold ok in H2.
    apply sep_loop_inv in H2 as [(-> & ->)|(s & v & l2 & -> & -> & Hs & Hv)].
    - exists u. split; auto. constructor. auto.
    - exists (u ++ s ++ v). rewrite <- !app_assoc. split; auto. simpl. constructor; auto.
  Qed.
  Lemma separated_list0_inv i i' l : ok (separated_list0 sep p) i i' l ->
    (l = [] /\ i' = i) \/ exists v, i = v ++ i' /\ sep_by S I l v.
  Proof.
    intros H. unfold ok, separated_list0 in H. apply bind_Ret_inv in H as ([[i1 a]|] & E1 & E2).
    - right. apply separated_list1_inv. unfold separated_list1. eapply pbind_ok; eauto.
    - left. injection E2 as <- <-. auto.
  Qed.
End SepSound.

(** ** Lists of tokens *)
Lemma tokens_stop rest : line_rest rest \/ (exists b k, blank b /\ rest = b ++ k /\ stop_tok k /\ nonspace k) ->
  stop_tok rest /\ (bad space1 rest \/ exists i1 b, ok space1 rest i1 b /\ length i1 <> length rest /\ stop_tok i1).
Proof.
  intros [H|(b & k & Hb & -> & Hk & Hn)].
  - split; [apply line_rest_stop; auto|]. left. apply space1_bad, line_rest_nonspace; auto.
  - destruct b as [|c b].
    + simpl. split; auto. left. apply space1_bad; auto.
    + assert (H1 : blank1 (c :: b)) by (split; [auto|discriminate]). split; [apply blank1_stop; auto|]. right.
      exists k, (c :: b). split; [apply space1_ok; auto|]. split; auto. rewrite app_length. simpl. lia.
Qed.

Lemma trail_then_rest t k : trail t -> line_rest k -> exists b k', blank b /\ t ++ k = b ++ k' /\ stop_tok k' /\ nonspace k'.
Proof.
  intros (b & c & -> & Hb & Hc) Hk. exists b, (c ++ k). rewrite <- app_assoc. split; auto. split; auto.
  destruct Hc as [->|(t & -> & _)].
  - split; [apply line_rest_stop|apply line_rest_nonspace]; auto.
  - split; reflexivity.
Qed.

Lemma token_starts a u k : token_text a u -> exists c k', u ++ k = c :: k' /\ starts c.
Proof. intros (Hl & ->). destruct (legal_starts a Hl) as (c & t & -> & Hc). simpl. eauto. Qed.

Lemma names_ok l v rest : sep_by blank1 token_text l v ->
  (exists b k, blank b /\ rest = b ++ k /\ stop_tok k /\ nonspace k) ->
  ok (separated_list1 space1 state_name) (v ++ rest) rest l /\ ok (separated_list0 space1 state_name) (v ++ rest) rest l.
Proof.
  intros Hv Hr. pose proof (tokens_stop rest (or_intror Hr)) as [Hs Hb].
  assert (Hstop : sep_stop space1 state_name stop_tok rest).
  { split; auto. destruct Hb as [Hb|(i1 & b & H1 & H2 & H3)]; auto. right. exists i1, b. split; auto. split; auto.
    apply state_name_bad; auto. }
  assert (HI : forall a u k, token_text a u -> stop_tok k -> ok state_name (u ++ k) k a).
  { intros a u k (Hl & ->) Hk. apply state_name_ok; auto. }
  assert (HS : forall s a u k, blank1 s -> token_text a u -> exists b, ok space1 (s ++ u ++ k) (u ++ k) b).
  { intros s a u k Hs' Ha. exists s. apply space1_ok; auto. destruct (token_starts a u k Ha) as (c & k' & -> & Hc).
    simpl. apply starts_space; auto. }
  assert (HSn : forall s, blank1 s -> s <> []) by (intros s (_ & H); auto).
  split.
  - exact (separated_list1_ok space1 state_name blank1 token_text stop_tok HI HS HSn (fun s k => blank1_stop s k) l v rest Hv Hstop).
  - exact (separated_list0_ok space1 state_name blank1 token_text stop_tok HI HS HSn (fun s k => blank1_stop s k) l v rest Hv Hstop).
Qed.

Lemma names_inv i i' l : ok (separated_list1 space1 state_name) i i' l -> exists v, i = v ++ i' /\ sep_by blank1 token_text l v.
Proof.
  apply separated_list1_inv.
  - intros j j' a H. apply state_name_inv in H as (-> & Hl & _). exists a. split; auto. split; auto.
  - intros j j' b H. apply space1_inv in H as (-> & Hb & _). eauto.
Qed.

Lemma sep_by_starts {A} (S : str -> Prop) (I : A -> str -> Prop) (HI : forall a u, I a u -> exists c u', u = c :: u' /\ starts c) l v :
  sep_by S I l v -> exists c v', v = c :: v' /\ starts c.
Proof.
  intros H. inversion H; subst.
  - eauto.
  - destruct (HI _ _ H0) as (c & u' & -> & Hc). simpl. eauto.
Qed.
Lemma token_text_starts a u : token_text a u -> exists c u', u = c :: u' /\ starts c.
Proof. intros (Hl & ->). apply legal_starts; auto. Qed.

(** ** The header of a DFA *)
Lemma dfa_head_ok h u t k : dfa_head_text h u -> trail t -> line_rest k -> ok dfa_head (u ++ t ++ k) k h.
Proof.
  intros (b & ts & -> & Hb & Hts) Ht Hk. unfold dfa_head. rewrite <- app_assoc. eapply delimited_ok.
  - apply space0_ok; auto. destruct (sep_by_starts _ _ token_text_starts _ _ Hts) as (c & v & -> & Hc). simpl. apply starts_space; auto.
  - apply (names_ok h ts (t ++ k)); auto. apply trail_then_rest; auto.
  - apply space_comment_ok; auto.
Qed.
Lemma dfa_head_inv i i' h : ok dfa_head i i' h -> exists u t, i = u ++ t ++ i' /\ dfa_head_text h u /\ trail t.
Proof.
  intros H. apply delimited_inv in H as (i1 & b & i2 & c & H1 & H2 & H3).
  apply space0_inv in H1 as (-> & Hb & _). apply names_inv in H2 as (v & -> & Hv).
  apply space_comment_inv in H3 as (t & -> & Ht & _). exists (b ++ v), t. rewrite <- app_assoc. split; auto. split; auto.
  exists b, v. auto.
Qed.

(** ** Beginnings of lines *)
Lemma arrow_ok w k : arrow_text w -> ok p_arrow (w ++ k) k tt.
Proof.
  intros [-> | ->]; unfold p_arrow; apply (pmap_ok (fun _ => tt) _ _ _ tt).
  - apply palt_ok_l. apply (tag_ok [45; 62]%N).
  - apply palt_ok_r; [reflexivity|apply (tag_ok [8594]%N)].
Qed.
Lemma arrow_inv i i' x : ok p_arrow i i' x -> exists w, i = w ++ i' /\ arrow_text w.
Proof.
  intros H. apply pmap_inv in H as (y & H & _). apply palt_inv in H as [H|[_ H]]; apply tag_inv in H as ->;
  eexists; split; eauto; unfold arrow_text; auto.
Qed.

(** a legal token cannot be mistaken for an arrow or a star followed by blanks *)
Lemma prefix_of w name k i1 : name ++ k = w ++ i1 -> (forall c, In c w -> token_end c = false) -> stop_tok k ->
  exists r, name = w ++ r /\ i1 = r ++ k.
Proof.
  intros E Hw Hk. apply app_eq_app in E as (l & [(-> & ->)|(-> & ->)]).
  - eauto.
  - destruct l as [|c l].
    + exists []. rewrite !app_nil_r. auto.
    + exfalso. simpl in Hk. rewrite (Hw c) in Hk; [discriminate|]. apply in_or_app. right. left. auto.
Qed.
Lemma marker_bad (p : P unit) w name k i1 x : ok p (name ++ k) i1 x -> name ++ k = w ++ i1 -> In w reserved_words ->
  legal_token name -> stop_tok k -> bad (terminated p space1) (name ++ k).
Proof.
  intros H E Hw Hl Hk. eapply terminated_bad2; [exact H|]. apply space1_bad.
  assert (Hc : forall c, In c w -> token_end c = false).
  { simpl in Hw. destruct Hw as [<- |[<- |[<- |[<- |[<- |[]]]]]]; simpl; intros c Hc; intuition (subst; reflexivity). }
  destruct (prefix_of w name k i1 E Hc Hk) as (r & -> & ->).
  destruct r as [|c r].
  - exfalso. destruct Hl as (_ & _ & Hl). rewrite app_nil_r in Hl. auto.
  - simpl. apply starts_space. apply legal_token_iff in Hl as (_ & Hl & _). apply Hl. apply in_or_app. right. left. auto.
Qed.
Lemma no_arrow name k : legal_token name -> stop_tok k -> bad (terminated p_arrow space1) (name ++ k).
Proof.
  intros Hl Hk. destruct (total_ok_or_bad p_arrow (name ++ k) total_p_arrow) as [(i1 & x & H)|H]; [|apply terminated_bad; auto].
  pose proof H as H'. apply arrow_inv in H' as (w & E & Hw). apply (marker_bad _ w _ _ _ _ H E); auto.
  destruct Hw as [-> | ->]; simpl; auto.
Qed.
Lemma no_accepting name k : legal_token name -> stop_tok k -> bad (terminated p_accepting space1) (name ++ k).
Proof.
  intros Hl Hk. destruct (total_ok_or_bad p_accepting (name ++ k) total_p_accepting) as [(i1 & x & H)|H]; [|apply terminated_bad; auto].
  pose proof H as H'. apply pmap_inv in H' as (y & H' & _). apply tag_inv in H'.
  apply (marker_bad _ [42%N] _ _ _ _ H H'); auto. do 4 right. left. reflexivity.
Qed.

Lemma line_prefix_ok {A} (tp : P A) initial accepting name st b ts k0 k :
  line_start initial accepting name st -> blank1 b -> nonspace k0 -> ok tp k0 k ts ->
  ok (line_prefix tp) (st ++ b ++ k0) k (initial, accepting, name, ts).
Proof.
  intros (a & s & -> & Ha & Hs & Hl) Hb Hn Ht. unfold line_prefix. rewrite <- !app_assoc.
  assert (Hname : forall k', nonspace (name ++ k')).
  { intros k'. destruct (legal_starts name Hl) as (c & t & -> & Hc). simpl. apply starts_space; auto. }
  assert (Hsn : forall k', nonspace (s ++ name ++ k')).
  { intros k'. destruct accepting; [|subst s; apply Hname]. destruct Hs as (b' & -> & _). reflexivity. }
  eapply pbind_ok with (i1 := s ++ name ++ b ++ k0) (a := if initial then Some tt else None).
  { destruct initial.
    - destruct Ha as (w & b' & -> & Hw & Hb'). rewrite <- app_assoc. apply popt_some. eapply terminated_ok.
      + apply arrow_ok; auto.
      + apply space1_ok; auto.
    - subst a. simpl. apply popt_none. destruct accepting.
      + destruct Hs as (b' & -> & _). apply terminated_bad. reflexivity.
      + subst s. simpl. apply no_arrow; auto. apply blank1_stop; auto. }
  eapply pbind_ok with (i1 := name ++ b ++ k0) (a := if accepting then Some tt else None).
  { destruct accepting.
    - destruct Hs as (b' & -> & Hb'). apply popt_some. eapply terminated_ok.
      + reflexivity.
      + apply space1_ok; auto.
    - subst s. apply popt_none. apply no_accepting; auto. apply blank1_stop; auto. }
  eapply pbind_ok with (i1 := k0) (a := name).
  { eapply terminated_ok.
    - apply state_name_ok; auto. apply blank1_stop; auto.
    - apply space1_ok; auto. }
  destruct initial, accepting; apply (pmap_ok _ _ _ _ _ Ht).
Qed.

Lemma line_prefix_inv {A} (tp : P A) i i' initial accepting name ts :
  ok (line_prefix tp) i i' (initial, accepting, name, ts) ->
  exists st b k0, i = st ++ b ++ k0 /\ line_start initial accepting name st /\ blank1 b /\ ok tp k0 i' ts.
Proof.
  intros H. unfold line_prefix in H. apply pbind_inv in H as (i1 & oa & H1 & H). apply pbind_inv in H as (i2 & os & H2 & H).
  apply pbind_inv in H as (i3 & nm & H3 & H). apply pmap_inv in H as (ts' & H4 & E).
  injection E as -> -> -> ->. apply terminated_inv in H3 as (i4 & b & H3 & H5).
  apply state_name_inv in H3 as (-> & Hl & _). apply space1_inv in H5 as (-> & Hb & _).
  apply popt_inv in H1, H2.
  assert (Hs : exists s, i1 = s ++ nm ++ b ++ i3 /\
     if match os with Some _ => true | None => false end then exists b, s = 42%N :: b /\ blank1 b else s = []).
  { destruct os as [[]|].
    - apply terminated_inv in H2 as (i5 & b' & H2 & H6). apply pmap_inv in H2 as (y & H2 & _). apply tag_inv in H2 as ->.
      apply space1_inv in H6 as (-> & Hb' & _). exists (42%N :: b'). split; auto. exists b'. auto.
    - destruct H2 as [_ ->]. exists []. auto. }
  destruct Hs as (s & -> & Hs).
  assert (Ha : exists a, i = a ++ s ++ nm ++ b ++ i3 /\
     if match oa with Some _ => true | None => false end then exists w b, a = w ++ b /\ arrow_text w /\ blank1 b else a = []).
  { destruct oa as [[]|].
    - apply terminated_inv in H1 as (i5 & b' & H1 & H6). apply arrow_inv in H1 as (w & -> & Hw).
      apply space1_inv in H6 as (-> & Hb' & _). exists (w ++ b'). split; [rewrite <- app_assoc; auto|]. exists w, b'. auto.
    - destruct H1 as [_ <-]. exists []. auto. }
  destruct Ha as (a & -> & Ha). exists (a ++ s ++ nm), b, i3. rewrite <- !app_assoc. split; auto. split; auto.
  exists a, s. auto.
Qed.

Lemma line_start_starts i a n st : line_start i a n st -> exists c st', st = c :: st' /\ starts c.
Proof.
  intros (u & s & -> & Hu & Hs & Hl). destruct i.
  - destruct Hu as (w & b & -> & Hw & _). destruct Hw as [-> | ->]; simpl; eexists; eexists; (split; [reflexivity|reflexivity]).
  - subst u. destruct a.
    + destruct Hs as (b & -> & _). simpl. eexists; eexists; (split; [reflexivity|reflexivity]).
    + subst s. simpl. apply legal_starts; auto.
Qed.

(** ** The lines of a DFA *)
Lemma dfa_line_ok s u t k : dfa_line_text s u -> trail t -> line_rest k -> ok dfa_line (u ++ t ++ k) k s.
Proof.
  intros (b0 & st & b & ts & -> & Hb0 & Hb & Hst & Hts) Ht Hk. unfold dfa_line. rewrite <- !app_assoc.
  destruct s as [nm ini acc tr]; simpl in *.
  apply (pmap_ok (fun '(initial, accepting, name, transitions) =>
          {| pds_name := name; pds_initial := initial; pds_accepting := accepting; pds_transitions := transitions |}) _ _ _
          (ini, acc, nm, tr)).
  eapply delimited_ok.
  - apply space0_ok; auto. destruct (line_start_starts _ _ _ _ Hst) as (c & st' & -> & Hc). simpl. apply starts_space; auto.
  - apply line_prefix_ok; eauto.
    + destruct (sep_by_starts _ _ token_text_starts _ _ Hts) as (c & v & -> & Hc). simpl. apply starts_space; auto.
    + apply (names_ok tr ts (t ++ k)); auto. apply trail_then_rest; auto.
  - apply space_comment_ok; auto.
Qed.
Lemma dfa_line_inv i i' s : ok dfa_line i i' s ->
  exists u t, i = u ++ t ++ i' /\ dfa_line_text s u /\ trail t /\ ok space_comment i' i' tt.
Proof.
  intros H. apply pmap_inv in H as ([[[ini acc] nm] tr] & H & ->). apply delimited_inv in H as (i1 & b & i2 & c & H1 & H2 & H3).
  apply space0_inv in H1 as (-> & Hb & _). apply line_prefix_inv in H2 as (st & b' & k0 & -> & Hst & Hb' & H2).
  apply names_inv in H2 as (v & -> & Hv). apply space_comment_inv in H3 as (t & -> & Ht & Hs).
  exists (b ++ st ++ b' ++ v), t. rewrite <- !app_assoc. split; auto. split; auto.
  exists b, st, b', v. auto.
Qed.
Lemma line_bad_nil {A} (tp : P A) {C} (f : _ -> C) : bad (pmap f (delimited space0 (line_prefix tp) space_comment)) [].
Proof. reflexivity. Qed.

(** ** NFA headers and lines *)
Lemma entry_starts e u : entry_text e u -> exists c u', u = c :: u' /\ starts c.
Proof.
  destruct e as [a|]; simpl.
  - apply token_text_starts.
  - intros [-> | ->]; eexists; eexists; (split; [reflexivity|reflexivity]).
Qed.
Definition entry_parser : P nfa_entry := palt (pmap Element alphabet_elem) (pvalue Eps p_eps).
Lemma entry_ok e u k : entry_text e u -> stop_tok k -> ok entry_parser (u ++ k) k e.
Proof.
  destruct e as [a|]; simpl; intros Hu Hk.
  - destruct Hu as (Hl & ->). apply palt_ok_l. apply (pmap_ok Element). apply state_name_ok; auto.
  - apply palt_ok_r.
    + apply pmap_bad. apply state_name_bad_reserved; auto. destruct Hu as [-> | ->]; simpl; auto.
    + apply (pmap_ok (fun _ => Eps) _ _ _ tt). unfold p_eps. apply (pmap_ok (fun _ => tt) _ _ _ tt).
      destruct Hu as [-> | ->].
      * apply palt_ok_l. apply (tag_ok [949%N]).
      * apply palt_ok_r; [reflexivity|]. apply (tag_ok [101; 112; 115]%N).
Qed.
Lemma entry_inv i i' e : ok entry_parser i i' e -> exists u, i = u ++ i' /\ entry_text e u.
Proof.
  intros H. apply palt_inv in H as [H|[_ H]].
  - apply pmap_inv in H as (a & H & ->). apply state_name_inv in H as (-> & Hl & _). exists a. split; auto. split; auto.
  - apply pmap_inv in H as (x & H & ->). apply pmap_inv in H as (y & H & _).
    apply palt_inv in H as [H|[_ H]]; apply tag_inv in H as ->; eexists; split; eauto; simpl; auto.
Qed.
Lemma entry_bad i : stop_tok i -> bad entry_parser i.
Proof.
  intros H. apply palt_bad.
  - apply pmap_bad. apply state_name_bad. auto.
  - apply pmap_bad, pmap_bad. apply palt_bad; apply tag_bad; intros k ->; simpl in H; vm_compute in H; discriminate.
Qed.

Lemma nfa_head_ok h u t k : nfa_head_text h u -> trail t -> line_rest k -> ok nfa_head (u ++ t ++ k) k h.
Proof.
  intros (b & ts & -> & Hb & Hts) Ht Hk. unfold nfa_head. rewrite <- app_assoc. eapply delimited_ok.
  - apply space0_ok; auto. destruct (sep_by_starts _ _ entry_starts _ _ Hts) as (c & v & -> & Hc). simpl. apply starts_space; auto.
  - apply (separated_list1_ok space1 entry_parser blank1 entry_text stop_tok).
    + intros a u k' Hu Hk'. apply entry_ok; auto.
    + intros s a u k' Hs Hu. exists s. apply space1_ok; auto. destruct (entry_starts _ _ Hu) as (c & u' & -> & Hc).
      simpl. apply starts_space; auto.
    + intros s (_ & H); auto.
    + intros s k'. apply blank1_stop.
    + exact Hts.
    + destruct (tokens_stop (t ++ k) (or_intror (trail_then_rest t k Ht Hk))) as [Hs Hb'].
      split; auto. destruct Hb' as [Hb'|(i1 & b' & H1 & H2 & H3)]; auto. right. exists i1, b'. split; auto. split; auto.
      apply entry_bad; auto.
  - apply space_comment_ok; auto.
Qed.
Lemma nfa_head_inv i i' h : ok nfa_head i i' h -> exists u t, i = u ++ t ++ i' /\ nfa_head_text h u /\ trail t.
Proof.
  intros H. apply delimited_inv in H as (i1 & b & i2 & c & H1 & H2 & H3).
  apply space0_inv in H1 as (-> & Hb & _).
  apply (separated_list1_inv space1 entry_parser blank1 entry_text) in H2 as (v & -> & Hv).
  - apply space_comment_inv in H3 as (t & -> & Ht & _). exists (b ++ v), t. rewrite <- app_assoc. split; auto. split; auto.
    exists b, v. auto.
  - intros j j' a. apply entry_inv.
  - intros j j' b' H. apply space1_inv in H as (-> & Hb' & _). eauto.
Qed.

Lemma set_starts ts u : set_text ts u -> exists u', u = 123%N :: u'.
Proof. intros (b1 & v & b2 & -> & _). simpl. eauto. Qed.
Lemma set_ok ts u k : set_text ts u -> ok state_set (u ++ k) k ts.
Proof.
  intros (b1 & v & b2 & -> & Hb1 & Hb2 & Hv). unfold state_set. rewrite <- !app_assoc.
  assert (Hend : exists b k', blank b /\ b2 ++ [125%N] ++ k = b ++ k' /\ stop_tok k' /\ nonspace k').
  { exists b2, ([125%N] ++ k). split; auto. split; auto. split; reflexivity. }
  eapply delimited_ok with (i2 := [125%N] ++ k).
  - apply (tag_ok [123%N]).
  - destruct Hv as [(-> & ->)|Hv].
    + simpl. eapply delimited_ok with (i1 := [125%N] ++ k) (i2 := [125%N] ++ k) (i3 := [125%N] ++ k).
      * rewrite app_assoc. apply space0_ok; [|reflexivity]. intros c Hc. apply in_app_iff in Hc as [Hc|Hc]; auto.
      * unfold ok, separated_list0. assert (E : bad state_name ([125%N] ++ k)) by (apply state_name_bad; reflexivity).
        unfold bad in E. rewrite E. reflexivity.
      * exact (space0_ok [] ([125%N] ++ k) blank_nil eq_refl).
    + eapply delimited_ok.
      * apply space0_ok; auto. destruct (sep_by_starts _ _ token_text_starts _ _ Hv) as (c & v' & -> & Hc). simpl.
        apply starts_space; auto.
      * apply (names_ok ts v _ Hv Hend).
      * exact (space0_ok b2 ([125%N] ++ k) Hb2 eq_refl).
  - apply (tag_ok [125%N]).
Qed.
Lemma set_inv i i' ts : ok state_set i i' ts -> exists u, i = u ++ i' /\ set_text ts u.
Proof.
  intros H. apply delimited_inv in H as (i1 & x & i2 & y & H1 & H2 & H3). apply tag_inv in H1 as ->. apply tag_inv in H3 as ->.
  apply delimited_inv in H2 as (i3 & b1 & i4 & b2 & H1 & H2 & H3).
  apply space0_inv in H1 as (-> & Hb1 & _). apply space0_inv in H3 as (-> & Hb2 & _).
  apply (separated_list0_inv space1 state_name blank1 token_text) in H2 as [(-> & <-)|(v & -> & Hv)].
  - exists ([123%N] ++ b1 ++ [] ++ b2 ++ [125%N]). rewrite <- !app_assoc. split; auto. exists b1, [], b2. repeat (split; auto).
  - exists ([123%N] ++ b1 ++ v ++ b2 ++ [125%N]). rewrite <- !app_assoc. split; auto. exists b1, v, b2. auto.
  - intros j j' a H. apply state_name_inv in H as (-> & Hl & _). exists a. split; auto. split; auto.
  - intros j j' b H. apply space1_inv in H as (-> & Hb & _). eauto.
Qed.

Lemma sets_stop rest : line_rest rest \/ (exists b k, blank b /\ rest = b ++ k /\ stop_tok k /\ nonspace k /\ forall k', k <> 123%N :: k') ->
  sep_stop space1 state_set (fun _ => True) rest.
Proof.
  intros H. split; auto.
  assert (Hb : forall i, (forall k', i <> 123%N :: k') -> bad state_set i).
  { intros i Hi. apply preceded_bad. apply tag_bad. intros k ->. apply (Hi k). reflexivity. }
  destruct H as [H|(b & k & Hbl & -> & Hk & Hn & Hne)].
  - left. apply space1_bad, line_rest_nonspace; auto.
  - destruct b as [|c b].
    + left. apply space1_bad; auto.
    + right. exists k, (c :: b). split; [apply space1_ok; auto; split; [auto|discriminate]|]. split.
      * rewrite app_length. simpl. lia.
      * apply Hb; auto.
Qed.
Lemma trail_then_rest_set t k : trail t -> line_rest k ->
  exists b k', blank b /\ t ++ k = b ++ k' /\ stop_tok k' /\ nonspace k' /\ forall k'', k' <> 123%N :: k''.
Proof.
  intros (b & c & -> & Hb & Hc) Hk. exists b, (c ++ k). rewrite <- app_assoc. split; auto. split; auto.
  destruct Hc as [->|(t & -> & _)].
  - split; [apply line_rest_stop; auto|]. split; [apply line_rest_nonspace; auto|]. simpl. intros k' ->.
    destruct Hk as [Hk|(e & k'' & He & Hk)]; [discriminate|]. destruct He as [-> | ->]; discriminate.
  - split; [reflexivity|]. split; [reflexivity|]. discriminate.
Qed.

Lemma nfa_line_ok s u t k : nfa_line_text s u -> trail t -> line_rest k -> ok nfa_line (u ++ t ++ k) k s.
Proof.
  intros (b0 & st & b & ts & -> & Hb0 & Hb & Hst & Hts) Ht Hk. unfold nfa_line. rewrite <- !app_assoc.
  destruct s as [nm ini acc tr]; simpl in *.
  apply (pmap_ok (fun '(initial, accepting, name, transitions) =>
          {| pns_name := name; pns_initial := initial; pns_accepting := accepting; pns_transitions := transitions |}) _ _ _
          (ini, acc, nm, tr)).
  assert (Hset : forall a u k', set_text a u -> nonspace (u ++ k')).
  { intros a u k' Hu. destruct (set_starts _ _ Hu) as (u' & ->). reflexivity. }
  eapply delimited_ok.
  - apply space0_ok; auto. destruct (line_start_starts _ _ _ _ Hst) as (c & st' & -> & Hc). simpl. apply starts_space; auto.
  - apply line_prefix_ok; eauto.
    + inversion Hts; subst; [|rewrite <- app_assoc]; eapply Hset; eauto.
    + apply (separated_list1_ok space1 state_set blank1 set_text (fun _ => True)); auto.
      * intros a u k' Hu _. apply set_ok; auto.
      * intros s a u k' Hs Hu. exists s. apply space1_ok; auto. eapply Hset; eauto.
      * intros s (_ & H); auto.
      * apply sets_stop. right. apply trail_then_rest_set; auto.
  - apply space_comment_ok; auto.
Qed.
Lemma nfa_line_inv i i' s : ok nfa_line i i' s ->
  exists u t, i = u ++ t ++ i' /\ nfa_line_text s u /\ trail t /\ ok space_comment i' i' tt.
Proof.
  intros H. apply pmap_inv in H as ([[[ini acc] nm] tr] & H & ->). apply delimited_inv in H as (i1 & b & i2 & c & H1 & H2 & H3).
  apply space0_inv in H1 as (-> & Hb & _). apply line_prefix_inv in H2 as (st & b' & k0 & -> & Hst & Hb' & H2).
  apply (separated_list1_inv space1 state_set blank1 set_text) in H2 as (v & -> & Hv).
  - apply space_comment_inv in H3 as (t & -> & Ht & Hs).
    exists (b ++ st ++ b' ++ v), t. rewrite <- !app_assoc. split; auto. split; auto.
    exists b, st, b', v. auto.
  - intros j j' a. apply set_inv.
  - intros j j' b'' H. apply space1_inv in H as (-> & Hb'' & _). eauto.
Qed.

(** ** Whole tables *)
Section Full.
  Context {H L : Type} (hp : P H) (lp : P L) (HT : H -> str -> Prop) (LT : L -> str -> Prop).
  Hypothesis hp_ok : forall h u t k, HT h u -> trail t -> line_rest k -> ok hp (u ++ t ++ k) k h.
  Hypothesis hp_inv : forall i i' h, ok hp i i' h -> exists u t, i = u ++ t ++ i' /\ HT h u /\ trail t.
  Hypothesis hp_starts : forall h u, HT h u -> exists b c u', u = b ++ c :: u' /\ blank b /\ starts c.
  Hypothesis lp_ok : forall h u t k, LT h u -> trail t -> line_rest k -> ok lp (u ++ t ++ k) k h.
  Hypothesis lp_inv : forall i i' h, ok lp i i' h ->
    exists u t, i = u ++ t ++ i' /\ LT h u /\ trail t /\ ok space_comment i' i' tt.
  Hypothesis lp_starts : forall h u, LT h u -> exists b c u', u = b ++ c :: u' /\ blank b /\ starts c.
  Hypothesis lp_nil : bad lp [].

  Definition full_text (h : H) (l : list L) (u : str) : Prop :=
    exists j0 ht j1 body j2 t, u = j0 ++ ht ++ j1 ++ body ++ j2 ++ t /\
      junk j0 /\ HT h ht /\ junk1 j1 /\ sep_by junk1 LT l body /\ junk j2 /\ trail t.

  Definition full_parser : P (H * list L) :=
    delimited (many0 space_comment_line)
              (ppair (terminated hp line_ending)
                     (preceded (many0 space_comment_line) (separated_list1 (many1 space_comment_line) lp)))
              (many0 space_comment_line).

  (** lines with their trails, separated by line ends and junk *)
  Definition item (a : L) (u' : str) : Prop := exists u t, u' = u ++ t /\ LT a u /\ trail t.
  Definition gap (s : str) : Prop := exists e ls, s = e ++ concat ls /\ eol e /\ Forall junk_line ls.

  Lemma regroup l v t : sep_by junk1 LT l v -> trail t -> sep_by gap item l (v ++ t).
  Proof.
    induction 1 as [a u Hu|a u s l v Hu Hs Hv IH]; intros Ht.
    - constructor. exists u, t. auto.
    - destruct Hs as (j & ls & -> & (t1 & e & -> & Ht1 & He) & HF).
      replace ((u ++ ((t1 ++ e) ++ concat ls) ++ v) ++ t) with ((u ++ t1) ++ (e ++ concat ls) ++ (v ++ t))
        by (rewrite <- !app_assoc; reflexivity).
      constructor; auto.
      + exists u, t1. auto.
      + exists e, ls. auto.
  Qed.

  Lemma starts_bad b c k : blank b -> starts c -> bad space_comment_line (b ++ c :: k).
  Proof. apply scl_bad_starts. Qed.

  Lemma lines_ok l v rest : sep_by gap item l v ->
    (rest = [] \/ exists e ls t, rest = e ++ concat ls ++ t /\ eol e /\ Forall junk_line ls /\ trail t) ->
    ok (separated_list1 (many1 space_comment_line) lp) (v ++ rest) rest l.
  Proof.
    intros Hv Hr. apply (separated_list1_ok (many1 space_comment_line) lp gap item line_rest); auto.
    - intros a u k (u' & t & -> & Hu & Ht) Hk. rewrite <- app_assoc. apply lp_ok; auto.
    - intros s a u k (e & ls & -> & He & HF) (u' & t & -> & Hu & Ht). rewrite <- !app_assoc.
      destruct (lp_starts _ _ Hu) as (b & c & u'' & -> & Hb & Hc).
      apply many1_scl_ok; auto.
      + exists [], e. split; auto. split; auto. apply trail_nil.
      + rewrite <- app_assoc. simpl. apply starts_bad; auto.
    - intros s (e & ls & -> & He & _) E. apply app_eq_nil in E as [E _]. exact (eol_nonempty e He E).
    - intros s k (e & ls & -> & He & _). rewrite <- app_assoc. apply line_rest_eol; auto.
    - split.
      + destruct Hr as [->|(e & ls & t & -> & He & _)]; [left; auto|apply line_rest_eol; auto].
      + destruct Hr as [->|(e & ls & t & -> & He & HF & Ht)].
        * left. apply pbind_bad. apply scl_bad_nil.
        * right. destruct (many1_scl_end e ls t) as (x & Hx); auto.
          { exists [], e. split; auto. split; auto. apply trail_nil. }
          exists [], x. split; auto. split; auto. rewrite app_length. simpl.
          pose proof (eol_nonempty e He). destruct e; [congruence|simpl; lia].
  Qed.

  Lemma full_ok h l u : full_text h l u -> ok full_parser u [] (h, l).
  Proof.
    intros (j0 & ht & j1 & body & j2 & t & -> & (ls0 & -> & HF0) & Hh & (l1 & ls1 & -> & (t1 & e1 & -> & Ht1 & He1) & HF1) & Hbody & (ls2 & -> & HF2) & Ht).
    destruct (hp_starts _ _ Hh) as (hb & hc & hu & Ehu & Hhb & Hhc).
    assert (Hbs : exists b c v, body = b ++ c :: v /\ blank b /\ starts c).
    { inversion Hbody as [a u0 Hu|a u0 s l' v Hu Hs Hv]; subst.
      - apply (lp_starts _ _ Hu).
      - destruct (lp_starts _ _ Hu) as (b & c & u' & -> & Hb & Hc). exists b, c, (u' ++ s ++ v). rewrite <- app_assoc. auto. }
    destruct Hbs as (bb & bc & bv & Eb & Hbb & Hbc).
    (* the body with its trailing junk *)
    assert (Htail : exists v rest, body ++ concat ls2 ++ t = v ++ rest /\ sep_by gap item l v /\
      (rest = [] \/ exists e ls t, rest = e ++ concat ls ++ t /\ eol e /\ Forall junk_line ls /\ trail t)).
    { destruct ls2 as [|l2 ls2].
      - exists (body ++ t), []. simpl. rewrite app_nil_r. split; auto. split; [apply regroup; auto|auto].
      - inversion HF2 as [|? ? (t2 & e2 & -> & Ht2 & He2) HF2']; subst.
        exists ((bb ++ bc :: bv) ++ t2), (e2 ++ concat ls2 ++ t). cbn [concat]. rewrite <- !app_assoc. split; auto. split.
        + change (bb ++ (bc :: bv) ++ t2) with (bb ++ (bc :: bv) ++ t2). rewrite app_assoc. apply regroup; auto.
        + right. exists e2, ls2, t. auto. }
    destruct Htail as (v & rest & Ev & Hv & Hrest).
    destruct (many0_scl_ok ls0 (ht ++ ((t1 ++ e1) ++ concat ls1) ++ body ++ concat ls2 ++ t)) as (x0 & H0); auto.
    { rewrite Ehu, <- app_assoc. simpl. apply starts_bad; auto. }
    destruct (many0_scl_ok ls1 (body ++ concat ls2 ++ t)) as (x1 & H1); auto.
    { rewrite Eb, <- app_assoc. simpl. apply starts_bad; auto. }
    assert (H2 : exists x, ok (many0 space_comment_line) rest [] x).
    { destruct Hrest as [->|(e & ls & t' & -> & He & HF & Ht')].
      - exact (many0_scl_end [] [] (Forall_nil _) trail_nil).
      - rewrite app_assoc. change (e ++ concat ls) with (concat (e :: ls)). apply many0_scl_end; auto. constructor; auto.
        exists [], e. split; auto. split; auto. apply trail_nil. }
    destruct H2 as (x2 & H2).
    unfold full_parser. eapply delimited_ok; [exact H0| |exact H2].
    rewrite <- !app_assoc. eapply ppair_ok.
    - eapply terminated_ok.
      + apply hp_ok; auto. apply line_rest_eol; auto.
      + apply line_ending_ok; auto.
    - eapply preceded_ok; [exact H1|]. rewrite Ev. apply lines_ok; auto.
  Qed.

  Lemma lines_inv : forall fuel acc i i' l, ok space_comment i i tt ->
    sep_loop fuel (many1 space_comment_line) lp acc i = Ret (Some (i', l)) ->
    ok space_comment i' i' tt /\
    ((l = acc /\ i' = i) \/
     exists l2 e ls body t, l = acc ++ l2 /\ i = e ++ concat ls ++ body ++ t ++ i' /\ eol e /\ Forall junk_line ls /\
                            sep_by junk1 LT l2 body /\ trail t).
  Proof.
    induction fuel as [|fuel IH]; intros acc i i' l Hs; cbn [sep_loop]; [discriminate|].
    intros E. apply bind_Ret_inv in E as ([[i1 b]|] & E1 & E2); [|injection E2 as <- <-; auto].
    destruct (length i1 =? length i); [discriminate|].
    apply bind_Ret_inv in E2 as ([[i2 a]|] & E2 & E3); [|injection E3 as <- <-; auto].
    pose proof (lp_inv _ _ _ E2) as (u & t & Ei1 & Hu & Ht & Hs2).
    assert (Hne : i1 <> []).
    { intros ->. unfold bad in lp_nil. congruence. }
    apply (many1_scl_inv_eol _ _ _ Hs) in E1 as (e & ls & -> & He & HF); auto. subst i1.
    apply (IH _ _ _ _ Hs2) in E3 as (Hs' & [(-> & ->)|(l2 & e' & ls' & body & t' & -> & -> & He' & HF' & Hbody & Ht')]); split; auto; right.
    - exists [a], e, ls, u, t. repeat split; auto. constructor. auto.
    - exists (a :: l2), e, ls, (u ++ ((t ++ e') ++ concat ls') ++ body), t'.
      assert (sep_by junk1 LT (a :: l2) (u ++ ((t ++ e') ++ concat ls') ++ body)).
      { constructor; auto. exists (t ++ e'), ls'. split; auto. split; auto. exists t, e'. auto. }
      rewrite <- !app_assoc in *. repeat split; auto.
  Qed.

  Lemma full_inv i h l : ok full_parser i [] (h, l) -> full_text h l i.
  Proof.
    intros E. apply delimited_inv in E as (i1 & x & i2 & y & E0 & E & E2).
    apply ppair_inv in E as (i3 & h' & l' & Eh & El & E). injection E as <- <-.
    apply terminated_inv in Eh as (i4 & z & Eh & Ee). apply preceded_inv in El as (i5 & w & Ej & El).
    apply hp_inv in Eh as (u & t1 & Ei1 & Hh & Ht1). apply line_ending_inv in Ee as (e1 & -> & He1).
    apply pbind_inv in El as (i6 & a & Ea & El). apply lp_inv in Ea as (ua & ta & Ei5 & Hua & Hta & Hsa).
    apply many0_scl_inv in E0 as (ls0 & t0 & -> & HF0 & Ht0 & Hc0).
    apply many0_scl_inv in Ej as (ls1 & tj & -> & HF1 & Htj & Hc1).
    destruct (hp_starts _ _ Hh) as (hb & hc & hu & Ehu & _). destruct (lp_starts _ _ Hua) as (lb & lc & lu & Elu & _).
    destruct Hc0 as [->|Hc0]; [|rewrite Hc0 in Ei1; symmetry in Ei1; apply app_eq_nil in Ei1 as [Ei1 _]; rewrite Ehu in Ei1;
                                apply app_eq_nil in Ei1 as [_ Ei1]; discriminate].
    destruct Hc1 as [->|Hc1]; [|rewrite Hc1 in Ei5; symmetry in Ei5; apply app_eq_nil in Ei5 as [Ei5 _]; rewrite Elu in Ei5;
                                apply app_eq_nil in Ei5 as [_ Ei5]; discriminate].
    unfold ok in El. apply (lines_inv _ _ _ _ _ Hsa) in El as (Hs2 & El).
    apply (many0_scl_inv_eol _ _ _ Hs2) in E2; auto.
    (* the body and the trail of its last line *)
    assert (Hbody : exists body tb, i5 = body ++ tb ++ i2 /\ sep_by junk1 LT l body /\ trail tb).
    { destruct El as [(-> & ->)|(l2 & e & ls & body & t & -> & -> & He & HF & Hb & Ht)].
      - exists ua, ta. split; auto. split; auto. constructor; auto.
      - exists (ua ++ ((ta ++ e) ++ concat ls) ++ body), t.
        assert (sep_by junk1 LT (a :: l2) (ua ++ ((ta ++ e) ++ concat ls) ++ body)).
        { constructor; auto. exists (ta ++ e), ls. split; [auto|]. split; auto. exists ta, e. auto. }
        rewrite <- !app_assoc in *. auto. }
    destruct Hbody as (body & tb & -> & Hb & Htb).
    subst i1. simpl app.
    assert (Htail : exists j2 t, tb ++ i2 = j2 ++ t /\ junk j2 /\ trail t).
    { destruct E2 as [->|(e & ls & t & -> & He & HF & Ht)].
      - exists [], tb. rewrite app_nil_r. split; auto. split; auto. exists []. auto.
      - exists ((tb ++ e) ++ concat ls), t. rewrite <- !app_assoc. split; auto. split; auto.
        exists ((tb ++ e) :: ls). split; [simpl; rewrite <- app_assoc; reflexivity|]. constructor; auto. exists tb, e. auto. }
    destruct Htail as (j2 & t & -> & Hj2 & Ht).
    exists (concat ls0), u, ((t1 ++ e1) ++ concat ls1), body, j2, t. rewrite <- !app_assoc. split; auto.
    split; [exists ls0; auto|]. split; auto. split; [|auto].
    exists (t1 ++ e1), ls1. rewrite <- app_assoc. split; auto. split; auto. exists t1, e1. auto.
  Qed.
End Full.

Lemma dfa_head_starts h u : dfa_head_text h u -> exists b c u', u = b ++ c :: u' /\ blank b /\ starts c.
Proof.
  intros (b & ts & -> & Hb & Hts). destruct (sep_by_starts _ _ token_text_starts _ _ Hts) as (c & v & -> & Hc). eauto 6.
Qed.
Lemma nfa_head_starts h u : nfa_head_text h u -> exists b c u', u = b ++ c :: u' /\ blank b /\ starts c.
Proof.
  intros (b & ts & -> & Hb & Hts). destruct (sep_by_starts _ _ entry_starts _ _ Hts) as (c & v & -> & Hc). eauto 6.
Qed.
Lemma dfa_line_starts s u : dfa_line_text s u -> exists b c u', u = b ++ c :: u' /\ blank b /\ starts c.
Proof.
  intros (b0 & st & b & ts & -> & Hb0 & Hb & Hst & Hts). destruct (line_start_starts _ _ _ _ Hst) as (c & st' & -> & Hc). simpl. eauto 6.
Qed.
Lemma nfa_line_starts s u : nfa_line_text s u -> exists b c u', u = b ++ c :: u' /\ blank b /\ starts c.
Proof.
  intros (b0 & st & b & ts & -> & Hb0 & Hb & Hst & Hts). destruct (line_start_starts _ _ _ _ Hst) as (c & st' & -> & Hc). simpl. eauto 6.
Qed.

Lemma parse_with_ok {A} (p : P A) i a : total p -> (parse_with p i = Ret (Some a) <-> ok p i [] a).
Proof.
  intros Hp. unfold parse_with, all_consuming, ok. destruct (Hp i) as ([[[|c i'] b]|] & -> & _); cbn [bind option_map snd];
    split; congruence.
Qed.

Theorem parse_dfa_iff p u : parse_dfa u = Ret (Some p) <-> dfa_text p u.
Proof.
  unfold parse_dfa. rewrite parse_with_ok by apply total_full_dfa. destruct p as [h l]. split.
  - intros E. apply pmap_inv in E as ([h' l'] & E & [= -> ->]).
    apply (full_inv dfa_head dfa_line dfa_head_text dfa_line_text) in E.
    + exact E.
    + apply dfa_head_inv.
    + apply dfa_head_starts.
    + apply dfa_line_inv.
    + apply dfa_line_starts.
    + apply line_bad_nil.
  - intros E. apply (pmap_ok (fun '(head, states) => {| pd_head := head; pd_states := states |}) _ _ _ (h, l)).
    apply (full_ok dfa_head dfa_line dfa_head_text dfa_line_text).
    + apply dfa_head_ok.
    + apply dfa_head_starts.
    + apply dfa_line_ok.
    + apply dfa_line_starts.
    + apply line_bad_nil.
    + exact E.
Qed.

Theorem parse_nfa_iff p u : parse_nfa u = Ret (Some p) <-> nfa_text p u.
Proof.
  unfold parse_nfa. rewrite parse_with_ok by apply total_full_nfa. destruct p as [h l]. split.
  - intros E. apply pmap_inv in E as ([h' l'] & E & [= -> ->]).
    apply (full_inv nfa_head nfa_line nfa_head_text nfa_line_text) in E.
    + exact E.
    + apply nfa_head_inv.
    + apply nfa_head_starts.
    + apply nfa_line_inv.
    + apply nfa_line_starts.
    + apply line_bad_nil.
  - intros E. apply (pmap_ok (fun '(head, states) => {| pn_head := head; pn_states := states |}) _ _ _ (h, l)).
    apply (full_ok nfa_head nfa_line nfa_head_text nfa_line_text).
    + apply nfa_head_ok.
    + apply nfa_head_starts.
    + apply nfa_line_ok.
    + apply nfa_line_starts.
    + apply line_bad_nil.
    + exact E.
Qed.

Theorem parse_dfa_total u : exists r, parse_dfa u = Ret r.
Proof. apply parse_with_total, total_full_dfa. Qed.
Theorem parse_nfa_total u : exists r, parse_nfa u = Ret r.
Proof. apply parse_with_total, total_full_nfa. Qed.
