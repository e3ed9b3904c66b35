(** * Utf8Proofs: the operations on texts by byte positions *)
From Coq Require Import List NArith Arith Bool Lia.
From Verif Require Import Base DrawModel Utf8Spec.
Import ListNotations.

Lemma utf8_len_eq c : utf8_len c = length (utf8 c).
Proof. unfold utf8_len, utf8. destruct (c <? 128)%N, (c <? 2048)%N, (c <? 65536)%N; reflexivity. Qed.
Lemma byte_len_eq s : byte_len s = length (bytes s).
Proof. induction s as [|c s IH]; [reflexivity|]. cbn [byte_len bytes flat_map]. rewrite app_length, IH, utf8_len_eq. reflexivity. Qed.
Lemma utf8_pos c : 0 < length (utf8 c).
Proof. unfold utf8. destruct (c <? 128)%N, (c <? 2048)%N, (c <? 65536)%N; cbn; lia. Qed.
Lemma boundary_iff : forall s b i, boundary s b = Some i <-> char_at s i b.
Proof.
  unfold char_at. induction s as [|c s IH]; intros b i.
  - destruct b; cbn [boundary length]; split.
    + intros H. injection H as <-. split; [lia|reflexivity].
    + intros [H _]. replace i with 0 by lia. reflexivity.
    + discriminate.
    + intros [H H']. replace i with 0 in H' by lia. discriminate H'.
  - pose proof (utf8_pos c) as P. destruct b as [|b].
    + cbn [boundary]. split.
      * intros H. injection H as <-. split; [lia|reflexivity].
      * intros [H H']. destruct i as [|i]; [reflexivity|]. cbn in H'. rewrite app_length in H'. lia.
    + cbn [boundary]. rewrite utf8_len_eq. destruct (Nat.ltb_spec (S b) (length (utf8 c))) as [Hb|Hb].
      * split; [discriminate|]. intros [H H']. destruct i as [|i]; [discriminate H'|]. cbn [firstn bytes flat_map] in H'. rewrite app_length in H'. lia.
      * destruct (boundary s (S b - length (utf8 c))) as [k|] eqn:E; cbn [option_map].
        -- apply IH in E. destruct E as [E1 E2]. split.
           ++ intros H. injection H as <-. split; [cbn; lia|]. cbn [firstn bytes flat_map]. rewrite app_length. fold (bytes (firstn k s)). lia.
           ++ intros [H H']. destruct i as [|i]; [discriminate H'|]. cbn [firstn bytes flat_map] in H'. rewrite app_length in H'. fold (bytes (firstn i s)) in H'.
              f_equal. f_equal. assert (X : boundary s (S b - length (utf8 c)) = Some i) by (apply IH; cbn in H; split; lia).
              assert (Y : boundary s (S b - length (utf8 c)) = Some k) by (apply IH; auto). congruence.
        -- split; [discriminate|]. intros [H H']. destruct i as [|i]; [discriminate H'|]. cbn [firstn bytes flat_map] in H'. rewrite app_length in H'. fold (bytes (firstn i s)) in H'.
           assert (X : boundary s (S b - length (utf8 c)) = Some i) by (apply IH; cbn in H; split; lia). congruence.
Qed.
Lemma char_at_inj s i j b : char_at s i b -> char_at s j b -> i = j.
Proof. intros H1 H2. apply boundary_iff in H1, H2. congruence. Qed.
Lemma char_at_le s i j a b : char_at s i a -> char_at s j b -> (i <= j <-> a <= b).
Proof.
  assert (M : forall i j, i <= j -> j <= length s -> length (bytes (firstn i s)) <= length (bytes (firstn j s)) /\
                          (i < j -> length (bytes (firstn i s)) < length (bytes (firstn j s)))).
  { clear. induction s as [|c s IH]; intros i j H1 H2.
    - cbn in H2. replace j with 0 by lia. replace i with 0 by lia. lia.
    - destruct i as [|i], j as [|j]; cbn [firstn bytes flat_map]; try lia.
      + rewrite app_length. pose proof (utf8_pos c). cbn. lia.
      + rewrite !app_length. cbn in H2. destruct (IH i j ltac:(lia) ltac:(lia)) as [A B]. fold (bytes (firstn i s)) (bytes (firstn j s)). split; [lia|intros H; specialize (B ltac:(lia)); lia]. }
  intros [H1 ->] [H2 ->]. split; intros H.
  - apply M; auto.
  - destruct (Nat.le_gt_cases i j) as [K|K]; [exact K|]. destruct (M j i ltac:(lia) H1) as [_ B]. specialize (B K). lia.
Qed.
Theorem replace_range_iff s a b r t : replace_range s a b r = Ret t <->
  exists i j, char_at s i a /\ char_at s j b /\ a <= b /\ t = firstn i s ++ r ++ skipn j s.
Proof.
  unfold replace_range. split.
  - destruct (boundary s a) as [i|] eqn:Ea; [|discriminate]. destruct (boundary s b) as [j|] eqn:Eb; [|discriminate].
    apply boundary_iff in Ea, Eb. destruct (Nat.leb_spec i j) as [H|H]; [|discriminate]. intros E. injection E as <-.
    exists i, j. split; [exact Ea|]. split; [exact Eb|]. split; [apply (char_at_le _ _ _ _ _ Ea Eb); exact H|reflexivity].
  - intros (i & j & H1 & H2 & H3 & ->). rewrite (proj2 (boundary_iff _ _ _) H1), (proj2 (boundary_iff _ _ _) H2).
    apply (char_at_le _ _ _ _ _ H1 H2) in H3. rewrite (proj2 (Nat.leb_le _ _) H3). reflexivity.
Qed.
Lemma replace_range_total s a b r : replace_range s a b r <> Diverge.
Proof. unfold replace_range. destruct (boundary s a), (boundary s b); try discriminate. destruct (_ <=? _); discriminate. Qed.
Lemma bytes_app s t : bytes (s ++ t) = bytes s ++ bytes t. Proof. apply flat_map_app. Qed.
Theorem replace_range_bytes s a b r t : replace_range s a b r = Ret t -> bytes t = firstn a (bytes s) ++ bytes r ++ skipn b (bytes s).
Proof.
  intros H. apply replace_range_iff in H. destruct H as (i & j & [H1 ->] & [H2 ->] & _ & ->). rewrite !bytes_app.
  assert (E : forall k, k <= length s -> firstn (length (bytes (firstn k s))) (bytes s) = bytes (firstn k s) /\
                        skipn (length (bytes (firstn k s))) (bytes s) = bytes (skipn k s)).
  { intros k _. pose proof (firstn_skipn k s) as X. assert (Y : bytes s = bytes (firstn k s) ++ bytes (skipn k s)) by (rewrite <- bytes_app, X; reflexivity).
    rewrite Y, firstn_app, skipn_app, Nat.sub_diag, firstn_all, skipn_all, firstn_O, app_nil_r. auto. }
  destruct (E i H1) as [-> _]. destruct (E j H2) as [_ ->]. reflexivity.
Qed.
Theorem char_offset_iff s n b : char_offset s n = Ret b <-> n < length s /\ char_at s n b.
Proof.
  unfold char_offset, char_at. rewrite byte_len_eq. destruct (Nat.ltb_spec n (length s)) as [H|H].
  - split; [intros E; injection E as <-; split; [exact H|split; [lia|reflexivity]]|]. intros (_ & _ & ->). reflexivity.
  - split; [discriminate|lia].
Qed.
