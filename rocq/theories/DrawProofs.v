(** * DrawProofs: drawings show the transitions *)
From Coq Require Import Ascii String List NArith Arith Bool Lia Permutation Sorted.
From Verif Require Import Base BaseLemmas Spec TableModel Messages DrawModel DrawSpec.
Import ListNotations.
Close Scope string_scope.
Open Scope list_scope.

(** ** Placing *)
Section Place.
Context {T : Type} (left right : T -> nat).
Definition end_of (a : T) : nat := if left a =? right a then right a + 1 else right a.
Definition precedes (a b : T) : Prop := before (left a) (right a) (left b) (right b).
Lemma precedes_end a b : precedes a b <-> end_of a <= left b.
Proof. unfold precedes, before, end_of. destruct (left a =? right a); lia. Qed.

Lemma insert_desc_perm x l : Permutation (insert_desc right x l) (x :: l).
Proof.
  induction l as [|y l IH]; simpl; auto. destruct (right y <=? right x); auto.
  transitivity (y :: x :: l); [constructor; auto|constructor].
Qed.
Lemma sort_desc_perm l : Permutation (sort_desc right l) l.
Proof. induction l as [|x l IH]; simpl; auto. rewrite insert_desc_perm. constructor. auto. Qed.
Definition descending : list T -> Prop := StronglySorted (fun a b => right b <= right a).
Definition ascending : list T -> Prop := StronglySorted (fun a b => right a <= right b).
Lemma insert_desc_sorted x l : descending l -> descending (insert_desc right x l).
Proof.
  induction l as [|y l IH]; intros H; simpl; [repeat constructor|].
  inversion H as [|? ? H1 H2]; subst. destruct (Nat.leb_spec (right y) (right x)).
  - constructor; auto. constructor; auto. eapply Forall_impl; [|exact H2]. simpl. intros. lia.
  - constructor; [apply IH; auto|]. rewrite insert_desc_perm. constructor; [lia|auto].
Qed.
Lemma sort_desc_sorted l : descending (sort_desc right l).
Proof. induction l; simpl; [constructor|apply insert_desc_sorted; auto]. Qed.
Lemma sorted_snoc (R : T -> T -> Prop) l x : StronglySorted R l -> Forall (fun y => R y x) l -> StronglySorted R (l ++ [x]).
Proof.
  induction 1 as [|y l H IH HF]; intros F; simpl; [repeat constructor|]. inversion F; subst. constructor; auto.
  apply Forall_app. auto.
Qed.
Lemma rev_ascending l : descending l -> ascending (rev l).
Proof.
  induction 1 as [|x l H IH HF]; simpl; [constructor|]. apply sorted_snoc; auto. apply Forall_rev. auto.
Qed.

Definition ordered : list (T * nat) -> Prop := ForallOrdPairs (fun x y => snd x = snd y -> precedes (fst x) (fst y)).

Lemma place_pass_spec depth : forall old e placed unplaced, (forall a, In a old -> left a <= right a) -> ascending old ->
  place_pass left right old e depth = (placed, unplaced) ->
  Permutation (map fst placed ++ unplaced) old /\ Forall (fun x => snd x = depth /\ e <= left (fst x)) placed /\
  ordered placed /\ ascending unplaced /\ length unplaced <= length old /\
  (forall a, In a unplaced -> left a < e \/ exists b, In (b, depth) placed /\ right b <= right a /\ left a < end_of b).
Proof.
  induction old as [|a old IH]; intros e placed unplaced Hle Hs E; simpl in E.
  - injection E as <- <-. split; [constructor|]. split; [constructor|]. split; [constructor|]. split; [constructor|]. split; auto. intros a [].
  - inversion Hs as [|? ? Hs1 Hs2]; subst. assert (Ha : left a <= right a) by (apply Hle; left; auto).
    destruct (Nat.leb_spec e (left a)) as [Le|Lt].
    + fold (end_of a) in E. destruct (place_pass left right old (end_of a) depth) as [p u] eqn:Ep. injection E as <- <-.
      destruct (IH _ _ _ (fun x Hx => Hle x (or_intror Hx)) Hs1 Ep) as (H1 & H2 & H3 & H4 & H5 & H6).
      assert (He : left a <= end_of a) by (unfold end_of; destruct (left a =? right a); lia).
      split; [simpl; constructor; auto|]. split.
      { constructor; [simpl; auto|]. eapply Forall_impl; [|exact H2]. intros x (? & ?). split; auto. lia. }
      split.
      { constructor; auto. eapply Forall_impl; [|exact H2]. intros x (? & ?) _. apply precedes_end. simpl. auto. }
      split; auto. split; [simpl; lia|]. intros b Hb. right. destruct (H6 b Hb) as [H|(c & Hc & ?)].
      * exists a. split; [left; auto|]. split; auto. rewrite Forall_forall in Hs2. apply Hs2.
        rewrite <- H1. apply in_or_app. auto.
      * exists c. split; [right; auto|auto].
    + destruct (place_pass left right old e depth) as [p u] eqn:Ep. injection E as <- <-.
      destruct (IH _ _ _ (fun x Hx => Hle x (or_intror Hx)) Hs1 Ep) as (H1 & H2 & H3 & H4 & H5 & H6).
      split; [rewrite <- Permutation_middle; constructor; auto|]. split; auto. split; auto. split.
      { constructor; auto. rewrite Forall_forall in *. intros x Hx. apply Hs2. rewrite <- H1. apply in_or_app. auto. }
      split; [simpl; lia|]. intros b [<-|Hb]; auto.
Qed.

Lemma ordered_app l1 l2 : ordered l1 -> ordered l2 -> (forall x y, In x l1 -> In y l2 -> snd x <> snd y) -> ordered (l1 ++ l2).
Proof.
  induction 1 as [|x l1 HF H IH]; intros H2 D; simpl; auto. constructor.
  - apply Forall_app. split; auto. apply Forall_forall. intros y Hy E. exfalso. apply (D x y); auto. left; auto.
  - apply IH; auto. intros a b Ha Hb. apply D; auto. right; auto.
Qed.

Definition placement (arrows : list T) (placed : list (T * nat)) (levels : nat) : Prop :=
  Permutation (map fst placed) arrows /\ Forall (fun x => snd x < levels) placed /\
  (forall k, k < levels -> exists a, In (a, k) placed) /\ ordered placed /\
  (forall a k j, In (a, k) placed -> j < k -> exists b, In (b, j) placed /\ right b <= right a /\ left a < end_of b).

Lemma place_loop_spec : forall fuel unplaced placed depth arrows,
  (forall a, In a unplaced -> left a <= right a) -> ascending (rev unplaced) -> length unplaced <= fuel ->
  Permutation (map fst placed ++ unplaced) arrows -> Forall (fun x => snd x < depth) placed ->
  (forall k, k < depth -> exists a, In (a, k) placed) -> ordered placed ->
  (forall a k j, In (a, k) placed \/ In a unplaced /\ k = depth -> j < k ->
                 exists b, In (b, j) placed /\ right b <= right a /\ left a < end_of b) ->
  exists placed' levels, place_loop left right fuel unplaced placed depth = Ret (placed', levels) /\ placement arrows placed' levels.
Proof.
  induction fuel as [|fuel IH]; intros unplaced placed depth arrows Hle Hs Hf HP HL HU HO HC.
  - destruct unplaced; [|simpl in Hf; lia]. exists placed, depth. split; auto. rewrite app_nil_r in HP. split; auto. split; auto. split; auto.
    split; auto. intros a k j H. apply HC. auto.
  - destruct unplaced as [|u us] eqn:Eu.
    { exists placed, depth. split; auto. rewrite app_nil_r in HP. split; auto. split; auto. split; auto. split; auto. intros a k j H. apply HC. auto. }
    cbn [place_loop]. rewrite <- Eu in *. assert (Hne : unplaced <> []) by (rewrite Eu; discriminate). clear u us Eu.
    destruct (place_pass left right (rev unplaced) 0 depth) as [now later] eqn:Ep.
    destruct (place_pass_spec depth (rev unplaced) 0 now later) as (H1 & H2 & H3 & H4 & H5 & H6); auto.
    { intros a Ha. rewrite <- in_rev in Ha. auto. }
    rewrite <- Permutation_rev in H1.
    assert (Hnow : now <> []).
    { destruct (rev unplaced) as [|x r] eqn:Er.
      - apply (f_equal (@rev T)) in Er. rewrite rev_involutive in Er. contradiction.
      - simpl in Ep. destruct (place_pass left right r (if left x =? right x then right x + 1 else right x) depth). injection Ep as <- <-. discriminate. }
    destruct (IH (rev later) (placed ++ now) (S depth) arrows) as (p' & lv & E & HH).
    + intros a Ha. rewrite <- in_rev in Ha. apply Hle. rewrite <- H1. apply in_or_app. auto.
    + rewrite rev_involutive. auto.
    + rewrite rev_length. apply Permutation_length in H1. rewrite app_length, map_length in H1.
      destruct now; [congruence|]. simpl in H1. lia.
    + rewrite map_app, <- app_assoc, <- Permutation_rev, H1. auto.
    + apply Forall_app. split; [eapply Forall_impl; [|exact HL]; simpl; intros; lia|].
      eapply Forall_impl; [|exact H2]. simpl. intros ? (-> & _). lia.
    + intros k Hk. destruct (Nat.eq_dec k depth) as [->|Hn].
      * destruct now as [|[a l] now]; [congruence|]. apply Forall_inv in H2 as [El _]. simpl in El. rewrite El. exists a. apply in_or_app. right. left; auto.
      * destruct (HU k) as (a & Ha); [lia|]. exists a. apply in_or_app. auto.
    + apply ordered_app; auto. intros x y Hx Hy. rewrite Forall_forall in HL, H2. specialize (HL x Hx). destruct (H2 y Hy) as [Hy' _]. lia.
    + intros a k j Ha Hj.
      assert (C : (In (a, k) placed \/ In a unplaced /\ k = depth) \/ (In a later /\ k = S depth)).
      { destruct Ha as [Ha|(Ha & ->)].
        - apply in_app_or in Ha as [Ha|Ha]; auto. rewrite Forall_forall in H2. destruct (H2 _ Ha) as [Ek _]. simpl in Ek. left. right. split; auto.
          rewrite <- H1. apply in_or_app. left. apply in_map_iff. exists (a, k). auto.
        - rewrite <- in_rev in Ha. auto. }
      destruct C as [C|(C & ->)].
      * destruct (HC a k j C Hj) as (b & Hb & ?). exists b. split; auto. apply in_or_app. auto.
      * destruct (Nat.eq_dec j depth) as [->|Hn].
        -- destruct (H6 a C) as [H|(b & Hb & ?)]; [lia|]. exists b. split; auto. apply in_or_app. auto.
        -- destruct (HC a depth j) as (b & Hb & ?).
           ++ right. split; auto. rewrite <- H1. apply in_or_app. auto.
           ++ lia.
           ++ exists b. split; auto. apply in_or_app. auto.
    + exists p', lv. auto.
Qed.

Theorem place_arrows_spec arrows : (forall a, In a arrows -> left a <= right a) ->
  exists placed levels, place_arrows left right arrows = Ret (placed, levels) /\ placement arrows placed levels.
Proof.
  intros H. unfold place_arrows. apply place_loop_spec.
  - intros a Ha. apply H. rewrite <- (sort_desc_perm arrows). auto.
  - apply rev_ascending, sort_desc_sorted.
  - rewrite sort_desc_perm. auto.
  - simpl. apply sort_desc_perm.
  - constructor.
  - intros k Hk. lia.
  - constructor.
  - intros a k j [[]|(_ & ->)] Hj. lia.
Qed.
End Place.

(** ** Grouping *)
Lemma direction_eqb_spec a b : reflect (a = b) (direction_eqb a b).
Proof. destruct a, b; constructor; congruence. Qed.
Lemma key_eqb_spec a b : reflect (a = b) (key_eqb a b).
Proof.
  destruct a as [[l r] d], b as [[l' r'] d']. simpl. destruct (Nat.eqb_spec l l'), (Nat.eqb_spec r r'), (direction_eqb_spec d d');
    simpl; constructor; congruence.
Qed.
Definition ar_key (a : arrow) : arrow_key := (ar_left a, ar_right a, ar_dir a).
Definition labels_at (k : arrow_key) (l : list arrow) : list str := map ar_label (filter (fun a => key_eqb k (ar_key a)) l).
Definition grouping (pre : list arrow) (m : list (arrow_key * list str)) : Prop :=
  NoDup (map fst m) /\ forall k v, In (k, v) m <-> v = labels_at k pre /\ v <> [].

Lemma labels_at_snoc k l a : labels_at k (l ++ [a]) = labels_at k l ++ if key_eqb k (ar_key a) then [ar_label a] else [].
Proof. unfold labels_at. rewrite filter_app, map_app. simpl. destruct (key_eqb k (ar_key a)); reflexivity. Qed.

Lemma entry_push_keys k x m : map fst (entry_push k x m) = map fst m \/ (~ In k (map fst m) /\ map fst (entry_push k x m) = map fst m ++ [k]).
Proof.
  induction m as [|[k' v] m IH]; simpl; auto. destruct (key_eqb_spec k k') as [->|Hn]; simpl; auto.
  destruct IH as [IH|[H IH]]; rewrite IH; auto. right. split; auto. intros [->|Hi]; auto.
Qed.
Lemma entry_push_In k x m : NoDup (map fst m) -> forall k' v,
  In (k', v) (entry_push k x m) <->
  (k' <> k /\ In (k', v) m) \/ (k' = k /\ ((exists v0, In (k, v0) m /\ v = v0 ++ [x]) \/ (~ In k (map fst m) /\ v = [x]))).
Proof.
  induction m as [|[k1 v1] m IH]; simpl; intros ND k' v.
  - split.
    + intros [[= <- <-]|[]]. right. split; auto.
    + intros [[_ []]|[-> [(v0 & [] & _)|(_ & ->)]]]. auto.
  - inversion ND as [|? ? Hn ND']; subst. destruct (key_eqb_spec k k1) as [->|Hk].
    + simpl. split.
      * intros [[= <- <-]|Hi]; [right; split; auto; left; exists v1; auto|]. left. split; auto. intros ->. apply Hn. apply in_map_iff. exists (k1, v). auto.
      * intros [[H1 [[= -> ->]|H2]]|[-> [(v0 & [[= <-]|H2] & ->)|(H2 & _)]]]; auto; try contradiction.
        -- exfalso. apply Hn. apply in_map_iff. exists (k1, v0). auto.
        -- exfalso. apply H2. auto.
    + simpl. rewrite IH by auto. split.
      * intros [[= <- <-]|[[H1 H2]|[-> [(v0 & H2 & ->)|(H2 & ->)]]]]; auto.
        -- right. split; auto. left. exists v0. auto.
        -- right. split; auto. right. split; auto. intros [E|H3]; [congruence|auto].
      * intros [[H1 [[= -> ->]|H2]]|[-> [(v0 & [[= E _]|H2] & ->)|(H2 & ->)]]]; auto; try congruence.
        -- right. right. split; auto. left. exists v0. auto.
        -- right. right. split; auto. right. split; auto.
Qed.

Lemma grouping_push pre m a : grouping pre m -> grouping (pre ++ [a]) (entry_push (ar_key a) (ar_label a) m).
Proof.
  intros [ND H]. split.
  - destruct (entry_push_keys (ar_key a) (ar_label a) m) as [->|[Hn ->]]; auto.
    apply NoDup_snoc; auto.
  - intros k v. rewrite (entry_push_In _ _ _ ND). rewrite labels_at_snoc. destruct (key_eqb_spec k (ar_key a)) as [->|Hn].
    + split.
      * intros [[? _]|[_ [(v0 & Hv & ->)|(Hk & ->)]]]; [congruence| |].
        -- apply H in Hv as [-> _]. split; auto. destruct (labels_at (ar_key a) pre); discriminate.
        -- split; [|discriminate]. destruct (labels_at (ar_key a) pre) as [|y l] eqn:E; auto. exfalso. apply Hk. apply in_map_iff.
           exists (ar_key a, y :: l). split; auto. apply H. split; [auto|discriminate].
      * intros [-> _]. right. split; auto. destruct (labels_at (ar_key a) pre) as [|y l] eqn:E.
        -- right. split; auto. intros Hi. apply in_map_iff in Hi as ((k & v) & Ek & Hi). simpl in Ek. subst k. apply H in Hi as [-> Hi]. congruence.
        -- left. exists (y :: l). split; auto. apply H. split; [auto|discriminate].
    + rewrite app_nil_r, H. split; [intros [[_ ?]|[? _]]; [auto|congruence]|auto].
Qed.
Lemma group_fold : forall l pre m, grouping pre m ->
  grouping (pre ++ l) (fold_left (fun m a => entry_push (ar_left a, ar_right a, ar_dir a) (ar_label a) m) l m).
Proof.
  induction l as [|a l IH]; intros pre m H; simpl; [rewrite app_nil_r; auto|].
  replace (pre ++ a :: l) with ((pre ++ [a]) ++ l) by (rewrite <- app_assoc; reflexivity). apply IH. apply (grouping_push pre m a H).
Qed.

Definition gr_key (g : grouped) : arrow_key := (gr_left g, gr_right g, gr_dir g).
Lemma group_arrows_spec h arrows :
  NoDup (map gr_key (group_arrows h arrows)) /\
  forall g, In g (group_arrows h arrows) <-> gr_labels g = labels_at (gr_key g) arrows /\ gr_labels g <> [].
Proof.
  unfold group_arrows.
  assert (G : grouping ([] ++ arrows) (fold_left (fun m a => entry_push (ar_left a, ar_right a, ar_dir a) (ar_label a) m) arrows [])).
  { apply group_fold. split; [constructor|]. intros k v. simpl. split; [intros []|]. intros [-> H]. apply H. reflexivity. }
  set (m := fold_left _ arrows []) in *. simpl in G. destruct G as [ND H]. split.
  - replace (map gr_key _) with (map fst (ho h [80] m)).
    + eapply Permutation_NoDup; [|exact ND]. apply Permutation_map. symmetry. apply ho_perm.
    + rewrite map_map. apply map_ext. intros [[[l r] d] v]. reflexivity.
  - intros g. rewrite in_map_iff. split.
    + intros ([[[l r] d] v] & <- & Hi). rewrite ho_In in Hi. apply H in Hi. exact Hi.
    + intros Hg. exists (gr_key g, gr_labels g). split; [destruct g; reflexivity|]. rewrite ho_In. apply H. exact Hg.
Qed.

(** ** Arrows between states *)
Definition triple : Type := (nat * nat * str)%type.
Definition arrow_of (t : triple) : arrow := let '(i, j, a) := t in arrow_new i j a.
Definition labels_of (ts : list triple) (i j : nat) : list str :=
  map snd (filter (fun '(i', j', _) => (i' =? i) && (j' =? j)) ts).

Definition dir_of (i j : nat) : direction := match Nat.compare i j with Lt => DRight | Eq => DSpot | Gt => DLeft end.
Definition grouped_of (l : link) : grouped := mk_grouped (lk_left l) (lk_right l) (dir_of (lk_from l) (lk_to l)) (lk_labels l).
Definition placed_of (l : link) : grouped * nat := (grouped_of l, lk_level l).
Definition link_of (p : grouped * nat) : link :=
  let '(g, k) := p in
  match gr_dir g with DLeft => mk_link (gr_right g) (gr_left g) (gr_labels g) k | _ => mk_link (gr_left g) (gr_right g) (gr_labels g) k end.

Definition key_of (i j : nat) : arrow_key := (Nat.min i j, Nat.max i j, dir_of i j).
Lemma arrow_new_key i j a : ar_key (arrow_new i j a) = key_of i j /\ ar_label (arrow_new i j a) = a.
Proof.
  unfold arrow_new, key_of, dir_of, ar_key. destruct (Nat.compare_spec i j) as [->|H|H]; simpl; split; auto;
    repeat f_equal; try (rewrite Nat.min_l by lia); try (rewrite Nat.min_r by lia); try (rewrite Nat.max_l by lia); try (rewrite Nat.max_r by lia); auto; lia.
Qed.
Lemma key_of_inj i j i' j' : key_of i j = key_of i' j' -> i = i' /\ j = j'.
Proof.
  unfold key_of, dir_of. destruct (Nat.compare_spec i j), (Nat.compare_spec i' j'); intros [= H1 H2]; try discriminate; lia.
Qed.
Lemma labels_at_of ts i j : labels_at (key_of i j) (map arrow_of ts) = labels_of ts i j.
Proof.
  unfold labels_at, labels_of. induction ts as [|[[i' j'] a] ts IH]; cbn [map filter arrow_of]; auto.
  destruct (arrow_new_key i' j' a) as [-> El].
  destruct (key_eqb_spec (key_of i j) (key_of i' j')) as [E|E].
  - apply key_of_inj in E as [-> ->]. rewrite !Nat.eqb_refl. cbn [map andb snd]. rewrite El. f_equal. auto.
  - destruct (Nat.eqb_spec i' i) as [->|]; simpl; auto. destruct (Nat.eqb_spec j' j) as [->|]; simpl; auto. congruence.
Qed.

Lemma labels_at_key k ts : labels_at k (map arrow_of ts) <> [] -> exists i j a, In (i, j, a) ts /\ k = key_of i j.
Proof.
  unfold labels_at. induction ts as [|[[i j] a] ts IH]; cbn [map filter arrow_of]; [congruence|].
  destruct (arrow_new_key i j a) as [-> El]. destruct (key_eqb_spec k (key_of i j)) as [->|E].
  - intros _. exists i, j, a. split; [left|]; auto.
  - intros H. destruct (IH H) as (i' & j' & a' & Hi & ->). exists i', j', a'. split; [right|]; auto.
Qed.

Lemma link_of_key g k i j : gr_key g = key_of i j -> link_of (g, k) = mk_link i j (gr_labels g) k /\ grouped_of (link_of (g, k)) = g.
Proof.
  destruct g as [l r d v]. unfold gr_key, key_of, dir_of, grouped_of, link_of, lk_left, lk_right. simpl.
  destruct (Nat.compare_spec i j) as [->|H|H]; intros [= -> -> ->]; simpl; unfold dir_of.
  - rewrite Nat.min_id, Nat.max_id. rewrite Nat.compare_refl. rewrite Nat.min_id, Nat.max_id. auto.
  - rewrite (Nat.min_l i j), (Nat.max_r i j) by lia. rewrite (proj2 (Nat.compare_lt_iff i j)) by auto.
    rewrite (Nat.min_l i j), (Nat.max_r i j) by lia. auto.
  - rewrite (Nat.min_r i j), (Nat.max_l i j) by lia. rewrite (proj2 (Nat.compare_gt_iff i j)) by auto.
    rewrite (Nat.min_r i j), (Nat.max_l i j) by lia. auto.
Qed.

Lemma ordered_apart {T} (left right : T -> nat) placed : ordered left right placed -> forall x y, In x placed -> In y placed ->
  snd x = snd y -> x = y \/ precedes left right (fst x) (fst y) \/ precedes left right (fst y) (fst x).
Proof.
  induction 1 as [|z l HF H IH]; intros x y Hx Hy E; [destruct Hx|]. rewrite Forall_forall in HF.
  destruct Hx as [->|Hx], Hy as [->|Hy]; auto.
Qed.

Theorem placed_layout h n ts : (forall i j a, In (i, j, a) ts -> i < n /\ j < n) ->
  exists links levels, place_grouped (group_arrows h (map arrow_of ts)) = Ret (map placed_of links, levels) /\
    layout n (labels_of ts) links levels.
Proof.
  intros Hn. destruct (group_arrows_spec h (map arrow_of ts)) as [ND HG]. set (gs := group_arrows h (map arrow_of ts)) in *.
  assert (HK : forall g, In g gs -> exists i j a, In (i, j, a) ts /\ gr_key g = key_of i j).
  { intros g Hg. apply HG in Hg as [E Hne]. rewrite E in Hne. apply labels_at_key in Hne. exact Hne. }
  assert (HL : forall g, In g gs -> gr_left g <= gr_right g).
  { intros g Hg. destruct (HK g Hg) as (i & j & _ & _ & E). injection E as -> -> _. lia. }
  destruct (place_arrows_spec gr_left gr_right gs HL) as (placed & levels & E & HP & Hlv & Hu & HO & _).
  assert (Hin : forall g k, In (g, k) placed -> In g gs).
  { intros g k Hi. rewrite <- HP. apply in_map_iff. exists (g, k). auto. }
  assert (Hlk : forall p, In p placed -> placed_of (link_of p) = p).
  { intros [g k] Hi. destruct (HK g (Hin g k Hi)) as (i & j & _ & _ & Ek). destruct (link_of_key g k i j Ek) as [E1 E2].
    unfold placed_of. rewrite E2. f_equal. rewrite E1. reflexivity. }
  assert (Hmap : map placed_of (map link_of placed) = placed).
  { rewrite map_map. rewrite <- (map_id placed) at 2. apply map_ext_in. auto. }
  assert (Hft : forall p, In p placed -> key_of (lk_from (link_of p)) (lk_to (link_of p)) = gr_key (fst p)).
  { intros [g k] Hi. destruct (HK g (Hin g k Hi)) as (i & j & _ & _ & Ek). destruct (link_of_key g k i j Ek) as [-> _]. simpl. auto. }
  exists (map link_of placed), levels. split; [unfold place_grouped; rewrite E, Hmap; auto|]. constructor.
  - rewrite map_map. apply (NoDup_map_inv (fun p : nat * nat => key_of (fst p) (snd p))). rewrite map_map. simpl.
    replace (map _ placed) with (map gr_key (map fst placed)).
    + eapply Permutation_NoDup; [|exact ND]. apply Permutation_map. symmetry. auto.
    + rewrite map_map. apply map_ext_in. intros p Hp. symmetry. apply Hft. auto.
  - intros l Hl. apply in_map_iff in Hl as ([g k] & <- & Hi). pose proof (Hin g k Hi) as Hg.
    destruct (HK g Hg) as (i & j & a & Ht & Ek). destruct (link_of_key g k i j Ek) as [-> _]. simpl.
    destruct (Hn i j a Ht). split; auto. split; auto. apply HG in Hg as [Eg Hne]. rewrite <- labels_at_of, <- Ek. auto.
  - intros i j Hi Hne. rewrite <- labels_at_of in Hne.
    assert (Hg : In (mk_grouped (Nat.min i j) (Nat.max i j) (dir_of i j) (labels_at (key_of i j) (map arrow_of ts))) gs).
    { apply HG. simpl. split; auto. }
    rewrite <- HP in Hg. apply in_map_iff in Hg as ([g k] & Eg & Hi'). simpl in Eg.
    destruct (link_of_key g k i j) as [E1 _]; [rewrite Eg; reflexivity|]. exists (link_of (g, k)). rewrite E1. split; auto.
    rewrite <- E1. apply in_map. auto.
  - intros l Hl. apply in_map_iff in Hl as (p & <- & Hi). rewrite Forall_forall in Hlv. specialize (Hlv p Hi).
    rewrite <- (Hlk p Hi) in Hlv. exact Hlv.
  - intros k Hk. destruct (Hu k Hk) as (g & Hi). exists (link_of (g, k)). split; [apply in_map; auto|].
    pose proof (f_equal snd (Hlk _ Hi)) as X. exact X.
  - intros a b Ha Hb. apply in_map_iff in Ha as (p & <- & Hp). apply in_map_iff in Hb as (q & <- & Hq). intros El.
    pose proof (Hlk p Hp) as Ep. pose proof (Hlk q Hq) as Eq.
    destruct (ordered_apart _ _ _ HO p q Hp Hq) as [->|H]; auto.
    { rewrite <- Ep, <- Eq. exact El. }
    right. rewrite <- Ep, <- Eq in H. exact H.
Qed.

(** ** The arrows of an automaton *)
Definition dfa_triples (d : dfa) : list triple :=
  concat (map (fun '(i, s) => map (fun '(a, t) => (i, t, a)) (combine (dfa_alphabet d) (ds_transitions s))) (enumerate (dfa_states d))).
Definition nfa_state_triples (n : nfa) (i : nat) (s : nfa_state) : list triple :=
  flat_map (fun '(a, ts) => map (fun t => (i, t, a)) ts) (combine (nfa_alphabet n) (ns_transitions s)) ++
  map (fun t => (i, t, eps_label)) (ns_eps s).
Definition nfa_triples (n : nfa) : list triple :=
  concat (map (fun '(i, s) => nfa_state_triples n i s) (enumerate (nfa_states n))).

Lemma enumerate_combine {A B C} (g : A -> B -> C) d : forall (l : list B) (al : list A), length l = length al ->
  map (fun '(idx, t) => g (nth idx al d) t) (enumerate l) = map (fun '(a, t) => g a t) (combine al l).
Proof.
  intros l al E. unfold enumerate.
  enough (H : forall pre, map (fun '(idx, t) => g (nth idx (pre ++ al) d) t) (combine (seq (length pre) (length l)) l) = map (fun '(a, t) => g a t) (combine al l)).
  { apply (H []). }
  revert al E. induction l as [|b l IH]; intros [|a al] E pre; simpl in *; try discriminate; auto.
  rewrite app_nth2, Nat.sub_diag by lia. simpl. f_equal. specialize (IH al (eq_add_S _ _ E) (pre ++ [a])).
  rewrite app_length, <- app_assoc in IH. simpl in IH. rewrite Nat.add_1_r in IH. exact IH.
Qed.
Lemma concat_map_map {A B} (f : A -> B) (l : list (list A)) : concat (map (map f) l) = map f (concat l).
Proof. symmetry. apply concat_map. Qed.

Lemma dfa_to_arrows_eq d : dfa_valid d -> dfa_to_arrows d = Ret (map arrow_of (dfa_triples d)).
Proof.
  intros V. unfold dfa_to_arrows.
  rewrite (mapR_pure _ (fun '(i, s) => map arrow_of (map (fun '(a, t) => (i, t, a)) (combine (dfa_alphabet d) (ds_transitions s))))).
  - simpl. f_equal. unfold dfa_triples. rewrite <- concat_map_map. f_equal. rewrite map_map. apply map_ext. intros [i s]. reflexivity.
  - intros [i s] Hi. apply enumerate_In in Hi. pose proof (dv_width d V i s Hi) as W.
    rewrite (mapR_pure _ (fun '(idx, t) => arrow_new i t (nth idx (dfa_alphabet d) []))).
    + f_equal. rewrite (enumerate_combine (fun a t => arrow_new i t a)) by auto. rewrite map_map. apply map_ext. intros [a t]. reflexivity.
    + intros [idx t] Ht. apply enumerate_In in Ht. assert (idx < length (ds_transitions s)) by (apply nth_error_Some; congruence).
      rewrite (index_Some _ _ (nth idx (dfa_alphabet d) [])) by (apply nth_error_nth'; lia). reflexivity.
Qed.
Lemma nfa_to_arrows_eq n : nfa_valid n -> nfa_to_arrows n = Ret (map arrow_of (nfa_triples n)).
Proof.
  intros V. unfold nfa_to_arrows.
  rewrite (mapR_pure _ (fun '(i, s) => map arrow_of (nfa_state_triples n i s))).
  - simpl. f_equal. unfold nfa_triples. rewrite <- concat_map_map. f_equal. rewrite map_map. apply map_ext. intros [i s]. reflexivity.
  - intros [i s] Hi. apply enumerate_In in Hi. pose proof (nv_width n V i s Hi) as W.
    rewrite (mapR_pure _ (fun '(idx, ts) => map (fun t => arrow_new i t (nth idx (nfa_alphabet n) [])) ts)).
    + simpl. f_equal. unfold nfa_state_triples. rewrite map_app, map_map. f_equal.
      rewrite (enumerate_combine (fun a ts => map (fun t => arrow_new i t a) ts)) by auto. rewrite flat_map_concat_map, concat_map, map_map.
      f_equal. apply map_ext. intros [a ts]. rewrite map_map. reflexivity.
    + intros [idx ts] Ht. apply enumerate_In in Ht. assert (idx < length (ns_transitions s)) by (apply nth_error_Some; congruence).
      apply mapR_pure. intros t _. rewrite (index_Some _ _ (nth idx (nfa_alphabet n) [])) by (apply nth_error_nth'; lia). reflexivity.
Qed.

Lemma labels_of_app t1 t2 i j : labels_of (t1 ++ t2) i j = labels_of t1 i j ++ labels_of t2 i j.
Proof. unfold labels_of. rewrite filter_app, map_app. reflexivity. Qed.
Lemma labels_of_none ts i j : (forall t, In t ts -> fst (fst t) <> i) -> labels_of ts i j = [].
Proof.
  unfold labels_of. intros H. induction ts as [|[[i' j'] a] ts IH]; simpl; auto.
  destruct (Nat.eqb_spec i' i) as [->|]; simpl.
  - exfalso. apply (H (i, j', a)); [left; auto|reflexivity].
  - apply IH. intros t Ht. apply H. right. auto.
Qed.
Lemma labels_of_concat {A} (F : nat -> A -> list triple) i j : (forall k s t, In t (F k s) -> fst (fst t) = k) ->
  forall l, labels_of (concat (map (fun '(k, s) => F k s) (enumerate l))) i j =
            match nth_error l i with None => [] | Some s => labels_of (F i s) i j end.
Proof.
  intros HF l. unfold enumerate.
  enough (H : forall k, labels_of (concat (map (fun '(k, s) => F k s) (combine (seq k (length l)) l))) i j =
                        if i <? k then [] else match nth_error l (i - k) with None => [] | Some s => labels_of (F i s) i j end).
  { rewrite (H 0). simpl. rewrite Nat.sub_0_r. reflexivity. }
  induction l as [|s l IH]; intros k; simpl.
  - destruct (i <? k); auto. destruct (i - k); auto.
  - rewrite labels_of_app, IH. destruct (Nat.ltb_spec i k) as [Lt|Ge].
    + rewrite (proj2 (Nat.ltb_lt i (S k))) by lia. rewrite labels_of_none; auto. intros t Ht E. apply HF in Ht. lia.
    + destruct (Nat.eq_dec i k) as [->|Hn].
      * rewrite (proj2 (Nat.ltb_lt k (S k))) by lia. rewrite Nat.sub_diag. simpl. apply app_nil_r.
      * rewrite (proj2 (Nat.ltb_ge i (S k))) by lia. replace (i - k) with (S (i - S k)) by lia. simpl.
        rewrite labels_of_none; auto. intros t Ht E. apply HF in Ht. lia.
Qed.
Lemma dfa_triples_labels d i j : labels_of (dfa_triples d) i j = dfa_labels d i j.
Proof.
  unfold dfa_triples, dfa_labels. rewrite (labels_of_concat (fun i s => map (fun '(a, t) => (i, t, a)) (combine (dfa_alphabet d) (ds_transitions s)))).
  - destruct (nth_error (dfa_states d) i) as [s|]; auto. unfold labels_of.
    induction (combine (dfa_alphabet d) (ds_transitions s)) as [|[a t] l IH]; simpl; auto. rewrite Nat.eqb_refl. simpl. destruct (t =? j); simpl; rewrite IH; auto.
  - intros k s t Ht. apply in_map_iff in Ht as ([a t'] & <- & _). reflexivity.
Qed.
Lemma labels_of_targets i j a ts : labels_of (map (fun t => (i, t, a)) ts) i j = map (fun _ => a) (filter (Nat.eqb j) ts).
Proof.
  unfold labels_of. induction ts as [|t ts IH]; simpl; auto. rewrite Nat.eqb_refl, (Nat.eqb_sym t j). simpl. destruct (j =? t); simpl; rewrite IH; auto.
Qed.
Lemma nfa_state_triples_from n k s t : In t (nfa_state_triples n k s) -> fst (fst t) = k.
Proof.
  unfold nfa_state_triples. intros H. apply in_app_or in H as [H|H].
  - apply in_flat_map in H as ([a ts] & _ & H). apply in_map_iff in H as (x & <- & _). reflexivity.
  - apply in_map_iff in H as (x & <- & _). reflexivity.
Qed.
Lemma nfa_triples_labels n i j : labels_of (nfa_triples n) i j = nfa_labels n i j.
Proof.
  unfold nfa_triples, nfa_labels. rewrite (labels_of_concat (nfa_state_triples n)) by (intros; eapply nfa_state_triples_from; eauto).
  destruct (nth_error (nfa_states n) i) as [s|]; auto. unfold nfa_state_triples. rewrite labels_of_app. f_equal; [|apply labels_of_targets].
  induction (combine (nfa_alphabet n) (ns_transitions s)) as [|[a ts] l IH]; simpl; auto. rewrite labels_of_app, IH. f_equal. apply labels_of_targets.
Qed.

Lemma dfa_triples_range d : dfa_valid d -> forall i j a, In (i, j, a) (dfa_triples d) -> i < length (dfa_states d) /\ j < length (dfa_states d).
Proof.
  intros V i j a H. unfold dfa_triples in H. apply in_concat in H as (l & Hl & H). apply in_map_iff in Hl as ([k s] & <- & Hs).
  apply enumerate_In in Hs. apply in_map_iff in H as ([b t] & E & Ht). injection E as -> -> ->. split.
  - apply nth_error_Some. congruence.
  - apply in_combine_r in Ht. apply (dv_range d V i s j); auto.
Qed.
Lemma nfa_triples_range n : nfa_valid n -> forall i j a, In (i, j, a) (nfa_triples n) -> i < length (nfa_states n) /\ j < length (nfa_states n).
Proof.
  intros V i j a H. unfold nfa_triples in H. apply in_concat in H as (l & Hl & H). apply in_map_iff in Hl as ([k s] & <- & Hs).
  apply enumerate_In in Hs. unfold nfa_state_triples in H. apply in_app_or in H as [H|H].
  - apply in_flat_map in H as ([b ts] & Hb & H). apply in_map_iff in H as (t & E & Ht). injection E as -> -> ->. split.
    + apply nth_error_Some. congruence.
    + apply in_combine_r in Hb. apply (nv_range n V i s ts j); auto.
  - apply in_map_iff in H as (t & E & Ht). injection E as -> -> _. split.
    + apply nth_error_Some. congruence.
    + apply (nv_eps_range n V i s j); auto.
Qed.

Lemma layout_ext n f g links levels : (forall i j, f i j = g i j) -> layout n f links levels -> layout n g links levels.
Proof.
  intros H [A B C D E F]. constructor; auto.
  - intros l Hl. rewrite <- H. auto.
  - intros i j Hi Hne. apply C; auto. rewrite H. auto.
Qed.
Theorem dfa_layout h d : dfa_valid d -> exists links levels, dfa_to_arrows d = Ret (map arrow_of (dfa_triples d)) /\
  place_grouped (group_arrows h (map arrow_of (dfa_triples d))) = Ret (map placed_of links, levels) /\
  layout (length (dfa_states d)) (dfa_labels d) links levels.
Proof.
  intros V. destruct (placed_layout h (length (dfa_states d)) (dfa_triples d) (dfa_triples_range d V)) as (links & levels & E & L).
  exists links, levels. split; [apply dfa_to_arrows_eq; auto|]. split; auto. eapply layout_ext; [|exact L]. apply dfa_triples_labels.
Qed.
Theorem nfa_layout h n : nfa_valid n -> exists links levels, nfa_to_arrows n = Ret (map arrow_of (nfa_triples n)) /\
  place_grouped (group_arrows h (map arrow_of (nfa_triples n))) = Ret (map placed_of links, levels) /\
  layout (length (nfa_states n)) (nfa_labels n) links levels.
Proof.
  intros V. destruct (placed_layout h (length (nfa_states n)) (nfa_triples n) (nfa_triples_range n V)) as (links & levels & E & L).
  exists links, levels. split; [apply nfa_to_arrows_eq; auto|]. split; auto. eapply layout_ext; [|exact L]. apply nfa_triples_labels.
Qed.

(** ** Lines of text *)
Definition line (f : nat -> N) (W : nat) : str := map f (seq 0 W).
Lemma line_ext f g W : (forall x, x < W -> f x = g x) -> line f W = line g W.
Proof. intros H. apply map_ext_in. intros x Hx. apply in_seq in Hx. apply H. lia. Qed.
Lemma line_length f W : length (line f W) = W.
Proof. unfold line. rewrite map_length, seq_length. reflexivity. Qed.
Lemma line_nth f W x : x < W -> nth_error (line f W) x = Some (f x).
Proof. intros H. unfold line. rewrite nth_error_map, (nth_error_nth' _ 0) by (rewrite seq_length; auto). rewrite seq_nth by auto. reflexivity. Qed.
Lemma repeat_line c W : repeat c W = line (fun _ => c) W.
Proof.
  unfold line. generalize 0. induction W as [|W IH]; intros k; simpl; auto. rewrite <- IH. reflexivity.
Qed.
Lemma nth_error_ext' {A} (l l' : list A) : (forall i, nth_error l i = nth_error l' i) -> l = l'.
Proof.
  revert l'. induction l as [|x l IH]; intros [|y l'] H; auto.
  - specialize (H 0). discriminate.
  - specialize (H 0). discriminate.
  - f_equal; [specialize (H 0); simpl in H; congruence|]. apply IH. intros i. apply (H (S i)).
Qed.
Lemma set_byte_line f W x c : x < W -> set_byte (line f W) x c = Ret (line (fun y => if y =? x then c else f y) W).
Proof.
  intros H. unfold set_byte. rewrite line_length, (proj2 (Nat.ltb_lt x W) H). apply (f_equal (@Ret str)). apply nth_error_ext'. intros i.
  rewrite set_nth_nth by (rewrite line_length; auto). destruct (Nat.lt_ge_cases i W).
  - rewrite !line_nth by auto. destruct (i =? x); auto.
  - rewrite (proj2 (nth_error_None (line f W) i)), (proj2 (nth_error_None (line _ W) i)) by (rewrite line_length; auto).
    destruct (Nat.eqb_spec i x); auto. lia.
Qed.
Lemma set_bytes_line c W : forall xs f, (forall x, In x xs -> x < W) ->
  set_bytes (line f W) xs c = Ret (line (fun y => if existsb (Nat.eqb y) xs then c else f y) W).
Proof.
  induction xs as [|x xs IH]; intros f H; simpl; auto. rewrite set_byte_line by (apply H; left; auto). simpl.
  rewrite IH by (intros; apply H; right; auto). f_equal. apply line_ext. intros y _. destruct (y =? x); simpl; auto. destruct (existsb (Nat.eqb y) xs); auto.
Qed.
Lemma range_incl_existsb a b x : existsb (Nat.eqb x) (range_incl a b) = (a <=? x) && (x <=? b).
Proof.
  unfold range_incl. apply eq_true_iff_eq. rewrite existsb_exists, andb_true_iff, !Nat.leb_le. split.
  - intros (y & Hy & E). apply Nat.eqb_eq in E. subst y. apply in_seq in Hy. lia.
  - intros H. exists x. split; [apply in_seq; lia|apply Nat.eqb_refl].
Qed.

(** ** Columns *)
Lemma right_x_left w i : right_x w i = left_x w i + w + 1.
Proof. unfold left_x, right_x. lia. Qed.
Lemma left_x_le w i j : i <= j -> left_x w i <= left_x w j.
Proof. unfold left_x. nia. Qed.
Lemma left_x_next w i j : i < j -> right_x w i + 6 <= left_x w j.
Proof. unfold left_x, right_x. nia. Qed.
Lemma right_x_width w i n : i < n -> right_x w i + 3 <= art_width w n.
Proof. unfold right_x, art_width. nia. Qed.

Section Columns.
Context (w : nat).
Definition ends (l : link) : Prop :=
  (lk_loop l = true /\ lk_left l = lk_right l /\ lk_start w l = left_x w (lk_left l) /\ lk_stop w l = right_x w (lk_right l) /\ lk_head w l = left_x w (lk_left l) + 1) \/
  (lk_loop l = false /\ lk_left l < lk_right l /\ lk_start w l = right_x w (lk_left l) /\ lk_stop w l = left_x w (lk_right l) /\
   (lk_head w l = right_x w (lk_left l) + 2 \/ lk_head w l = left_x w (lk_right l) - 1)).
Lemma link_ends l : ends l.
Proof.
  unfold ends, lk_start, lk_stop, lk_head, lk_loop, lk_left, lk_right. destruct (Nat.compare_spec (lk_from l) (lk_to l)) as [E|E|E].
  - left. rewrite E, Nat.eqb_refl, Nat.min_id, Nat.max_id. auto.
  - right. rewrite (proj2 (Nat.eqb_neq (lk_from l) (lk_to l))) by lia. rewrite Nat.min_l, Nat.max_r by lia. repeat split; auto.
  - right. rewrite (proj2 (Nat.eqb_neq (lk_from l) (lk_to l))) by lia. rewrite Nat.min_r, Nat.max_l by lia. repeat split; auto.
Qed.
Lemma head_range l : lk_start w l < lk_head w l <= lk_stop w l /\ (lk_loop l = false -> lk_head w l < lk_stop w l).
Proof.
  destruct (link_ends l) as [(L & E & -> & -> & ->)|(L & E & -> & -> & H)].
  - rewrite <- E, right_x_left. split; [lia|]. congruence.
  - pose proof (left_x_next w _ _ E). split; lia.
Qed.
Lemma span_range l n : lk_from l < n -> lk_to l < n -> lk_stop w l < art_width w n.
Proof.
  intros H1 H2. assert (lk_right l < n) by (unfold lk_right; lia). pose proof (right_x_width w _ _ H).
  pose proof (right_x_left w (lk_right l)). destruct (link_ends l) as [(_ & _ & _ & -> & _)|(_ & _ & _ & -> & _)]; lia.
Qed.
Lemma bar_range l n x : lk_from l < n -> lk_to l < n -> lk_bar w l x = true -> x < art_width w n.
Proof.
  intros H1 H2 H. assert (R : lk_right l < n) by (unfold lk_right; lia). assert (L : lk_left l < n) by (unfold lk_left; lia).
  pose proof (right_x_width w _ _ R). pose proof (right_x_width w _ _ L). pose proof (right_x_left w (lk_right l)).
  unfold lk_bar in H. apply orb_true_iff in H as [H|H]; apply Nat.eqb_eq in H; lia.
Qed.
Lemma before_stop a b : before (lk_left a) (lk_right a) (lk_left b) (lk_right b) ->
  lk_stop w a <= lk_start w b /\ (lk_loop a = true -> lk_stop w a < lk_start w b).
Proof.
  unfold before. intros H.
  assert (Hs : left_x w (lk_left b) <= lk_start w b).
  { destruct (link_ends b) as [(_ & _ & -> & _)|(_ & _ & -> & _)]; [lia|]. rewrite right_x_left. lia. }
  destruct (link_ends a) as [(L & E & _ & -> & _)|(L & E & _ & -> & _)].
  - rewrite (proj2 (Nat.eqb_eq _ _) E) in H. pose proof (left_x_next w _ _ H). lia.
  - rewrite (proj2 (Nat.eqb_neq (lk_left a) (lk_right a))) in H by lia. pose proof (left_x_le w _ _ H). split; [lia|congruence].
Qed.
(** the head of a link is not covered by another one *)
Lemma head_apart a b : apart a b -> ~ (lk_start w b <= lk_head w a <= lk_stop w b).
Proof.
  intros [H|H] C; apply before_stop in H; pose proof (head_range a).
  - destruct (lk_loop a); intuition lia.
  - lia.
Qed.

Definition cover (l : link) (x : nat) : bool := (lk_start w l <=? x) && (x <=? lk_stop w l).
Definition head_at (x : nat) (l : link) : bool := lk_head w l =? x.
Definition top_over (ls : list link) (f : nat -> N) (x : nat) : N :=
  match find (head_at x) ls with
  | Some l => lk_tip l
  | None => if existsb (fun l => cover l x) ls then 45%N else f x
  end.
Definition bot_over (ls : list link) (f : nat -> N) (x : nat) : N := if existsb (fun l => lk_bar w l x) ls then 124%N else f x.

Lemma mem_existsb x (l : list nat) : mem x l = existsb (Nat.eqb x) l.
Proof. induction l as [|y l IH]; simpl; auto. rewrite IH. reflexivity. Qed.
Lemma hs_insert_In {A} `{Eqb A} (x y : A) l : In y (fst (hs_insert x l)) <-> In y l \/ y = x.
Proof.
  rewrite hs_insert_fst. destruct (mem_spec x l) as [H1|H1].
  - split; [auto|]. intros [?| ->]; auto.
  - rewrite in_app_iff. simpl. split; [intros [?|[?|[]]]; auto|intros [?|?]; auto].
Qed.

Lemma draw_shape_line n f g bars l : lk_from l < n -> lk_to l < n -> exists bars',
  draw_shape w (line f (art_width w n), line g (art_width w n), bars) (grouped_of l) =
    Ret (line (top_over [l] f) (art_width w n), line (bot_over [l] g) (art_width w n), bars') /\
  forall x, In x bars' <-> In x bars \/ lk_bar w l x = true.
Proof.
  intros H1 H2. set (W := art_width w n). pose proof (span_range l n H1 H2) as Hspan. pose proof (head_range l) as [Hh Hh2].
  assert (BL : right_x w (lk_left l) < W) by (apply (bar_range l n); auto; unfold lk_bar; rewrite Nat.eqb_refl; auto).
  assert (BR : left_x w (lk_right l) < W) by (apply (bar_range l n); auto; unfold lk_bar; rewrite Nat.eqb_refl, orb_true_r; auto).
  set (bars' := fst (hs_insert (left_x w (lk_right l)) (fst (hs_insert (right_x w (lk_left l)) bars)))).
  exists bars'. split.
  - unfold draw_shape.
    assert (E : (if direction_eqb (gr_dir (grouped_of l)) DSpot then (left_x_idx w (gr_left (grouped_of l)), right_x_idx w (gr_right (grouped_of l)))
                 else (right_x_idx w (gr_left (grouped_of l)), left_x_idx w (gr_right (grouped_of l)))) = (lk_start w l, lk_stop w l)).
    { unfold lk_start, lk_stop, lk_loop. simpl. unfold dir_of. destruct (Nat.compare_spec (lk_from l) (lk_to l)) as [E|E|E]; simpl.
      - rewrite E, Nat.eqb_refl. reflexivity.
      - rewrite (proj2 (Nat.eqb_neq (lk_from l) (lk_to l))) by lia. reflexivity.
      - rewrite (proj2 (Nat.eqb_neq (lk_from l) (lk_to l))) by lia. reflexivity. }
    rewrite E. clear E. fold W.
    rewrite set_bytes_line. 2:{ intros x Hx. unfold range_incl in Hx. apply in_seq in Hx. fold W in Hspan. lia. }
    cbn [bind].
    assert (E : forall s, match gr_dir (grouped_of l) with
                | DLeft => set_byte s (left_x_idx w (gr_right (grouped_of l)) - 1) 60
                | DRight => set_byte s (right_x_idx w (gr_left (grouped_of l)) + 2) 62
                | DSpot => set_byte s (left_x_idx w (gr_left (grouped_of l)) + 1) 62 end = set_byte s (lk_head w l) (lk_tip l)).
    { intros s. unfold lk_head, lk_tip. simpl. unfold dir_of, lk_left, lk_right. destruct (Nat.compare_spec (lk_from l) (lk_to l)) as [E|E|E]; simpl.
      - rewrite E, Nat.min_id, Nat.ltb_irrefl. reflexivity.
      - rewrite Nat.min_l by lia. rewrite (proj2 (Nat.ltb_ge _ _)) by lia. reflexivity.
      - rewrite Nat.max_l by lia. rewrite (proj2 (Nat.ltb_lt _ _)) by lia. reflexivity. }
    rewrite E. clear E. rewrite set_byte_line by (fold W in Hspan; lia). cbn [bind].
    change (right_x_idx w (gr_left (grouped_of l))) with (right_x w (lk_left l)). change (left_x_idx w (gr_right (grouped_of l))) with (left_x w (lk_right l)).
    rewrite set_byte_line by auto. cbn [bind]. rewrite set_byte_line by auto. cbn [bind]. fold bars'. f_equal. f_equal. f_equal.
    + apply line_ext. intros x _. unfold top_over, head_at, cover. simpl. rewrite range_incl_existsb, orb_false_r, (Nat.eqb_sym x). destruct (lk_head w l =? x); auto.
    + apply line_ext. intros x _. unfold bot_over, lk_bar. simpl. rewrite orb_false_r. destruct (x =? left_x w (lk_right l)); [rewrite orb_true_r; auto|].
      rewrite orb_false_r. destruct (x =? right_x w (lk_left l)); auto.
  - intros x. subst bars'. rewrite !hs_insert_In. unfold lk_bar. rewrite orb_true_iff, !Nat.eqb_eq. tauto.
Qed.

Definition all_apart (ls : list link) : Prop := forall a b, In a ls -> In b ls -> a = b \/ apart a b.
Lemma all_apart_tail l ls : all_apart (l :: ls) -> all_apart ls.
Proof. intros H a b Ha Hb. apply H; right; auto. Qed.
Lemma top_over_cons l ls f x : all_apart (l :: ls) -> top_over ls (top_over [l] f) x = top_over (l :: ls) f x.
Proof.
  intros HA. unfold top_over. cbn [find existsb]. rewrite orb_false_r. destruct (find (head_at x) ls) as [l'|] eqn:Ef.
  - apply find_some in Ef as [Hi Hh]. destruct (head_at x l) eqn:Eh; auto. unfold head_at in *. apply Nat.eqb_eq in Hh, Eh.
    destruct (HA l l') as [->|Ap]; [left; auto|right; auto|auto|]. exfalso. apply (head_apart l l' Ap). pose proof (head_range l'). lia.
  - destruct (existsb (fun l => cover l x) ls) eqn:Ee.
    + rewrite orb_true_r. destruct (head_at x l) eqn:Eh; auto. exfalso. apply existsb_exists in Ee as (l' & Hi & Hc).
      unfold cover in Hc. rewrite andb_true_iff, !Nat.leb_le in Hc. pose proof (find_none _ _ Ef l' Hi) as Hn.
      unfold head_at in *. apply Nat.eqb_eq in Eh. destruct (HA l l') as [->|Ap]; [left; auto|right; auto| |].
      * apply Nat.eqb_neq in Hn. congruence.
      * apply (head_apart l l' Ap). lia.
    + destruct (head_at x l); auto. rewrite orb_false_r. auto.
Qed.
Lemma draw_shapes_line n : forall ls f g bars, all_apart ls -> (forall l, In l ls -> lk_from l < n /\ lk_to l < n) -> exists bars',
  draw_shapes w (line f (art_width w n), line g (art_width w n), bars) (map grouped_of ls) =
    Ret (line (top_over ls f) (art_width w n), line (bot_over ls g) (art_width w n), bars') /\
  forall x, In x bars' <-> In x bars \/ existsb (fun l => lk_bar w l x) ls = true.
Proof.
  induction ls as [|l ls IH]; intros f g bars HA Hn.
  - exists bars. split; [reflexivity|]. intros x. simpl. intuition congruence.
  - destruct (Hn l) as [H1 H2]; [left; auto|]. destruct (draw_shape_line n f g bars l H1 H2) as (b1 & E1 & Hb1).
    destruct (IH (top_over [l] f) (bot_over [l] g) b1) as (b2 & E2 & Hb2); [eapply all_apart_tail; eauto|intros; apply Hn; right; auto|].
    exists b2. split.
    + cbn [draw_shapes map]. rewrite E1. cbn [bind]. rewrite E2. f_equal. f_equal. f_equal.
      * apply line_ext. intros x _. apply top_over_cons. auto.
      * apply line_ext. intros x _. unfold bot_over. cbn [existsb]. rewrite orb_false_r. destruct (lk_bar w l x); simpl; auto. destruct (existsb _ ls); auto.
    + intros x. rewrite Hb2, Hb1. cbn [existsb]. rewrite orb_true_iff. tauto.
Qed.

(** ** Labels *)
Lemma utf8_len_pos c : 1 <= utf8_len c.
Proof. unfold utf8_len. destruct (c <? 128)%N, (c <? 2048)%N, (c <? 65536)%N; lia. Qed.
Lemma boundary_ascii : forall k s, k <= length s -> (forall j c, j < k -> nth_error s j = Some c -> (c < 128)%N) -> boundary s k = Some k.
Proof.
  induction k as [|k IH]; intros [|c s] Hl H; simpl in Hl; try lia; try reflexivity.
  cbn [boundary]. assert (Hc : (c < 128)%N) by (apply (H 0); [lia|reflexivity]).
  unfold utf8_len at 1 2. rewrite (proj2 (N.ltb_lt c 128) Hc). cbn [Nat.ltb Nat.leb Nat.sub]. rewrite Nat.sub_0_r.
  rewrite IH; [reflexivity|lia|]. intros j c' Hj Hn. apply (H (S j)); [lia|auto].
Qed.
Lemma boundary_at : forall i k s, i + k <= length s -> (forall j c, i <= j < i + k -> nth_error s j = Some c -> (c < 128)%N) ->
  boundary s (byte_len (firstn i s) + k) = Some (i + k).
Proof.
  induction i as [|i IH]; intros k s Hl H.
  - simpl. apply boundary_ascii; auto. intros j c Hj. apply H. lia.
  - destruct s as [|c s]; simpl in Hl; [lia|]. cbn [firstn byte_len]. pose proof (utf8_len_pos c).
    destruct (utf8_len c + byte_len (firstn i s) + k) as [|b] eqn:Eb; [lia|]. cbn [boundary].
    rewrite (proj2 (Nat.ltb_ge _ _)) by lia. replace (S b - utf8_len c) with (byte_len (firstn i s) + k) by lia.
    rewrite IH; [reflexivity|lia|]. intros j c' Hj Hn. apply (H (S j)); [lia|auto].
Qed.
Lemma map_nth_seq (s : str) d k : map (fun x => nth (x - k) s d) (seq k (length s)) = s.
Proof.
  revert k. induction s as [|c s IH]; intros k; simpl; auto. rewrite Nat.sub_diag. f_equal.
  rewrite <- (IH (S k)) at 2. apply map_ext_in. intros x Hx. apply in_seq in Hx. replace (x - k) with (S (x - S k)) by lia. reflexivity.
Qed.

Definition written (l : link) (x : nat) : bool := negb (lk_loop l) && (lk_start w l <? x) && (x <=? lk_start w l + length (lk_label l)).
Definition label_over (ls : list link) (f : nat -> N) (x : nat) : N :=
  match find (fun l => written l x) ls with
  | Some l => nth (x - lk_start w l - 1) (lk_label l) 32%N
  | None => f x
  end.
Lemma replace_line f W a (s : str) : a + length s < W -> (forall x, a <= x <= a + length s -> (f x < 128)%N) ->
  (start <- char_offset (line f W) a ;; replace_range (line f W) (start + 1) (start + length s + 1) s) =
  Ret (line (fun x => if (a <? x) && (x <=? a + length s) then nth (x - a - 1) s 32%N else f x) W).
Proof.
  intros H Ha. unfold char_offset. rewrite line_length, (proj2 (Nat.ltb_lt a W)) by lia. cbn [bind]. unfold replace_range.
  replace (byte_len (firstn a (line f W)) + length s + 1) with (byte_len (firstn a (line f W)) + (length s + 1)) by lia.
  assert (HA : forall k j c, k <= length s + 1 -> a <= j < a + k -> nth_error (line f W) j = Some c -> (c < 128)%N).
  { intros k j c Hk Hj. rewrite line_nth by lia. intros [= <-]. apply Ha. lia. }
  rewrite !boundary_at; try (rewrite line_length; lia); try (intros j c Hj; apply (HA (length s + 1)); lia); try (intros j c Hj; apply (HA 1); lia).
  rewrite (proj2 (Nat.leb_le _ _)) by lia. apply (f_equal (@Ret str)). unfold line, str in *.
  replace W with ((a + 1) + (length s + (W - (a + 1) - length s))) by lia.
  rewrite (seq_app (a + 1)), (seq_app (length s)), !map_app. rewrite Nat.add_0_l.
  rewrite firstn_app, firstn_all2 by (rewrite map_length, seq_length; lia). rewrite map_length, seq_length, Nat.sub_diag. cbn [firstn]. rewrite app_nil_r.
  f_equal; [|f_equal].
  - apply map_ext_in. intros x Hx. apply in_seq in Hx. rewrite (proj2 (Nat.ltb_ge a x)) by lia. reflexivity.
  - rewrite <- (map_nth_seq s 32%N (a + 1)) at 1. apply map_ext_in. intros x Hx. apply in_seq in Hx.
    rewrite (proj2 (Nat.ltb_lt a x)), (proj2 (Nat.leb_le x _)) by lia. cbn [andb]. f_equal. lia.
  - rewrite app_assoc, skipn_app, skipn_all2 by (rewrite app_length, !map_length, !seq_length; lia). rewrite app_length, !map_length, !seq_length.
    replace (a + (length s + 1) - (a + 1 + length s)) with 0 by lia. cbn [app skipn]. apply map_ext_in. intros x Hx. apply in_seq in Hx.
    rewrite (proj2 (Nat.leb_gt x _)) by lia. rewrite andb_false_r. reflexivity.
Qed.

Lemma written_range l x : fits w l -> written l x = true -> lk_start w l < x < lk_stop w l /\ x <= lk_start w l + length (lk_label l).
Proof.
  unfold written, fits. rewrite !andb_true_iff, negb_true_iff, Nat.ltb_lt, Nat.leb_le. intros [H|H] ((H1 & H2) & H3); [congruence|lia].
Qed.
Lemma draw_label_line n f l : lk_from l < n -> lk_to l < n -> fits w l ->
  (lk_loop l = false -> forall x, lk_start w l <= x <= lk_start w l + length (lk_label l) -> (f x < 128)%N) ->
  draw_label w (line f (art_width w n)) (grouped_of l) = Ret (line (label_over [l] f) (art_width w n)).
Proof.
  intros H1 H2 Hf Ha. unfold draw_label. change (gr_left (grouped_of l)) with (lk_left l). change (gr_right (grouped_of l)) with (lk_right l).
  pose proof (span_range l n H1 H2) as Hs.
  destruct (link_ends l) as [(L & E & _)|(L & E & Es & _)].
  - rewrite (proj2 (Nat.eqb_eq _ _) E). cbn [negb]. apply (f_equal (@Ret str)), line_ext. intros x _. unfold label_over, written. cbn [find]. rewrite L. reflexivity.
  - rewrite (proj2 (Nat.eqb_neq (lk_left l) (lk_right l))) by lia. cbn [negb]. change (gr_label (grouped_of l)) with (lk_label l).
    change (right_x_idx w (lk_left l)) with (right_x w (lk_left l)). rewrite <- Es. destruct Hf as [Hf|Hf]; [congruence|].
    rewrite replace_line.
    + apply (f_equal (@Ret str)), line_ext. intros x _. unfold label_over, written. cbn [find]. rewrite L. cbn [negb andb]. destruct ((lk_start w l <? x) && _); reflexivity.
    + lia.
    + auto.
Qed.
Lemma written_apart a b x : fits w a -> fits w b -> apart a b -> written a x = true -> ~ (lk_start w b <= x <= lk_start w b + length (lk_label b) /\ lk_loop b = false).
Proof.
  intros Fa Fb Ap Wa (H1 & H2). apply (written_range a) in Wa; auto. destruct Fb as [Fb|Fb]; [congruence|].
  destruct Ap as [Ap|Ap]; apply before_stop in Ap; lia.
Qed.
Lemma label_over_cons l ls f x : all_apart (l :: ls) -> NoDup (l :: ls) -> (forall a, In a (l :: ls) -> fits w a) ->
  label_over ls (label_over [l] f) x = label_over (l :: ls) f x.
Proof.
  intros HA ND HF. unfold label_over. cbn [find]. inversion ND as [|? ? Hn _]; subst. destruct (find (fun l => written l x) ls) as [b|] eqn:Ef.
  - apply find_some in Ef as [Hi Hw]. destruct (written l x) eqn:El; auto. exfalso.
    destruct (HA l b) as [->|Ap]; [left; auto|right; auto|auto|]. apply (written_apart l b x); auto; [apply HF; left; auto|apply HF; right; auto|].
    unfold written in Hw. rewrite !andb_true_iff, negb_true_iff, Nat.ltb_lt, Nat.leb_le in Hw. split; [lia|tauto].
  - destruct (written l x); auto.
Qed.
Lemma draw_labels_line n : forall ls f, all_apart ls -> NoDup ls -> (forall l, In l ls -> lk_from l < n /\ lk_to l < n /\ fits w l) ->
  (forall l x, In l ls -> lk_loop l = false -> lk_start w l <= x <= lk_start w l + length (lk_label l) -> (f x < 128)%N) ->
  draw_labels w (line f (art_width w n)) (map grouped_of ls) = Ret (line (label_over ls f) (art_width w n)).
Proof.
  induction ls as [|l ls IH]; intros f HA ND Hn Ha; [reflexivity|]. cbn [draw_labels map]. destruct (Hn l) as (H1 & H2 & H3); [left; auto|].
  rewrite draw_label_line; auto. 2:{ intros HL x Hx. apply (Ha l x); auto. left; auto. } cbn [bind]. inversion ND as [|? ? Hnl ND']; subst.
  rewrite IH; auto.
  - apply (f_equal (@Ret str)), line_ext. intros x _. apply label_over_cons; auto. intros a Hi. apply Hn. auto.
  - eapply all_apart_tail; eauto.
  - intros a Hi. apply Hn. right; auto.
  - intros b x Hb HL Hx. unfold label_over. cbn [find]. destruct (written l x) eqn:El.
    + exfalso. destruct (HA l b) as [->|Ap]; [left; auto|right; auto|auto|]. apply (written_apart l b x); auto. apply Hn. right; auto.
    + apply (Ha b x); auto. right; auto.
Qed.

(** ** Levels *)
Lemma find_filter {A} (p q : A -> bool) l : find p (filter q l) = find (fun x => q x && p x) l.
Proof. induction l as [|x l IH]; simpl; auto. destruct (q x); simpl; auto. destruct (p x); auto. Qed.
Lemma existsb_filter {A} (p q : A -> bool) l : existsb p (filter q l) = existsb (fun x => q x && p x) l.
Proof. induction l as [|x l IH]; simpl; auto. destruct (q x); simpl; auto. rewrite IH. reflexivity. Qed.
Lemma find_ext' {A} (p q : A -> bool) l : (forall x, p x = q x) -> find p l = find q l.
Proof. intros H. induction l as [|x l IH]; simpl; auto. rewrite H, IH. reflexivity. Qed.
Lemma existsb_ext' {A} (p q : A -> bool) l : (forall x, p x = q x) -> existsb p l = existsb q l.
Proof. intros H. induction l as [|x l IH]; simpl; auto. rewrite H, IH. reflexivity. Qed.
Lemma filter_placed k links :
  map fst (filter (fun '(_, l) => l =? k) (map placed_of links)) = map grouped_of (filter (fun l => lk_level l =? k) links).
Proof. induction links as [|l links IH]; simpl; auto. destruct (lk_level l =? k); simpl; rewrite IH; auto. Qed.

Lemma bars_split k links x : existsb (fun l => (k <=? lk_level l) && lk_bar w l x) links =
  existsb (fun l => (lk_level l =? k) && lk_bar w l x) links || existsb (fun l => (k <? lk_level l) && lk_bar w l x) links.
Proof.
  induction links as [|l links IH]; simpl; auto. rewrite IH.
  destruct (Nat.leb_spec k (lk_level l)), (Nat.ltb_spec k (lk_level l)), (Nat.eqb_spec (lk_level l) k), (lk_bar w l x); try lia; simpl; auto; rewrite ?orb_true_r; auto.
Qed.
Lemma draw_levels_eq h n links : (forall l, In l links -> lk_from l < n /\ lk_to l < n /\ fits w l) -> NoDup links ->
  (forall a b, In a links -> In b links -> lk_level a = lk_level b -> a = b \/ apart a b) ->
  forall k bars, (forall x, In x bars <-> existsb (fun l => (k <=? lk_level l) && lk_bar w l x) links = true) ->
  draw_levels h w (art_width w n) (map placed_of links) bars k = Ret (flat_map (level_lines w n links) (rev (seq 0 k))).
Proof.
  intros Hn ND HA. induction k as [|k IH]; intros bars HB; [reflexivity|]. cbn [draw_levels].
  set (here := filter (fun l => lk_level l =? k) links).
  assert (Hbars : forall x, existsb (Nat.eqb x) (ho h [81; k] bars) = existsb (fun l => (k <? lk_level l) && lk_bar w l x) links).
  { intros x. apply eq_true_iff_eq. rewrite existsb_exists. unfold Nat.ltb. rewrite <- HB. split.
    - intros (y & Hy & E). apply Nat.eqb_eq in E. subst y. rewrite ho_In in Hy. auto.
    - intros Hx. exists x. split; [rewrite ho_In; auto|apply Nat.eqb_refl]. }
  assert (Hrange : forall x, In x (ho h [81; k] bars) -> x < art_width w n).
  { intros x Hx. rewrite ho_In, HB, existsb_exists in Hx. destruct Hx as (l & Hl & E). apply andb_true_iff in E as [_ E].
    destruct (Hn l Hl) as (? & ? & _). apply (bar_range l n); auto. }
  rewrite repeat_line, set_bytes_line by auto. cbn [bind]. rewrite filter_placed. fold here.
  assert (Ha : all_apart here).
  { intros a b Ia Ib. unfold here in *. rewrite filter_In, Nat.eqb_eq in *. apply HA; try tauto. destruct Ia, Ib. congruence. }
  assert (Hh : forall l, In l here -> lk_from l < n /\ lk_to l < n /\ fits w l).
  { intros l Hl. apply Hn. apply filter_In in Hl. tauto. }
  set (f0 := fun y => if existsb (Nat.eqb y) (ho h [81; k] bars) then 124%N else 32%N).
  destruct (draw_shapes_line n here f0 f0 bars Ha) as (bars' & E & Hb'). { intros l Hl. specialize (Hh l Hl). tauto. }
  rewrite E. cbn [bind]. rewrite draw_labels_line; auto.
  - cbn [bind]. rewrite IH.
    + rewrite seq_S, Nat.add_0_l, rev_app_distr. cbn [bind rev app flat_map]. unfold level_lines at 2. cbn [app]. apply (f_equal (@Ret (list str))).
      f_equal; [|f_equal].
      * apply line_ext. intros x _. unfold top_over, top_cell, here. rewrite find_filter, existsb_filter.
        rewrite (find_ext' _ (fun l => (lk_level l =? k) && (lk_head w l =? x))) by reflexivity.
        destruct (find _ links); auto. rewrite (existsb_ext' (fun l => (lk_level l =? k) && (lk_start w l <=? x) && (x <=? lk_stop w l)) (fun l => (lk_level l =? k) && cover l x)) by (intros; unfold cover; rewrite andb_assoc; auto).
        destruct (existsb _ links); auto. unfold f0. rewrite Hbars. reflexivity.
      * apply line_ext. intros x _. unfold label_over, bot_cell, here. rewrite find_filter.
        rewrite (find_ext' _ (fun l => (lk_level l =? k) && negb (lk_loop l) && (lk_start w l <? x) && (x <=? lk_start w l + length (lk_label l)))) by (intros; unfold written; rewrite !andb_assoc; auto).
        destruct (find _ links); auto. unfold bot_over, f0. rewrite existsb_filter, Hbars.
        rewrite (bars_split k links x). destruct (existsb _ links); auto.
    + intros x. rewrite Hb', HB. unfold here. rewrite existsb_filter, (bars_split k), orb_true_iff. unfold Nat.ltb. tauto.
  - apply NoDup_filter. auto.
  - intros l x _ _ _. unfold bot_over, f0. destruct (existsb _ here); [lia|]. destruct (existsb _ _); lia.
Qed.
End Columns.

(** ** ASCII art *)
Lemma max_of_widest names w : widest names w -> max_of (map (@length N) names) = Some w.
Proof.
  intros [H1 (s & Hs & <-)]. destruct names as [|n0 names]; [destruct Hs|]. simpl. f_equal.
  assert (HM : forall (l : list str) m, (forall x, In x l -> length x <= length s) -> m <= length s ->
                                 (m = length s \/ In s l) -> fold_left max (map (@length N) l) m = length s).
  { induction l as [|x l IH]; simpl; intros m Hle Hm Hor.
    - destruct Hor as [?|[]]; auto.
    - assert (length x <= length s) by (apply Hle; auto). apply IH; [auto|lia|]. destruct Hor as [->|[->|Hi]]; [left; lia|left; lia|auto]. }
  apply HM.
  - intros x Hx. apply H1. right; auto.
  - apply H1. left; auto.
  - destruct Hs as [->|Hs]; auto.
Qed.
Lemma last_line_eq w states : (forall s, In s states -> length (st_name s) <= w) -> last_line w states = states_line w states.
Proof.
  intros H. unfold last_line, states_line. f_equal. f_equal. apply map_ext_in. intros s Hs. specialize (H s Hs). unfold state_text.
  assert (E : pad (st_name s) w = st_name s ++ repeat 32%N (w - length (st_name s))).
  { unfold pad. destruct (Nat.ltb_spec (length (st_name s)) w); auto. replace (w - length (st_name s)) with 0 by lia. simpl. rewrite app_nil_r. reflexivity. }
  rewrite E. destruct (st_accepting s); rewrite <- app_assoc; reflexivity.
Qed.
Lemma labels_fit_links w n labels links levels : labels_fit w n labels -> layout n labels links levels -> forall l, In l links -> fits w l.
Proof.
  intros HF L l Hl. destruct (lo_real _ _ _ _ L l Hl) as (H1 & H2 & H3 & _). destruct (link_ends w l) as [(HL & _)|(HL & E & Es & Et & _)]; [left; auto|right].
  rewrite Es, Et. unfold lk_label. rewrite H3. apply HF; auto. unfold lk_loop in HL. apply Nat.eqb_neq in HL. auto.
Qed.
Lemma ascii_art_eq h states arrows links levels labels w : widest (map st_name states) w ->
  place_grouped (group_arrows h arrows) = Ret (map placed_of links, levels) ->
  layout (length states) labels links levels -> (forall l, In l links -> fits w l) ->
  ascii_art h states arrows = Ret (picture w states links levels).
Proof.
  intros Hw E L HF. unfold ascii_art.
  replace (map (fun s => length (st_name s)) states) with (map (@length N) (map st_name states)) by (rewrite map_map; reflexivity).
  rewrite (max_of_widest _ _ Hw). cbn [unwrap bind]. rewrite E. cbn [bind].
  replace (right_x_idx w (length states) - 1) with (art_width w (length states)) by (unfold right_x_idx, art_width; lia).
  rewrite draw_levels_eq.
  - cbn [bind]. rewrite last_line_eq; [reflexivity|]. intros s Hs. apply Hw. apply in_map. auto.
  - intros l Hl. destruct (lo_real _ _ _ _ L l Hl) as (H1 & H2 & _). auto.
  - eapply NoDup_map_inv. apply (lo_once _ _ _ _ L).
  - apply (lo_apart _ _ _ _ L).
  - intros x. split; [intros []|]. intros Hx. apply existsb_exists in Hx as (l & Hl & Hx). apply andb_true_iff in Hx as [Hx _].
    apply Nat.leb_le in Hx. pose proof (lo_level _ _ _ _ L l Hl). lia.
Qed.
Theorem dfa_art_eq h d w : dfa_valid d -> widest (map ds_name (dfa_states d)) w ->
  labels_fit w (length (dfa_states d)) (dfa_labels d) -> exists links levels,
  layout (length (dfa_states d)) (dfa_labels d) links levels /\ dfa_ascii_art h d = Ret (picture w (map of_dfa_state (dfa_states d)) links levels).
Proof.
  intros V Hw HF. destruct (dfa_layout h d V) as (links & levels & E1 & E2 & L). exists links, levels. split; auto.
  unfold dfa_ascii_art. rewrite E1. cbn [bind]. apply (ascii_art_eq _ _ _ _ _ (dfa_labels d)); auto.
  - rewrite map_map. exact Hw.
  - rewrite map_length. auto.
  - eapply labels_fit_links; eauto.
Qed.
Theorem nfa_art_eq h n w : nfa_valid n -> widest (map ns_name (nfa_states n)) w ->
  labels_fit w (length (nfa_states n)) (nfa_labels n) -> exists links levels,
  layout (length (nfa_states n)) (nfa_labels n) links levels /\ nfa_ascii_art h n = Ret (picture w (map of_nfa_state (nfa_states n)) links levels).
Proof.
  intros V Hw HF. destruct (nfa_layout h n V) as (links & levels & E1 & E2 & L). exists links, levels. split; auto.
  unfold nfa_ascii_art. rewrite E1. cbn [bind]. apply (ascii_art_eq _ _ _ _ _ (nfa_labels n)); auto.
  - rewrite map_map. exact Hw.
  - rewrite map_length. auto.
  - eapply labels_fit_links; eauto.
Qed.
Lemma short_labels_fit w n labels :
  (forall i j, i < n -> j < n -> i <> j -> length (joined (of_string ", ") (labels i j)) <= 5) -> labels_fit w n labels.
Proof.
  intros H i j Hi Hj Hn. specialize (H i j Hi Hj Hn). pose proof (left_x_next w (Nat.min i j) (Nat.max i j)). lia.
Qed.
Lemma widest_exists (names : list str) : names <> [] -> exists w, widest names w.
Proof.
  induction names as [|s names IH]; [congruence|]. intros _. destruct names as [|s' names].
  - exists (length s). split; [intros x [->|[]]; auto|exists s; simpl; auto].
  - destruct IH as (w & H1 & s1 & Hs1 & E1); [discriminate|]. destruct (Nat.le_gt_cases w (length s)).
    + exists (length s). split; [|exists s; simpl; auto]. intros x [->|Hx]; auto. specialize (H1 x Hx). lia.
    + exists w. split; [|exists s1; split; [right|]; auto]. intros x [->|Hx]; auto. lia.
Qed.

(** ** Graphical drawings *)
Section Graphic.
Context {fl : floats} (opts : draw_options fl).
Lemma painted_app c (calls calls' : list (call fl)) : painted c (calls ++ calls') =
  painted c calls ++ painted (fold_left (fun c x => match x with SetColor _ c' => Some c' | _ => c end) calls c) calls'.
Proof. revert c. induction calls as [|x calls IH]; intros c; simpl; auto. destruct x; simpl; rewrite IH; auto. Qed.
Definition from_colour (calls : list (call fl)) (l : list (option colour * shape)) : Prop := forall c, painted c calls = l.
Lemma from_colour_app a b l l' : from_colour a l -> from_colour b l' -> from_colour (a ++ b) (l ++ l').
Proof. intros H H' c. rewrite painted_app, H, H'. reflexivity. Qed.
Lemma from_colour_concat {A} (f : A -> list (call fl)) (g : A -> list (option colour * shape)) l :
  (forall x, from_colour (f x) (g x)) -> from_colour (concat (map f l)) (concat (map g l)).
Proof. intros H. induction l as [|x l IH]; simpl; [intros c; reflexivity|]. apply from_colour_app; auto. Qed.

Definition body_ok (calls : list (call fl)) : Prop := Forall (@paints fl) calls /\ ends_with_shape calls.
Lemma body_ok_app a b : body_ok a -> body_ok b -> body_ok (a ++ b).
Proof.
  intros (P & E) (P' & E'). split; [apply Forall_app; auto|]. intros x c H. destruct b as [|y b _] using rev_ind.
  - rewrite app_nil_r in H. apply (E x c H).
  - rewrite app_assoc in H. apply app_inj_tail in H. destruct H as (_ & ->). apply (E' b c). reflexivity.
Qed.
Lemma body_ok_concat l : (forall x, In x l -> body_ok x) -> body_ok (concat l).
Proof.
  induction l as [|x l IH]; intros H; cbn [concat].
  - split; [constructor|]. intros b c E. destruct b; discriminate.
  - apply body_ok_app; [apply H; left; auto|apply IH; intros; apply H; right; auto].
Qed.
Ltac body_ok := split; [repeat constructor; discriminate|intros b k E; apply (f_equal (fun l => hd_error (rev l))) in E; rewrite (rev_app_distr b) in E; discriminate E].
Lemma entry_painted levels : from_colour (draw_entry fl opts levels) (entry_shapes opts levels) /\ body_ok (draw_entry fl opts levels).
Proof. split; [intros c; reflexivity|]. body_ok. Qed.
Lemma state_painted levels i s :
  from_colour (draw_a_state fl opts levels i s) (state_shapes opts levels i s) /\ body_ok (draw_a_state fl opts levels i s).
Proof.
  unfold draw_a_state, state_shapes. destruct (st_accepting s), (st_initial s); (split; [intros c; reflexivity|]); body_ok.
Qed.
Lemma link_painted levels l : lk_level l < levels -> exists calls, draw_an_arrow fl opts levels (placed_of l) = Ret calls /\
  from_colour calls (link_shapes opts levels l) /\ body_ok calls.
Proof.
  intros H. unfold draw_an_arrow, placed_of. rewrite (proj2 (Nat.ltb_ge levels (lk_level l))) by lia. eexists. split; [reflexivity|].
  unfold link_shapes. cbn [gr_left gr_right gr_dir grouped_of].
  change (gr_label (grouped_of l)) with (lk_label l).
  assert (E1 : direction_eqb (dir_of (lk_from l) (lk_to l)) DLeft = (lk_to l <? lk_from l)).
  { unfold dir_of. destruct (Nat.compare_spec (lk_from l) (lk_to l)) as [E|E|E]; simpl; symmetry; [apply Nat.ltb_ge|apply Nat.ltb_ge|apply Nat.ltb_lt]; lia. }
  rewrite E1.
  assert (E2 : (if direction_eqb (dir_of (lk_from l) (lk_to l)) DRight then (x_to_pos fl opts (lk_right l), line_baseline fl opts levels)
                else (x_from_pos fl opts (lk_left l), line_baseline fl opts levels)) =
               (if lk_from l <? lk_to l then x_to_pos fl opts (lk_to l) else x_from_pos fl opts (lk_to l), line_baseline fl opts levels)).
  { unfold dir_of, lk_left, lk_right. destruct (Nat.compare_spec (lk_from l) (lk_to l)) as [E|E|E]; simpl.
    - rewrite E, Nat.ltb_irrefl, Nat.min_id. reflexivity.
    - rewrite (proj2 (Nat.ltb_lt _ _) E), Nat.max_r by lia. reflexivity.
    - rewrite (proj2 (Nat.ltb_ge (lk_from l) (lk_to l))), Nat.min_r by lia. reflexivity. }
  rewrite E2. destruct (o_middle_arrow fl opts), (o_end_arrow fl opts), (lk_from l <? lk_to l), (lk_to l <? lk_from l);
    (split; [intros c; reflexivity|]); body_ok.
Qed.
Lemma draw_eq h states arrows links levels : place_grouped (group_arrows h arrows) = Ret (map placed_of links, levels) ->
  (forall l, In l links -> lk_level l < levels) ->
  exists calls, draw fl opts h states arrows = Ret calls /\ paints_shapes opts states links levels calls.
Proof.
  intros E HL. unfold draw. rewrite E. cbn [bind].
  assert (HM : exists calls, mapR (draw_an_arrow fl opts levels) (map placed_of links) = Ret calls /\
                             from_colour (concat calls) (flat_map (link_shapes opts levels) links) /\ body_ok (concat calls)).
  { clear E. induction links as [|l links IH]; [exists []; split; [reflexivity|]; split; [intros c; reflexivity|]; apply (body_ok_concat []); intros x []|].
    destruct (link_painted levels l) as (c1 & E1 & P1 & Q1); [apply HL; left; auto|]. destruct IH as (c2 & E2 & P2 & Q2); [intros; apply HL; right; auto|].
    exists (c1 :: c2). cbn [mapR map]. rewrite E1. cbn [bind]. rewrite E2. cbn [bind]. split; auto. split.
    - cbn [concat flat_map]. apply from_colour_app; auto.
    - cbn [concat]. apply body_ok_app; auto. }
  destruct HM as (calls & EM & PM & QM). rewrite EM. cbn [bind]. eexists. split; [reflexivity|].
  exists (draw_entry fl opts levels ++ concat (map (fun '(idx, s) => draw_a_state fl opts levels idx s) (enumerate states)) ++ concat calls).
  split; [cbn [app]; rewrite <- !app_assoc; reflexivity|]. apply and_assoc. split.
  - apply body_ok_app; [apply entry_painted|]. apply body_ok_app; auto. apply body_ok_concat.
    intros x HI. apply in_map_iff in HI. destruct HI as ([i s] & <- & _). apply state_painted.
  - unfold shapes.
    assert (P : from_colour (draw_entry fl opts levels ++ concat (map (fun '(idx, s) => draw_a_state fl opts levels idx s) (enumerate states)) ++ concat calls)
                (entry_shapes opts levels ++ concat (map (fun '(i, s) => state_shapes opts levels i s) (enumerate states)) ++ flat_map (link_shapes opts levels) links)).
    { apply from_colour_app; [apply entry_painted|]. apply from_colour_app; auto. apply from_colour_concat. intros [i s]. apply state_painted. }
    apply P.
Qed.
Theorem draw_dfa_eq h d : dfa_valid d -> exists links levels calls, layout (length (dfa_states d)) (dfa_labels d) links levels /\
  draw_dfa fl h opts d = Ret calls /\ paints_shapes opts (map of_dfa_state (dfa_states d)) links levels calls.
Proof.
  intros V. destruct (dfa_layout h d V) as (links & levels & E1 & E2 & L).
  destruct (draw_eq h (map of_dfa_state (dfa_states d)) _ links levels E2 (lo_level _ _ _ _ L)) as (calls & E & P).
  exists links, levels, calls. split; auto. unfold draw_dfa. rewrite E1. auto.
Qed.
Theorem draw_nfa_eq h n : nfa_valid n -> exists links levels calls, layout (length (nfa_states n)) (nfa_labels n) links levels /\
  draw_nfa fl h opts n = Ret calls /\ paints_shapes opts (map of_nfa_state (nfa_states n)) links levels calls.
Proof.
  intros V. destruct (nfa_layout h n V) as (links & levels & E1 & E2 & L).
  destruct (draw_eq h (map of_nfa_state (nfa_states n)) _ links levels E2 (lo_level _ _ _ _ L)) as (calls & E & P).
  exists links, levels, calls. split; auto. unfold draw_nfa. rewrite E1. auto.
Qed.
End Graphic.

Lemma join_snoc sep (ls : list str) x : joined sep (ls ++ [x]) = concat (map (fun l => l ++ sep) ls) ++ x.
Proof.
  induction ls as [|l ls IH]; [reflexivity|]. cbn [map concat]. rewrite <- !app_assoc, <- IH. destruct ls; reflexivity.
Qed.
