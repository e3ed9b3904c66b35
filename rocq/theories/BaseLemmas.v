(** * Lemmas about the definitions of [Base] *)
From Coq Require Import List NArith Arith Bool Lia Permutation Sorted.
From Coq Require Decimal DecimalNat.
From Verif Require Import Base.
Import ListNotations.

Ltac inv H := inversion H; subst; clear H.

(** ** Results *)
Lemma bind_Ret_inv {A B} (m : R A) (f : A -> R B) b :
  bind m f = Ret b -> exists a, m = Ret a /\ f a = Ret b.
Proof. destruct m; simpl; try discriminate; eauto. Qed.

Lemma mapR_total {A B} (f : A -> R B) (P : A -> B -> Prop) l :
  (forall x, In x l -> exists y, f x = Ret y /\ P x y) ->
  exists ys, mapR f l = Ret ys /\ Forall2 P l ys.
Proof.
  induction l as [|x xs IH]; intros Hf; simpl.
  - exists []. split; auto.
  - destruct (Hf x) as (y & Hy & HP); [left; auto|].
    destruct IH as (ys & Hys & HF); [intros; apply Hf; right; auto|].
    rewrite Hy; simpl. rewrite Hys; simpl. exists (y :: ys); auto.
Qed.

Lemma mapR_inv {A B} (f : A -> R B) l ys :
  mapR f l = Ret ys -> Forall2 (fun x y => f x = Ret y) l ys.
Proof.
  revert ys; induction l as [|x xs IH]; simpl; intros ys Hm.
  - inv Hm; constructor.
  - apply bind_Ret_inv in Hm as (y & Hy & Hm). apply bind_Ret_inv in Hm as (ys' & Hys & Hm).
    inv Hm. constructor; auto.
Qed.

Lemma mapR_Forall2 {A B} (f : A -> R B) l ys :
  Forall2 (fun x y => f x = Ret y) l ys -> mapR f l = Ret ys.
Proof. induction 1 as [|x y xs ys Hx HF IH]; simpl; auto. rewrite Hx; simpl. rewrite IH; auto. Qed.

Lemma mapR_pure {A B} (f : A -> R B) (g : A -> B) l :
  (forall x, In x l -> f x = Ret (g x)) -> mapR f l = Ret (map g l).
Proof.
  induction l as [|x xs IH]; simpl; intros Hf; auto.
  rewrite Hf by auto; simpl. rewrite IH by auto; auto.
Qed.

Lemma mapR_ext {A B} (f g : A -> R B) l : (forall x, In x l -> f x = g x) -> mapR f l = mapR g l.
Proof.
  induction l as [|x xs IH]; simpl; intros Hf; auto.
  rewrite Hf by auto. rewrite IH by auto; auto.
Qed.

Lemma mapR_length {A B} (f : A -> R B) l ys : mapR f l = Ret ys -> length ys = length l.
Proof. intros Hm. apply mapR_inv in Hm. induction Hm; simpl; auto. Qed.

Lemma foldR_total {S A} (f : S -> A -> R S) (Inv : S -> list A -> Prop) l s :
  (forall s x xs, Inv s (x :: xs) -> exists s', f s x = Ret s' /\ Inv s' xs) ->
  Inv s l -> exists s', foldR f s l = Ret s' /\ Inv s' [].
Proof.
  revert s; induction l as [|x xs IH]; intros s Hf Hi; simpl.
  - eauto.
  - destruct (Hf _ _ _ Hi) as (s' & Hs & Hi'). rewrite Hs; simpl. auto.
Qed.

Lemma foldR_app {S A} (f : S -> A -> R S) l1 l2 s :
  foldR f s (l1 ++ l2) = (s' <- foldR f s l1 ;; foldR f s' l2).
Proof. revert s; induction l1 as [|x xs IH]; intros s; simpl; auto. destruct (f s x); simpl; auto. Qed.

Lemma index_Some {A} (l : list A) i x : nth_error l i = Some x -> index l i = Ret x.
Proof. unfold index; intros ->; auto. Qed.

Lemma index_inv {A} (l : list A) i x : index l i = Ret x -> nth_error l i = Some x.
Proof. unfold index. destruct (nth_error l i); simpl; congruence. Qed.

Lemma nth_error_lt {A} (l : list A) i : i < length l -> exists x, nth_error l i = Some x.
Proof. intros Hi. destruct (nth_error l i) eqn:E; eauto. apply nth_error_None in E; lia. Qed.

Lemma nth_error_length {A} (l : list A) i x : nth_error l i = Some x -> i < length l.
Proof. intros E. apply nth_error_Some. congruence. Qed.

(** ** While loops *)
Lemma rounds_total {S B} (Inv : S -> Prop) (Q : B -> Prop) (m : S -> nat) (step : S -> R (S + B)) :
  (forall s, Inv s -> exists r, step s = Ret r /\ match r with inl s' => Inv s' /\ m s' < m s | inr b => Q b end) ->
  forall k s, Inv s -> exists r, rounds k step s = Ret r /\
                               match r with inl s' => Inv s' /\ m s' + 2 ^ k <= m s | inr b => Q b end.
Proof.
  intros Hstep. induction k as [|k IH]; intros s Hs; simpl.
  - destruct (Hstep s Hs) as (r & Hr & HQ). exists r; split; auto. destruct r; auto. destruct HQ; split; auto; lia.
  - destruct (IH s Hs) as (r & Hr & HQ). rewrite Hr. destruct r as [s'|b].
    + destruct HQ as [Hi Hm]. destruct (IH s' Hi) as (r' & Hr' & HQ'). exists r'; split; auto.
      destruct r'; auto. destruct HQ'; split; auto; lia.
    + exists (inr b); auto.
Qed.

Lemma while_total {S B} (Inv : S -> Prop) (Q : B -> Prop) (m : S -> nat) (step : S -> R (S + B)) k s :
  (forall s, Inv s -> exists r, step s = Ret r /\ match r with inl s' => Inv s' /\ m s' < m s | inr b => Q b end) ->
  Inv s -> m s < 2 ^ k -> exists b, while k step s = Ret b /\ Q b.
Proof.
  intros Hstep Hs Hm. destruct (rounds_total Inv Q m step Hstep k s Hs) as (r & Hr & HQ).
  unfold while. rewrite Hr. destruct r as [s'|b]; [destruct HQ; lia|eauto].
Qed.

(** Partial correctness: whatever a loop returns satisfies what its invariant gives. *)
Lemma rounds_inv {S B} (Inv : S -> Prop) (Q : B -> Prop) (step : S -> R (S + B)) :
  (forall s r, Inv s -> step s = Ret r -> match r with inl s' => Inv s' | inr b => Q b end) ->
  forall k s r, Inv s -> rounds k step s = Ret r -> match r with inl s' => Inv s' | inr b => Q b end.
Proof.
  intros Hstep. induction k as [|k IH]; intros s r Hs Hr; simpl in Hr.
  - eapply Hstep; eauto.
  - destruct (rounds k step s) as [[s'|b]| |] eqn:E; try discriminate.
    + eapply IH; [|exact Hr]. exact (IH _ _ Hs E).
    + inv Hr. exact (IH _ _ Hs E).
Qed.

Lemma while_inv {S B} (Inv : S -> Prop) (Q : B -> Prop) (step : S -> R (S + B)) k s b :
  (forall s r, Inv s -> step s = Ret r -> match r with inl s' => Inv s' | inr b => Q b end) ->
  Inv s -> while k step s = Ret b -> Q b.
Proof.
  intros Hstep Hs Hw. unfold while in Hw.
  destruct (rounds k step s) as [[s'|b']| |] eqn:E; try discriminate. inv Hw.
  exact (rounds_inv Inv Q step Hstep k s _ Hs E).
Qed.

Lemma pow2_gt n : n < 2 ^ n.
Proof. induction n; simpl; lia. Qed.
Lemma pow2_pos n : 1 <= 2 ^ n.
Proof. induction n; simpl; lia. Qed.

(** Two loops in lock step: [step2] simulates [step1]. *)
Lemma rounds_sim {S1 S2 B1 B2} (Rel : S1 -> S2 -> Prop) (RB : B1 -> B2 -> Prop)
      (step1 : S1 -> R (S1 + B1)) (step2 : S2 -> R (S2 + B2)) :
  (forall s1 s2 r1, Rel s1 s2 -> step1 s1 = Ret r1 ->
     exists r2, step2 s2 = Ret r2 /\
                match r1, r2 with inl a, inl b => Rel a b | inr a, inr b => RB a b | _, _ => False end) ->
  forall k s1 s2 r1, Rel s1 s2 -> rounds k step1 s1 = Ret r1 ->
    exists r2, rounds k step2 s2 = Ret r2 /\
               match r1, r2 with inl a, inl b => Rel a b | inr a, inr b => RB a b | _, _ => False end.
Proof.
  intros Hstep. induction k as [|k IH]; intros s1 s2 r1 HR Hr; simpl in *.
  - eapply Hstep; eauto.
  - destruct (rounds k step1 s1) as [[s1'|b]| |] eqn:E; try discriminate.
    + destruct (IH _ _ _ HR E) as (r2 & Hr2 & HM). rewrite Hr2. destruct r2 as [s2'|]; [|contradiction].
      eapply IH; eauto.
    + inv Hr. destruct (IH _ _ _ HR E) as (r2 & Hr2 & HM). rewrite Hr2.
      destruct r2 as [s2'|b2]; [contradiction|]. exists (inr b2); auto.
Qed.

Lemma while_sim {S1 S2 B1 B2} (Rel : S1 -> S2 -> Prop) (RB : B1 -> B2 -> Prop)
      (step1 : S1 -> R (S1 + B1)) (step2 : S2 -> R (S2 + B2)) k s1 s2 b1 :
  (forall s1 s2 r1, Rel s1 s2 -> step1 s1 = Ret r1 ->
     exists r2, step2 s2 = Ret r2 /\
                match r1, r2 with inl a, inl b => Rel a b | inr a, inr b => RB a b | _, _ => False end) ->
  Rel s1 s2 -> while k step1 s1 = Ret b1 -> exists b2, while k step2 s2 = Ret b2 /\ RB b1 b2.
Proof.
  intros Hstep HR Hw. unfold while in *.
  destruct (rounds k step1 s1) as [[s1'|b]| |] eqn:E; try discriminate. inv Hw.
  destruct (rounds_sim Rel RB step1 step2 Hstep k s1 s2 _ HR E) as (r2 & Hr2 & HM).
  rewrite Hr2. destruct r2 as [s2'|b2]; [contradiction|]. eauto.
Qed.

(** ** Equality tests, sets *)
Lemma eqb_refl {A} `{Eqb A} (x : A) : eqb x x = true.
Proof. destruct (eqb_spec x x); auto. Qed.
Lemma eqb_true {A} `{Eqb A} (x y : A) : eqb x y = true <-> x = y.
Proof. destruct (eqb_spec x y); split; congruence. Qed.
Lemma eqb_eq {A} `{Eqb A} (x y : A) : eqb x y = true -> x = y.
Proof. apply eqb_true. Qed.
Lemma eqb_false {A} `{Eqb A} (x y : A) : eqb x y = false <-> x <> y.
Proof. destruct (eqb_spec x y); split; congruence. Qed.

Lemma mem_spec {A} `{Eqb A} (x : A) l : reflect (In x l) (mem x l).
Proof.
  induction l as [|y ys IH]; simpl; [constructor; auto|].
  destruct (eqb_spec x y); simpl; [constructor; auto|].
  destruct IH; constructor; [auto|]. intros [?|?]; subst; auto.
Qed.
Lemma mem_In {A} `{Eqb A} (x : A) l : mem x l = true <-> In x l.
Proof. destruct (mem_spec x l); split; congruence. Qed.
Lemma mem_nIn {A} `{Eqb A} (x : A) l : mem x l = false <-> ~ In x l.
Proof. destruct (mem_spec x l); split; congruence. Qed.

Lemma In_dec {A} `{Eqb A} (x : A) l : {In x l} + {~ In x l}.
Proof. destruct (mem_spec x l); auto. Qed.

Lemma NoDup_snoc {A} (l : list A) x : NoDup l -> ~ In x l -> NoDup (l ++ [x]).
Proof.
  intros Hl Hx. apply Permutation_NoDup with (l := x :: l).
  - rewrite Permutation_app_comm. simpl. auto.
  - constructor; auto.
Qed.

Lemma hs_insert_fst {A} `{Eqb A} (x : A) r : fst (hs_insert x r) = if mem x r then r else r ++ [x].
Proof. unfold hs_insert; destruct (mem x r); auto. Qed.

Lemma fold_insert_spec {A} `{Eqb A} l (r : list A) :
  NoDup r -> let r' := fold_left (fun s x => fst (hs_insert x s)) l r in
             NoDup r' /\ (forall x, In x r' <-> In x r \/ In x l).
Proof.
  revert r; induction l as [|x xs IH]; intros r Hr; simpl.
  - split; [auto|tauto].
  - rewrite hs_insert_fst. destruct (mem_spec x r) as [Hx|Hx]; simpl.
    + destruct (IH r Hr) as [H1 H2]. split; auto. intros y. rewrite H2. intuition (subst; auto).
    + destruct (IH (r ++ [x])) as [H1 H2]; [apply NoDup_snoc; auto|]. split; auto.
      intros y. rewrite H2, in_app_iff. simpl. tauto.
Qed.

Lemma hs_collect_NoDup {A} `{Eqb A} (l : list A) : NoDup (hs_collect l).
Proof. apply (fold_insert_spec l []); constructor. Qed.
Lemma hs_collect_In {A} `{Eqb A} (l : list A) x : In x (hs_collect l) <-> In x l.
Proof. destruct (fold_insert_spec l []) as [_ Hs]; [constructor|]. unfold hs_collect. rewrite Hs. simpl. tauto. Qed.

Lemma fold_insert_id {A} `{Eqb A} l (r : list A) :
  NoDup (r ++ l) -> fold_left (fun s x => fst (hs_insert x s)) l r = r ++ l.
Proof.
  revert r; induction l as [|x xs IH]; intros r Hr; simpl.
  - rewrite app_nil_r; auto.
  - rewrite hs_insert_fst. apply NoDup_remove in Hr as [Hr Hx]. destruct (mem_spec x r); simpl.
    + exfalso; apply Hx, in_app_iff; auto.
    + rewrite IH; rewrite <- app_assoc; simpl; auto.
      apply NoDup_Add with (a := x) (l := r ++ xs); [apply Add_app|]. auto.
Qed.
Lemma hs_collect_id {A} `{Eqb A} (l : list A) : NoDup l -> hs_collect l = l.
Proof. intros; unfold hs_collect. rewrite fold_insert_id; auto. Qed.

Lemma fold_insert_length {A} `{Eqb A} l (r : list A) :
  length (fold_left (fun s x => fst (hs_insert x s)) l r) <= length r + length l.
Proof.
  revert r; induction l as [|x xs IH]; intros r; simpl; [lia|].
  etransitivity; [apply IH|]. unfold hs_insert. destruct (mem x r); simpl; [lia|]. rewrite app_length; simpl; lia.
Qed.

Lemma hs_collect_length_NoDup {A} `{Eqb A} (l : list A) : length (hs_collect l) = length l <-> NoDup l.
Proof.
  split.
  - intros Hl. apply NoDup_incl_NoDup with (l := hs_collect l).
    + apply hs_collect_NoDup.
    + lia.
    + intros x Hx. apply hs_collect_In; auto.
  - intros Hl. rewrite hs_collect_id; auto.
Qed.

Lemma hs_eqb_spec {A} `{Eqb A} (a b : list A) :
  NoDup a -> NoDup b -> reflect (forall x, In x a <-> In x b) (hs_eqb a b).
Proof.
  intros Ha Hb. unfold hs_eqb.
  destruct (Nat.eqb_spec (length a) (length b)) as [Hl|Hl]; simpl.
  - destruct (forallb (fun x => mem x b) a) eqn:E; constructor.
    + rewrite forallb_forall in E.
      assert (Hincl : incl a b) by (intros x Hx; apply mem_In, E; auto).
      intros x; split; [apply Hincl|].
      apply (NoDup_length_incl Ha); [lia|auto].
    + intros Heq. enough (forallb (fun x => mem x b) a = true) by congruence.
      apply forallb_forall. intros x Hx. apply mem_In, Heq; auto.
  - constructor. intros Heq. apply Hl. apply Nat.le_antisymm; apply NoDup_incl_length; auto; intros x; apply Heq.
Qed.

(** The loop [for t in l { if all.insert(t) { new.push(t) } }] *)
Lemma fold_insert_new {A} `{Eqb A} (l : list A) r acc :
  NoDup r ->
  exists new,
    fold_left (fun '(r, acc) q => let '(r', ins) := hs_insert q r in (r', if ins then acc ++ [q] else acc)) l (r, acc)
    = (r ++ new, acc ++ new) /\
    NoDup (r ++ new) /\ (forall x, In x new <-> In x l /\ ~ In x r).
Proof.
  revert r acc; induction l as [|x xs IH]; intros r acc Hr; simpl.
  - exists []. rewrite !app_nil_r. repeat split; simpl; tauto.
  - destruct (hs_insert x r) as [r' ins] eqn:Ei. unfold hs_insert in Ei. destruct (mem_spec x r) as [Hx|Hx]; injection Ei as <- <-.
    + destruct (IH r acc Hr) as (new & He & Hn & Hi). exists new. split; auto. split; auto.
      intros y; rewrite Hi. intuition (subst; tauto).
    + destruct (IH (r ++ [x]) (acc ++ [x])) as (new & He & Hn & Hi); [apply NoDup_snoc; auto|].
      exists (x :: new). rewrite He, <- !app_assoc. simpl. split; auto. rewrite <- app_assoc in Hn. simpl in Hn.
      split; auto. intros y; simpl. rewrite Hi, in_app_iff. simpl.
      destruct (eqb_spec x y); [subst; tauto|]. tauto.
Qed.

(** ** Maps *)
Lemma hm_get_insert {K V} `{Eqb K} k k' (v : V) m :
  hm_get k (hm_insert k' v m) = if eqb k k' then Some v else hm_get k m.
Proof.
  induction m as [|[a b] m IH]; simpl; auto.
  destruct (eqb_spec k' a) as [->|Hn]; simpl.
  - destruct (eqb_spec k a); auto.
  - rewrite IH. destruct (eqb_spec k a) as [->|Hn']; auto.
    destruct (eqb_spec a k'); auto. congruence.
Qed.

Lemma hm_get_None {K V} `{Eqb K} k (m : list (K * V)) : hm_get k m = None <-> ~ In k (map fst m).
Proof.
  induction m as [|[a b] m IH]; simpl; [tauto|].
  destruct (eqb_spec k a) as [->|Hn]; [split; [discriminate|tauto]|].
  rewrite IH. intuition congruence.
Qed.

Lemma hm_get_In {K V} `{Eqb K} k (v : V) m : hm_get k m = Some v -> In (k, v) m.
Proof.
  induction m as [|[a b] m IH]; simpl; [discriminate|].
  destruct (eqb_spec k a) as [->|Hn]; [intros [= ->]; auto|auto].
Qed.

Lemma hm_In_get {K V} `{Eqb K} k (v : V) m : NoDup (map fst m) -> In (k, v) m -> hm_get k m = Some v.
Proof.
  induction m as [|[a b] m IH]; simpl; [tauto|]. intros Hnd [E|Hin].
  - inv E. rewrite eqb_refl; auto.
  - inv Hnd. destruct (eqb_spec k a) as [->|]; auto.
    exfalso; apply H2. apply in_map with (f := fst) in Hin; auto.
Qed.

Lemma hm_insert_new {K V} `{Eqb K} k (v : V) m : ~ In k (map fst m) -> hm_insert k v m = m ++ [(k, v)].
Proof.
  induction m as [|[a b] m IH]; simpl; auto. intros Hn.
  destruct (eqb_spec k a) as [->|]; [tauto|]. rewrite IH; auto.
Qed.

Lemma hm_insert_keys {K V} `{Eqb K} k (v : V) m x :
  In x (map fst (hm_insert k v m)) <-> x = k \/ In x (map fst m).
Proof.
  induction m as [|[a b] m IH]; simpl; [intuition|].
  destruct (eqb_spec k a) as [->|]; simpl; [intuition|]. rewrite IH. intuition.
Qed.

Lemma hm_insert_NoDup {K V} `{Eqb K} k (v : V) m :
  NoDup (map fst m) -> NoDup (map fst (hm_insert k v m)).
Proof.
  induction m as [|[a b] m IH]; simpl; intros Hnd.
  - repeat constructor; simpl; tauto.
  - inv Hnd. destruct (eqb_spec k a) as [->|]; simpl; [constructor; auto|].
    constructor; auto. rewrite hm_insert_keys. intros [?|?]; subst; auto.
Qed.

Lemma fold_hm_insert_id {K V} `{Eqb K} (l m : list (K * V)) :
  NoDup (map fst (m ++ l)) -> fold_left (fun m kv => hm_insert (fst kv) (snd kv) m) l m = m ++ l.
Proof.
  revert m; induction l as [|[k v] l IH]; intros m Hnd; simpl.
  - rewrite app_nil_r; auto.
  - rewrite hm_insert_new.
    + rewrite IH; rewrite <- app_assoc; auto.
    + rewrite map_app in Hnd. simpl in Hnd. apply NoDup_remove_2 in Hnd. rewrite in_app_iff in Hnd. tauto.
Qed.
Lemma hm_collect_id {K V} `{Eqb K} (l : list (K * V)) : NoDup (map fst l) -> hm_collect l = l.
Proof. intros; unfold hm_collect; rewrite fold_hm_insert_id; auto. Qed.

(** ** Sorting *)
Lemma insert_sorted_perm x l : Permutation (insert_sorted x l) (x :: l).
Proof.
  induction l as [|y ys IH]; simpl; auto. destruct (x <=? y); auto.
  rewrite IH. constructor.
Qed.
Lemma sort_perm l : Permutation (sort l) l.
Proof. induction l as [|x xs IH]; simpl; auto. rewrite insert_sorted_perm, IH; auto. Qed.
Lemma insert_sorted_sorted x l : StronglySorted le l -> StronglySorted le (insert_sorted x l).
Proof.
  induction 1 as [|y ys Hs IH Hall]; simpl; [repeat constructor|].
  destruct (Nat.leb_spec x y).
  - constructor; [constructor; auto|]. constructor; auto.
    eapply Forall_impl; [|exact Hall]. simpl; intros; lia.
  - constructor; auto. eapply Permutation_Forall; [symmetry; apply insert_sorted_perm|]. constructor; auto; lia.
Qed.
Lemma sort_sorted l : StronglySorted le (sort l).
Proof. induction l; simpl; [constructor|]. apply insert_sorted_sorted; auto. Qed.

Lemma sorted_perm_eq l l' :
  StronglySorted le l -> StronglySorted le l' -> Permutation l l' -> l = l'.
Proof.
  intros Hs; revert l'. induction Hs as [|x xs Hs IH Hall]; intros l' Hs' HP.
  - apply Permutation_nil in HP; auto.
  - destruct Hs' as [|y ys Hs' Hall'].
    + symmetry in HP. apply Permutation_nil in HP; discriminate.
    + assert (x = y).
      { apply Nat.le_antisymm.
        - assert (Hy : In y (x :: xs)) by (eapply Permutation_in; [symmetry; eauto|left; auto]).
          destruct Hy as [->|Hy]; auto. rewrite Forall_forall in Hall; auto.
        - assert (Hx : In x (y :: ys)) by (eapply Permutation_in; [eauto|left; auto]).
          destruct Hx as [->|Hx]; auto. rewrite Forall_forall in Hall'; auto. }
      subst y. f_equal. apply IH; auto. eapply Permutation_cons_inv; eauto.
Qed.

Lemma sort_In x l : In x (sort l) <-> In x l.
Proof. split; apply Permutation_in; [|symmetry]; apply sort_perm. Qed.
Lemma sort_NoDup l : NoDup l -> NoDup (sort l).
Proof. apply Permutation_NoDup; symmetry; apply sort_perm. Qed.
Lemma sort_length l : length (sort l) = length l.
Proof. apply Permutation_length, sort_perm. Qed.

Lemma perm_sort_eq l l' : Permutation l l' -> sort l = sort l'.
Proof.
  intros HP. apply sorted_perm_eq; try apply sort_sorted. rewrite !sort_perm; auto.
Qed.

Lemma sort_eq_set l l' : NoDup l -> NoDup l' -> (sort l = sort l' <-> (forall x, In x l <-> In x l')).
Proof.
  intros Hl Hl'. split.
  - intros E x. rewrite <- (sort_In x l), <- (sort_In x l'), E. tauto.
  - intros E. apply perm_sort_eq, NoDup_Permutation; auto.
Qed.

Lemma sorted_lt l : NoDup l -> StronglySorted le l -> StronglySorted lt l.
Proof.
  intros Hnd Hs. induction Hs as [|x xs Hs IH Hall]; [constructor|]. inv Hnd.
  constructor; auto. rewrite Forall_forall in *. intros y Hy. specialize (Hall y Hy).
  destruct (Nat.eq_dec x y); [subst; tauto|lia].
Qed.

(** ** Positions *)
Lemma position_Some {A} (p : A -> bool) l i :
  position p l = Some i -> exists x, nth_error l i = Some x /\ p x = true /\
                                     (forall j y, j < i -> nth_error l j = Some y -> p y = false).
Proof.
  revert i; induction l as [|x xs IH]; simpl; intros i; [discriminate|].
  destruct (p x) eqn:E.
  - intros [= <-]. exists x; repeat split; auto. intros; lia.
  - destruct (position p xs) as [j|] eqn:Ej; simpl; [|discriminate]. intros [= <-].
    destruct (IH j eq_refl) as (y & Hy & Hp & Hlt). exists y; repeat split; auto.
    intros [|k] z Hk Hz; simpl in Hz; [congruence|]. eapply Hlt; [|eauto]. lia.
Qed.
Lemma position_None {A} (p : A -> bool) l : position p l = None <-> forall x, In x l -> p x = false.
Proof.
  induction l as [|x xs IH]; simpl; [tauto|]. destruct (p x) eqn:E.
  - split; [discriminate|]. intros Hf. rewrite (Hf x) in E; auto; discriminate.
  - destruct (position p xs) as [j|] eqn:Ej; simpl.
    + split; [discriminate|]. intros Hf. destruct IH as [_ IH]. discriminate IH; auto.
    + split; auto. intros _ y [->|Hy]; auto. apply IH; auto.
Qed.

Lemma position_eqb_In {A} `{Eqb A} (x : A) l : In x l -> exists i, position (eqb x) l = Some i /\ nth_error l i = Some x.
Proof.
  intros Hx. destruct (position (eqb x) l) as [i|] eqn:E.
  - apply position_Some in E as (y & Hy & Hp & _). apply eqb_eq in Hp. subst. exists i; auto.
  - rewrite position_None in E. specialize (E x Hx). rewrite eqb_refl in E; discriminate.
Qed.

Lemma NoDup_nth_error_inj {A} (l : list A) i j x :
  NoDup l -> nth_error l i = Some x -> nth_error l j = Some x -> i = j.
Proof.
  intros Hnd Hi Hj. rewrite NoDup_nth_error in Hnd. apply Hnd; [eapply nth_error_length; eauto|congruence].
Qed.

Lemma position_eqb_iff {A} `{Eqb A} (x : A) l i :
  NoDup l -> (position (eqb x) l = Some i <-> nth_error l i = Some x).
Proof.
  intros Hnd. split.
  - intros Hp. apply position_Some in Hp as (y & Hy & Hp & _). apply eqb_eq in Hp; subst; auto.
  - intros Hi. destruct (position_eqb_In x l) as (j & Hj & Hn); [eapply nth_error_In; eauto|].
    rewrite Hj. f_equal. eapply NoDup_nth_error_inj; eauto.
Qed.

Lemma binary_search_inl v x i : NoDup v -> (binary_search v x = inl i <-> nth_error v i = Some x).
Proof.
  intros Hnd. unfold binary_search. change (Nat.eqb x) with (eqb x).
  rewrite <- (position_eqb_iff x v i Hnd). destruct (position (eqb x) v); split; congruence.
Qed.

Lemma binary_search_notin v x :
  ~ In x v -> binary_search v x = inr (length (filter (fun y => y <? x) v)).
Proof.
  intros Hx. unfold binary_search. destruct (position (Nat.eqb x) v) as [i|] eqn:E; auto.
  apply position_Some in E as (y & Hy & Hp & _). apply Nat.eqb_eq in Hp; subst.
  exfalso; apply Hx. eapply nth_error_In; eauto.
Qed.

(** There are at most [x] different numbers below [x]. *)
Lemma usize_sub_below v x : NoDup v ->
  usize_sub x (length (filter (fun y => y <? x) v)) = Ret (x - length (filter (fun y => y <? x) v)).
Proof.
  intros Hnd. unfold usize_sub. replace (length (filter (fun y => y <? x) v) <=? x) with true; auto. symmetry. apply Nat.leb_le.
  transitivity (length (seq 0 x)); [|rewrite seq_length; auto]. apply NoDup_incl_length; [apply NoDup_filter; auto|].
  intros y Hy. apply filter_In in Hy as [_ Hy]. apply Nat.ltb_lt in Hy. apply in_seq. lia.
Qed.

(** ** Pop, swap_remove *)
Lemma pop_None {A} (l : list A) : pop l = None <-> l = [].
Proof.
  unfold pop. destruct (rev l) eqn:E.
  - split; auto. intros _. rewrite <- (rev_involutive l), E; auto.
  - split; [discriminate|]. intros ->. discriminate.
Qed.
Lemma pop_Some {A} (l r : list A) x : pop l = Some (r, x) <-> l = r ++ [x].
Proof.
  unfold pop. split.
  - destruct (rev l) eqn:E; [discriminate|]. intros [= <- <-].
    rewrite <- (rev_involutive l), E; auto.
  - intros ->. rewrite rev_app_distr. simpl. rewrite rev_involutive; auto.
Qed.
Lemma pop_snoc {A} (r : list A) x : pop (r ++ [x]) = Some (r, x).
Proof. apply pop_Some; auto. Qed.

Lemma swap_remove_total {A} i (l : list A) :
  i < length l -> exists x l', nth_error l i = Some x /\ swap_remove i l = Ret l' /\ Permutation l (x :: l').
Proof.
  intros Hi. unfold swap_remove. destruct (pop l) as [[r y]|] eqn:E.
  - apply pop_Some in E. subst. rewrite app_length in Hi. simpl in Hi.
    destruct (Nat.eqb_spec i (length r)) as [->|Hne].
    + exists y, r. rewrite nth_error_app2, Nat.sub_diag by auto. simpl. split; auto. split; auto.
      rewrite Permutation_app_comm; auto.
    + destruct (Nat.ltb_spec i (length r)); [|lia].
      destruct (nth_error_lt r i) as [x Hx]; auto.
      exists x, (firstn i r ++ y :: skipn (S i) r). rewrite nth_error_app1 by auto. split; auto. split; auto.
      apply nth_error_split in Hx as (l1 & l2 & Hr & Hl). subst.
      rewrite firstn_app, Nat.sub_diag, firstn_all, app_nil_r.
      change (l1 ++ x :: l2) with (l1 ++ [x] ++ l2). rewrite app_assoc.
      replace (S (length l1)) with (length (l1 ++ [x])) by (rewrite app_length; simpl; lia).
      rewrite skipn_app, Nat.sub_diag, skipn_all. simpl.
      rewrite <- !app_assoc. simpl. rewrite <- (Permutation_middle l1 (l2 ++ [y]) x).
      constructor. apply Permutation_app_head. rewrite Permutation_app_comm. simpl. auto.
  - apply pop_None in E. subst. simpl in Hi. lia.
Qed.

(** ** Enumerate *)
Lemma enumerate_length {A} (l : list A) : length (enumerate l) = length l.
Proof. unfold enumerate. rewrite combine_length, seq_length; lia. Qed.

Lemma combine_seq_nth {A} (l : list A) k i p :
  nth_error (combine (seq k (length l)) l) i = Some p <-> fst p = k + i /\ nth_error l i = Some (snd p).
Proof.
  revert k i; induction l as [|x xs IH]; intros k i; simpl.
  - destruct i; simpl; split; [discriminate|intros [_ ?]; discriminate|discriminate|intros [_ ?]; discriminate].
  - destruct i; simpl.
    + rewrite Nat.add_0_r. split; [intros [= <-]; auto|]. destruct p; simpl. intros [-> [= ->]]; auto.
    + rewrite IH. rewrite <- plus_n_Sm. simpl. tauto.
Qed.
Lemma enumerate_nth {A} (l : list A) i p :
  nth_error (enumerate l) i = Some p <-> fst p = i /\ nth_error l i = Some (snd p).
Proof. unfold enumerate. rewrite combine_seq_nth. simpl. tauto. Qed.
Lemma enumerate_In {A} (l : list A) i x : In (i, x) (enumerate l) <-> nth_error l i = Some x.
Proof.
  split.
  - intros Hin. apply In_nth_error in Hin as [j Hj]. apply enumerate_nth in Hj as [H1 H2]. simpl in *; subst; auto.
  - intros Hn. apply nth_error_In with i. apply enumerate_nth; auto.
Qed.
Lemma enumerate_fst {A} (l : list A) : map fst (enumerate l) = seq 0 (length l).
Proof.
  unfold enumerate. generalize 0. induction l as [|x xs IH]; intros k; simpl; auto. rewrite IH; auto.
Qed.
Lemma enumerate_snd {A} (l : list A) : map snd (enumerate l) = l.
Proof.
  unfold enumerate. generalize 0. induction l as [|x xs IH]; intros k; simpl; auto. rewrite IH; auto.
Qed.

Lemma set_nth_length {A} i (x : A) l : length (set_nth i x l) = length l.
Proof. revert i; induction l; intros [|i]; simpl; auto. Qed.
Lemma set_nth_nth {A} i (x : A) l j :
  i < length l -> nth_error (set_nth i x l) j = if j =? i then Some x else nth_error l j.
Proof.
  revert i j; induction l as [|y ys IH]; intros i j Hi; simpl in *; [lia|].
  destruct i; destruct j; simpl; auto. rewrite IH by lia. reflexivity.
Qed.
Lemma set_nth_map {A B} (f : A -> B) i (x : A) l :
  map f (set_nth i x l) = set_nth i (f x) (map f l).
Proof. revert i; induction l; intros [|i]; simpl; auto. rewrite IHl; auto. Qed.
Lemma set_nth_same {A} i (x : A) l : nth_error l i = Some x -> set_nth i x l = l.
Proof. revert i; induction l; intros [|i]; simpl; intros H; inv H; auto. rewrite IHl; auto. Qed.

(** ** Removing a sorted list of indices *)
(** the elements of [l] (numbered from [i]) whose number is not in [rem] *)
Fixpoint keep {A} (i : nat) (rem : list nat) (l : list A) : list A :=
  match l with
  | [] => []
  | y :: ys => if mem i rem then keep (S i) rem ys else y :: keep (S i) rem ys
  end.

Lemma keep_ext {A} i r1 r2 (l : list A) :
  (forall x, i <= x -> In x r1 <-> In x r2) -> keep i r1 l = keep i r2 l.
Proof.
  revert i; induction l as [|y ys IH]; intros i Hx; simpl; auto.
  rewrite (IH (S i)) by (intros; apply Hx; lia).
  destruct (mem_spec i r1) as [H1|H1], (mem_spec i r2) as [H2|H2]; auto; exfalso;
    [apply H2, Hx|apply H1, Hx]; auto.
Qed.

Lemma keep_nil {A} i (l : list A) : keep i [] l = l.
Proof. revert i; induction l; simpl; intros; auto. rewrite IHl; auto. Qed.

Lemma remove_nth_keep {A} (l : list A) i x rem :
  i <= x -> x < i + length l -> Forall (lt x) rem ->
  remove_nth (x - i) (keep i rem l) = Ret (keep i (x :: rem) l).
Proof.
  revert i; induction l as [|y ys IH]; intros i Hix Hlen Hall; simpl in *; [lia|].
  destruct (mem_spec i rem) as [Hm|Hm].
  - rewrite Forall_forall in Hall. apply Hall in Hm. lia.
  - destruct (Nat.eqb_spec i x) as [->|Hne]; simpl.
    + rewrite Nat.sub_diag. simpl. f_equal.
      apply keep_ext. intros z Hz. simpl. intuition lia.
    + destruct (x - i) as [|k] eqn:Ek; [lia|]. cbn [remove_nth].
      replace k with (x - S i) by lia. rewrite IH by (auto; lia). simpl.
      destruct (mem_spec i rem); [tauto|]. auto.
Qed.

Lemma foldR_remove {A B} (rem : list nat) (l : list A) (l' : list B) :
  StronglySorted lt rem -> Forall (fun x => x < length l) rem -> length l = length l' ->
  foldR (fun '(ss, old) idx => ss' <- remove_nth idx ss ;; old' <- remove_nth idx old ;; Ret (ss', old'))
        (l, l') (rev rem) = Ret (keep 0 rem l, keep 0 rem l').
Proof.
  intros Hs Hall Hlen. induction Hs as [|x xs Hs IH Hx]; simpl.
  - rewrite !keep_nil; auto.
  - inv Hall. rewrite foldR_app, IH by auto. simpl.
    rewrite <- (Nat.sub_0_r x) at 1. rewrite remove_nth_keep by (auto; lia). simpl.
    rewrite <- (Nat.sub_0_r x) at 1. rewrite remove_nth_keep by (auto; lia). auto.
Qed.

(** Old numbers of the elements that are kept *)
Definition kept (rem : list nat) (n : nat) : list nat := keep 0 rem (seq 0 n).

Lemma keep_seq_filter i rem n :
  keep i rem (seq i n) = filter (fun x => negb (mem x rem)) (seq i n).
Proof. revert i; induction n; intros i; simpl; auto. rewrite IHn. destruct (mem i rem); auto. Qed.
Lemma kept_filter rem n : kept rem n = filter (fun x => negb (mem x rem)) (seq 0 n).
Proof. apply keep_seq_filter. Qed.
Lemma kept_In rem n q : In q (kept rem n) <-> q < n /\ ~ In q rem.
Proof.
  rewrite kept_filter, filter_In, in_seq, negb_true_iff, mem_nIn. intuition lia.
Qed.
Lemma kept_NoDup rem n : NoDup (kept rem n).
Proof. rewrite kept_filter. apply NoDup_filter, seq_NoDup. Qed.

Lemma keep_nth {A} i rem (l : list A) j s :
  nth_error (keep i rem l) j = Some s <->
  exists q, nth_error (keep i rem (seq i (length l))) j = Some (i + q) /\ nth_error l q = Some s.
Proof.
  revert i j; induction l as [|y ys IH]; intros i j; simpl.
  - destruct j; simpl; split; try discriminate; intros (q & ? & ?); discriminate.
  - destruct (mem i rem).
    + rewrite IH. split; intros (q & H1 & H2).
      * exists (S q). rewrite <- plus_n_Sm. auto.
      * destruct q as [|q].
        { exfalso. apply nth_error_In in H1. rewrite keep_seq_filter in H1. apply filter_In in H1 as [H1 _].
          apply in_seq in H1. lia. }
        exists q. rewrite <- plus_n_Sm in H1. auto.
    + destruct j as [|j]; simpl.
      * split.
        -- intros [= ->]. exists 0. rewrite Nat.add_0_r; auto.
        -- intros (q & [= H1] & H2). assert (q = 0) by lia. subst. simpl in H2. auto.
      * rewrite IH. split; intros (q & H1 & H2).
        -- exists (S q). rewrite <- plus_n_Sm. auto.
        -- destruct q as [|q].
           { exfalso. apply nth_error_In in H1. rewrite keep_seq_filter in H1. apply filter_In in H1 as [H1 _].
             apply in_seq in H1. lia. }
           exists q. rewrite <- plus_n_Sm in H1. auto.
Qed.

Lemma keep_nth0 {A} rem (l : list A) j s :
  nth_error (keep 0 rem l) j = Some s <-> exists q, nth_error (kept rem (length l)) j = Some q /\ nth_error l q = Some s.
Proof. rewrite keep_nth. reflexivity. Qed.

Lemma keep_length {A} i rem (l : list A) : length (keep i rem l) = length (keep i rem (seq i (length l))).
Proof. revert i; induction l as [|y ys IH]; intros i; simpl; auto. destruct (mem i rem); simpl; rewrite IH; auto. Qed.

Lemma keep_map {A B} (f : A -> B) i rem l : keep i rem (map f l) = map f (keep i rem l).
Proof. revert i; induction l as [|y ys IH]; intros i; simpl; auto. rewrite IH. destruct (mem i rem); auto. Qed.

Lemma keep_In {A} i rem (l : list A) x : In x (keep i rem l) -> In x l.
Proof.
  revert i; induction l as [|y ys IH]; intros i; simpl; auto. destruct (mem i rem); simpl; [eauto|].
  intros [?|?]; eauto.
Qed.
Lemma keep_NoDup {A} i rem (l : list A) : NoDup l -> NoDup (keep i rem l).
Proof.
  intros Hnd; revert i; induction Hnd as [|y ys Hy Hnd IH]; intros i; simpl; [constructor|].
  destruct (mem i rem); auto. constructor; auto. intros Hin; apply Hy; eapply keep_In; eauto.
Qed.

(** The new number of a kept element is its old number minus the number of removed smaller ones. *)
Lemma filter_lt_length_seq rem q n :
  q < n -> ~ In q rem ->
  nth_error (filter (fun x => negb (mem x rem)) (seq 0 n)) (length (filter (fun x => negb (mem x rem)) (seq 0 q))) = Some q.
Proof.
  intros Hq Hn. replace n with (q + (1 + (n - q - 1))) by lia. rewrite seq_app, filter_app, nth_error_app2 by auto.
  rewrite Nat.sub_diag. simpl. destruct (mem_spec q rem); [tauto|]. simpl. auto.
Qed.

Lemma filter_partition_length {A} (p : A -> bool) l :
  length (filter p l) + length (filter (fun x => negb (p x)) l) = length l.
Proof. induction l as [|x xs IH]; simpl; auto. destruct (p x); simpl; lia. Qed.

Lemma count_below rem q :
  NoDup rem ->
  length (filter (fun x => mem x rem) (seq 0 q)) = length (filter (fun y => y <? q) rem).
Proof.
  intros Hnd. apply Permutation_length. apply NoDup_Permutation.
  - apply NoDup_filter, seq_NoDup.
  - apply NoDup_filter; auto.
  - intros x. rewrite !filter_In, in_seq, mem_In, Nat.ltb_lt. intuition lia.
Qed.

Lemma kept_index rem n q :
  NoDup rem -> q < n -> ~ In q rem ->
  nth_error (kept rem n) (q - length (filter (fun y => y <? q) rem)) = Some q.
Proof.
  intros Hnd Hq Hn. rewrite kept_filter, <- count_below by auto.
  pose proof (filter_partition_length (fun x => mem x rem) (seq 0 q)) as Hp. rewrite seq_length in Hp.
  rewrite <- (filter_lt_length_seq rem q n) by auto. f_equal. lia.
Qed.

(** ** Decimal numbers *)
Lemma uint_str_inj u v : uint_str u = uint_str v -> u = v.
Proof. revert v; induction u; intros []; simpl; intros H; inversion H; f_equal; auto. Qed.
Lemma dec_inj n m : dec n = dec m -> n = m.
Proof.
  intros H. apply uint_str_inj in H.
  rewrite <- (DecimalNat.Unsigned.of_to n), <- (DecimalNat.Unsigned.of_to m), H; auto.
Qed.
Lemma map_dec_NoDup l : NoDup l -> NoDup (map dec l).
Proof. apply FinFun.Injective_map_NoDup. intros x y. apply dec_inj. Qed.

(** ** Miscellaneous *)
Lemma Forall2_nth {A B} (P : A -> B -> Prop) l l' :
  Forall2 P l l' -> forall i x, nth_error l i = Some x -> exists y, nth_error l' i = Some y /\ P x y.
Proof.
  induction 1 as [|a b l l' Hab HF IH]; intros [|i] x; simpl; try discriminate.
  - intros [= ->]. eauto.
  - eauto.
Qed.
Lemma Forall2_nth_r {A B} (P : A -> B -> Prop) l l' :
  Forall2 P l l' -> forall i y, nth_error l' i = Some y -> exists x, nth_error l i = Some x /\ P x y.
Proof.
  induction 1 as [|a b l l' Hab HF IH]; intros [|i] x; simpl; try discriminate.
  - intros [= ->]. eauto.
  - eauto.
Qed.
Lemma Forall2_len {A B} (P : A -> B -> Prop) l l' : Forall2 P l l' -> length l = length l'.
Proof. induction 1; simpl; auto. Qed.
Lemma Forall2_In_l {A B} (P : A -> B -> Prop) l l' x :
  Forall2 P l l' -> In x l -> exists y, In y l' /\ P x y.
Proof.
  intros HF Hx. apply In_nth_error in Hx as [i Hi]. destruct (Forall2_nth _ _ _ HF _ _ Hi) as (y & Hy & HP).
  exists y; split; auto. eapply nth_error_In; eauto.
Qed.
Lemma Forall2_In_r {A B} (P : A -> B -> Prop) l l' y :
  Forall2 P l l' -> In y l' -> exists x, In x l /\ P x y.
Proof.
  intros HF Hx. apply In_nth_error in Hx as [i Hi]. destruct (Forall2_nth_r _ _ _ HF _ _ Hi) as (x & Hy & HP).
  exists x; split; auto. eapply nth_error_In; eauto.
Qed.

Lemma ho_In (h : hash_order) {A} tag (l : list A) x : In x (ho h tag l) <-> In x l.
Proof. split; apply Permutation_in; [|symmetry]; apply ho_perm. Qed.
Lemma ho_NoDup (h : hash_order) {A} tag (l : list A) : NoDup l -> NoDup (ho h tag l).
Proof. apply Permutation_NoDup; symmetry; apply ho_perm. Qed.
Lemma ho_length (h : hash_order) {A} tag (l : list A) : length (ho h tag l) = length l.
Proof. apply Permutation_length, ho_perm. Qed.

Lemma in_concat_iff {A} (ls : list (list A)) x : In x (concat ls) <-> exists l, In l ls /\ In x l.
Proof. rewrite in_concat. firstorder. Qed.
Lemma Forall2_impl {A B} (P Q : A -> B -> Prop) l l' :
  (forall x y, P x y -> Q x y) -> Forall2 P l l' -> Forall2 Q l l'.
Proof. intros HI. induction 1; auto. Qed.

Lemma NoDup_app_iff {A} (l l' : list A) :
  NoDup (l ++ l') <-> NoDup l /\ NoDup l' /\ forall x, In x l -> ~ In x l'.
Proof.
  induction l as [|y ys IH]; simpl.
  - split; [intros H; split; [constructor|split; auto]|tauto].
  - rewrite !NoDup_cons_iff, IH, in_app_iff. split.
    + intros (H1 & H2 & H3 & H4). split; [tauto|]. split; auto. intros x [<-|Hx]; auto.
    + intros ((H1 & H2) & H3 & H4). split; [|split; [auto|split; [auto|]]].
      * intros [?|?]; [auto|]. apply (H4 y); auto.
      * intros x Hx. apply H4; auto.
Qed.
Lemma NoDup_app_remove_r {A} (l l' : list A) : NoDup (l ++ l') -> NoDup l.
Proof. rewrite NoDup_app_iff. tauto. Qed.
Lemma NoDup_app_remove_l {A} (l l' : list A) : NoDup (l ++ l') -> NoDup l'.
Proof. rewrite NoDup_app_iff. tauto. Qed.

Lemma nth_error_ext {A} (l l' : list A) : (forall i, nth_error l i = nth_error l' i) -> l = l'.
Proof.
  revert l'; induction l as [|x l IH]; intros [|y l'] H; auto.
  - specialize (H 0); discriminate.
  - specialize (H 0); discriminate.
  - f_equal; [specialize (H 0); simpl in H; congruence|]. apply IH. intros i. apply (H (S i)).
Qed.
