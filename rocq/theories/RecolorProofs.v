(** * RecolorProofs: changing accepting flags before or after a product *)
From Coq Require Import List NArith Arith Bool Lia.
From Verif Require Import Base Search Spec DfaModel.
Import ListNotations.

(** ** Two runs that go the same way *)
Definition rrel {A B} (P : A -> B -> Prop) (x : R A) (y : R B) : Prop :=
  match x, y with
  | Ret a, Ret b => P a b
  | Panic, Panic | Diverge, Diverge => True
  | _, _ => False
  end.
Definition orel {A B} (P : A -> B -> Prop) (x : option A) (y : option B) : Prop :=
  match x, y with Some a, Some b => P a b | None, None => True | _, _ => False end.
Definition srel {A A' B B'} (P : A -> A' -> Prop) (Q : B -> B' -> Prop) (x : A + B) (y : A' + B') : Prop :=
  match x, y with inl a, inl b => P a b | inr a, inr b => Q a b | _, _ => False end.

Lemma rrel_bind {A A' B B'} (P : A -> A' -> Prop) (Q : B -> B' -> Prop) m m' f f' :
  rrel P m m' -> (forall a a', P a a' -> rrel Q (f a) (f' a')) -> rrel Q (bind m f) (bind m' f').
Proof. destruct m, m'; simpl; try contradiction; auto. Qed.

Lemma rrel_eq_fun {A B} (f : A -> B) x y : rrel (fun a b => b = f a) x y -> y = bind x (fun a => Ret (f a)).
Proof. destruct x, y; simpl; try contradiction; congruence. Qed.

Lemma rrel_refl {A} (x : R A) : rrel eq x x.
Proof. destruct x; simpl; auto. Qed.

Lemma rounds_rel {S S' B B'} (P : S -> S' -> Prop) (Q : B -> B' -> Prop) step step' :
  (forall s s', P s s' -> rrel (srel P Q) (step s) (step' s')) ->
  forall k s s', P s s' -> rrel (srel P Q) (rounds k step s) (rounds k step' s').
Proof.
  intros H. induction k as [|k IH]; intros s s' Hs; simpl; [auto|].
  pose proof (IH s s' Hs) as H1. destruct (rounds k step s) as [[a|b]| |], (rounds k step' s') as [[a'|b']| |]; simpl in H1; try contradiction; auto; apply IH; auto.
Qed.
Lemma while_rel {S S' B B'} (P : S -> S' -> Prop) (Q : B -> B' -> Prop) step step' k s s' :
  (forall s s', P s s' -> rrel (srel P Q) (step s) (step' s')) -> P s s' -> rrel Q (while k step s) (while k step' s').
Proof.
  intros H Hs. unfold while. pose proof (rounds_rel P Q step step' H k s s' Hs) as H1.
  destruct (rounds k step s) as [[a|b]| |], (rounds k step' s') as [[a'|b']| |]; simpl in *; try contradiction; auto.
Qed.

Lemma mapR_relR {A A' B B'} (P : A -> A' -> Prop) (Q : B -> B' -> Prop) f f' : (forall a a', P a a' -> rrel Q (f a) (f' a')) ->
  forall l l', Forall2 P l l' -> rrel (Forall2 Q) (mapR f l) (mapR f' l').
Proof.
  intros H. induction 1 as [|a a' l l' Ha Hl IH]; simpl; [constructor|].
  apply (rrel_bind Q); auto. intros b b' Hb. apply (rrel_bind (Forall2 Q)); auto. intros r r' Hr. simpl. constructor; auto.
Qed.

Section SearchRel.
  Context {T T' K D D' : Type} {HK : Eqb K}.
  Variables (key : T -> K) (key' : T' -> K) (visit : T -> R (option (D * list T))) (visit' : T' -> R (option (D' * list T'))).
  Variables (PT : T -> T' -> Prop) (PD : D -> D' -> Prop).
  Hypothesis Hkey : forall t t', PT t t' -> key t = key' t'.
  Hypothesis Hvisit : forall t t', PT t t' -> rrel (orel (fun x y => PD (fst x) (fst y) /\ Forall2 PT (snd x) (snd y))) (visit t) (visit' t').

  Lemma push_rel succs succs' : Forall2 PT succs succs' -> forall st st' seen, Forall2 PT st st' ->
    exists r r' s, fold_left (push_new key) succs (st, seen) = (r, s) /\ fold_left (push_new key') succs' (st', seen) = (r', s) /\ Forall2 PT r r'.
  Proof.
    induction 1 as [|t t' l l' Ht Hl IH]; intros st st' seen Hst; simpl; [eauto 10|]. unfold push_new at 2 4. cbn [fst snd].
    rewrite <- (Hkey _ _ Ht). destruct (hs_insert (key t) seen) as [seen' []]; apply IH; auto. apply Forall2_app; auto.
  Qed.
  Lemma pop_rel l l' : Forall2 PT l l' -> orel (fun x y => Forall2 PT (fst x) (fst y) /\ PT (snd x) (snd y)) (pop l) (pop l').
  Proof.
    intros H. unfold pop. assert (Hr : Forall2 PT (rev l) (rev l')).
    { clear Hkey Hvisit. induction H; simpl; [constructor|]. apply Forall2_app; auto. }
    destruct Hr as [|x y r r' Hx Hr]; simpl; auto. split; auto.
    clear -Hr. induction Hr; simpl; [constructor|]. apply Forall2_app; auto.
  Qed.
  Lemma search_rel k t t' : PT t t' ->
    rrel (orel (fun x y => fst x = fst y /\ Forall2 PD (snd x) (snd y))) (search key visit k t) (search key' visit' k t').
  Proof.
    intros Ht. unfold search.
    apply (while_rel (fun s s' => Forall2 PT (fst (fst s)) (fst (fst s')) /\ snd (fst s) = snd (fst s') /\ Forall2 PD (snd s) (snd s'))).
    - intros [[st seen] out] [[st' seen'] out'] (H1 & H2 & H3). cbn [fst snd] in *. subst seen'. unfold search_step.
      pose proof (pop_rel st st' H1) as Hp. destruct (pop st) as [[rest x]|], (pop st') as [[rest' x']|]; simpl in Hp; try contradiction.
      + destruct Hp as [Hrest Hx]. apply (rrel_bind _ _ _ _ _ _ (Hvisit x x' Hx)). intros [[d succs]|] [[d' succs']|] Hd; simpl in Hd; try contradiction.
        * destruct Hd as [Hd Hs]. destruct (push_rel succs succs' Hs rest rest' seen Hrest) as (r & r' & s & -> & -> & Hr). simpl.
          split; auto. split; auto. apply Forall2_app; auto.
        * simpl. auto.
      + simpl. auto.
    - simpl. split; auto. split; auto. f_equal. auto.
  Qed.
End SearchRel.

(** ** Recolouring *)
Definition recolor_state (f : dfa_state -> bool) (s : dfa_state) : dfa_state :=
  mk_dfa_state (ds_name s) (ds_initial s) (f s) (ds_transitions s).
Definition recolor (f : dfa_state -> bool) (d : dfa) : dfa :=
  {| dfa_alphabet := dfa_alphabet d; dfa_states := map (recolor_state f) (dfa_states d); dfa_initial := dfa_initial d |}.

Lemma recolor_id d : recolor ds_accepting d = d.
Proof.
  destruct d as [al ss i]. unfold recolor. cbn. f_equal. rewrite <- (map_id ss) at 2. apply map_ext. intros []. reflexivity.
Qed.
Lemma recolor_invert d : recolor (fun s => negb (ds_accepting s)) d = dfa_invert d.
Proof. reflexivity. Qed.

Lemma index_recolor f ss i : rrel (fun s s' => s' = recolor_state f s) (index ss i) (index (map (recolor_state f) ss) i).
Proof. unfold index. rewrite nth_error_map. destruct (nth_error ss i); simpl; auto. Qed.

Definition eval_rel (f : dfa_state -> bool) (e e' : dfa_eval) : Prop :=
  de_dfa e' = recolor f (de_dfa e) /\ de_rev_map e' = de_rev_map e /\ de_current e' = de_current e /\ de_unknown e' = de_unknown e.

Lemma step_recolor f e e' x : eval_rel f e e' ->
  rrel (fun r r' => eval_rel f (fst r) (fst r') /\ snd r' = option_map (recolor_state f) (snd r)) (de_step e x) (de_step e' x).
Proof.
  intros (H1 & H2 & H3 & H4). unfold de_step. rewrite H4, H2. destruct (de_unknown e) eqn:Eu; [simpl; split; [repeat split; congruence|reflexivity]|].
  destruct (hm_get x (de_rev_map e)) as [i|].
  - rewrite H1, H3. cbn [recolor dfa_states]. apply (rrel_bind _ _ _ _ _ _ (index_recolor f _ _)). intros s s' ->. cbn [recolor_state ds_transitions].
    apply (rrel_bind _ _ _ _ _ _ (rrel_refl _)). intros t ? <-. apply (rrel_bind _ _ _ _ _ _ (index_recolor f _ _)). intros u u' ->.
    simpl. split; auto. split; auto.
  - simpl. split; auto. split; auto.
Qed.

Lemma product_names_ext {K} (f g : K -> R str) l : (forall p, f p = g p) -> forall hm, product_names f hm l = product_names g hm l.
Proof.
  intros H. induction l as [|p l IH]; intros hm; simpl; auto. rewrite H. destruct (g p); simpl; auto.
  destruct (hs_insert a hm) as [hm' []]; auto. rewrite IH. reflexivity.
Qed.

Lemma current_recolor f e e' : eval_rel f e e' ->
  rrel (fun o o' => o' = option_map (recolor_state f) o) (de_current_state e) (de_current_state e').
Proof.
  intros (H1 & H2 & H3 & H4). unfold de_current_state. rewrite H4. destruct (de_unknown e); [reflexivity|]. rewrite H1, H3.
  apply (rrel_bind _ _ _ _ _ _ (index_recolor f _ _)). intros s s' ->. reflexivity.
Qed.
Lemma key_recolor f1 f2 p p' : eval_rel f1 (fst p) (fst p') -> eval_rel f2 (snd p) (snd p') -> de_pair_key p = de_pair_key p'.
Proof.
  intros H1 H2. unfold de_pair_key, de_current_state_idx.
  rewrite (proj1 (proj2 (proj2 H1))), (proj1 (proj2 (proj2 H2))). reflexivity.
Qed.
Lemma succs_recolor f1 f2 al p p' : eval_rel f1 (fst p) (fst p') -> eval_rel f2 (snd p) (snd p') ->
  rrel (Forall2 (fun p p' => eval_rel f1 (fst p) (fst p') /\ eval_rel f2 (snd p) (snd p'))) (de_pair_succs al p) (de_pair_succs al p').
Proof.
  intros H1 H2. unfold de_pair_succs. apply (mapR_relR eq).
  - intros a ? <-. apply (rrel_bind _ _ _ _ _ _ (step_recolor f1 _ _ a H1)). intros [r o] [r' o'] [Hr _].
    apply (rrel_bind _ _ _ _ _ _ (step_recolor f2 _ _ a H2)). intros [u v] [u' v'] [Hu _]. simpl. auto.
  - induction al; constructor; auto.
Qed.

Lemma product_recolor h d1 d2 f1 f2 comb comb' g :
  (forall s1 s2, comb' (recolor_state f1 s1) (recolor_state f2 s2) = g (comb s1 s2)) ->
  dfa_product_construction h (recolor f1 d1) (recolor f2 d2) comb' =
  bind (dfa_product_construction h d1 d2 comb) (fun o => Ret (option_map (recolor (fun s => g (ds_accepting s))) o)).
Proof.
  intros Hc. apply (rrel_eq_fun (option_map (recolor (fun s => g (ds_accepting s))))). unfold dfa_product_construction.
  cbn [recolor dfa_alphabet dfa_initial dfa_states]. destruct (negb _); [reflexivity|]. rewrite !map_length.
  apply (rrel_bind (orel (fun x y => fst x = fst y /\ Forall2 (fun a b => b = (fst (fst a), g (snd (fst a)), snd a)) (snd x) (snd y)))).
  - apply search_rel with (PT := fun p p' => eval_rel f1 (fst p) (fst p') /\ eval_rel f2 (snd p) (snd p')).
    + intros p p' [H1 H2]. apply (key_recolor f1 f2); auto.
    + intros p p' [H1 H2]. apply (rrel_bind _ _ _ _ _ _ (succs_recolor f1 f2 _ p p' H1 H2)). intros ss ss' Hss.
      apply (rrel_bind _ _ _ _ _ _ (current_recolor f1 _ _ H1)). intros o1 ? ->. apply (rrel_bind (fun s s' => s' = recolor_state f1 s)).
      { destruct o1; simpl; auto. }
      intros s1 ? ->. apply (rrel_bind _ _ _ _ _ _ (current_recolor f2 _ _ H2)). intros o2 ? ->. apply (rrel_bind (fun s s' => s' = recolor_state f2 s)).
      { destruct o2; simpl; auto. }
      intros s2 ? ->. simpl. split; auto. rewrite Hc, (key_recolor f1 f2 p p' H1 H2). f_equal.
      clear -Hss. induction Hss as [|x y l l' [Hx Hy] Hl IH]; simpl; auto. rewrite IH, (key_recolor f1 f2 x y Hx Hy). reflexivity.
    + cbn. repeat split.
  - intros [[seen out]|] [[seen' out']|] H; simpl in H; try contradiction; [|reflexivity]. destruct H as [<- Ho].
    match goal with |- rrel _ (bind (product_names ?f _ ?l) _) (bind (product_names ?f' _ _) _) =>
      rewrite (product_names_ext f' f l) end.
    2:{ intros [q1 q2]. unfold index. rewrite !nth_error_map.
        destruct (nth_error (dfa_states d1) q1), (nth_error (dfa_states d2) q2); reflexivity. }
    apply (rrel_bind _ _ _ _ _ _ (rrel_refl _)). intros named ? <-. cbv zeta.
    assert (Hlen : length out' = length out) by (clear -Ho; induction Ho; simpl; auto). rewrite Hlen.
    assert (Hrev : map (fun '(idx, (p, _, _)) => (p, idx)) (enumerate out') = map (fun '(idx, (p, _, _)) => (p, idx)) (enumerate out)).
    { clear -Ho. unfold enumerate. generalize 0.
      induction Ho as [|x y l l' Hx Hl IH]; intros n; simpl; auto. rewrite Hx. destruct x as [[p a] t]. simpl. f_equal. apply IH. }
    rewrite Hrev. apply (rrel_bind _ _ _ _ _ _ (rrel_refl _)). intros init ? <-.
    apply (rrel_bind (Forall2 (fun s s' => s' = recolor_state (fun s => g (ds_accepting s)) s))).
    + apply (mapR_relR _ _ _ _) with (2 := Ho). intros [[p a] t] ? ->. cbn [fst snd].
      apply (rrel_bind _ _ _ _ _ _ (rrel_refl _)). intros x ? <-. apply (rrel_bind _ _ _ _ _ _ (rrel_refl _)). intros y ? <-. reflexivity.
    + intros ss ss' Hss. simpl. unfold recolor. cbn. f_equal. f_equal. clear -Hss. induction Hss; simpl; congruence.
Qed.
