(** * FnMutProofs: the product constructions call their combinator once for every pair *)
From Coq Require Import List NArith Arith Bool Lia.
From Verif Require Import Base BaseLemmas Spec Search DfaModel NfaModel FnMutSpec FnMutModel RecolorProofs DfaBasics DfaReach DfaEquiv NfaBasics NfaProduct.
Import ListNotations.

Section Ask.
  Context {D M X : Type}.
  Variables (f : M -> X -> R (bool * M)) (arg : D -> X) (setb : bool -> D -> D).

  Fixpoint ask (m : M) (l : list D) : R (list D * M) :=
    match l with
    | [] => Ret ([], m)
    | d :: l =>
        '(b, m') <- f m (arg d) ;;
        '(l', m'') <- ask m' l ;;
        Ret (setb b d :: l', m'')
    end.
  Definition setbs (bs : list bool) (l : list D) : list D := map (fun '(b, d) => setb b d) (combine bs l).

  Lemma ask_app m l1 l2 : ask m (l1 ++ l2) = ('(r1, m1) <- ask m l1 ;; '(r2, m2) <- ask m1 l2 ;; Ret (r1 ++ r2, m2)).
  Proof.
    revert m. induction l1 as [|d l1 IH]; intros m; simpl.
    - destruct (ask m l2) as [[r2 m2]| |]; reflexivity.
    - destruct (f m (arg d)) as [[b m']| |]; simpl; auto. rewrite IH. destruct (ask m' l1) as [[r1 m1]| |]; simpl; auto.
      destruct (ask m1 l2) as [[r2 m2]| |]; reflexivity.
  Qed.

  Lemma ans_nil_inv m bs m' : answers f m [] bs m' -> bs = [] /\ m' = m.
  Proof. intros H. inversion H. auto. Qed.
  Lemma ans_cons_inv m x l bs m' : answers f m (x :: l) bs m' -> exists b bs' m1, bs = b :: bs' /\ f m x = Ret (b, m1) /\ answers f m1 l bs' m'.
  Proof. intros H. inversion H. subst. eauto 8. Qed.

  Lemma ask_answers l : forall m bs m', answers f m (map arg l) bs m' -> ask m l = Ret (setbs bs l, m') /\ length bs = length l.
  Proof.
    induction l as [|d l IH]; intros m bs m' H; simpl in H.
    - apply ans_nil_inv in H as [-> ->]. auto.
    - apply ans_cons_inv in H as (b & bs' & m1 & -> & H1 & H2). destruct (IH _ _ _ H2) as [E L]. simpl. rewrite H1. simpl. rewrite E. simpl. auto.
  Qed.
  Lemma ask_cases l : forall m, (exists bs m', answers f m (map arg l) bs m') \/
    (exists bad, (bad = Panic \/ bad = Diverge) /\ ends_in f bad m (map arg l) /\ ask m l = match bad with Panic => Panic | _ => Diverge end).
  Proof.
    induction l as [|d l IH]; intros m; simpl; [left; exists [], m; constructor|].
    destruct (f m (arg d)) as [[b m']| |] eqn:E; simpl.
    - destruct (IH m') as [(bs & m'' & H)|(bad & Hb & (before & x & after & bs & m'' & Hl & Ha & Hx) & Hask)].
      + left. exists (b :: bs), m''. econstructor; eauto.
      + right. exists bad. split; auto. split.
        * exists (arg d :: before), x, after, (b :: bs), m''. rewrite Hl. split; auto. split; auto. econstructor; eauto.
        * rewrite Hask. destruct Hb as [-> | ->]; reflexivity.
    - right. exists Panic. split; auto. split; auto. exists [], (arg d), (map arg l), [], m. split; auto. split; [constructor|auto].
    - right. exists Diverge. split; auto. split; auto. exists [], (arg d), (map arg l), [], m. split; auto. split; [constructor|auto].
  Qed.
  Lemma answers_fun l : forall m bs m' bs' m'', answers f m l bs m' -> answers f m l bs' m'' -> bs = bs' /\ m' = m''.
  Proof.
    induction l as [|x l IH]; intros m bs m' bs' m'' H1 H2.
    - apply ans_nil_inv in H1 as [-> ->]. apply ans_nil_inv in H2 as [-> ->]. auto.
    - apply ans_cons_inv in H1 as (b & t & m1 & -> & E1 & H1). apply ans_cons_inv in H2 as (b' & t' & m1' & -> & E2 & H2).
      rewrite E1 in E2. injection E2 as <- <-. destruct (IH _ _ _ _ _ H1 H2) as [-> ->]. auto.
  Qed.
  Lemma answers_split l1 : forall l2 m bs m', answers f m (l1 ++ l2) bs m' -> exists bs1 bs2 m1, answers f m l1 bs1 m1 /\ answers f m1 l2 bs2 m'.
  Proof.
    induction l1 as [|x l1 IH]; intros l2 m bs m' H; simpl in H; [exists [], bs, m; split; [constructor|auto]|].
    apply ans_cons_inv in H as (b & t & m0 & -> & E1 & H). destruct (IH _ _ _ _ H) as (bs1 & bs2 & m1 & A1 & A2).
    exists (b :: bs1), bs2, m1. split; auto. econstructor; eauto.
  Qed.
  Lemma answers_not_ends m l bs m' b : (b = Panic \/ b = Diverge) -> answers f m l bs m' -> ~ ends_in f b m l.
  Proof.
    intros N A (p & x & a & bs1 & m1 & -> & A1 & X1). destruct (answers_split _ _ _ _ _ A) as (b1 & b2 & m2 & B1 & B2).
    destruct (answers_fun _ _ _ _ _ _ A1 B1) as [_ ->]. apply ans_cons_inv in B2 as (b' & t & m0 & _ & E & _).
    destruct N as [-> | ->]; congruence.
  Qed.
  Lemma ends_fun m l b1 b2 : (b1 = Panic \/ b1 = Diverge) -> (b2 = Panic \/ b2 = Diverge) -> ends_in f b1 m l -> ends_in f b2 m l -> b1 = b2.
  Proof.
    intros N1 N2 (p1 & x1 & a1 & bs1 & m1 & -> & A1 & X1) (p2 & x2 & a2 & bs2 & m2 & E & A2 & X2).
    revert m p2 E bs1 bs2 A1 A2. induction p1 as [|y p1 IH]; intros m p2 E bs1 bs2 A1 A2.
    - apply ans_nil_inv in A1 as [-> ->]. destruct p2 as [|z p2]; simpl in E; injection E as <- E.
      + apply ans_nil_inv in A2 as [-> ->]. congruence.
      + apply ans_cons_inv in A2 as (b & t & m0 & _ & E2 & _). destruct N1 as [-> | ->]; congruence.
    - apply ans_cons_inv in A1 as (b & t & m0 & -> & E1 & A1). destruct p2 as [|z p2]; simpl in E; injection E as <- E.
      + apply ans_nil_inv in A2 as [-> ->]. destruct N2 as [-> | ->]; congruence.
      + apply ans_cons_inv in A2 as (b' & t' & m0' & -> & E2 & A2). rewrite E1 in E2. injection E2 as <- <-. eapply IH; eauto.
  Qed.
End Ask.

Section SearchMutProofs.
  Context {T K D M X : Type} {HK : Eqb K}.
  Variables (key : T -> K) (visit0 : T -> R (option (D * list T))) (visit : T -> M -> R (D * list T * M)).
  Variables (f : M -> X -> R (bool * M)) (arg : D -> X) (setb : bool -> D -> D) (Inv : T -> Prop).
  Hypothesis HV : forall t d succs, Inv t -> visit0 t = Ret (Some (d, succs)) ->
    Forall Inv succs /\ forall m, visit t m = ('(b, m') <- f m (arg d) ;; Ret (setb b d, succs, m')).

  Lemma push_inv succs : forall rest seen, Forall Inv succs -> Forall Inv rest -> Forall Inv (fst (fold_left (push_new key) succs (rest, seen))).
  Proof.
    induction succs as [|t succs IH]; intros rest seen Hs Hr; simpl; auto. inversion Hs; subst.
    unfold push_new at 2. cbn [fst snd]. destruct (hs_insert (key t) seen) as [seen' []]; apply IH; auto. apply Forall_app; auto.
  Qed.
  Lemma pop_inv l rest t : Forall Inv l -> pop l = Some (rest, t) -> Forall Inv rest /\ Inv t.
  Proof.
    unfold pop. intros H. assert (Hr : Forall Inv (rev l)) by (apply Forall_rev; auto).
    destruct (rev l) as [|x r]; [discriminate|]. intros [= <- <-]. inversion Hr; subst. split; auto. apply Forall_rev; auto.
  Qed.

  Lemma rounds_mut k : forall stack seen out r, Forall Inv stack -> rounds k (search_step key visit0) (stack, seen, out) = Ret r ->
    match r with
    | inl (stack', seen', out') =>
        Forall Inv stack' /\ exists new, out' = out ++ new /\
          forall outm m, rounds k (search_mut_step key visit) (stack, seen, outm, m)
                         = ('(l, m') <- ask f arg setb m new ;; Ret (inl (stack', seen', outm ++ l, m')))
    | inr (Some (seen', out')) =>
        exists new, out' = out ++ new /\
          forall outm m, rounds k (search_mut_step key visit) (stack, seen, outm, m)
                         = ('(l, m') <- ask f arg setb m new ;; Ret (inr (seen', outm ++ l, m')))
    | inr None => True
    end.
  Proof.
    induction k as [|k IH]; intros stack seen out r Hi Hr; simpl in Hr.
    - unfold search_step in Hr. cbn [rounds]. unfold search_mut_step. destruct (pop stack) as [[rest t]|] eqn:Ep.
      + destruct (pop_inv _ _ _ Hi Ep) as [Hrest Ht]. destruct (visit0 t) as [[[d succs]|]| |] eqn:Ev; try discriminate; simpl in Hr.
        * destruct (HV _ _ _ Ht Ev) as [Hs Hv]. pose proof (push_inv succs rest seen Hs Hrest) as Hp.
          destruct (fold_left (push_new key) succs (rest, seen)) as [stack' seen'] eqn:Ef. injection Hr as <-. split; auto. exists [d].
          split; auto. intros outm m. rewrite Hv. simpl. destruct (f m (arg d)) as [[b m']| |]; simpl; auto. rewrite Ef. reflexivity.
        * injection Hr as <-. auto.
      + injection Hr as <-. exists []. rewrite app_nil_r. split; auto. intros outm m. simpl. rewrite app_nil_r. reflexivity.
    - destruct (rounds k (search_step key visit0) (stack, seen, out)) as [r1| |] eqn:E1; try discriminate.
      pose proof (IH _ _ _ _ Hi E1) as H1. destruct r1 as [[[stack1 seen1] out1]|o].
      + destruct H1 as (Hi1 & new1 & -> & H1). pose proof (IH _ _ _ _ Hi1 Hr) as H2. destruct r as [[[stack2 seen2] out2]|[[seen2 out2]|]]; auto.
        * destruct H2 as (Hi2 & new2 & -> & H2). split; auto. exists (new1 ++ new2). split; [rewrite app_assoc; auto|].
          intros outm m. cbn [rounds]. rewrite H1, ask_app. destruct (ask f arg setb m new1) as [[l1 m1]| |]; simpl; auto.
          rewrite H2. destruct (ask f arg setb m1 new2) as [[l2 m2]| |]; simpl; auto. rewrite app_assoc. reflexivity.
        * destruct H2 as (new2 & -> & H2). exists (new1 ++ new2). split; [rewrite app_assoc; auto|].
          intros outm m. cbn [rounds]. rewrite H1, ask_app. destruct (ask f arg setb m new1) as [[l1 m1]| |]; simpl; auto.
          rewrite H2. destruct (ask f arg setb m1 new2) as [[l2 m2]| |]; simpl; auto. rewrite app_assoc. reflexivity.
      + injection Hr as <-. destruct o as [[seen' out']|]; auto. destruct H1 as (new & -> & H1). exists new. split; auto.
        intros outm m. cbn [rounds]. rewrite H1. destruct (ask f arg setb m new) as [[l1 m1]| |]; simpl; auto.
  Qed.

  Lemma search_mut_ask k t0 seen out m : Inv t0 -> search key visit0 k t0 = Ret (Some (seen, out)) ->
    search_mut key visit k t0 m = ('(l, m') <- ask f arg setb m out ;; Ret (seen, l, m')).
  Proof.
    intros Hi H. unfold search, while in H. destruct (rounds k _ _) as [r| |] eqn:E; try discriminate.
    assert (Hi' : Forall Inv [t0]) by (constructor; auto). pose proof (rounds_mut k _ _ _ _ Hi' E) as Hm.
    destruct r as [s|[[seen' out']|]]; try discriminate. injection H as -> ->. destruct Hm as (new & En & Hm). simpl in En. subst new.
    unfold search_mut, while. rewrite Hm. destruct (ask f arg setb m out) as [[l m']| |]; reflexivity.
  Qed.
End SearchMutProofs.

(** ** Naming does not look at the flags *)
Lemma combine_nil_r {A B} (l : list A) : combine l (@nil B) = [].
Proof. destruct l; reflexivity. Qed.

Definition dset (b : bool) (o : nat * nat * bool * list (nat * nat)) : nat * nat * bool * list (nat * nat) := (fst (fst o), b, snd o).
Definition nset (b : bool) (o : option nat * option nat * bool * list (list (option nat * option nat)) * list (option nat * option nat)) :=
  (fst (fst (fst o)), b, snd (fst o), snd o).

Lemma setbs_map {D E} (setb : bool -> D -> D) (g : D -> E) : (forall b d, g (setb b d) = g d) ->
  forall bs l, length bs = length l -> map g (setbs setb bs l) = map g l.
Proof.
  intros H. induction bs as [|b bs IH]; intros [|d l] Hl; simpl in *; try discriminate; auto. rewrite H. f_equal. apply IH. lia.
Qed.
Lemma setbs_length {D} (setb : bool -> D -> D) bs l : length bs = length l -> length (setbs setb bs l) = length l.
Proof. intros H. unfold setbs. rewrite map_length, combine_length. lia. Qed.

Lemma enumerate_map_eq {A B} (g : A -> B) {C} (F : nat -> B -> C) l l' : map g l = map g l' ->
  map (fun x => F (fst x) (g (snd x))) (enumerate l) = map (fun x => F (fst x) (g (snd x))) (enumerate l').
Proof.
  intros H. unfold enumerate. revert H. generalize 0. revert l'. induction l as [|a l IH]; intros [|a' l'] n H; simpl in *; try discriminate; auto.
  injection H as H1 H2. rewrite H1. f_equal. apply IH. auto.
Qed.

Lemma mapR_setbs {D S} (setb : bool -> D -> D) (sets : bool -> S -> S) (g : D -> R S) :
  (forall b d, g (setb b d) = (s <- g d ;; Ret (sets b s))) ->
  forall bs l, length bs = length l ->
  mapR g (setbs setb bs l) = (ss <- mapR g l ;; Ret (map (fun '(b, s) => sets b s) (combine bs ss))).
Proof.
  intros H. induction bs as [|b bs IH]; intros [|d l] Hl; simpl in *; try discriminate; auto.
  fold (setbs setb bs l). rewrite H. destruct (g d) as [s| |]; simpl; auto. rewrite IH by lia. destruct (mapR g l) as [ss| |]; simpl; auto.
Qed.

Lemma dfa_finish_flags h d1 d2 seen out bs : length bs = length out ->
  dfa_product_finish h d1 d2 seen (setbs dset bs out) = (d <- dfa_product_finish h d1 d2 seen out ;; Ret (dfa_with_flags bs d)).
Proof.
  intros L. unfold dfa_product_finish. cbv zeta. rewrite (setbs_length dset bs out L).
  match goal with |- context[product_names ?a ?b ?c] => destruct (product_names a b c) as [named| |] end; simpl; auto.
  assert (Em : map (fun '(idx, (p, _, _)) => (p, idx)) (enumerate (setbs dset bs out)) =
               map (fun '(idx, (p, _, _)) => (p, idx)) (enumerate out)).
  { pose proof (enumerate_map_eq (fun o : nat * nat * bool * list (nat * nat) => fst (fst o)) (fun i p => (p, i)) _ _
                  (setbs_map dset (fun o => fst (fst o)) (fun b d => eq_refl) bs out L)) as Em.
    assert (Hx : forall l : list (nat * nat * bool * list (nat * nat)),
               map (fun '(idx, (p, _, _)) => (p, idx)) (enumerate l) = map (fun x => (fst (fst (snd x)), fst x)) (enumerate l)).
    { intros l. apply map_ext. intros [i [[p b] t]]. reflexivity. }
    rewrite !Hx. exact Em. }
  rewrite Em. destruct (unwrap _) as [init| |]; simpl; auto.
  rewrite (mapR_setbs dset (fun b s => mk_dfa_state (ds_name s) (ds_initial s) b (ds_transitions s))); auto.
  - destruct (mapR _ out) as [ss| |]; simpl; auto.
  - intros b [[p b0] l]. unfold dset. cbn [fst snd]. destruct (unwrap _) as [nm| |]; simpl; auto.
    destruct (mapR _ l) as [ts| |]; simpl; auto.
Qed.

Lemma nfa_finish_flags h n1 n2 seen out bs : length bs = length out ->
  nfa_product_finish h n1 n2 seen (setbs nset bs out) = (n <- nfa_product_finish h n1 n2 seen out ;; Ret (nfa_with_flags bs n)).
Proof.
  intros L. unfold nfa_product_finish. cbv zeta. rewrite (setbs_length nset bs out L).
  match goal with |- context[product_names ?a ?b ?c] => destruct (product_names a b c) as [named| |] end; simpl; auto.
  assert (Em : map (fun '(idx, (p, _, _, _)) => (p, idx)) (enumerate (setbs nset bs out)) =
               map (fun '(idx, (p, _, _, _)) => (p, idx)) (enumerate out)).
  { pose proof (enumerate_map_eq (fun o : option nat * option nat * bool * list (list (option nat * option nat)) * list (option nat * option nat) =>
                                    fst (fst (fst o))) (fun i p => (p, i)) _ _
                  (setbs_map nset (fun o => fst (fst (fst o))) (fun b d => eq_refl) bs out L)) as Em.
    assert (Hx : forall l : list (option nat * option nat * bool * list (list (option nat * option nat)) * list (option nat * option nat)),
               map (fun '(idx, (p, _, _, _)) => (p, idx)) (enumerate l) = map (fun x => (fst (fst (fst (snd x))), fst x)) (enumerate l)).
    { intros l. apply map_ext. intros [i [[[p b] t] e]]. reflexivity. }
    rewrite !Hx. exact Em. }
  rewrite Em. destruct (unwrap _) as [init| |]; simpl; auto.
  rewrite (mapR_setbs nset (fun b s => mk_nfa_state (ns_name s) (ns_initial s) b (ns_eps s) (ns_transitions s))); auto.
  - destruct (mapR _ out) as [ss| |]; simpl; auto.
  - intros b [[[p b0] l] e]. unfold nset. cbn [fst snd]. destruct (unwrap _) as [nm| |]; simpl; auto.
    destruct (mapR _ l) as [ts| |]; simpl; auto. destruct (mapR _ e) as [es| |]; simpl; auto.
Qed.

(** ** DFAs *)
Lemma dfa_product_by_search h d1 d2 c : alphabet_equal (dfa_alphabet d1) (dfa_alphabet d2) = true ->
  dfa_product_construction h d1 d2 c =
  (r <- search de_pair_key (dfa_product_visit d1 d2 c) (S (length (dfa_states d1) * length (dfa_states d2))) (dfa_evaluator d1, dfa_evaluator d2) ;;
   match r with None => Ret None | Some (seen, out) => d <- dfa_product_finish h d1 d2 seen out ;; Ret (Some d) end).
Proof.
  intros E. unfold dfa_product_construction. rewrite E. cbn [negb]. cbv zeta. fold (dfa_product_visit d1 d2 c).
  change (fun p => dfa_product_visit d1 d2 c p) with (dfa_product_visit d1 d2 c).
  destruct (search _ _ _ _) as [[[seen out]|]| |]; cbn [bind]; auto. unfold dfa_product_finish. cbv zeta.
  match goal with |- context[product_names ?a ?b ?c] => destruct (product_names a b c) as [named| |] end; cbn [bind]; auto.
  destruct (unwrap _) as [init| |]; cbn [bind]; auto. destruct (mapR _ out) as [ss| |]; cbn [bind]; auto.
Qed.

Definition dstate0 : dfa_state := mk_dfa_state [] false false [].
Definition darg (d1 d2 : dfa) (o : nat * nat * bool * list (nat * nat)) : dfa_state * dfa_state :=
  (nth (fst (fst (fst o))) (dfa_states d1) dstate0, nth (snd (fst (fst o))) (dfa_states d2) dstate0).

Definition dinv (d1 d2 : dfa) (p : dfa_eval * dfa_eval) : Prop := de_dfa (fst p) = d1 /\ de_dfa (snd p) = d2.

Lemma de_step_dfa e x r : de_step e x = Ret r -> de_dfa (fst r) = de_dfa e.
Proof.
  unfold de_step. destruct (de_unknown e); [intros [= <-]; auto|]. destruct (hm_get x (de_rev_map e)) as [i|]; [|intros [= <-]; auto].
  destruct (index _ _) as [s| |]; try discriminate. cbn [bind]. destruct (index _ _) as [t| |]; try discriminate. cbn [bind].
  destruct (index _ _) as [s'| |]; try discriminate. cbn [bind]. intros [= <-]. auto.
Qed.

Lemma de_pair_succs_inv d1 d2 al p succs : dinv d1 d2 p -> de_pair_succs al p = Ret succs -> Forall (dinv d1 d2) succs.
Proof.
  intros [H1 H2]. unfold de_pair_succs. revert succs. induction al as [|a al IH]; intros succs E; simpl in E; [injection E as <-; constructor|].
  destruct (de_step (fst p) a) as [[e1 o1]| |] eqn:E1; try discriminate. cbn [bind] in E.
  destruct (de_step (snd p) a) as [[e2 o2]| |] eqn:E2; try discriminate. cbn [bind] in E.
  destruct (mapR _ al) as [l| |]; try discriminate. cbn [bind] in E. injection E as <-. constructor; auto.
  apply de_step_dfa in E1. apply de_step_dfa in E2. simpl in E1, E2. split; simpl; congruence.
Qed.

Lemma de_current_state_nth e s : de_current_state e = Ret (Some s) -> s = nth (de_current e) (dfa_states (de_dfa e)) dstate0.
Proof.
  unfold de_current_state. destruct (de_unknown e); [discriminate|]. unfold index. destruct (nth_error _ _) as [s'|] eqn:E; [|discriminate].
  simpl. intros [= ->]. symmetry. apply nth_error_nth. auto.
Qed.

Definition dvisit_mut {M} (d1 : dfa) (combinator : M -> dfa_state * dfa_state -> R (bool * M)) (p : dfa_eval * dfa_eval) (m : M) :=
  succs <- de_pair_succs (dfa_alphabet d1) p ;;
  o1 <- de_current_state (fst p) ;; s1 <- unwrap o1 ;;
  o2 <- de_current_state (snd p) ;; s2 <- unwrap o2 ;;
  '(b, m') <- combinator m (s1, s2) ;;
  Ret ((de_pair_key p, b, map de_pair_key succs), succs, m').

Lemma dvisit_mut_ok {M} d1 d2 (f : M -> dfa_state * dfa_state -> R (bool * M)) t d succs : dinv d1 d2 t ->
  dfa_product_visit d1 d2 (fun _ _ => false) t = Ret (Some (d, succs)) ->
  Forall (dinv d1 d2) succs /\ forall m, dvisit_mut d1 f t m = ('(b, m') <- f m (darg d1 d2 d) ;; Ret (dset b d, succs, m')).
Proof.
  intros Hi E. unfold dfa_product_visit in E. unfold dvisit_mut.
  destruct (de_pair_succs (dfa_alphabet d1) t) as [su| |] eqn:Es; try discriminate. cbn [bind] in *.
  destruct (de_current_state (fst t)) as [[s1|]| |] eqn:E1; try discriminate. cbn [bind unwrap] in *.
  destruct (de_current_state (snd t)) as [[s2|]| |] eqn:E2; try discriminate. cbn [bind unwrap] in *.
  injection E as <- <-. split; [eapply de_pair_succs_inv; eauto|]. intros m.
  apply de_current_state_nth in E1. apply de_current_state_nth in E2. destruct Hi as [H1 H2]. rewrite H1 in E1. rewrite H2 in E2.
  unfold darg. simpl. unfold de_current_state_idx. rewrite <- E1, <- E2. reflexivity.
Qed.

Theorem dfa_product_mut_correct d1 d2 : dfa_valid d1 -> dfa_valid d2 -> same_set (dfa_alphabet d1) (dfa_alphabet d2) ->
  exists ks l, hd_error ks = Some (dfa_initial d1, dfa_initial d2) /\
    Forall2 (fun p s => nth_error (dfa_states d1) (fst p) = Some (fst s) /\ nth_error (dfa_states d2) (snd p) = Some (snd s)) ks l /\
    forall h, exists d0, dfa_product_construction h d1 d2 (fun _ _ => false) = Ret (Some d0) /\ dfa_valid d0 /\ dfa_is_product (fun _ _ => false) d1 d2 d0 ks /\
      forall M (f : M -> dfa_state * dfa_state -> R (bool * M)) m,
        (forall bs m', answers f m l bs m' -> dfa_product_construction_mut h d1 d2 f m = Ret (Some (dfa_with_flags bs d0), m')) /\
        (dfa_product_construction_mut h d1 d2 f m = Panic <-> ends_in f Panic m l) /\
        (dfa_product_construction_mut h d1 d2 f m = Diverge <-> ends_in f Diverge m l).
Proof.
  intros V1 V2 Hs. destruct (dfa_product_construction_search d1 d2 (fun _ _ => false) V1 V2 Hs) as (ks & (seen & out & Hse & Hks) & Hhd & H).
  exists ks, (map (darg d1 d2) out). split; auto.
  assert (Ha : alphabet_equal (dfa_alphabet d1) (dfa_alphabet d2) = true)
    by (destruct (alphabet_equal_spec _ _ (dv_alphabet _ V1) (dv_alphabet _ V2)); auto; tauto).
  split.
  { destruct (H {| ho := fun A _ l => l; ho_perm := fun A _ l => Permutation.Permutation_refl l |}) as (d & _ & _ & HP). subst ks. pose proof (dp_reach _ _ _ _ _ HP) as Hr. clear - Hr V1 V2.
    assert (Hr' : forall q1 q2, In (q1, q2) (map (fun o => fst (fst o)) out) -> q1 < length (dfa_states d1) /\ q2 < length (dfa_states d2)).
    { intros q1 q2 Hq. apply Hr in Hq as (w & P1 & P2). split; eapply dfa_path_range; eauto; apply dv_initial; auto. }
    clear Hr. induction out as [|[[[q1 q2] b] t] out IH]; simpl; constructor.
    - destruct (Hr' q1 q2) as [R1 R2]; [left; auto|]. unfold darg. simpl. split; apply nth_error_nth'; auto.
    - apply IH. intros; apply Hr'; right; auto. }
  intros h. destruct (H h) as (d0 & Hd0 & V0 & HP). exists d0. split; auto. split; auto. split; auto. intros M f m.
  rewrite dfa_product_by_search in Hd0 by auto. rewrite Hse in Hd0. cbn [bind] in Hd0.
  destruct (dfa_product_finish h d1 d2 seen out) as [d| |] eqn:Hf; try discriminate. cbn [bind] in Hd0. injection Hd0 as ->.
  assert (HE : dfa_product_construction_mut h d1 d2 f m =
               ('(l, m') <- ask f (darg d1 d2) dset m out ;; d <- dfa_product_finish h d1 d2 seen l ;; Ret (Some d, m'))).
  { unfold dfa_product_construction_mut. rewrite Ha. cbn [negb]. cbv zeta. fold (@dvisit_mut M d1 f).
    change (fun p m => dvisit_mut d1 f p m) with (dvisit_mut d1 f).
    rewrite (search_mut_ask de_pair_key (dfa_product_visit d1 d2 (fun _ _ => false)) (dvisit_mut d1 f) f (darg d1 d2) dset (dinv d1 d2)
               (dvisit_mut_ok d1 d2 f) _ _ seen out m); auto; [|split; reflexivity].
    destruct (ask f (darg d1 d2) dset m out) as [[l m']| |]; reflexivity. }
  assert (HA : forall bs m', answers f m (map (darg d1 d2) out) bs m' -> dfa_product_construction_mut h d1 d2 f m = Ret (Some (dfa_with_flags bs d0), m')).
  { intros bs m' A. destruct (ask_answers f (darg d1 d2) dset out m bs m' A) as [Eq L]. rewrite HE, Eq. cbn [bind].
    rewrite dfa_finish_flags by auto. rewrite Hf. reflexivity. }
  split; auto.
  destruct (ask_cases f (darg d1 d2) dset out m) as [(bs & m' & A)|(bad & Hb & He & Hask)].
  - rewrite (HA _ _ A). split; split; try discriminate; intros C; exfalso; (eapply (answers_not_ends f); [|exact A|exact C]); auto.
  - rewrite HE, Hask. destruct Hb as [-> | ->]; cbn [bind]; split; split; intros C; auto; try discriminate; exfalso.
    + assert (Panic = Diverge) by (eapply (ends_fun f); [| |exact He|exact C]; auto). discriminate.
    + assert (Panic = Diverge) by (eapply (ends_fun f); [| |exact C|exact He]; auto). discriminate.
Qed.

Lemma dfa_product_edges c d1 d2 d ks : dfa_valid d1 -> dfa_valid d2 -> dfa_valid d -> dfa_is_product c d1 d2 d ks ->
  forall i q1 q2 a j, nth_error ks i = Some (q1, q2) ->
    (dfa_edge d i a j <-> exists t1 t2, nth_error ks j = Some (t1, t2) /\ dfa_edge d1 q1 a t1 /\ dfa_edge d2 q2 a t2).
Proof.
  intros V1 V2 V HP i q1 q2 a j Hi. split; [apply (dp_edge _ _ _ _ _ HP); auto|]. intros (t1 & t2 & Hj & E1 & E2).
  assert (Hil : i < length (dfa_states d)) by (rewrite (dp_length _ _ _ _ _ HP); eapply nth_error_length; eauto).
  destruct (dfa_edge_total d i a V Hil) as (j' & He & _); [rewrite (dp_alphabet _ _ _ _ _ HP); eapply dfa_edge_elem; eauto|].
  destruct (dp_edge _ _ _ _ _ HP _ _ _ _ _ Hi He) as (u1 & u2 & Hj' & F1 & F2).
  rewrite (dfa_edge_fun d1 q1 a u1 t1), (dfa_edge_fun d2 q2 a u2 t2) in Hj' by (auto; try apply V1; apply V2).
  rewrite (NoDup_nth_error_inj ks j j' (t1, t2)) by (auto; apply HP). auto.
Qed.

(** what other flags change *)
Lemma combine_nth {A B} (l : list A) (l' : list B) i : length l = length l' ->
  nth_error (combine l l') i = match nth_error l i, nth_error l' i with Some a, Some b => Some (a, b) | _, _ => None end.
Proof.
  revert l' i. induction l as [|a l IH]; intros [|b l'] [|i] H; simpl in *; try discriminate; auto.
Qed.
Lemma dfa_with_flags_nth bs d i : length bs = length (dfa_states d) ->
  nth_error (dfa_states (dfa_with_flags bs d)) i =
  match nth_error bs i, nth_error (dfa_states d) i with
  | Some b, Some s => Some (mk_dfa_state (ds_name s) (ds_initial s) b (ds_transitions s)) | _, _ => None end.
Proof.
  intros H. simpl. rewrite nth_error_map, combine_nth by auto. destruct (nth_error bs i), (nth_error (dfa_states d) i); auto.
Qed.
Lemma dfa_with_flags_edge bs d p a q : length bs = length (dfa_states d) -> dfa_edge (dfa_with_flags bs d) p a q <-> dfa_edge d p a q.
Proof.
  intros H. unfold dfa_edge. split; intros (c & s & Hc & Hs & Hq).
  - rewrite dfa_with_flags_nth in Hs by auto. destruct (nth_error bs p), (nth_error (dfa_states d) p) as [s0|] eqn:E; try discriminate.
    injection Hs as <-. exists c, s0. auto.
  - exists c. destruct (nth_error_lt bs p) as [b Hb]; [rewrite H; eapply nth_error_length; eauto|].
    eexists. split; [exact Hc|]. rewrite dfa_with_flags_nth by auto. rewrite Hb, Hs. split; [reflexivity|auto].
Qed.
Lemma dfa_with_flags_path bs d p w q : length bs = length (dfa_states d) -> dfa_path (dfa_with_flags bs d) p w q <-> dfa_path d p w q.
Proof.
  intros H. split; induction 1; try (constructor; fail); econstructor; eauto; apply (dfa_with_flags_edge bs d); auto.
Qed.

(** ** NFAs *)
Lemma nfa_product_by_search h n1 n2 c tr : alphabet_equal (nfa_alphabet n1) (nfa_alphabet n2) = true ->
  alphabet_translation (nfa_alphabet n1) (nfa_alphabet n2) = Ret tr ->
  nfa_product_construction h n1 n2 c =
  (r <- search (fun p => p) (nfa_product_visit n1 n2 tr c) (S (S (length (nfa_states n1)) * S (length (nfa_states n2))))
               (Some (nfa_initial n1), Some (nfa_initial n2)) ;;
   match r with None => Ret None | Some (seen, out) => n <- nfa_product_finish h n1 n2 seen out ;; Ret (Some n) end).
Proof.
  intros E Et. unfold nfa_product_construction. rewrite E, Et. cbn [negb bind]. cbv zeta.
  change (search (fun p => p) _ ?k ?t) with (search (fun p => p) (nfa_product_visit n1 n2 tr c) k t).
  destruct (search _ _ _ _) as [[[seen out]|]| |]; cbn [bind]; auto. unfold nfa_product_finish. cbv zeta.
  match goal with |- context[product_names ?a ?b ?c] => destruct (product_names a b c) as [named| |] end; cbn [bind]; auto.
  destruct (unwrap _) as [init| |]; cbn [bind]; auto. destruct (mapR _ out) as [ss| |]; cbn [bind]; auto.
Qed.

Definition narg (n1 n2 : nfa) (o : option nat * option nat * bool * list (list (option nat * option nat)) * list (option nat * option nat)) :
  option nfa_state * option nfa_state := (nfa_at n1 (fst (fst (fst (fst o)))), nfa_at n2 (snd (fst (fst (fst o))))).

Definition nvisit_mut {M} (n1 n2 : nfa) (tr : list nat) (combinator : M -> option nfa_state * option nfa_state -> R (bool * M))
           (p : option nat * option nat) (m : M) :=
  let '(s1, s2) := p in
  transition_list <-
    mapR (fun elem =>
            other_elem <- index tr elem ;;
            on1 <- opt_targets (nfa_states n1) s1 elem ;;
            on2 <- opt_targets (nfa_states n2) s2 other_elem ;;
            Ret (elem_pairs on1 on2)) (seq 0 (length (nfa_alphabet n1))) ;;
  eps1 <- opt_eps (nfa_states n1) s1 ;;
  eps2 <- opt_eps (nfa_states n2) s2 ;;
  let eps := map (fun e1 => (Some e1, s2)) eps1 ++ map (fun e2 => (s1, Some e2)) eps2 in
  st1 <- opt_state (nfa_states n1) s1 ;;
  st2 <- opt_state (nfa_states n2) s2 ;;
  '(b, m') <- combinator m (st1, st2) ;;
  Ret ((p, b, transition_list, eps), concat transition_list ++ eps, m').

Lemma opt_state_at n s st : opt_state (nfa_states n) s = Ret st -> st = nfa_at n s.
Proof.
  unfold opt_state, nfa_at. destruct s as [q|]; [|intros [= <-]; auto]. unfold index. destruct (nth_error (nfa_states n) q); try discriminate.
  simpl. intros [= <-]. auto.
Qed.

Lemma nvisit_mut_ok {M} n1 n2 tr (f : M -> option nfa_state * option nfa_state -> R (bool * M)) t d succs : True ->
  nfa_product_visit n1 n2 tr (fun _ _ => false) t = Ret (Some (d, succs)) ->
  Forall (fun _ => True) succs /\ forall m, nvisit_mut n1 n2 tr f t m = ('(b, m') <- f m (narg n1 n2 d) ;; Ret (nset b d, succs, m')).
Proof.
  intros _ E. split; [apply Forall_forall; auto|]. destruct t as [s1 s2]. unfold nfa_product_visit in E. unfold nvisit_mut.
  destruct (mapR _ (seq 0 (length (nfa_alphabet n1)))) as [tl| |]; try discriminate. cbn [bind] in *.
  destruct (opt_eps (nfa_states n1) s1) as [e1| |]; try discriminate. cbn [bind] in *.
  destruct (opt_eps (nfa_states n2) s2) as [e2| |]; try discriminate. cbn [bind] in *. cbv zeta in *.
  destruct (opt_state (nfa_states n1) s1) as [st1| |] eqn:E1; try discriminate. cbn [bind] in *.
  destruct (opt_state (nfa_states n2) s2) as [st2| |] eqn:E2; try discriminate. cbn [bind] in *.
  injection E as <- <-. intros m. unfold narg. cbn [fst snd]. rewrite (opt_state_at _ _ _ E1), (opt_state_at _ _ _ E2). reflexivity.
Qed.

Theorem nfa_product_mut_correct n1 n2 : nfa_valid n1 -> nfa_valid n2 -> same_set (nfa_alphabet n1) (nfa_alphabet n2) ->
  exists ks, hd_error ks = Some (Some (nfa_initial n1), Some (nfa_initial n2)) /\
    let l := map (fun p => (nfa_at n1 (fst p), nfa_at n2 (snd p))) ks in
    forall h, exists n0, nfa_product_construction h n1 n2 (fun _ _ => false) = Ret (Some n0) /\ nfa_valid n0 /\ nfa_is_product (fun _ _ => false) n1 n2 n0 ks /\
      forall M (f : M -> option nfa_state * option nfa_state -> R (bool * M)) m,
        (forall bs m', answers f m l bs m' -> nfa_product_construction_mut h n1 n2 f m = Ret (Some (nfa_with_flags bs n0), m')) /\
        (nfa_product_construction_mut h n1 n2 f m = Panic <-> ends_in f Panic m l) /\
        (nfa_product_construction_mut h n1 n2 f m = Diverge <-> ends_in f Diverge m l).
Proof.
  intros V1 V2 Hs. destruct (nfa_product_construction_search n1 n2 (fun _ _ => false) V1 V2 Hs) as (tr & ks & Ht & (seen & out & Hse & Hks) & Hhd & H).
  exists ks. split; auto. intros l.
  assert (El : l = map (narg n1 n2) out) by (unfold l; rewrite <- Hks, map_map; reflexivity). rewrite El. clear l El.
  assert (Ha : alphabet_equal (nfa_alphabet n1) (nfa_alphabet n2) = true)
    by (destruct (alphabet_equal_spec _ _ (nv_alphabet _ V1) (nv_alphabet _ V2)); auto; tauto).
  intros h. destruct (H h) as (n0 & Hn0 & V0 & HP). exists n0. split; auto. split; auto. split; auto. intros M f m.
  rewrite (nfa_product_by_search _ _ _ _ tr) in Hn0 by auto. rewrite Hse in Hn0. cbn [bind] in Hn0.
  destruct (nfa_product_finish h n1 n2 seen out) as [d| |] eqn:Hf; try discriminate. cbn [bind] in Hn0. injection Hn0 as ->.
  assert (HE : nfa_product_construction_mut h n1 n2 f m =
               ('(l, m') <- ask f (narg n1 n2) nset m out ;; n <- nfa_product_finish h n1 n2 seen l ;; Ret (Some n, m'))).
  { unfold nfa_product_construction_mut. rewrite Ha, Ht. cbn [negb bind]. cbv zeta.
    change (search_mut (fun p => p) _ ?k ?t m) with (search_mut (fun p => p) (nvisit_mut n1 n2 tr f) k t m).
    rewrite (search_mut_ask (fun p => p) (nfa_product_visit n1 n2 tr (fun _ _ => false)) (nvisit_mut n1 n2 tr f) f (narg n1 n2) nset (fun _ => True)
               (nvisit_mut_ok n1 n2 tr f) _ _ seen out m); auto.
    destruct (ask f (narg n1 n2) nset m out) as [[l m']| |]; reflexivity. }
  assert (HA : forall bs m', answers f m (map (narg n1 n2) out) bs m' -> nfa_product_construction_mut h n1 n2 f m = Ret (Some (nfa_with_flags bs n0), m')).
  { intros bs m' A. destruct (ask_answers f (narg n1 n2) nset out m bs m' A) as [Eq L]. rewrite HE, Eq. cbn [bind].
    rewrite nfa_finish_flags by auto. rewrite Hf. reflexivity. }
  split; auto.
  destruct (ask_cases f (narg n1 n2) nset out m) as [(bs & m' & A)|(bad & Hb & He & Hask)].
  - rewrite (HA _ _ A). split; split; try discriminate; intros C; exfalso; (eapply (answers_not_ends f); [|exact A|exact C]); auto.
  - rewrite HE, Hask. destruct Hb as [-> | ->]; cbn [bind]; split; split; intros C; auto; try discriminate; exfalso.
    + assert (Panic = Diverge) by (eapply (ends_fun f); [| |exact He|exact C]; auto). discriminate.
    + assert (Panic = Diverge) by (eapply (ends_fun f); [| |exact C|exact He]; auto). discriminate.
Qed.

(** ** Combinators without memory *)
Section SearchPure.
  Context {T K D : Type} {HK : Eqb K}.
  Variables (key : T -> K) (visit0 : T -> R (option (D * list T))) (visit : T -> unit -> R (D * list T * unit)).
  Hypothesis HV : forall t u, visit0 t = ('(d, succs, _) <- visit t u ;; Ret (Some (d, succs))).
  Lemma search_pure k t0 u : search key visit0 k t0 = ('(seen, out, _) <- search_mut key visit k t0 u ;; Ret (Some (seen, out))).
  Proof.
    assert (HW : rrel (fun (x : list K * list D * unit) (y : option (list K * list D)) => y = Some (fst x))
                      (search_mut key visit k t0 u) (search key visit0 k t0)).
    { unfold search, search_mut.
      apply (while_rel (fun (x : list T * list K * list D * unit) (y : list T * list K * list D) => y = fst x)); [|reflexivity].
      intros [[[st seen] out] m] y ->. cbn [fst]. unfold search_step, search_mut_step. destruct (pop st) as [[rest t]|]; [|simpl; auto].
      rewrite (HV t m). destruct (visit t m) as [[[d succs] m']| |]; cbn [bind rrel]; auto.
      destruct (fold_left (push_new key) succs (rest, seen)) as [st' seen']. simpl. auto. }
    destruct (search_mut key visit k t0 u) as [[[seen out] m']| |], (search key visit0 k t0) as [r| |]; simpl in *; try contradiction; auto.
    rewrite HW. reflexivity.
  Qed.
End SearchPure.

Theorem dfa_product_pure h d1 d2 c :
  dfa_product_construction h d1 d2 c = (r <- dfa_product_construction_mut h d1 d2 (fun _ s => Ret (c (fst s) (snd s), tt)) tt ;; Ret (fst r)).
Proof.
  destruct (alphabet_equal (dfa_alphabet d1) (dfa_alphabet d2)) eqn:E.
  - rewrite dfa_product_by_search by auto. unfold dfa_product_construction_mut. rewrite E. cbn [negb]. cbv zeta.
    match goal with |- context[search_mut _ ?v _ _ _] => rewrite (search_pure de_pair_key _ v) with (u := tt) end.
    + destruct (search_mut _ _ _ _ _) as [[[seen out] m']| |]; cbn [bind]; auto.
      destruct (dfa_product_finish h d1 d2 seen out) as [d| |]; reflexivity.
    + intros t u. unfold dfa_product_visit. destruct (de_pair_succs (dfa_alphabet d1) t) as [su| |]; cbn [bind]; auto.
      destruct (de_current_state (fst t)) as [[s1|]| |]; cbn [bind unwrap]; auto.
      destruct (de_current_state (snd t)) as [[s2|]| |]; cbn [bind unwrap]; auto.
  - unfold dfa_product_construction, dfa_product_construction_mut. rewrite E. reflexivity.
Qed.
Theorem nfa_product_pure h n1 n2 c :
  nfa_product_construction h n1 n2 c = (r <- nfa_product_construction_mut h n1 n2 (fun _ s => Ret (c (fst s) (snd s), tt)) tt ;; Ret (fst r)).
Proof.
  destruct (alphabet_equal (nfa_alphabet n1) (nfa_alphabet n2)) eqn:E.
  - destruct (alphabet_translation (nfa_alphabet n1) (nfa_alphabet n2)) as [tr| |] eqn:Et.
    + rewrite (nfa_product_by_search _ _ _ _ tr) by auto. unfold nfa_product_construction_mut. rewrite E, Et. cbn [negb bind]. cbv zeta.
      match goal with |- context[search_mut _ ?v _ _ _] => rewrite (search_pure (fun p => p) _ v) with (u := tt) end.
      * destruct (search_mut _ _ _ _ _) as [[[seen out] m']| |]; cbn [bind]; auto.
        destruct (nfa_product_finish h n1 n2 seen out) as [d| |]; reflexivity.
      * intros [s1 s2] u. unfold nfa_product_visit. destruct (mapR _ (seq 0 (length (nfa_alphabet n1)))) as [tl| |]; cbn [bind]; auto.
        destruct (opt_eps (nfa_states n1) s1) as [e1| |]; cbn [bind]; auto.
        destruct (opt_eps (nfa_states n2) s2) as [e2| |]; cbn [bind]; auto. cbv zeta.
        destruct (opt_state (nfa_states n1) s1) as [st1| |]; cbn [bind]; auto.
        destruct (opt_state (nfa_states n2) s2) as [st2| |]; cbn [bind]; auto.
    + unfold nfa_product_construction, nfa_product_construction_mut. rewrite E, Et. reflexivity.
    + unfold nfa_product_construction, nfa_product_construction_mut. rewrite E, Et. reflexivity.
  - unfold nfa_product_construction, nfa_product_construction_mut. rewrite E. reflexivity.
Qed.

(** ** What the products with these flags accept *)
Lemma dfa_path_back c d1 d2 d ks : dfa_valid d1 -> dfa_valid d2 -> dfa_valid d -> dfa_is_product c d1 d2 d ks ->
  forall w i q1 q2 t1 t2, nth_error ks i = Some (q1, q2) -> dfa_path d1 q1 w t1 -> dfa_path d2 q2 w t2 ->
  exists j, nth_error ks j = Some (t1, t2) /\ dfa_path d i w j.
Proof.
  intros V1 V2 V HP. induction w as [|a w IH]; intros i q1 q2 t1 t2 Hi P1 P2; inversion P1; inversion P2; subst.
  - exists i. split; auto. constructor.
  - assert (He : exists j, nth_error ks j = Some (q, q0) /\ dfa_edge d i a j).
    { assert (Hil : i < length (dfa_states d)) by (rewrite (dp_length _ _ _ _ _ HP); eapply nth_error_length; eauto).
      destruct (dfa_edge_total d i a V Hil) as (j' & He & _); [rewrite (dp_alphabet _ _ _ _ _ HP); eapply dfa_edge_elem; eauto|].
      destruct (dp_edge _ _ _ _ _ HP _ _ _ _ _ Hi He) as (u1 & u2 & Hj' & F1 & F2).
      rewrite (dfa_edge_fun d1 q1 a u1 q), (dfa_edge_fun d2 q2 a u2 q0) in Hj' by (auto; try apply V1; apply V2). eauto. }
    destruct He as (j & Hj & He). destruct (IH j q q0 t1 t2) as (k & Hk & Pk); auto. exists k. split; auto. econstructor; eauto.
Qed.

Lemma dfa_flags_lang c d1 d2 d ks bs : dfa_valid d1 -> dfa_valid d2 -> dfa_valid d -> dfa_is_product c d1 d2 d ks -> length bs = length ks ->
  forall w, dfa_lang (dfa_with_flags bs d) w <->
    exists i q1 q2, dfa_path d1 (dfa_initial d1) w q1 /\ dfa_path d2 (dfa_initial d2) w q2 /\ nth_error ks i = Some (q1, q2) /\ nth_error bs i = Some true.
Proof.
  intros V1 V2 V HP L w. assert (L' : length bs = length (dfa_states d)) by (rewrite (dp_length _ _ _ _ _ HP); auto).
  pose proof (dp_initial _ _ _ _ _ HP) as Hi. split.
  - intros (j & Hp & s & Hs & Ha). apply dfa_with_flags_path in Hp; auto. simpl in Hp.
    destruct (dfa_product_path _ _ _ _ _ _ _ _ _ _ HP Hi Hp) as (t1 & t2 & Hj & P1 & P2). exists j, t1, t2. split; auto. split; auto. split; auto.
    rewrite dfa_with_flags_nth in Hs by auto. destruct (nth_error bs j) as [b|], (nth_error (dfa_states d) j); try discriminate.
    injection Hs as <-. simpl in Ha. congruence.
  - intros (i & q1 & q2 & P1 & P2 & Hk & Hb). destruct (dfa_path_back c d1 d2 d ks V1 V2 V HP w _ _ _ _ _ Hi P1 P2) as (j & Hj & Pj).
    rewrite (NoDup_nth_error_inj ks i j (q1, q2)) in Hb by (auto; apply HP). exists j.
    split; [apply dfa_with_flags_path; auto|]. destruct (nth_error_lt (dfa_states d) j) as [s Hs]; [rewrite <- L'; eapply nth_error_length; eauto|].
    eexists. rewrite dfa_with_flags_nth by auto. rewrite Hb, Hs. split; reflexivity.
Qed.

Lemma nfa_with_flags_nth bs n i : length bs = length (nfa_states n) ->
  nth_error (nfa_states (nfa_with_flags bs n)) i =
  match nth_error bs i, nth_error (nfa_states n) i with
  | Some b, Some s => Some (mk_nfa_state (ns_name s) (ns_initial s) b (ns_eps s) (ns_transitions s)) | _, _ => None end.
Proof.
  intros H. simpl. rewrite nth_error_map, combine_nth by auto. destruct (nth_error bs i), (nth_error (nfa_states n) i); auto.
Qed.
Lemma nfa_with_flags_edge bs n p a q : length bs = length (nfa_states n) -> nfa_edge (nfa_with_flags bs n) p a q <-> nfa_edge n p a q.
Proof.
  intros H. unfold nfa_edge. split.
  - intros (c & s & ts & Hc & Hs & Hq). rewrite nfa_with_flags_nth in Hs by auto.
    destruct (nth_error bs p), (nth_error (nfa_states n) p) as [s0|] eqn:E; try discriminate.
    injection Hs as <-. exists c, s0, ts. auto.
  - intros (c & s & ts & Hc & Hs & Hq). exists c. destruct (nth_error_lt bs p) as [b Hb]; [rewrite H; eapply nth_error_length; eauto|].
    eexists. exists ts. split; [exact Hc|]. rewrite nfa_with_flags_nth by auto. rewrite Hb, Hs. split; [reflexivity|auto].
Qed.
Lemma nfa_with_flags_eps bs n p q : length bs = length (nfa_states n) -> nfa_eps_edge (nfa_with_flags bs n) p q <-> nfa_eps_edge n p q.
Proof.
  intros H. unfold nfa_eps_edge. split.
  - intros (s & Hs & Hq). rewrite nfa_with_flags_nth in Hs by auto.
    destruct (nth_error bs p), (nth_error (nfa_states n) p) as [s0|] eqn:E; try discriminate. injection Hs as <-. exists s0. auto.
  - intros (s & Hs & Hq). destruct (nth_error_lt bs p) as [b Hb]; [rewrite H; eapply nth_error_length; eauto|].
    eexists. rewrite nfa_with_flags_nth by auto. rewrite Hb, Hs. split; [reflexivity|auto].
Qed.
Lemma nfa_with_flags_path bs n p w q : length bs = length (nfa_states n) -> nfa_path (nfa_with_flags bs n) p w q <-> nfa_path n p w q.
Proof.
  intros H. split; induction 1; try (constructor; fail).
  - eapply nfa_path_eps; eauto. apply (nfa_with_flags_eps bs n); auto.
  - eapply nfa_path_cons; eauto. apply (nfa_with_flags_edge bs n); auto.
  - eapply nfa_path_eps; eauto. apply (nfa_with_flags_eps bs n); auto.
  - eapply nfa_path_cons; eauto. apply (nfa_with_flags_edge bs n); auto.
Qed.
Lemma nfa_flags_lang c n1 n2 n ks bs : nfa_is_product c n1 n2 n ks -> length bs = length ks ->
  forall w, nfa_lang (nfa_with_flags bs n) w <->
    exists i s1 s2, nfa_pair_reached n1 n2 w s1 s2 /\ nth_error ks i = Some (s1, s2) /\ nth_error bs i = Some true.
Proof.
  intros HP L w. assert (L' : length bs = length (nfa_states n)) by (rewrite (np_length _ _ _ _ _ HP); auto). split.
  - intros (j & Hp & s & Hs & Ha). apply nfa_with_flags_path in Hp; auto. simpl in Hp.
    apply (product_path _ _ _ _ _ _ _ HP) in Hp as ([s1 s2] & Hj & Hp). exists j, s1, s2. split; [apply ppath_iff in Hp; auto|]. split; auto.
    rewrite nfa_with_flags_nth in Hs by auto. destruct (nth_error bs j) as [b|], (nth_error (nfa_states n) j); try discriminate.
    injection Hs as <-. simpl in Ha. congruence.
  - intros (i & s1 & s2 & Hr & Hk & Hb). exists i. split.
    + apply nfa_with_flags_path; auto. simpl. apply (product_path _ _ _ _ _ _ _ HP). exists (s1, s2). split; auto. apply ppath_iff; auto.
    + destruct (nth_error_lt (nfa_states n) i) as [s Hs]; [rewrite <- L'; eapply nth_error_length; eauto|].
      eexists. rewrite nfa_with_flags_nth by auto. rewrite Hb, Hs. split; reflexivity.
Qed.

Lemma answers_length {M X} (f : M -> X -> R (bool * M)) m l bs m' : answers f m l bs m' -> length bs = length l.
Proof. induction 1; simpl; auto. Qed.
