(** * Equivalence of DFAs and the product construction *)
From Coq Require Import List NArith Arith Bool Lia Permutation.
From Verif Require Import Base BaseLemmas Spec Search SearchProofs DfaModel DfaBasics.
Import ListNotations.

Lemma same_set_sym {A} (l l' : list A) : same_set l l' -> same_set l' l.
Proof. intros H x. symmetry. apply H. Qed.

Definition pair_good (d1 d2 : dfa) (p : dfa_eval * dfa_eval) : Prop :=
  exists q1 q2, p = (ev_at d1 q1, ev_at d2 q2) /\ q1 < length (dfa_states d1) /\ q2 < length (dfa_states d2).

Lemma de_pair_succs_spec d1 d2 q1 q2 :
  dfa_valid d1 -> dfa_valid d2 -> same_set (dfa_alphabet d1) (dfa_alphabet d2) ->
  q1 < length (dfa_states d1) -> q2 < length (dfa_states d2) ->
  exists succs, de_pair_succs (dfa_alphabet d1) (ev_at d1 q1, ev_at d2 q2) = Ret succs /\
    Forall2 (fun a p => exists t1 t2, p = (ev_at d1 t1, ev_at d2 t2) /\ dfa_edge d1 q1 a t1 /\ dfa_edge d2 q2 a t2)
            (dfa_alphabet d1) succs.
Proof.
  intros H1 H2 Hs Hq1 Hq2. apply mapR_total. intros a Ha.
  destruct (dfa_edge_total d1 q1 a H1 Hq1 Ha) as (t1 & He1 & _).
  destruct (dfa_edge_total d2 q2 a H2 Hq2) as (t2 & He2 & _); [apply Hs; auto|].
  destruct (de_step_known _ _ _ _ H1 He1) as (s1 & _ & Hst1).
  destruct (de_step_known _ _ _ _ H2 He2) as (s2 & _ & Hst2).
  simpl. rewrite Hst1. simpl. rewrite Hst2. simpl. eexists; split; [reflexivity|]. exists t1, t2; auto.
Qed.

Lemma pair_succs_good d1 d2 q1 q2 succs :
  dfa_valid d1 -> dfa_valid d2 ->
  Forall2 (fun a p => exists t1 t2, p = (ev_at d1 t1, ev_at d2 t2) /\ dfa_edge d1 q1 a t1 /\ dfa_edge d2 q2 a t2)
          (dfa_alphabet d1) succs -> Forall (pair_good d1 d2) succs.
Proof.
  intros H1 H2 HF. apply Forall_forall. intros p Hp. destruct (Forall2_In_r _ _ _ _ HF Hp) as (a & _ & t1 & t2 & -> & E1 & E2).
  exists t1, t2. split; auto. split; eapply dfa_edge_dst; eauto.
Qed.

Lemma list_prod_length {A B} (l : list A) (l' : list B) : length (list_prod l l') = length l * length l'.
Proof. apply prod_length. Qed.

Lemma pair_key_in_U d1 d2 p : pair_good d1 d2 p ->
  In (de_pair_key p) (list_prod (seq 0 (length (dfa_states d1))) (seq 0 (length (dfa_states d2)))).
Proof.
  intros (q1 & q2 & -> & H1 & H2). unfold de_pair_key, de_current_state_idx. simpl.
  apply in_prod; apply in_seq; lia.
Qed.

Lemma two_mul_le_pow x : 2 * x <= 2 ^ S x.
Proof. pose proof (pow2_gt x). simpl. lia. Qed.

Section Pair.
  Variables (d1 d2 : dfa) (D : Type) (visit : dfa_eval * dfa_eval -> R (option (D * list (dfa_eval * dfa_eval)))).
  Hypothesis V1 : dfa_valid d1.
  Hypothesis V2 : dfa_valid d2.
  Hypothesis Hsame : same_set (dfa_alphabet d1) (dfa_alphabet d2).
  Hypothesis visit_spec : forall q1 q2, q1 < length (dfa_states d1) -> q2 < length (dfa_states d2) ->
    exists r, visit (ev_at d1 q1, ev_at d2 q2) = Ret r /\
              forall o succs, r = Some (o, succs) ->
                Forall2 (fun a p => exists t1 t2, p = (ev_at d1 t1, ev_at d2 t2) /\ dfa_edge d1 q1 a t1 /\ dfa_edge d2 q2 a t2)
                        (dfa_alphabet d1) succs.

  Lemma pair_good_visit t : pair_good d1 d2 t ->
    exists r, visit t = Ret r /\ match r with None => True | Some (_, succs) => Forall (pair_good d1 d2) succs end.
  Proof.
    intros (q1 & q2 & -> & H1 & H2). destruct (visit_spec q1 q2 H1 H2) as (r & Hr & Hs). exists r; split; auto.
    destruct r as [[o succs]|]; auto. eapply pair_succs_good; eauto.
  Qed.

  Definition t0 := (dfa_evaluator d1, dfa_evaluator d2).

  Lemma pair_good0 : pair_good d1 d2 t0.
  Proof. exists (dfa_initial d1), (dfa_initial d2). split; auto. split; apply dv_initial; auto. Qed.

  Lemma pair_reach_word t : reach visit t0 t ->
    exists w q1 q2, t = (ev_at d1 q1, ev_at d2 q2) /\ dfa_path d1 (dfa_initial d1) w q1 /\ dfa_path d2 (dfa_initial d2) w q2.
  Proof.
    induction 1 as [|t o succs t' Hr IH Hv Hin].
    - exists [], (dfa_initial d1), (dfa_initial d2). split; auto. split; constructor.
    - destruct IH as (w & q1 & q2 & -> & P1 & P2).
      destruct (visit_spec q1 q2) as (r & Hr' & Hs).
      { eapply dfa_path_range; eauto. apply dv_initial; auto. }
      { eapply dfa_path_range; eauto. apply dv_initial; auto. }
      rewrite Hv in Hr'. injection Hr' as <-. specialize (Hs _ _ eq_refl).
      destruct (Forall2_In_r _ _ _ _ Hs Hin) as (a & _ & t1 & t2 & -> & E1 & E2).
      exists (w ++ [a]), t1, t2. split; auto. split; eapply dfa_path_snoc; eauto.
  Qed.

  Lemma pair_search :
    exists r, search de_pair_key visit (S (length (dfa_states d1) * length (dfa_states d2))) t0 = Ret r /\
      match r with
      | None => exists w q1 q2, dfa_path d1 (dfa_initial d1) w q1 /\ dfa_path d2 (dfa_initial d2) w q2 /\
                                visit (ev_at d1 q1, ev_at d2 q2) = Ret None
      | Some (seen, out) =>
          exists ks, hd_error ks = Some (dfa_initial d1, dfa_initial d2) /\ NoDup ks /\ Permutation seen ks /\
            (forall q1 q2, In (q1, q2) ks <->
                           exists w, dfa_path d1 (dfa_initial d1) w q1 /\ dfa_path d2 (dfa_initial d2) w q2) /\
            Forall2 (fun k o => exists succs, visit (ev_at d1 (fst k), ev_at d2 (snd k)) = Ret (Some (o, succs))) ks out
      end.
  Proof.
    destruct (search_spec de_pair_key visit (pair_good d1 d2)
                (list_prod (seq 0 (length (dfa_states d1))) (seq 0 (length (dfa_states d2))))
                (pair_key_in_U d1 d2) pair_good_visit
                (S (length (dfa_states d1) * length (dfa_states d2))) t0 pair_good0) as (r & Hr & Hres).
    { rewrite list_prod_length, !seq_length. apply two_mul_le_pow. }
    exists r; split; auto. destruct r as [[seen out]|].
    - destruct Hres as (done & Hhd & Hnd & Hp & Hre & HF). exists (map de_pair_key done).
      assert (Hform : forall t, In t done -> exists w q1 q2, t = (ev_at d1 q1, ev_at d2 q2) /\
                 dfa_path d1 (dfa_initial d1) w q1 /\ dfa_path d2 (dfa_initial d2) w q2).
      { intros t Ht. apply pair_reach_word. rewrite Forall_forall in Hre; auto. }
      split; [|split; [|split; [|split]]]; auto.
      + destruct done; simpl in *; [discriminate|]. injection Hhd as ->. reflexivity.
      + intros q1 q2. split.
        * intros Hin. apply in_map_iff in Hin as (t & Hk & Ht). destruct (Hform t Ht) as (w & q1' & q2' & -> & P1 & P2).
          injection Hk as -> ->. exists w; auto.
        * intros (w & P1 & P2). revert q1 q2 P1 P2. induction w as [|a w IH] using rev_ind; intros q1 q2 P1 P2.
          -- inv P1. inv P2. destruct done; simpl in *; [discriminate|]. injection Hhd as ->. left; reflexivity.
          -- apply dfa_path_app_inv in P1 as (p1 & P1 & E1). apply dfa_path_app_inv in P2 as (p2 & P2 & E2).
             inversion E1 as [|? ? t1 ? ? E1' E1'']; subst. inv E1''.
             inversion E2 as [|? ? t2 ? ? E2' E2'']; subst. inv E2''.
             specialize (IH _ _ P1 P2). apply in_map_iff in IH as (t & Hk & Ht).
             destruct (Hform t Ht) as (w' & q1' & q2' & -> & P1' & P2'). injection Hk as -> ->.
             destruct (Forall2_In_l _ _ _ _ HF Ht) as (o & Ho & succs & Hv & Hall).
             destruct (visit_spec p1 p2) as (r & Hr' & Hs); [eapply dfa_edge_src; eauto|eapply dfa_edge_src; eauto|].
             rewrite Hv in Hr'. injection Hr' as <-. specialize (Hs _ _ eq_refl).
             assert (Ha : In a (dfa_alphabet d1)) by (eapply dfa_edge_elem; eauto).
             destruct (Forall2_In_l _ _ _ _ Hs Ha) as (p & Hin & t1 & t2 & -> & F1 & F2).
             apply Hall in Hin. unfold de_pair_key in Hin at 1. simpl in Hin. unfold de_current_state_idx in Hin. simpl in Hin.
             rewrite (dfa_edge_fun d1 p1 a q1 t1), (dfa_edge_fun d2 p2 a q2 t2); auto; apply dv_alphabet; auto.
      + assert (HF1 : Forall2 (fun t o => exists succs, visit t = Ret (Some (o, succs))) done out).
        { eapply Forall2_impl; [|exact HF]. intros t o (su & Hv & _). exists su; auto. }
        clear - HF1 Hform. induction HF1 as [|t o done out (succs & Hv) HF IH]; simpl; constructor.
        * destruct (Hform t) as (w & q1 & q2 & -> & _); [left; auto|]. exists succs. exact Hv.
        * apply IH. intros; apply Hform; right; auto.
    - destruct Hres as (t & Ht & Hv). destruct (pair_reach_word t Ht) as (w & q1 & q2 & -> & P1 & P2).
      exists w, q1, q2. auto.
  Qed.
End Pair.

Theorem dfa_equivalent_to_correct d1 d2 :
  dfa_valid d1 -> dfa_valid d2 ->
  exists b, dfa_equivalent_to d1 d2 = Ret b /\
            (b = true <-> same_set (dfa_alphabet d1) (dfa_alphabet d2) /\ forall w, dfa_lang d1 w <-> dfa_lang d2 w).
Proof.
  intros V1 V2. unfold dfa_equivalent_to.
  destruct (alphabet_equal_spec _ _ (dv_alphabet _ V1) (dv_alphabet _ V2)) as [Hs|Hs]; simpl.
  2:{ exists false. split; auto. split; [discriminate|tauto]. }
  match goal with |- context[search de_pair_key ?v _ _] => set (visit := v) end.
  destruct (pair_search d1 d2 unit visit V1 V2) as (r & Hr & Hres).
  { intros q1 q2 H1 H2. unfold visit. simpl.
    destruct (de_is_accepting_at d1 q1 H1) as (a1 & -> & _). destruct (de_is_accepting_at d2 q2 H2) as (a2 & -> & _). simpl.
    destruct (de_pair_succs_spec d1 d2 q1 q2 V1 V2 Hs H1 H2) as (succs & Hsu & HF).
    destruct (negb (Bool.eqb a1 a2)); [eexists; split; [reflexivity|discriminate]|].
    rewrite Hsu. simpl. eexists; split; [reflexivity|]. intros o su [= <- <-]. auto. }
  unfold t0 in Hr. rewrite Hr. simpl. destruct r as [[seen out]|].
  - destruct Hres as (ks & _ & _ & _ & Hks & HF). exists true; split; auto. split; auto. intros _. split; auto.
    assert (Hagree : forall w q1 q2, dfa_path d1 (dfa_initial d1) w q1 -> dfa_path d2 (dfa_initial d2) w q2 ->
                                     (dfa_accepting d1 q1 <-> dfa_accepting d2 q2)).
    { intros w q1 q2 P1 P2. assert (Hin : In (q1, q2) ks) by (apply Hks; eauto).
      destruct (Forall2_In_l _ _ _ _ HF Hin) as (o & _ & succs & Hv). unfold visit in Hv. simpl in Hv.
      destruct (de_is_accepting_at d1 q1) as (a1 & E1 & I1); [eapply dfa_path_range; eauto; apply dv_initial; auto|].
      destruct (de_is_accepting_at d2 q2) as (a2 & E2 & I2); [eapply dfa_path_range; eauto; apply dv_initial; auto|].
      rewrite E1, E2 in Hv. simpl in Hv. destruct (Bool.eqb a1 a2) eqn:E; simpl in Hv; [|discriminate].
      apply eqb_prop in E. subst. rewrite <- I1, <- I2. tauto. }
    intros w. split.
    + intros Hl. assert (Ho : over (dfa_alphabet d2) w) by (eapply over_ext; [exact Hs|eapply dfa_lang_over; eauto]).
      destruct (dfa_path_total d2 _ w V2 (dv_initial _ V2) Ho) as (q2 & P2 & _). destruct Hl as (q1 & P1 & Ha).
      exists q2. split; auto. eapply Hagree; eauto.
    + intros Hl. assert (Ho : over (dfa_alphabet d1) w)
        by (eapply over_ext; [apply same_set_sym; exact Hs|eapply dfa_lang_over; eauto]).
      destruct (dfa_path_total d1 _ w V1 (dv_initial _ V1) Ho) as (q1 & P1 & _). destruct Hl as (q2 & P2 & Ha).
      exists q1. split; auto. eapply Hagree; eauto.
  - destruct Hres as (w & q1 & q2 & P1 & P2 & Hv). exists false; split; auto. split; [discriminate|].
    intros [_ Hl]. unfold visit in Hv. simpl in Hv.
    assert (R1 : q1 < length (dfa_states d1)) by (eapply dfa_path_range; eauto; apply dv_initial; auto).
    assert (R2 : q2 < length (dfa_states d2)) by (eapply dfa_path_range; eauto; apply dv_initial; auto).
    destruct (de_is_accepting_at d1 q1 R1) as (a1 & E1 & I1).
    destruct (de_is_accepting_at d2 q2 R2) as (a2 & E2 & I2).
    rewrite E1, E2 in Hv. simpl in Hv.
    destruct (de_pair_succs_spec d1 d2 q1 q2 V1 V2 Hs R1 R2) as (succs & Hsu & _).
    rewrite Hsu in Hv. simpl in Hv. destruct (Bool.eqb a1 a2) eqn:E; simpl in Hv; [discriminate|].
    assert (HL : dfa_accepting d1 q1 <-> dfa_accepting d2 q2).
    { specialize (Hl w). unfold dfa_lang, dfa_state_lang in Hl. split; intros Ha.
      - destruct Hl as [Hl _]. destruct Hl as (q & Pq & Haq); [eauto|].
        rewrite (dfa_path_fun d2 _ _ _ _ (dv_alphabet _ V2) P2 Pq); auto.
      - destruct Hl as [_ Hl]. destruct Hl as (q & Pq & Haq); [eauto|].
        rewrite (dfa_path_fun d1 _ _ _ _ (dv_alphabet _ V1) P1 Pq); auto. }
    rewrite <- I1, <- I2 in HL. apply eqb_false_iff in E. destruct a1, a2; intuition congruence.
Qed.

(** ** Names of product states *)
Lemma enumerate_map {A B} (f : A -> B) l : enumerate (map f l) = map (fun p => (fst p, f (snd p))) (enumerate l).
Proof.
  unfold enumerate. rewrite map_length. generalize 0. induction l; intros k; simpl; auto. f_equal; auto.
Qed.

Lemma product_names_prefix {K} (name : K -> R str) (nm : K -> str) hm l :
  (forall p, In p l -> name p = Ret (nm p)) ->
  exists l1 l2, l = l1 ++ l2 /\ product_names name hm l = Ret (map (fun p => (p, nm p)) l1) /\
                (l2 = [] <-> NoDup (map nm l) /\ forall p, In p l -> ~ In (nm p) hm) /\
                (forall p, In p l1 -> ~ In (nm p) hm) /\ NoDup (map nm l1).
Proof.
  revert hm; induction l as [|p ps IH]; intros hm Hn; simpl.
  - exists [], []. simpl. repeat split; auto; try constructor; tauto.
  - rewrite Hn by (left; auto). simpl. unfold hs_insert. destruct (mem_spec (nm p) hm) as [Hm|Hm].
    + exists [], (p :: ps). simpl. split; auto. split; auto. split; [|split; [tauto|constructor]]. split; [discriminate|].
      intros [_ Hf]. exfalso. apply (Hf p); auto.
    + destruct (IH (hm ++ [nm p])) as (l1 & l2 & E & Hp & Hiff & Hdis & Hnd);
        [intros; apply Hn; right; auto|].
      rewrite Hp. simpl. exists (p :: l1), l2. subst ps. simpl. split; auto. split; auto.
      assert (Hdis2 : forall q, In q l1 -> ~ In (nm q) hm /\ nm q <> nm p).
      { intros q Hq. specialize (Hdis q Hq). rewrite in_app_iff in Hdis. simpl in Hdis. split; [tauto|].
        intros Heq. apply Hdis. right; left; congruence. }
      split; [|split].
      * rewrite Hiff. split.
        -- intros [H1 H2]. split.
           ++ constructor; auto. intros Hin. apply in_map_iff in Hin as (q & Hq & Hin). apply (H2 q Hin).
              apply in_app_iff. right; left; congruence.
           ++ intros q [<-|Hq]; auto. intros Hi. apply (H2 q Hq). apply in_app_iff; auto.
        -- intros [H1 H2]. inversion H1 as [|? ? H3 H4]; subst. split; auto. intros q Hq Hi. apply in_app_iff in Hi as [Hi|[Hi|[]]].
           ++ apply (H2 q); auto.
           ++ apply H3. rewrite Hi. apply in_map; auto.
      * intros q [<-|Hq]; auto. apply Hdis2; auto.
      * constructor; auto. intros Hin. apply in_map_iff in Hin as (q & Hq & Hin). apply Hdis2 in Hin. tauto.
Qed.

Definition product_name_map {K} `{Eqb K} (named : list (K * str)) (order : list K) (n : nat) : list (K * str) :=
  if length (hm_collect named) <? n then hm_collect (map (fun '(idx, p) => (p, dec idx)) (enumerate order))
  else hm_collect named.

Lemma product_names_spec {K} `{Eqb K} (name : K -> R str) (nm : K -> str) (order : list K) :
  (forall p, In p order -> name p = Ret (nm p)) -> NoDup order ->
  exists named f, product_names name [] order = Ret named /\
    (forall p, In p order -> hm_get p (product_name_map named order (length order)) = Some (f p)) /\
    (forall p q, In p order -> In q order -> f p = f q -> p = q) /\
    ((NoDup (map nm order) /\ forall p, In p order -> f p = nm p) \/
     (~ NoDup (map nm order) /\ forall p, In p order -> exists i, i < length order /\ f p = dec i)).
Proof.
  intros Hn Hnd. destruct (product_names_prefix name nm [] order Hn) as (l1 & l2 & E & Hp & Hiff & _ & Hnd1).
  exists (map (fun p => (p, nm p)) l1).
  assert (Hk1 : hm_collect (map (fun p => (p, nm p)) l1) = map (fun p => (p, nm p)) l1).
  { apply hm_collect_id. rewrite map_map. simpl. rewrite map_id. subst order. eapply NoDup_app_remove_r; eauto. }
  unfold product_name_map. rewrite Hk1, map_length.
  destruct (Nat.ltb_spec (length l1) (length order)) as [Hlt|Hge].
  - exists (fun p => match position (eqb p) order with Some i => dec i | None => [] end). split; auto.
    assert (Hget : forall p, In p order -> hm_get p (hm_collect (map (fun '(idx, p) => (p, dec idx)) (enumerate order))) =
                     Some (match position (eqb p) order with Some i => dec i | None => [] end)).
    { intros p Hpin. destruct (position_eqb_In p order Hpin) as (i & Hi & Hi'). rewrite Hi.
      rewrite hm_collect_id.
      - apply hm_In_get.
        + rewrite map_map. erewrite map_ext; [rewrite enumerate_snd; auto|]. intros []; auto.
        + apply in_map_iff. exists (i, p). split; auto. apply enumerate_In; auto.
      - rewrite map_map. erewrite map_ext; [rewrite enumerate_snd; auto|]. intros []; auto. }
    split; auto. split.
    + intros p q Hpi Hqi. destruct (position_eqb_In p order Hpi) as (i & -> & Hi).
      destruct (position_eqb_In q order Hqi) as (j & -> & Hj). intros Hd. apply dec_inj in Hd. congruence.
    + right. split.
      * intros Hndn. assert (El : l2 = []) by (apply Hiff; split; auto). subst. rewrite app_nil_r in Hlt. lia.
      * intros p Hpi. destruct (position_eqb_In p order Hpi) as (i & -> & Hi). exists i. split; auto.
        eapply nth_error_length; eauto.
  - assert (El : l2 = []). { destruct l2; auto. subst order. rewrite app_length in Hge. simpl in Hge. lia. }
    subst. rewrite app_nil_r in *. exists nm. split; auto.
    assert (Hndn : NoDup (map nm l1)) by (apply Hiff; auto).
    split; [|split].
    + intros p Hpi. apply hm_In_get.
      * rewrite map_map. simpl. rewrite map_id. auto.
      * apply in_map_iff. exists p; auto.
    + intros p q Hpi Hqi Heq. apply In_nth_error in Hpi as [i Hi]. apply In_nth_error in Hqi as [j Hj].
      assert (i = j).
      { eapply (NoDup_nth_error_inj (map nm l1) i j (nm p)); auto.
        - rewrite nth_error_map, Hi; auto.
        - rewrite nth_error_map, Hj; simpl; congruence. }
      congruence.
    + left. split; auto.
Qed.

(** ** Product construction *)
Definition dfa_pair_name (d1 d2 : dfa) (p : nat * nat) : str :=
  match nth_error (dfa_states d1) (fst p), nth_error (dfa_states d2) (snd p) with
  | Some a, Some b => pair_name (ds_name a) (ds_name b)
  | _, _ => []
  end.

(** [d] is the product of [d1] and [d2]: its states are the pairs [ks] *)
Record dfa_is_product (comb : dfa_state -> dfa_state -> bool) (d1 d2 d : dfa) (ks : list (nat * nat)) : Prop := {
  dp_alphabet : dfa_alphabet d = dfa_alphabet d1;
  dp_nodup : NoDup ks;
  dp_reach : forall q1 q2, In (q1, q2) ks <->
                           exists w, dfa_path d1 (dfa_initial d1) w q1 /\ dfa_path d2 (dfa_initial d2) w q2;
  dp_length : length (dfa_states d) = length ks;
  dp_initial : nth_error ks (dfa_initial d) = Some (dfa_initial d1, dfa_initial d2);
  dp_state : forall i q1 q2 s1 s2 s,
      nth_error ks i = Some (q1, q2) -> nth_error (dfa_states d1) q1 = Some s1 -> nth_error (dfa_states d2) q2 = Some s2 ->
      nth_error (dfa_states d) i = Some s -> ds_accepting s = comb s1 s2;
  dp_edge : forall i q1 q2 a j, nth_error ks i = Some (q1, q2) -> dfa_edge d i a j ->
      exists t1 t2, nth_error ks j = Some (t1, t2) /\ dfa_edge d1 q1 a t1 /\ dfa_edge d2 q2 a t2;
  dp_names : (forall i p s, nth_error ks i = Some p -> nth_error (dfa_states d) i = Some s -> ds_name s = dfa_pair_name d1 d2 p) \/
             (~ NoDup (map (dfa_pair_name d1 d2) ks) /\
              forall s, In s (dfa_states d) -> exists i, i < length ks /\ ds_name s = dec i)
}.

Lemma idx_map_get {K A} `{Eqb K} (proj : A -> K) (l : list A) (f : nat * A -> K * nat) p i :
  (forall x, f x = (proj (snd x), fst x)) -> NoDup (map proj l) ->
  (hm_get p (hm_collect (map f (enumerate l))) = Some i <-> nth_error (map proj l) i = Some p).
Proof.
  intros Hf Hnd. rewrite <- (rev_map_get (map proj l) p i Hnd), enumerate_map, map_map. simpl.
  erewrite map_ext; [|exact Hf]. reflexivity.
Qed.

(** the visit of one pair of evaluators *)
Definition dfa_product_visit (d1 d2 : dfa) (comb : dfa_state -> dfa_state -> bool) (p : dfa_eval * dfa_eval) :=
  succs <- de_pair_succs (dfa_alphabet d1) p ;;
  o1 <- de_current_state (fst p) ;; s1 <- unwrap o1 ;;
  o2 <- de_current_state (snd p) ;; s2 <- unwrap o2 ;;
  Ret (Some ((de_pair_key p, comb s1 s2, map de_pair_key succs), succs)).

(** the pairs are the ones the search meets, in this order, and the same for every hash order *)
Theorem dfa_product_construction_search d1 d2 comb :
  dfa_valid d1 -> dfa_valid d2 -> same_set (dfa_alphabet d1) (dfa_alphabet d2) ->
  exists ks, (exists seen out, search de_pair_key (dfa_product_visit d1 d2 comb) (S (length (dfa_states d1) * length (dfa_states d2)))
                                      (dfa_evaluator d1, dfa_evaluator d2) = Ret (Some (seen, out)) /\ map (fun o => fst (fst o)) out = ks) /\
    hd_error ks = Some (dfa_initial d1, dfa_initial d2) /\
    forall h, exists d, dfa_product_construction h d1 d2 comb = Ret (Some d) /\ dfa_valid d /\ dfa_is_product comb d1 d2 d ks.
Proof.
  intros V1 V2 Hs. unfold dfa_product_construction.
  destruct (alphabet_equal_spec _ _ (dv_alphabet _ V1) (dv_alphabet _ V2)) as [_|Hn]; [cbn [negb]|tauto].
  set (visit := dfa_product_visit d1 d2 comb).
  assert (Hvisit : forall q1 q2, q1 < length (dfa_states d1) -> q2 < length (dfa_states d2) ->
            exists s1 s2 succs, nth_error (dfa_states d1) q1 = Some s1 /\ nth_error (dfa_states d2) q2 = Some s2 /\
              visit (ev_at d1 q1, ev_at d2 q2) = Ret (Some (((q1, q2), comb s1 s2, map de_pair_key succs), succs)) /\
              Forall2 (fun a p => exists t1 t2, p = (ev_at d1 t1, ev_at d2 t2) /\ dfa_edge d1 q1 a t1 /\ dfa_edge d2 q2 a t2)
                      (dfa_alphabet d1) succs).
  { intros q1 q2 H1 H2. destruct (nth_error_lt _ _ H1) as [s1 Hs1]. destruct (nth_error_lt _ _ H2) as [s2 Hs2].
    destruct (de_pair_succs_spec d1 d2 q1 q2 V1 V2 Hs H1 H2) as (succs & Hsu & HF).
    exists s1, s2, succs. split; auto. split; auto. split; auto.
    unfold visit, dfa_product_visit. rewrite Hsu. simpl. rewrite (de_current_state_at _ _ _ Hs1), (de_current_state_at _ _ _ Hs2). reflexivity. }
  destruct (pair_search d1 d2 (nat * nat * bool * list (nat * nat)) visit V1 V2) as (r & Hr & Hres).
  { intros q1 q2 H1 H2. destruct (Hvisit q1 q2 H1 H2) as (s1 & s2 & succs & _ & _ & Hv & HF).
    rewrite Hv. eexists; split; [reflexivity|]. intros o su [= <- <-]. auto. }
  destruct r as [[seen out]|].
  2:{ exfalso. destruct Hres as (w & q1 & q2 & P1 & P2 & Hv).
      destruct (Hvisit q1 q2) as (s1 & s2 & succs & _ & _ & Hv' & _);
        [eapply dfa_path_range; eauto; apply dv_initial; auto|eapply dfa_path_range; eauto; apply dv_initial; auto|].
      congruence. }
  destruct Hres as (ks & Hhd & Hnd & Hperm & Hks & HF). exists ks. unfold t0 in Hr.
  assert (Hrange : forall q1 q2, In (q1, q2) ks -> q1 < length (dfa_states d1) /\ q2 < length (dfa_states d2)).
  { intros q1 q2 Hin. apply Hks in Hin as (w & P1 & P2).
    split; eapply dfa_path_range; eauto; apply dv_initial; auto. }
  (* the collected data *)
  assert (HD : Forall2 (fun k o => exists s1 s2 succs,
              nth_error (dfa_states d1) (fst k) = Some s1 /\ nth_error (dfa_states d2) (snd k) = Some s2 /\
              o = (k, comb s1 s2, map de_pair_key succs) /\
              Forall2 (fun a p => exists t1 t2, p = (ev_at d1 t1, ev_at d2 t2) /\ dfa_edge d1 (fst k) a t1 /\ dfa_edge d2 (snd k) a t2)
                      (dfa_alphabet d1) succs) ks out).
  { clear Hr Hhd Hnd Hperm Hks. induction HF as [|[q1 q2] o ks out (su & Hv) HF IH]; constructor.
    - destruct (Hrange q1 q2) as [R1 R2]; [left; auto|].
      destruct (Hvisit q1 q2 R1 R2) as (s1 & s2 & succs & E1 & E2 & Hv' & HFs).
      simpl in Hv. rewrite Hv in Hv'. injection Hv' as -> ->. exists s1, s2, succs. auto.
    - apply IH. intros; apply Hrange; right; auto. }
  set (proj := fun o : nat * nat * bool * list (nat * nat) => fst (fst o)).
  assert (Hproj : map proj out = ks).
  { clear - HD. induction HD as [|k o ks out (s1 & s2 & su & _ & _ & -> & _) HD IH]; simpl; auto. rewrite IH; auto. }
  assert (Hlen : length out = length ks) by (rewrite <- Hproj, map_length; auto).
  split; [exists seen, out; split; [exact Hr|exact Hproj]|]. split; [exact Hhd|]. intros h. unfold visit, dfa_product_visit in Hr. rewrite Hr. simpl.
  set (order := ho h [18] seen).
  assert (Horder : Permutation order ks) by (unfold order; rewrite ho_perm; auto).
  assert (Hndo : NoDup order) by (eapply Permutation_NoDup; [symmetry; exact Horder|auto]).
  assert (Hino : forall p, In p order <-> In p ks) by (intros p; split; apply Permutation_in; [|symmetry]; auto).
  match goal with |- context[product_names ?f [] order] => set (namef := f) end.
  destruct (product_names_spec namef (dfa_pair_name d1 d2) order) as (named & f & Hnamed & Hget & Hinj & Hnames).
  { intros [q1 q2] Hin. apply Hino in Hin. destruct (Hrange _ _ Hin) as [R1 R2].
    destruct (nth_error_lt _ _ R1) as [s1 Hs1]. destruct (nth_error_lt _ _ R2) as [s2 Hs2].
    unfold namef, dfa_pair_name. rewrite (index_Some _ _ _ Hs1), (index_Some _ _ _ Hs2). simpl. rewrite Hs1, Hs2. auto. }
  { auto. }
  rewrite Hnamed. simpl.
  replace (length out) with (length order) by (rewrite (Permutation_length Horder); auto).
  fold (product_name_map named order (length order)).
  set (names := product_name_map named order (length order)) in *.
  match goal with |- context[hm_collect (map ?g (enumerate out))] => set (idxf := g) end.
  set (rmap := hm_collect (map idxf (enumerate out))).
  assert (Hrmap : forall p i, hm_get p rmap = Some i <-> nth_error ks i = Some p).
  { intros p i. unfold rmap. rewrite <- Hproj. apply idx_map_get; [|rewrite Hproj; auto].
    intros [idx [[p' b] l]]. reflexivity. }
  assert (Hin_rmap : forall p, In p ks -> exists i, hm_get p rmap = Some i /\ nth_error ks i = Some p).
  { intros p Hp. apply In_nth_error in Hp as [i Hi]. exists i. split; auto. apply Hrmap; auto. }
  assert (Hinit : In (dfa_initial d1, dfa_initial d2) ks).
  { destruct ks; simpl in Hhd; [discriminate|]. injection Hhd as ->. left; auto. }
  destruct (Hin_rmap _ Hinit) as (init & Hgi & Hni). rewrite Hgi. simpl.
  match goal with |- context[mapR ?g out] => set (mk := g) end.
  destruct (mapR_total mk (fun o s => exists q1 q2 s1 s2,
      proj o = (q1, q2) /\ nth_error (dfa_states d1) q1 = Some s1 /\ nth_error (dfa_states d2) q2 = Some s2 /\
      ds_name s = f (q1, q2) /\ ds_initial s = eqb (q1, q2) (dfa_initial d1, dfa_initial d2) /\
      ds_accepting s = comb s1 s2 /\
      Forall2 (fun a j => exists t1 t2, nth_error ks j = Some (t1, t2) /\ dfa_edge d1 q1 a t1 /\ dfa_edge d2 q2 a t2)
              (dfa_alphabet d1) (ds_transitions s)) out) as (states & Hst & HS).
  { intros o Ho. destruct (Forall2_In_r _ _ _ _ HD Ho) as ([q1 q2] & Hk & s1 & s2 & succs & E1 & E2 & -> & HFs).
    simpl in *. unfold mk. rewrite (Hget (q1, q2)) by (apply Hino; auto). simpl.
    match goal with |- context[mapR ?g (map de_pair_key succs)] =>
      destruct (mapR_total g (fun p j => nth_error ks j = Some p) (map de_pair_key succs)) as (ts & Hts & HFt) end.
    { intros p Hp. apply in_map_iff in Hp as (t & <- & Ht).
      destruct (Forall2_In_r _ _ _ _ HFs Ht) as (a & _ & t1 & t2 & -> & D1 & D2).
      destruct (Hin_rmap (t1, t2)) as (i & Hi & Hi').
      { apply Hks. apply Hks in Hk as (w & P1 & P2). exists (w ++ [a]). split; eapply dfa_path_snoc; eauto. }
      exists i. unfold de_pair_key, de_current_state_idx. simpl. rewrite Hi. auto. }
    rewrite Hts. simpl. eexists; split; [reflexivity|]. exists q1, q2, s1, s2. simpl.
    split; auto. split; auto. split; auto. split; auto. split; auto. split; auto.
    clear - HFs HFt. revert ts HFt. induction HFs as [|a p al succs (t1 & t2 & -> & D1 & D2) HFs IH]; intros ts HFt; simpl in HFt; inv HFt; constructor; auto.
    exists t1, t2. auto. }
  rewrite Hst. simpl. eexists. split; [reflexivity|].
  set (d := {| dfa_alphabet := dfa_alphabet d1; dfa_states := states; dfa_initial := init |}).
  assert (Hlen' : length states = length ks) by (rewrite <- (Forall2_len _ _ _ HS); auto).
  assert (HN : forall i q1 q2, nth_error ks i = Some (q1, q2) -> exists s s1 s2,
      nth_error states i = Some s /\ nth_error (dfa_states d1) q1 = Some s1 /\ nth_error (dfa_states d2) q2 = Some s2 /\
      ds_name s = f (q1, q2) /\ ds_initial s = eqb (q1, q2) (dfa_initial d1, dfa_initial d2) /\
      ds_accepting s = comb s1 s2 /\
      Forall2 (fun a j => exists t1 t2, nth_error ks j = Some (t1, t2) /\ dfa_edge d1 q1 a t1 /\ dfa_edge d2 q2 a t2)
              (dfa_alphabet d1) (ds_transitions s)).
  { intros i q1 q2 Hi. rewrite <- Hproj, nth_error_map in Hi. destruct (nth_error out i) as [o|] eqn:Ho; [|discriminate].
    simpl in Hi. destruct (Forall2_nth _ _ _ HS _ _ Ho) as (s & Hs' & q1' & q2' & s1 & s2 & Ep & rest).
    injection Hi as Hi. rewrite Hi in Ep. injection Ep as -> ->. exists s, s1, s2. tauto. }
  assert (Hbk : forall i s, nth_error states i = Some s -> exists q1 q2, nth_error ks i = Some (q1, q2)).
  { intros i s Hi. apply nth_error_length in Hi. rewrite Hlen' in Hi. destruct (nth_error_lt _ _ Hi) as [[q1 q2] Hq]. eauto. }
  assert (Hnks : forall i p, nth_error ks i = Some p -> In p order).
  { intros i p Hi. apply Hino. eapply nth_error_In; eauto. }
  split.
  - constructor; simpl.
    + apply dv_alphabet; auto.
    + apply NoDup_nth_error. intros i j Hi Hij. rewrite map_length, Hlen' in Hi.
      destruct (nth_error_lt _ _ Hi) as [[q1 q2] Hq]. destruct (HN _ _ _ Hq) as (s & s1 & s2 & Es & _ & _ & En & _).
      rewrite !nth_error_map, Es in Hij. simpl in Hij. destruct (nth_error states j) as [s'|] eqn:Es'; [|discriminate].
      simpl in Hij. destruct (Hbk _ _ Es') as (q1' & q2' & Hq'). destruct (HN _ _ _ Hq') as (s'' & s1' & s2' & Es'' & _ & _ & En' & _).
      rewrite Es' in Es''. injection Es'' as <-. assert (Hpq : (q1, q2) = (q1', q2')).
      { apply Hinj; [eauto|eauto|congruence]. }
      rewrite <- Hpq in Hq'. exact (NoDup_nth_error_inj ks i j _ Hnd Hq Hq').
    + rewrite Hlen'. eapply nth_error_length; eauto.
    + intros i s Hi. destruct (Hbk _ _ Hi) as (q1 & q2 & Hq). destruct (HN _ _ _ Hq) as (s' & s1 & s2 & Es & _ & _ & _ & Ei & _).
      rewrite Hi in Es. injection Es as <-. rewrite Ei, eqb_true. split.
      * intros Heq. rewrite Heq in Hq. exact (NoDup_nth_error_inj ks i init _ Hnd Hq Hni).
      * intros ->. congruence.
    + intros i s Hi. destruct (Hbk _ _ Hi) as (q1 & q2 & Hq).
      destruct (HN _ _ _ Hq) as (s' & s1 & s2 & Es & _ & _ & _ & _ & _ & HFt). rewrite Hi in Es. injection Es as <-.
      symmetry. eapply Forall2_len; eauto.
    + intros i s t Hi Ht. destruct (Hbk _ _ Hi) as (q1 & q2 & Hq).
      destruct (HN _ _ _ Hq) as (s' & s1 & s2 & Es & _ & _ & _ & _ & _ & HFt). rewrite Hi in Es. injection Es as <-.
      destruct (Forall2_In_r _ _ _ _ HFt Ht) as (a & _ & t1 & t2 & Hj & _). rewrite Hlen'. eapply nth_error_length; eauto.
  - constructor; simpl; auto.
    + intros i q1 q2 s1 s2 s Hi E1 E2 Es. destruct (HN _ _ _ Hi) as (s' & s1' & s2' & Es' & E1' & E2' & _ & _ & Ea & _).
      rewrite Es in Es'. injection Es' as <-. congruence.
    + intros i q1 q2 a j Hi (c & s & Hc & Es & Hj). simpl in *.
      destruct (HN _ _ _ Hi) as (s' & s1' & s2' & Es' & _ & _ & _ & _ & _ & HFt).
      rewrite Es in Es'. injection Es' as <-. destruct (Forall2_nth _ _ _ HFt _ _ Hc) as (j' & Hj' & HH).
      rewrite Hj in Hj'. injection Hj' as <-. auto.
    + destruct Hnames as [[_ Hf]|[Hnn Hf]].
      * left. intros i [q1 q2] s Hi Es. destruct (HN _ _ _ Hi) as (s' & s1' & s2' & Es' & _ & _ & En & _).
        rewrite Es in Es'. injection Es' as <-. rewrite En. apply Hf. eauto.
      * right. split.
        -- intros Hx. apply Hnn. eapply Permutation_NoDup; [|exact Hx]. apply Permutation_map. symmetry; auto.
        -- intros s Hs'. apply In_nth_error in Hs' as [i Hi]. destruct (Hbk _ _ Hi) as (q1 & q2 & Hq).
           destruct (HN _ _ _ Hq) as (s' & s1' & s2' & Es' & _ & _ & En & _). rewrite Hi in Es'. injection Es' as <-.
           destruct (Hf (q1, q2)) as (k & Hk & Hk'); [eauto|]. exists k. rewrite (Permutation_length Horder) in Hk. split; auto. congruence.
Qed.

Theorem dfa_product_construction_uniform d1 d2 comb :
  dfa_valid d1 -> dfa_valid d2 -> same_set (dfa_alphabet d1) (dfa_alphabet d2) ->
  exists ks, forall h, exists d, dfa_product_construction h d1 d2 comb = Ret (Some d) /\ dfa_valid d /\ dfa_is_product comb d1 d2 d ks.
Proof. intros V1 V2 Hs. destruct (dfa_product_construction_search d1 d2 comb V1 V2 Hs) as (ks & _ & _ & H). eauto. Qed.

Theorem dfa_product_construction_correct h d1 d2 comb :
  dfa_valid d1 -> dfa_valid d2 -> same_set (dfa_alphabet d1) (dfa_alphabet d2) ->
  exists d ks, dfa_product_construction h d1 d2 comb = Ret (Some d) /\ dfa_valid d /\ dfa_is_product comb d1 d2 d ks.
Proof.
  intros V1 V2 Hs. destruct (dfa_product_construction_uniform d1 d2 comb V1 V2 Hs) as (ks & H).
  destruct (H h) as (d & Hd). exists d, ks. exact Hd.
Qed.

Lemma dfa_product_path comb d1 d2 d ks i q1 q2 w j :
  dfa_is_product comb d1 d2 d ks -> nth_error ks i = Some (q1, q2) -> dfa_path d i w j ->
  exists t1 t2, nth_error ks j = Some (t1, t2) /\ dfa_path d1 q1 w t1 /\ dfa_path d2 q2 w t2.
Proof.
  intros HP Hi Hp. revert q1 q2 Hi. induction Hp as [|p a q w r He Hp IH]; intros q1 q2 Hi.
  - exists q1, q2. split; auto. split; constructor.
  - destruct (dp_edge _ _ _ _ _ HP _ _ _ _ _ Hi He) as (t1 & t2 & Ht & E1 & E2).
    destruct (IH _ _ Ht) as (r1 & r2 & Hr & P1 & P2). exists r1, r2. split; auto. split; econstructor; eauto.
Qed.

Lemma dfa_product_lang comb d1 d2 d ks w :
  dfa_valid d1 -> dfa_valid d2 -> dfa_valid d -> dfa_is_product comb d1 d2 d ks ->
  (dfa_lang d w <-> exists q1 q2 s1 s2, dfa_path d1 (dfa_initial d1) w q1 /\ dfa_path d2 (dfa_initial d2) w q2 /\
                    nth_error (dfa_states d1) q1 = Some s1 /\ nth_error (dfa_states d2) q2 = Some s2 /\ comb s1 s2 = true).
Proof.
  intros V1 V2 V HP. split.
  - intros (q & Hp & s & Hs & Ha).
    destruct (dfa_product_path _ _ _ _ _ _ _ _ _ _ HP (dp_initial _ _ _ _ _ HP) Hp) as (q1 & q2 & Hq & P1 & P2).
    assert (R1 : q1 < length (dfa_states d1)) by (eapply dfa_path_range; eauto; apply dv_initial; auto).
    assert (R2 : q2 < length (dfa_states d2)) by (eapply dfa_path_range; eauto; apply dv_initial; auto).
    destruct (nth_error_lt _ _ R1) as [s1 Hs1]. destruct (nth_error_lt _ _ R2) as [s2 Hs2].
    exists q1, q2, s1, s2. rewrite <- (dp_state _ _ _ _ _ HP _ _ _ _ _ _ Hq Hs1 Hs2 Hs). auto 10.
  - intros (q1 & q2 & s1 & s2 & P1 & P2 & Hs1 & Hs2 & Hc).
    destruct (dfa_path_total d (dfa_initial d) w V (dv_initial _ V)) as (q & Hp & Hr).
    { rewrite (dp_alphabet _ _ _ _ _ HP). eapply dfa_path_over; eauto. }
    destruct (dfa_product_path _ _ _ _ _ _ _ _ _ _ HP (dp_initial _ _ _ _ _ HP) Hp) as (q1' & q2' & Hq & P1' & P2').
    rewrite <- (dfa_path_fun d1 _ _ _ _ (dv_alphabet _ V1) P1 P1') in Hq.
    rewrite <- (dfa_path_fun d2 _ _ _ _ (dv_alphabet _ V2) P2 P2') in Hq.
    destruct (nth_error_lt _ _ Hr) as [s Hs]. exists q. split; auto. exists s. split; auto.
    rewrite (dp_state _ _ _ _ _ HP _ _ _ _ _ _ Hq Hs1 Hs2 Hs). auto.
Qed.

Lemma dfa_lang_path d w q s : dfa_valid d -> dfa_path d (dfa_initial d) w q -> nth_error (dfa_states d) q = Some s ->
  (dfa_lang d w <-> ds_accepting s = true).
Proof.
  intros V P Hs. split.
  - intros (q' & P' & s' & Hs' & Ha). rewrite <- (dfa_path_fun d _ _ _ _ (dv_alphabet _ V) P P') in Hs'. congruence.
  - intros Ha. exists q; split; auto. exists s; auto.
Qed.

(** The four Boolean operations at once: acceptance combined by [f] *)
Lemma dfa_product_bool h f d1 d2 :
  dfa_valid d1 -> dfa_valid d2 -> same_set (dfa_alphabet d1) (dfa_alphabet d2) ->
  exists d, dfa_product_construction h d1 d2 (fun s1 s2 => f (ds_accepting s1) (ds_accepting s2)) = Ret (Some d) /\
            dfa_valid d /\ dfa_alphabet d = dfa_alphabet d1 /\
            forall w, over (dfa_alphabet d1) w -> forall b1 b2,
              (b1 = true <-> dfa_lang d1 w) -> (b2 = true <-> dfa_lang d2 w) -> (dfa_lang d w <-> f b1 b2 = true).
Proof.
  intros V1 V2 Hs.
  destruct (dfa_product_construction_correct h d1 d2 (fun s1 s2 => f (ds_accepting s1) (ds_accepting s2)) V1 V2 Hs)
    as (d & ks & Hd & V & HP).
  exists d. split; auto. split; auto. split; [apply (dp_alphabet _ _ _ _ _ HP)|].
  intros w Ho b1 b2 H1 H2. rewrite (dfa_product_lang _ _ _ _ _ w V1 V2 V HP).
  destruct (dfa_path_total d1 _ w V1 (dv_initial _ V1) Ho) as (q1 & P1 & R1).
  destruct (dfa_path_total d2 _ w V2 (dv_initial _ V2) (over_ext _ _ _ Hs Ho)) as (q2 & P2 & R2).
  destruct (nth_error_lt _ _ R1) as [s1 Hs1]. destruct (nth_error_lt _ _ R2) as [s2 Hs2].
  rewrite (dfa_lang_path _ _ _ _ V1 P1 Hs1) in H1. rewrite (dfa_lang_path _ _ _ _ V2 P2 Hs2) in H2.
  assert (b1 = ds_accepting s1) by (destruct b1, (ds_accepting s1); intuition congruence).
  assert (b2 = ds_accepting s2) by (destruct b2, (ds_accepting s2); intuition congruence). subst b1 b2.
  split.
  - intros (q1' & q2' & s1' & s2' & P1' & P2' & Hs1' & Hs2' & Hc).
    rewrite <- (dfa_path_fun d1 _ _ _ _ (dv_alphabet _ V1) P1 P1') in Hs1'.
    rewrite <- (dfa_path_fun d2 _ _ _ _ (dv_alphabet _ V2) P2 P2') in Hs2'. congruence.
  - intros Hc. exists q1, q2, s1, s2. auto 10.
Qed.

Lemma dfa_lang_dec d w : dfa_valid d -> exists b, b = true <-> dfa_lang d w.
Proof. intros V. destruct (dfa_accepts_correct d w V) as (b & _ & Hb). exists b; auto. Qed.

Lemma dfa_product_none h d1 d2 comb :
  dfa_valid d1 -> dfa_valid d2 -> ~ same_set (dfa_alphabet d1) (dfa_alphabet d2) ->
  dfa_product_construction h d1 d2 comb = Ret None.
Proof.
  intros V1 V2 Hs. unfold dfa_product_construction.
  destruct (alphabet_equal_spec _ _ (dv_alphabet _ V1) (dv_alphabet _ V2)); [tauto|reflexivity].
Qed.

(** ** Inverting *)
Lemma dfa_invert_edge d p a q : dfa_edge (dfa_invert d) p a q <-> dfa_edge d p a q.
Proof.
  unfold dfa_edge. simpl. split.
  - intros (i & s & Hi & Hs & Hq). rewrite nth_error_map in Hs.
    destruct (nth_error (dfa_states d) p) as [s0|]; [|discriminate]. injection Hs as <-. exists i, s0. auto.
  - intros (i & s & Hi & Hs & Hq). eexists i, _. rewrite nth_error_map, Hs. simpl. split; auto.
Qed.
Lemma dfa_invert_path d p w q : dfa_path (dfa_invert d) p w q <-> dfa_path d p w q.
Proof.
  split; induction 1; econstructor; eauto; apply dfa_invert_edge; auto.
Qed.
Lemma dfa_invert_accepting d q : q < length (dfa_states d) -> (dfa_accepting (dfa_invert d) q <-> ~ dfa_accepting d q).
Proof.
  intros Hq. destruct (nth_error_lt _ _ Hq) as [s Hs]. unfold dfa_accepting. simpl. rewrite nth_error_map, Hs. simpl. split.
  - intros (s' & [= <-] & Ha) (s2 & [= <-] & Ha'). simpl in Ha. rewrite Ha' in Ha. discriminate.
  - intros Hn. eexists; split; [reflexivity|]. simpl. destruct (ds_accepting s) eqn:E; auto. exfalso; apply Hn; eauto.
Qed.
Lemma dfa_invert_valid d : dfa_valid d -> dfa_valid (dfa_invert d).
Proof.
  intros V. constructor; simpl.
  - apply dv_alphabet; auto.
  - rewrite map_map. simpl. apply dv_names; auto.
  - rewrite map_length. apply dv_initial; auto.
  - intros q s Hs. rewrite nth_error_map in Hs. destruct (nth_error (dfa_states d) q) as [s0|] eqn:E; [|discriminate].
    injection Hs as <-. simpl. apply (dv_flag _ V); auto.
  - intros q s Hs. rewrite nth_error_map in Hs. destruct (nth_error (dfa_states d) q) as [s0|] eqn:E; [|discriminate].
    injection Hs as <-. simpl. eapply (dv_width _ V); eauto.
  - intros q s t Hs Ht. rewrite nth_error_map in Hs. destruct (nth_error (dfa_states d) q) as [s0|] eqn:E; [|discriminate].
    injection Hs as <-. simpl in *. rewrite map_length. eapply (dv_range _ V); eauto.
Qed.
Lemma dfa_invert_lang d w : dfa_valid d ->
  (dfa_lang (dfa_invert d) w <-> over (dfa_alphabet d) w /\ ~ dfa_lang d w).
Proof.
  intros V. split.
  - intros Hl. pose proof (dfa_lang_over _ _ Hl) as Ho. simpl in Ho. split; auto.
    destruct Hl as (q & P & Ha). simpl in P. rewrite dfa_invert_path in P.
    rewrite dfa_invert_accepting in Ha; [|eapply dfa_path_range; eauto; apply dv_initial; auto].
    intros (q' & P' & Ha'). apply Ha. rewrite (dfa_path_fun d _ _ _ _ (dv_alphabet _ V) P P'). auto.
  - intros [Ho Hn]. destruct (dfa_path_total d _ w V (dv_initial _ V) Ho) as (q & P & R).
    exists q. split; [apply dfa_invert_path; auto|]. apply dfa_invert_accepting; auto.
    intros Ha. apply Hn. exists q; auto.
Qed.

(** ** to_nfa *)
Lemma dfa_to_nfa_edge d p a q : nfa_edge (dfa_to_nfa d) p a q <-> dfa_edge d p a q.
Proof.
  unfold nfa_edge, dfa_edge. simpl. split.
  - intros (i & s & ts & Hi & Hs & Hts & Hq). rewrite nth_error_map in Hs.
    destruct (nth_error (dfa_states d) p) as [s0|]; [|discriminate]. injection Hs as <-. simpl in Hts.
    rewrite nth_error_map in Hts. destruct (nth_error (ds_transitions s0) i) as [t|] eqn:E; [|discriminate].
    injection Hts as <-. destruct Hq as [<-|[]]. exists i, s0. auto.
  - intros (i & s & Hi & Hs & Hq). exists i, (dfa_state_to_nfa_state s), [q]. rewrite nth_error_map, Hs. simpl.
    rewrite nth_error_map, Hq. simpl. auto.
Qed.
Lemma dfa_to_nfa_eps d p q : ~ nfa_eps_edge (dfa_to_nfa d) p q.
Proof.
  intros (s & Hs & Hq). simpl in Hs. rewrite nth_error_map in Hs.
  destruct (nth_error (dfa_states d) p) as [s0|]; [|discriminate]. injection Hs as <-. destruct Hq.
Qed.
Lemma dfa_to_nfa_path d p w q : nfa_path (dfa_to_nfa d) p w q <-> dfa_path d p w q.
Proof.
  split.
  - induction 1 as [|p q w r He Hp IH|p a q w r He Hp IH]; [constructor|exfalso; eapply dfa_to_nfa_eps; eauto|].
    econstructor; eauto. apply dfa_to_nfa_edge; auto.
  - induction 1 as [|p a q w r He Hp IH]; [constructor|]. eapply nfa_path_cons; eauto. apply dfa_to_nfa_edge; auto.
Qed.
Lemma dfa_to_nfa_accepting d q : nfa_accepting (dfa_to_nfa d) q <-> dfa_accepting d q.
Proof.
  unfold nfa_accepting, dfa_accepting. simpl. rewrite nth_error_map.
  destruct (nth_error (dfa_states d) q) as [s|]; simpl; split; intros (s' & Hs & Ha); try discriminate;
    injection Hs as <-; eauto.
Qed.
Lemma dfa_to_nfa_lang d w : nfa_lang (dfa_to_nfa d) w <-> dfa_lang d w.
Proof.
  split; intros (q & P & Ha); exists q; (split; [apply dfa_to_nfa_path; auto|apply dfa_to_nfa_accepting; auto]).
Qed.
Lemma dfa_to_nfa_valid d : dfa_valid d -> nfa_valid (dfa_to_nfa d).
Proof.
  intros V.
  assert (Hget : forall q s, nth_error (map dfa_state_to_nfa_state (dfa_states d)) q = Some s ->
                   exists s0, nth_error (dfa_states d) q = Some s0 /\ s = dfa_state_to_nfa_state s0).
  { intros q s Hs. rewrite nth_error_map in Hs. destruct (nth_error (dfa_states d) q) as [s0|] eqn:E; [|discriminate].
    injection Hs as <-. eauto. }
  constructor; simpl.
  - apply dv_alphabet; auto.
  - rewrite map_map. simpl. apply dv_names; auto.
  - rewrite map_length. apply dv_initial; auto.
  - intros q s Hs. apply Hget in Hs as (s0 & Hs & ->). apply (dv_flag _ V); auto.
  - intros q s Hs. apply Hget in Hs as (s0 & Hs & ->). simpl. rewrite map_length. eapply (dv_width _ V); eauto.
  - intros q s ts t Hs Hts Ht. apply Hget in Hs as (s0 & Hs & ->). simpl in Hts. apply in_map_iff in Hts as (t' & <- & Ht').
    destruct Ht as [<-|[]]. rewrite map_length. eapply (dv_range _ V); eauto.
  - intros q s t Hs Ht. apply Hget in Hs as (s0 & Hs & ->). destruct Ht.
Qed.
