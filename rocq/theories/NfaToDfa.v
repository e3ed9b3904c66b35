(** * The subset construction *)
From Coq Require Import List NArith Arith Bool Lia Permutation Sorted.
From Verif Require Import Base BaseLemmas Spec Search DfaModel DfaBasics DfaReach NfaModel NfaBasics NfaEquiv.
Import ListNotations.

(** [k] is the sorted list of the states reached by [w] *)
Definition key_at (n : nfa) (w : word) (k : list nat) : Prop :=
  StronglySorted lt k /\ forall q, In q k <-> nfa_path n (nfa_initial n) w q.

Lemma lt_sorted_eq l l' : StronglySorted lt l -> StronglySorted lt l' -> (forall x, In x l <-> In x l') -> l = l'.
Proof.
  revert l'; induction l as [|x xs IH]; intros l' Hl Hl' Hin.
  - destruct l' as [|y ys]; auto. exfalso. apply (Hin y). left; auto.
  - destruct l' as [|y ys]; [exfalso; apply (Hin x); left; auto|].
    inversion Hl as [|? ? Hxs Hx]; subst. inversion Hl' as [|? ? Hys Hy]; subst. rewrite Forall_forall in *.
    assert (x = y).
    { assert (H1 : In x (y :: ys)) by (apply Hin; left; auto). assert (H2 : In y (x :: xs)) by (apply Hin; left; auto).
      destruct H1 as [->|H1]; auto. destruct H2 as [->|H2]; auto. specialize (Hx y H2). specialize (Hy x H1). lia. }
    subst y. f_equal. apply IH; auto. intros z. split; intros Hz.
    + assert (H : In z (x :: ys)) by (apply Hin; right; auto). destruct H as [<-|H]; auto. specialize (Hx x Hz). lia.
    + assert (H : In z (x :: xs)) by (apply Hin; right; auto). destruct H as [<-|H]; auto. specialize (Hy x Hz). lia.
Qed.

Lemma key_at_fun n w k k' : key_at n w k -> key_at n w k' -> k = k'.
Proof. intros [S1 I1] [S2 I2]. apply lt_sorted_eq; auto. intros q. rewrite I1, I2. tauto. Qed.

Lemma ne_at_key_at n w unk e : ne_at n w unk e -> key_at n w (set_to_vec (ne_current_states_idx e)).
Proof.
  intros (_ & _ & _ & Hnd & Hin). split.
  - apply sorted_lt; [apply sort_NoDup; auto|apply sort_sorted].
  - intros q. unfold set_to_vec, ne_current_states_idx. rewrite sort_In. apply Hin.
Qed.

Lemma key_at_step n w u a k k' : key_at n w k -> key_at n u k -> key_at n (w ++ [a]) k' -> key_at n (u ++ [a]) k'.
Proof.
  intros [_ I1] [_ I2] [S3 I3]. split; auto. intros q. rewrite I3, !nfa_path_snoc.
  split; intros (t & t' & H1 & H2 & H3); exists t, t'; split; auto; [apply I2, I1; auto|apply I1, I2; auto].
Qed.

Lemma key_at_lang n w u k : key_at n w k -> key_at n u k -> nfa_lang n w -> nfa_lang n u.
Proof. intros [_ I1] [_ I2] (q & Hp & Ha). exists q. split; auto. apply I2, I1; auto. Qed.

(** ** The loop invariant; [pend] holds the key being explored *)
Definition ekey (e : nfa_eval) : list nat := set_to_vec (ne_current_states_idx e).

Record td_inv (n : nfa) (pend : list (list nat)) (s : to_dfa_state) : Prop := {
  ti_num : map snd (td_map s) = seq 0 (length (td_map s));
  ti_gen : td_gen s = length (td_map s);
  ti_nodup : NoDup (map fst (td_map s));
  ti_perm : Permutation (map fst (td_map s)) (map ekey (td_explore s) ++ map fst (td_transitions s) ++ pend);
  ti_key : forall k, In k (map fst (td_map s)) -> exists w, over (nfa_alphabet n) w /\ key_at n w k;
  ti_explore : forall e, In e (td_explore s) -> exists w, over (nfa_alphabet n) w /\ ne_at n w false e;
  ti_acc : forall x, In x (td_accepting s) <-> exists k w, In (k, x) (td_map s) /\ key_at n w k /\ nfa_lang n w;
  ti_tr : forall k tr, In (k, tr) (td_transitions s) ->
            Forall2 (fun a x => exists k', In (k', x) (td_map s) /\ forall w, key_at n w k -> key_at n (w ++ [a]) k')
                    (nfa_alphabet n) tr;
  ti_init : exists k, nth_error (td_map s) 0 = Some (k, 0) /\ key_at n [] k
}.

Lemma numbered_nth {K} (m : list (K * nat)) : map snd m = seq 0 (length m) ->
  forall i k x, nth_error m i = Some (k, x) -> x = i.
Proof.
  intros Hm i k x Hi. assert (H : nth_error (map snd m) i = Some x) by (rewrite nth_error_map, Hi; auto).
  rewrite Hm in H. assert (i < length m) by (eapply nth_error_length; eauto).
  rewrite nth_error_nth' with (d := 0) in H by (rewrite seq_length; auto). rewrite seq_nth in H by auto. injection H as <-. auto.
Qed.

Lemma numbered_In {K} (m : list (K * nat)) k x : map snd m = seq 0 (length m) ->
  (In (k, x) m <-> nth_error m x = Some (k, x)).
Proof.
  intros Hm. split.
  - intros Hi. apply In_nth_error in Hi as [i Hi]. assert (x = i) by (eapply numbered_nth; eauto). subst; auto.
  - apply nth_error_In.
Qed.

Lemma numbered_fun {K} (m : list (K * nat)) k k' x : map snd m = seq 0 (length m) -> In (k, x) m -> In (k', x) m -> k = k'.
Proof. intros Hm H1 H2. rewrite numbered_In in H1, H2 by auto. congruence. Qed.

Lemma nodup_fst_fun {K V} (m : list (K * V)) k x y : NoDup (map fst m) -> In (k, x) m -> In (k, y) m -> x = y.
Proof.
  intros Hnd H1 H2. apply In_nth_error in H1 as [i Hi]. apply In_nth_error in H2 as [j Hj].
  assert (i = j).
  { apply (NoDup_nth_error_inj (map fst m) i j k Hnd); rewrite nth_error_map; [rewrite Hi|rewrite Hj]; auto. }
  subst. congruence.
Qed.

Lemma to_dfa_visit_spec n pend s tr e w : nfa_valid n -> over (nfa_alphabet n) w -> td_inv n pend s -> ne_at n w false e ->
  exists s' x new, to_dfa_visit (s, tr) e = Ret (s', tr ++ [x]) /\ td_inv n pend s' /\
    td_map s' = td_map s ++ new /\ length (td_explore s') = length (td_explore s) + length new /\
    td_transitions s' = td_transitions s /\ In (ekey e, x) (td_map s').
Proof.
  intros V Hw Hi He. unfold to_dfa_visit.
  destruct (ne_is_accepting_at n w false e V He) as (b & -> & Hb). simpl. fold (ekey e).
  assert (Hk : key_at n w (ekey e)) by (eapply ne_at_key_at; eauto).
  assert (Hb' : b = true <-> nfa_lang n w) by (rewrite Hb, nfa_lang_at; tauto). clear Hb.
  assert (Hacc : forall (m : list (list nat * nat)) x, map snd m = seq 0 (length m) -> In (ekey e, x) m ->
            (forall y, In y (td_accepting s) <-> exists k w, In (k, y) (td_map s) /\ key_at n w k /\ nfa_lang n w) ->
            (forall k y, In (k, y) m <-> In (k, y) (td_map s) \/ (k, y) = (ekey e, x)) ->
            forall y, In y (if b then fst (hs_insert x (td_accepting s)) else td_accepting s) <->
                      exists k w, In (k, y) m /\ key_at n w k /\ nfa_lang n w).
  { intros m x Hm Hx Ha Hin y.
    assert (Hy : In y (if b then fst (hs_insert x (td_accepting s)) else td_accepting s) <->
                 In y (td_accepting s) \/ (b = true /\ y = x)).
    { destruct b.
      - rewrite hs_insert_fst. destruct (mem_spec x (td_accepting s)) as [Hmm|Hmm].
        + intuition. subst; auto.
        + rewrite in_app_iff. simpl. intuition.
      - intuition discriminate. }
    rewrite Hy, Ha. split.
    - intros [(k & u & H1 & H2 & H3)|[H1 ->]].
      + exists k, u. split; auto. apply Hin; auto.
      + exists (ekey e), w. split; auto. split; auto. apply Hb'; auto.
    - intros (k & u & H1 & H2 & H3). apply Hin in H1 as [H1|H1]; [left; eauto|]. injection H1 as -> ->. right. split; auto.
      apply Hb'. eapply key_at_lang; eauto. }
  destruct Hi as [I1 I2 I3 I4 I5 I6 I7 I8 I9].
  destruct (hm_get (ekey e) (td_map s)) as [x|] eqn:Eg.
  - apply hm_get_In in Eg. eexists _, x, []. split; [reflexivity|]. simpl. rewrite app_nil_r.
    split; [|split; [reflexivity|split; [lia|split; [reflexivity|exact Eg]]]].
    constructor; simpl; auto. apply Hacc; auto. intros k y. split; auto. intros [H|[= -> ->]]; auto.
  - apply hm_get_None in Eg. rewrite hm_insert_new by auto. eexists _, (td_gen s), [(ekey e, td_gen s)].
    split; [reflexivity|]. simpl.
    split; [|split; [reflexivity|split; [rewrite app_length; simpl; lia|split; [reflexivity|apply in_app_iff; right; left; auto]]]].
    assert (Hnum : map snd (td_map s ++ [(ekey e, td_gen s)]) = seq 0 (length (td_map s ++ [(ekey e, td_gen s)]))).
    { rewrite map_app, app_length. simpl. rewrite I1, I2, Nat.add_1_r, seq_S. reflexivity. }
    constructor; simpl; auto.
    + rewrite app_length. simpl. lia.
    + rewrite map_app. simpl. apply NoDup_snoc; auto.
    + rewrite !map_app. simpl. rewrite I4, <- !app_assoc. apply Permutation_app_head. rewrite app_assoc.
      apply Permutation_app_comm.
    + intros k Hkin. rewrite map_app, in_app_iff in Hkin. destruct Hkin as [Hkin|[<-|[]]]; auto. exists w. auto.
    + intros e' He'. apply in_app_iff in He' as [He'|[<-|[]]]; auto. exists w; auto.
    + apply Hacc; auto.
      * apply in_app_iff. right; left; auto.
      * intros k y. rewrite in_app_iff. simpl. intuition.
    + intros k tr' Hin. eapply Forall2_impl; [|exact (I8 k tr' Hin)]. intros a x (k' & H1 & H2). exists k'. split; auto.
      apply in_app_iff; auto.
    + destruct I9 as (k0 & H1 & H2). exists k0. split; auto. destruct (td_map s); [discriminate|auto].
Qed.

Lemma to_dfa_visits n pend al evs w s tr : nfa_valid n -> over (nfa_alphabet n) w -> over (nfa_alphabet n) al ->
  Forall2 (fun a e => ne_at n (w ++ [a]) false e) al evs -> td_inv n pend s ->
  exists s' tr' new, foldR to_dfa_visit (s, tr) evs = Ret (s', tr ++ tr') /\ td_inv n pend s' /\
    td_map s' = td_map s ++ new /\ length (td_explore s') = length (td_explore s) + length new /\
    td_transitions s' = td_transitions s /\
    Forall2 (fun a x => exists k, In (k, x) (td_map s') /\ key_at n (w ++ [a]) k) al tr'.
Proof.
  intros V Hw Hal HF; revert s tr. induction HF as [|a e al evs He HF IH]; intros s tr Hi; cbn [foldR].
  - exists s, [], []. rewrite !app_nil_r. simpl. repeat (split; auto).
  - inversion Hal as [|? ? Ha Hal']; subst.
    assert (Hwa : over (nfa_alphabet n) (w ++ [a])) by (apply over_app; split; auto; constructor; auto; constructor).
    destruct (to_dfa_visit_spec n pend s tr e (w ++ [a]) V Hwa Hi He) as (s1 & x & new1 & -> & Hi1 & Hm1 & Hl1 & Ht1 & Hin1).
    cbn [bind]. destruct (IH Hal' s1 (tr ++ [x]) Hi1) as (s' & tr' & new & -> & Hi' & Hm & Hl & Ht & HFt).
    exists s', (x :: tr'), (new1 ++ new). rewrite <- app_assoc. split; auto. split; auto.
    split; [rewrite Hm, Hm1, app_assoc; auto|]. split; [rewrite app_length; lia|]. split; [congruence|].
    constructor; auto. exists (ekey e). split; [rewrite Hm; apply in_app_iff; auto|]. eapply ne_at_key_at; eauto.
Qed.

Lemma ne_step_all_at n w e : nfa_valid n -> ne_at n w false e ->
  exists evs, ne_step_all e = Ret evs /\ Forall2 (fun a e' => ne_at n (w ++ [a]) false e') (nfa_alphabet n) evs.
Proof.
  intros V He. unfold ne_step_all. destruct He as (E1 & Hrest). rewrite E1. apply mapR_total. intros a Ha.
  destruct (ne_step_known n w false e a V) as (e' & -> & He'); [split; auto|auto|]. simpl. eauto.
Qed.

Lemma td_map_bound n pend s : nfa_valid n -> td_inv n pend s -> length (td_map s) <= 2 ^ length (nfa_states n).
Proof.
  intros V Hi. rewrite <- (map_length fst), <- (seq_length (length (nfa_states n)) 0), <- subsets_length.
  apply NoDup_incl_length; [apply Hi|]. intros k Hk. destruct (ti_key _ _ _ Hi k Hk) as (w & _ & Hs & Hin).
  apply subsets_sorted; auto. apply Forall_forall. intros q Hq. apply Hin in Hq. split; [lia|]. simpl.
  eapply nfa_path_range; eauto. apply nv_initial; auto.
Qed.

Lemma to_dfa_loop n e0 acc0 : nfa_valid n -> ne_at n [] false e0 -> (acc0 = true <-> nfa_lang n []) ->
  exists s, while (S (length (nfa_states n))) to_dfa_step
                  (mk_to_dfa_state [e0] [(ekey e0, 0)] (if acc0 then [0] else []) [] 1) = Ret s /\
            td_inv n [] s /\ td_explore s = [].
Proof.
  intros V He Hacc.
  destruct (while_total (td_inv n []) (fun s => td_inv n [] s /\ td_explore s = [])
             (fun s => 2 * (2 ^ length (nfa_states n) - length (td_map s)) + length (td_explore s))
             to_dfa_step (S (length (nfa_states n)))
             (mk_to_dfa_state [e0] [(ekey e0, 0)] (if acc0 then [0] else []) [] 1)) as (s & Hs & HQ).
  - intros s Hi. unfold to_dfa_step. destruct (pop (td_explore s)) as [[rest e]|] eqn:Ep.
    + apply pop_Some in Ep. destruct (ti_explore _ _ _ Hi e) as (w & Hw & Hat).
      { rewrite Ep. apply in_app_iff. right; left; auto. }
      destruct (ne_step_all_at n w e V Hat) as (evs & -> & HF). simpl.
      assert (Hi1 : td_inv n [ekey e] (mk_to_dfa_state rest (td_map s) (td_accepting s) (td_transitions s) (td_gen s))).
      { destruct Hi as [I1 I2 I3 I4 I5 I6 I7 I8 I9]. constructor; simpl; auto.
        - rewrite I4, Ep, map_app, <- app_assoc. simpl. apply Permutation_app_head. rewrite app_nil_r.
          rewrite Permutation_cons_append. reflexivity.
        - intros e' He'. apply I6. rewrite Ep. apply in_app_iff; auto. }
      assert (Hal : over (nfa_alphabet n) (nfa_alphabet n)) by (apply Forall_forall; auto).
      destruct (to_dfa_visits n [ekey e] (nfa_alphabet n) evs w _ [] V Hw Hal HF Hi1)
        as (s' & tr & new & Hf & Hi' & Hm & Hl & Ht & HFt).
      rewrite Hf. simpl. eexists; split; [reflexivity|]. simpl in *. fold (ekey e).
      assert (Hfresh : ~ In (ekey e) (map fst (td_transitions s'))).
      { destruct Hi' as [I1 I2 I3 I4 I5 I6 I7 I8 I9].
        assert (Hnd : NoDup (map ekey (td_explore s') ++ map fst (td_transitions s') ++ [ekey e]))
          by (eapply Permutation_NoDup; eauto).
        apply NoDup_app_remove_l in Hnd. apply NoDup_app_iff in Hnd as (_ & _ & Hd). intros Hx. apply (Hd _ Hx). left; auto. }
      rewrite hm_insert_new by auto. split.
      * destruct Hi' as [I1 I2 I3 I4 I5 I6 I7 I8 I9]. constructor; simpl; auto.
        -- rewrite map_app. simpl. rewrite app_nil_r. auto.
        -- intros k tr' Hin. apply in_app_iff in Hin as [Hin|[Hin|[]]]; [apply I8; auto|]. injection Hin as <- <-.
           eapply Forall2_impl; [|exact HFt]. intros a x (k & Hk1 & Hk2). exists k. split; auto. intros u Hu.
           eapply key_at_step; [|exact Hu|exact Hk2]. eapply ne_at_key_at; eauto.
      * rewrite Hl, Ep, app_length, Hm, app_length. simpl.
        pose proof (td_map_bound _ _ _ V Hi') as Hb. rewrite Hm, app_length in Hb. lia.
    + apply pop_None in Ep. eexists; split; [reflexivity|]. simpl. auto.
  - constructor; simpl; auto.
    + repeat constructor. auto.
    + intros k [<-|[]]. exists []. split; [constructor|]. eapply ne_at_key_at; eauto.
    + intros e [<-|[]]. exists []. split; [constructor|auto].
    + intros x. destruct acc0.
      * split; [|intros (k & w & [[= <- <-]|[]] & _); left; auto]. intros [<-|[]]. exists (ekey e0), []. split; auto.
        split; [eapply ne_at_key_at; eauto|]. apply Hacc; auto.
      * split; [intros []|]. intros (k & w & [[= <- <-]|[]] & Hk & Hl). exfalso.
        assert (Hx : nfa_lang n []) by (eapply key_at_lang; [exact Hk|eapply ne_at_key_at; eauto|auto]).
        apply Hacc in Hx. discriminate.
    + intros k tr [].
    + exists (ekey e0). split; auto. eapply ne_at_key_at; eauto.
  - simpl. pose proof (pow2_pos (length (nfa_states n))). lia.
  - exists s. tauto.
Qed.

(** ** Sorting the map *)
Lemma insert_by_snd_perm {A} (x : A * nat) l : Permutation (insert_by_snd x l) (x :: l).
Proof.
  induction l as [|y ys IH]; simpl; auto. destruct (snd x <=? snd y); auto. rewrite IH. apply perm_swap.
Qed.
Lemma sort_by_snd_perm {A} (l : list (A * nat)) : Permutation (sort_by_snd l) l.
Proof. induction l; simpl; auto. rewrite insert_by_snd_perm. auto. Qed.
Lemma insert_by_snd_snd {A} (x : A * nat) l : map snd (insert_by_snd x l) = insert_sorted (snd x) (map snd l).
Proof. induction l as [|y ys IH]; simpl; auto. destruct (snd x <=? snd y); simpl; auto. rewrite IH; auto. Qed.
Lemma sort_by_snd_snd {A} (l : list (A * nat)) : map snd (sort_by_snd l) = sort (map snd l).
Proof. induction l; simpl; auto. rewrite insert_by_snd_snd, IHl. auto. Qed.

Lemma sort_by_snd_numbered {A} (m l : list (A * nat)) : map snd m = seq 0 (length m) -> Permutation l m -> sort_by_snd l = m.
Proof.
  intros Hm Hp.
  assert (Hs : map snd (sort_by_snd l) = map snd m).
  { rewrite sort_by_snd_snd. rewrite (perm_sort_eq (map snd l) (map snd m)) by (apply Permutation_map; auto).
    rewrite Hm. apply sorted_perm_eq; [apply sort_sorted| |apply sort_perm].
    generalize 0. generalize (length m). intros k. induction k; intros i; simpl; constructor; auto.
    apply Forall_forall. intros y Hy. apply in_seq in Hy. lia. }
  assert (Hp2 : Permutation (sort_by_snd l) m) by (rewrite sort_by_snd_perm; auto).
  apply nth_error_ext. intros i. destruct (nth_error (sort_by_snd l) i) as [[k x]|] eqn:E.
  - assert (Hlen : length (sort_by_snd l) = length m) by (apply Permutation_length; auto).
    assert (x = i) by (apply (numbered_nth (sort_by_snd l)) with (k := k); [congruence|auto]). subst x.
    apply nth_error_In in E. eapply Permutation_in in E; [|exact Hp2]. rewrite numbered_In in E; auto.
  - symmetry. apply nth_error_None. apply nth_error_None in E. rewrite <- (Permutation_length Hp2). auto.
Qed.

(** ** The result *)
Record dfa_is_subset (n : nfa) (d : dfa) (ks : list (list nat)) : Prop := {
  sb_alphabet : dfa_alphabet d = nfa_alphabet n;
  sb_length : length (dfa_states d) = length ks;
  sb_nodup : NoDup ks;
  sb_initial : dfa_initial d = 0;
  sb_key0 : exists k, nth_error ks 0 = Some k /\ key_at n [] k;
  sb_reach : forall i k, nth_error ks i = Some k -> exists w, over (nfa_alphabet n) w /\ key_at n w k;
  sb_name : forall i s, nth_error (dfa_states d) i = Some s -> ds_name s = dec i;
  sb_flag : forall i s, nth_error (dfa_states d) i = Some s -> ds_initial s = (i =? 0);
  sb_acc : forall i k w, nth_error ks i = Some k -> key_at n w k -> (dfa_accepting d i <-> nfa_lang n w);
  sb_trans : forall i k s, nth_error ks i = Some k -> nth_error (dfa_states d) i = Some s ->
     Forall2 (fun a x => exists k', nth_error ks x = Some k' /\ forall w, key_at n w k -> key_at n (w ++ [a]) k')
             (nfa_alphabet n) (ds_transitions s)
}.

Lemma nfa_to_dfa_subset h n : nfa_valid n -> exists d ks, nfa_to_dfa h n = Ret d /\ dfa_is_subset n d ks.
Proof.
  intros V. unfold nfa_to_dfa. destruct (nfa_evaluator_at n V) as (e0 & -> & He0). simpl.
  destruct (ne_is_accepting_at n [] false e0 V He0) as (b & -> & Hb). simpl. fold (ekey e0).
  destruct (to_dfa_loop n e0 b V He0) as (s & -> & Hi & Hex); [rewrite Hb, nfa_lang_at; tauto|]. simpl.
  destruct Hi as [I1 I2 I3 I4 I5 I6 I7 I8 I9]. rewrite Hex, app_nil_r in I4. simpl in I4.
  rewrite (sort_by_snd_numbered (td_map s)) by (auto; apply ho_perm).
  match goal with |- context[mapR ?f (td_map s)] =>
    destruct (mapR_total f (fun kx st => ds_name st = dec (snd kx) /\ ds_initial st = (snd kx =? 0) /\
                ds_accepting st = mem (snd kx) (td_accepting s) /\ In (fst kx, ds_transitions st) (td_transitions s)) (td_map s))
      as (states & Hst & HF) end.
  { intros [k x] Hin. assert (Hk : In k (map fst (td_transitions s))).
    { eapply Permutation_in; [exact I4|]. apply in_map_iff. exists (k, x). auto. }
    destruct (hm_get k (td_transitions s)) as [ts|] eqn:Eg.
    - apply hm_get_In in Eg. simpl. eexists; split; [reflexivity|]. simpl. auto.
    - apply hm_get_None in Eg. tauto. }
  rewrite Hst. simpl. eexists; exists (map fst (td_map s)). split; [reflexivity|].
  assert (Hlen : length states = length (td_map s)) by (symmetry; eapply Forall2_len; eauto).
  assert (HN : forall i k, nth_error (map fst (td_map s)) i = Some k -> nth_error (td_map s) i = Some (k, i)).
  { intros i k Hi. rewrite nth_error_map in Hi. destruct (nth_error (td_map s) i) as [[k' x]|] eqn:E; [|discriminate].
    simpl in Hi. injection Hi as <-. rewrite (numbered_nth _ I1 _ _ _ E). auto. }
  assert (HS : forall i st, nth_error states i = Some st -> exists k, nth_error (td_map s) i = Some (k, i) /\
            ds_name st = dec i /\ ds_initial st = (i =? 0) /\ ds_accepting st = mem i (td_accepting s) /\
            In (k, ds_transitions st) (td_transitions s)).
  { intros i st Hi. destruct (Forall2_nth_r _ _ _ HF _ _ Hi) as ([k x] & Hk & H1 & H2 & H3 & H4). simpl in *.
    assert (x = i) by (eapply (numbered_nth _ I1); eauto). subst x. exists k. auto. }
  constructor; simpl; auto.
  - rewrite map_length; auto.
  - destruct I9 as (k & H1 & H2). exists k. split; auto. destruct (td_map s); [discriminate|]. injection H1 as ->. reflexivity.
  - intros i k Hk. apply I5. eapply nth_error_In; eauto.
  - intros i st Hi. destruct (HS i st Hi) as (k & _ & H & _). auto.
  - intros i st Hi. destruct (HS i st Hi) as (k & _ & _ & H & _). auto.
  - intros i k w Hk Hat. pose proof (HN i k Hk) as Hk'.
    assert (Hl : i < length states) by (rewrite Hlen; eapply nth_error_length; eauto).
    destruct (nth_error_lt _ _ Hl) as [st Hst']. destruct (HS i st Hst') as (k' & Hk2 & _ & _ & Ha & _).
    transitivity (ds_accepting st = true).
    { unfold dfa_accepting. simpl. rewrite Hst'. split; [intros (s' & [= <-] & H); auto|eauto]. }
    rewrite Ha, mem_In, I7. split.
    + intros (k2 & u & H1 & H2 & H3). assert (k2 = k).
      { eapply numbered_fun; [exact I1|exact H1|]. eapply nth_error_In; eauto. }
      subst k2. eapply key_at_lang; eauto.
    + intros Hw. exists k, w. split; auto. eapply nth_error_In; eauto.
  - intros i k st Hk Hi. destruct (HS i st Hi) as (k' & Hk2 & _ & _ & _ & Hin). pose proof (HN i k Hk) as Hk'.
    assert (k' = k) by congruence. subst k'. eapply Forall2_impl; [|exact (I8 k _ Hin)].
    intros a x (k' & H1 & H2). exists k'. split; auto. rewrite numbered_In in H1 by auto. rewrite nth_error_map, H1. auto.
Qed.

Lemma subset_valid n d ks : nfa_valid n -> dfa_is_subset n d ks -> dfa_valid d.
Proof.
  intros V H.
  assert (Hget : forall i s, nth_error (dfa_states d) i = Some s -> exists k, nth_error ks i = Some k).
  { intros i s Hi. apply nth_error_lt. rewrite <- (sb_length _ _ _ H). eapply nth_error_length; eauto. }
  constructor.
  - rewrite (sb_alphabet _ _ _ H). apply nv_alphabet; auto.
  - apply NoDup_nth_error. intros i j Hi Hij. rewrite map_length in Hi. destruct (nth_error_lt _ _ Hi) as [s Hs].
    rewrite !nth_error_map, Hs in Hij. simpl in Hij. destruct (nth_error (dfa_states d) j) as [s'|] eqn:Hs'; [|discriminate].
    simpl in Hij. injection Hij as Hij. rewrite (sb_name _ _ _ H _ _ Hs), (sb_name _ _ _ H _ _ Hs') in Hij. apply dec_inj; auto.
  - rewrite (sb_initial _ _ _ H), (sb_length _ _ _ H). destruct (sb_key0 _ _ _ H) as (k & Hk & _). eapply nth_error_length; eauto.
  - intros i s Hs. rewrite (sb_flag _ _ _ H _ _ Hs), (sb_initial _ _ _ H). apply Nat.eqb_eq.
  - intros i s Hs. destruct (Hget _ _ Hs) as [k Hk]. rewrite (sb_alphabet _ _ _ H). symmetry.
    eapply Forall2_len, (sb_trans _ _ _ H); eauto.
  - intros i s t Hs Ht. destruct (Hget _ _ Hs) as [k Hk].
    destruct (Forall2_In_r _ _ _ _ (sb_trans _ _ _ H _ _ _ Hk Hs) Ht) as (a & _ & k' & Hk' & _).
    rewrite (sb_length _ _ _ H). eapply nth_error_length; eauto.
Qed.

Lemma subset_path n d ks w : nfa_valid n -> dfa_is_subset n d ks -> over (nfa_alphabet n) w ->
  exists q k, dfa_path d (dfa_initial d) w q /\ nth_error ks q = Some k /\ key_at n w k.
Proof.
  intros V H. induction w as [|a w IH] using rev_ind; intros Ho.
  - destruct (sb_key0 _ _ _ H) as (k & Hk & Hat). exists (dfa_initial d), k. rewrite (sb_initial _ _ _ H) in *.
    split; [constructor|auto].
  - apply over_app in Ho as [Ho Ha]. inversion Ha as [|? ? Hin _]; subst. destruct (IH Ho) as (q & k & Hp & Hk & Hat).
    destruct (nth_error_lt (dfa_states d) q) as [s Hs].
    { rewrite (sb_length _ _ _ H). eapply nth_error_length; eauto. }
    apply In_nth_error in Hin as [i Hi]. destruct (Forall2_nth _ _ _ (sb_trans _ _ _ H _ _ _ Hk Hs) _ _ Hi) as (x & Hx & k' & Hk' & Hst).
    exists x, k'. split; [|auto]. eapply dfa_path_snoc; eauto. exists i, s. rewrite (sb_alphabet _ _ _ H). auto.
Qed.

Lemma subset_lang n d ks w : nfa_valid n -> dfa_is_subset n d ks -> (dfa_lang d w <-> nfa_lang n w).
Proof.
  intros V H. assert (Vd := subset_valid n d ks V H). destruct (over_dec (nfa_alphabet n) w) as [Ho|Ho].
  - destruct (subset_path n d ks w V H Ho) as (q & k & Hp & Hk & Hat). rewrite <- (sb_acc _ _ _ H _ _ _ Hk Hat). split.
    + intros (q' & Hp' & Ha). rewrite (dfa_path_fun d _ _ _ _ (dv_alphabet _ Vd) Hp Hp'); auto.
    + intros Ha. exists q; auto.
  - split; intros Hl; exfalso; apply Ho; [rewrite <- (sb_alphabet _ _ _ H); apply dfa_lang_over; auto|apply nfa_lang_over; auto].
Qed.

Lemma subset_reachable n d ks i : nfa_valid n -> dfa_is_subset n d ks -> i < length (dfa_states d) -> dfa_reachable d i.
Proof.
  intros V H Hi. rewrite (sb_length _ _ _ H) in Hi. destruct (nth_error_lt _ _ Hi) as [k Hk].
  destruct (sb_reach _ _ _ H _ _ Hk) as (w & Ho & Hat). destruct (subset_path n d ks w V H Ho) as (q & k' & Hp & Hk' & Hat').
  assert (k' = k) by (eapply key_at_fun; eauto). subst k'.
  rewrite (NoDup_nth_error_inj ks i q k (sb_nodup _ _ _ H) Hk Hk'). exists w; auto.
Qed.

Lemma nfa_to_dfa_correct h n : nfa_valid n ->
  exists d, nfa_to_dfa h n = Ret d /\ dfa_valid d /\ dfa_alphabet d = nfa_alphabet n /\ dfa_initial d = 0 /\
    (forall i s, nth_error (dfa_states d) i = Some s -> ds_name s = dec i) /\
    (forall i, i < length (dfa_states d) -> dfa_reachable d i) /\
    (forall w, dfa_lang d w <-> nfa_lang n w).
Proof.
  intros V. destruct (nfa_to_dfa_subset h n V) as (d & ks & Hd & H). exists d. split; auto.
  split; [eapply subset_valid; eauto|]. split; [apply H|]. split; [apply H|]. split; [apply H|].
  split; [intros; eapply subset_reachable; eauto|]. intros w. eapply subset_lang; eauto.
Qed.
