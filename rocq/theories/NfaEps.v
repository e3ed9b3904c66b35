(** * Removal of epsilon moves *)
From Coq Require Import List NArith Arith Bool Lia Permutation Sorted.
From Verif Require Import Base BaseLemmas Spec Search DfaModel DfaBasics DfaReach DfaEquiv NfaModel NfaBasics NfaReach NfaUnion NfaProduct.
Import ListNotations.

(** ** Moves with inlined closures *)
Definition iedge (n : nfa) (q : nat) (a : str) (t : nat) : Prop := exists t0, nfa_edge n q a t0 /\ nfa_path n t0 [] t.

Fixpoint ilang (n : nfa) (q : nat) (w : word) : Prop :=
  match w with
  | [] => nfa_accepting n q
  | a :: w => exists t, iedge n q a t /\ ilang n t w
  end.

Lemma ilang_lang n w : forall q, nfa_state_lang n q w <-> exists q', nfa_path n q [] q' /\ ilang n q' w.
Proof.
  induction w as [|a w IH]; intros q; simpl.
  - reflexivity.
  - split.
    + intros (r & Hp & Ha). apply nfa_path_cons_inv in Hp as (t & t' & H1 & H2 & H3).
      assert (Hl : nfa_state_lang n t' w) by (exists r; auto). apply IH in Hl as (q' & H4 & H5).
      exists t. split; auto. exists q'. split; auto. exists t'. auto.
    + intros (q' & H1 & t & (t0 & H2 & H3) & H4).
      assert (Hl : nfa_state_lang n t0 w) by (apply IH; eauto). destruct Hl as (r & H5 & H6). exists r. split; auto.
      apply nfa_path_cons_inv. exists q', t0. auto.
Qed.

Lemma dead_ilang n b q : nfa_dead n b q -> forall w, ~ ilang n q w.
Proof.
  induction 1 as [q Hq Hacc Hini Ht IH]. intros [|a w]; simpl; auto.
  intros (t & (t0 & H1 & H2) & H3). exact (IH a t0 t H1 H2 w H3).
Qed.

Lemma dead_mono n q : nfa_dead n true q -> nfa_dead n false q.
Proof. induction 1. constructor; auto. Qed.

Lemma iedge_range n q a t : nfa_valid n -> iedge n q a t -> t < length (nfa_states n).
Proof. intros V (t0 & H1 & H2). eapply nfa_path_range; eauto. eapply nfa_edge_dst; eauto. Qed.

Lemma eps_free_lang_nil n q : eps_free n -> (nfa_state_lang n q [] <-> nfa_accepting n q).
Proof.
  intros He. split.
  - intros (r & Hp & Ha). inversion Hp as [|x y w' r' Hxy Hp'|]; subst; auto. destruct Hxy as (s & Hs & Hin).
    rewrite (He _ _ Hs) in Hin. destruct Hin.
  - intros H. exists q. split; auto. constructor.
Qed.
Lemma eps_free_lang_cons n q a w : eps_free n -> (nfa_state_lang n q (a :: w) <-> exists t, nfa_edge n q a t /\ nfa_state_lang n t w).
Proof.
  intros He. split.
  - intros (r & Hp & Ha). inversion Hp as [|x y w' r' Hxy Hp'|x b y w' r' Hxy Hp']; subst.
    + destruct Hxy as (s & Hs & Hin). rewrite (He _ _ Hs) in Hin. destruct Hin.
    + exists y. split; auto. exists r; auto.
  - intros (t & H1 & r & H2 & H3). exists r. split; auto. eapply nfa_path_cons; eauto.
Qed.

(** ** The search for dead states *)
Definition all_targets (P : nat -> Prop) (s : nfa_state) : Prop := forall ts t, In ts (ns_transitions s) -> In t ts -> P t.

Lemma forallb2_spec (l : list (list nat)) D :
  forallb (forallb (fun t => mem t D)) l = true <-> forall ts t, In ts l -> In t ts -> In t D.
Proof.
  rewrite forallb_forall. setoid_rewrite forallb_forall. setoid_rewrite mem_In. firstorder.
Qed.

Lemma forallb2_false (l : list (list nat)) D :
  forallb (forallb (fun t => mem t D)) l = false <-> exists ts t, In ts l /\ In t ts /\ ~ In t D.
Proof.
  induction l as [|ts l IH]; simpl.
  - split; [discriminate|intros (ts & t & [] & _)].
  - rewrite andb_false_iff, IH. split.
    + intros [H|(ts' & t & H1 & H2 & H3)].
      * assert (E : exists t, In t ts /\ ~ In t D).
        { clear - H. induction ts as [|t ts IH]; simpl in *; [discriminate|]. apply andb_false_iff in H as [H|H].
          - exists t. split; auto. apply mem_nIn; auto.
          - destruct (IH H) as (x & H1 & H2). exists x. auto. }
        destruct E as (t & H1 & H2). exists ts, t. auto.
      * exists ts', t. auto.
    + intros (ts' & t & [<-|H1] & H2 & H3).
      * left. destruct (forallb (fun t0 => mem t0 D) ts) eqn:E; auto. rewrite forallb_forall in E. specialize (E t H2).
        apply mem_In in E. tauto.
      * right. exists ts', t. auto.
Qed.

Definition dead_cond (D : list nat) (idx : nat) (s : nfa_state) : bool :=
  negb (mem idx D) && negb (ns_accepting s) && negb (ns_initial s) && forallb (forallb (fun t => mem t D)) (ns_transitions s).

Lemma dead_round_spec states D (P : nat -> Prop) :
  (forall q s, nth_error states q = Some s -> ns_accepting s = false -> ns_initial s = false -> all_targets P s -> P q) ->
  NoDup D -> (forall q, In q D -> q < length states) -> (forall q, In q D -> P q) ->
  exists D' added, dead_round states D = (D', added) /\ NoDup D' /\ (forall q, In q D' -> q < length states) /\
    (forall q, In q D' -> P q) /\ incl D D' /\ length D <= length D' /\
    (added = true -> length D < length D') /\
    (added = false -> D' = D /\ forall q s, nth_error states q = Some s -> dead_cond D q s = false).
Proof.
  intros HP. unfold dead_round.
  assert (H : forall l D added0, (forall q s, In (q, s) l -> nth_error states q = Some s) ->
     NoDup D -> (forall q, In q D -> q < length states) -> (forall q, In q D -> P q) ->
     exists D' added, fold_left (fun '(dead, added) '(idx, s) =>
               if negb (mem idx dead) && negb (ns_accepting s) && negb (ns_initial s)
                  && forallb (forallb (fun t => mem t dead)) (ns_transitions s)
               then (dead ++ [idx], true) else (dead, added)) l (D, added0) = (D', added) /\
       NoDup D' /\ (forall q, In q D' -> q < length states) /\
       (forall q, In q D' -> P q) /\ incl D D' /\ length D <= length D' /\
       (added = true -> added0 = true \/ length D < length D') /\
       (added = false -> D' = D /\ forall q s, In (q, s) l -> dead_cond D q s = false)).
  { induction l as [|[idx s] l IH]; intros D0 added0 Hl Hnd Hr Hp.
    - simpl. exists D0, added0. repeat split; auto. intros x; auto. intros q s [].
    - cbn [fold_left]. fold (dead_cond D0 idx s). destruct (dead_cond D0 idx s) eqn:Ec.
      + unfold dead_cond in Ec. rewrite !andb_true_iff, !negb_true_iff in Ec. destruct Ec as [[[E1 E2] E3] E4].
        apply mem_nIn in E1. rewrite forallb2_spec in E4.
        assert (Hs : nth_error states idx = Some s) by (apply Hl; left; auto).
        assert (Hp' : forall q, In q (D0 ++ [idx]) -> P q).
        { intros q Hq. apply in_app_iff in Hq as [Hq|[<-|[]]]; auto. apply (HP idx s); auto. intros ts t H1 H2. apply Hp. eauto. }
        destruct (IH (D0 ++ [idx]) true) as (D' & added & He & I1 & I2 & I3 & I4 & I5 & I6 & I7); auto.
        { intros; apply Hl; right; auto. }
        { apply NoDup_snoc; auto. }
        { intros q Hq. apply in_app_iff in Hq as [Hq|[<-|[]]]; auto. eapply nth_error_length; eauto. }
        rewrite app_length in I5. simpl in I5.
        exists D', added. split; auto. split; auto. split; auto. split; auto. split; [|split; [lia|split]].
        * intros x Hx. apply I4, in_app_iff; auto.
        * intros _. right. lia.
        * intros ->. destruct (I7 eq_refl) as [-> _]. exfalso.
          assert (Hx : fold_left (fun '(dead, added) '(idx, s) =>
               if negb (mem idx dead) && negb (ns_accepting s) && negb (ns_initial s)
                  && forallb (forallb (fun t => mem t dead)) (ns_transitions s)
               then (dead ++ [idx], true) else (dead, added)) l (D0 ++ [idx], true) = (D0 ++ [idx], false)) by exact He.
          clear - Hx.
          assert (Hmono : forall l D, snd (fold_left (fun '(dead, added) '(idx, s) =>
               if negb (mem idx dead) && negb (ns_accepting s) && negb (ns_initial s)
                  && forallb (forallb (fun t => mem t dead)) (ns_transitions s)
               then (dead ++ [idx], true) else (dead, added)) l (D, true)) = true).
          { induction l0 as [|[i s'] l0 IH]; intros D; cbn [fold_left]; auto. destruct (_ && _); apply IH. }
          specialize (Hmono l (D0 ++ [idx])). rewrite Hx in Hmono. discriminate.
      + destruct (IH D0 added0) as (D' & added & He & I1 & I2 & I3 & I4 & I5 & I6 & I7); auto.
        { intros; apply Hl; right; auto. }
        exists D', added. split; auto. split; auto. split; auto. split; auto. split; auto. split; auto. split; auto.
        intros Hf. destruct (I7 Hf) as [-> Hc]. split; auto. intros q s' [[= <- <-]|Hin]; auto. }
  intros Hnd Hr Hp. destruct (H (enumerate states) D false) as (D' & added & He & I1 & I2 & I3 & I4 & I5 & I6 & I7); auto.
  { intros q s Hin. apply enumerate_In; auto. }
  exists D', added. split; auto. split; auto. split; auto. split; auto. split; auto. split; auto. split.
  - intros Ht. destruct (I6 Ht); [discriminate|auto].
  - intros Hf. destruct (I7 Hf) as [-> Hc]. split; auto. intros q s Hq. apply Hc. apply enumerate_In; auto.
Qed.

Lemma dead_search_spec states D (P : nat -> Prop) :
  (forall q s, nth_error states q = Some s -> ns_accepting s = false -> ns_initial s = false -> all_targets P s -> P q) ->
  NoDup D -> (forall q, In q D -> q < length states) -> (forall q, In q D -> P q) ->
  exists D', dead_search states D = Ret D' /\ NoDup D' /\ (forall q, In q D' -> q < length states) /\
    (forall q, In q D' -> P q) /\ incl D D' /\
    (forall q s, nth_error states q = Some s -> ns_accepting s = false -> ns_initial s = false ->
                 all_targets (fun t => In t D') s -> In q D').
Proof.
  intros HP Hnd Hr Hp. unfold dead_search.
  apply while_total with
    (Inv := fun D' => NoDup D' /\ (forall q, In q D' -> q < length states) /\ (forall q, In q D' -> P q) /\ incl D D')
    (m := fun D' => length states - length D').
  - intros D1 (H1 & H2 & H3 & H4). unfold dead_step.
    destruct (dead_round_spec states D1 P HP H1 H2 H3) as (D' & added & -> & I1 & I2 & I3 & I4 & I5 & I6 & I7).
    destruct added; (eexists; split; [reflexivity|]; cbv beta iota).
    + assert (length D' <= length states).
      { rewrite <- (seq_length (length states) 0). apply NoDup_incl_length; auto. intros q Hq. apply in_seq. specialize (I2 q Hq). lia. }
      specialize (I6 eq_refl). split; [|lia]. repeat split; auto. intros x Hx; auto.
    + destruct (I7 eq_refl) as [-> Hc]. repeat split; auto. intros q s Hq Ha Hi Ht.
      destruct (mem_spec q D1) as [|Hn]; auto. specialize (Hc q s Hq). unfold dead_cond in Hc. rewrite Ha, Hi in Hc.
      assert (E1 : mem q D1 = false) by (apply mem_nIn; auto).
      assert (E2 : forallb (forallb (fun t => mem t D1)) (ns_transitions s) = true) by (apply forallb2_spec; exact Ht).
      rewrite E1, E2 in Hc. discriminate.
  - repeat split; auto. intros x; auto.
  - pose proof (pow2_gt (S (length states))). lia.
Qed.

(** ** States with inlined closures *)
Definition inlined (n : nfa) (flag : bool) (sts : list nfa_state) : Prop :=
  length sts = length (nfa_states n) /\
  forall q s s', nth_error (nfa_states n) q = Some s -> nth_error sts q = Some s' ->
    ns_name s' = ns_name s /\ ns_accepting s' = ns_accepting s /\ ns_eps s' = [] /\
    ns_initial s' = (flag && (q =? nfa_initial n)) /\ length (ns_transitions s') = length (nfa_alphabet n) /\
    forall c a ts, nth_error (nfa_alphabet n) c = Some a -> nth_error (ns_transitions s') c = Some ts ->
                   forall t, In t ts <-> iedge n q a t.

Lemma inline_closures_spec h n closures : nfa_valid n ->
  Forall2 (fun q cl => NoDup cl /\ forall x, In x cl <-> nfa_path n q [] x) (seq 0 (length (nfa_states n))) closures ->
  exists sts, inline_closures h closures (nfa_states n) = Ret sts /\ inlined n true sts.
Proof.
  intros V HC. assert (Hclos : forall q, q < length (nfa_states n) -> exists cl, nth_error closures q = Some cl /\ forall x, In x cl <-> nfa_path n q [] x).
  { intros q Hq. destruct (Forall2_nth _ _ _ HC q q) as (cl & Hcl & _ & H).
    - rewrite nth_error_nth' with (d := 0) by (rewrite seq_length; auto). rewrite seq_nth by auto. auto.
    - eauto. }
  unfold inline_closures.
  match goal with |- context[mapR ?f _] => destruct (mapR_total f (fun qs s' =>
    ns_name s' = ns_name (snd qs) /\ ns_accepting s' = ns_accepting (snd qs) /\ ns_eps s' = [] /\
    ns_initial s' = ns_initial (snd qs) /\
    Forall2 (fun ts0 ts => forall t, In t ts <-> exists t0, In t0 ts0 /\ nfa_path n t0 [] t) (ns_transitions (snd qs)) (ns_transitions s'))
    (enumerate (nfa_states n))) as (sts & Hsts & HF) end.
  { intros [q s] Hin. apply enumerate_In in Hin.
    match goal with |- context[mapR ?f (enumerate (ns_transitions s))] => destruct (mapR_total f (fun cts ts =>
      forall t, In t ts <-> exists t0, In t0 (snd cts) /\ nfa_path n t0 [] t) (enumerate (ns_transitions s))) as (tss & Htss & HFt) end.
    { intros [c ts] Hc. apply enumerate_In in Hc.
      destruct (mapR_total (index closures) (fun t0 cl => forall x, In x cl <-> nfa_path n t0 [] x) ts) as (cls & Hcls & HFc).
      { intros t0 Ht0. destruct (Hclos t0) as (cl & Hcl & H); [eapply nv_range; eauto; eapply nth_error_In; eauto|].
        rewrite (index_Some _ _ _ Hcl). eauto. }
      rewrite Hcls. cbn [bind]. eexists; split; [reflexivity|]. intros t. rewrite ho_In, hs_collect_In, in_concat. simpl. split.
      - intros (cl & H1 & H2). destruct (Forall2_In_r _ _ _ _ HFc H1) as (t0 & H3 & H4). exists t0. split; auto. apply H4; auto.
      - intros (t0 & H1 & H2). destruct (Forall2_In_l _ _ _ _ HFc H1) as (cl & H3 & H4). exists cl. split; auto. apply H4; auto. }
    rewrite Htss. cbn [bind]. eexists; split; [reflexivity|]. simpl. repeat split; auto.
    apply Forall2_of_nth.
    - rewrite <- (Forall2_len _ _ _ HFt), enumerate_length. auto.
    - intros i ts0 ts H1 H2. destruct (Forall2_nth_r _ _ _ HFt _ _ H2) as ([c ts0'] & H3 & H4).
      apply enumerate_nth in H3 as [_ H3]. simpl in H3. rewrite H1 in H3. injection H3 as <-. exact H4. }
  rewrite Hsts. exists sts. split; auto. split.
  - rewrite <- (Forall2_len _ _ _ HF), enumerate_length. auto.
  - intros q s s' Hs Hs'. destruct (Forall2_nth_r _ _ _ HF _ _ Hs') as ([q0 s0] & H3 & H4 & H5 & H6 & H7 & H8).
    apply enumerate_nth in H3 as [Eq H3]. simpl in Eq, H3. rewrite Hs in H3. injection H3 as <-. subst q0. simpl in *.
    split; auto. split; auto. split; auto. split; [|split].
    + rewrite H7. destruct (Nat.eqb_spec q (nfa_initial n)) as [->|Hne].
      * apply (nv_flag _ V _ _ Hs); auto.
      * destruct (ns_initial s) eqn:E; auto. apply (nv_flag _ V _ _ Hs) in E. tauto.
    + rewrite <- (Forall2_len _ _ _ H8). eapply nv_width; eauto.
    + intros c a ts Ha Hts t. destruct (Forall2_nth_r _ _ _ H8 _ _ Hts) as (ts0 & H1 & H2). rewrite H2. unfold iedge. split.
      * intros (t0 & H9 & H10). exists t0. split; auto. exists c, s, ts0. auto.
      * intros (t0 & (c' & s2 & ts2 & E1 & E2 & E3 & E4) & H10). exists t0. split; auto.
        assert (c' = c) by exact (NoDup_nth_error_inj _ c' c a (nv_alphabet _ V) E1 Ha). subst c'.
        rewrite Hs in E2. injection E2 as <-. rewrite H1 in E3. injection E3 as <-. auto.
Qed.

(** What the search finds: exactly the dead states *)
Lemma inlined_targets n flag sts q s s' (P : nat -> Prop) : inlined n flag sts -> nth_error (nfa_states n) q = Some s ->
  nth_error sts q = Some s' -> (all_targets P s' <-> forall a t, iedge n q a t -> P t).
Proof.
  intros [_ HI] Hs Hs'. destruct (HI _ _ _ Hs Hs') as (_ & _ & _ & _ & Hw & Ht). split.
  - intros H a t He. assert (Hin : In a (nfa_alphabet n)) by (destruct He as (t0 & He & _); eapply nfa_edge_elem; eauto).
    apply In_nth_error in Hin as [c Hc]. destruct (nth_error_lt (ns_transitions s') c) as [ts Hts].
    { rewrite Hw. eapply nth_error_length; eauto. }
    apply (H ts t); [eapply nth_error_In; eauto|]. apply (Ht _ _ _ Hc Hts); auto.
  - intros H ts t Hts Hin. apply In_nth_error in Hts as [c Hc]. destruct (nth_error_lt (nfa_alphabet n) c) as [a Ha].
    { rewrite <- Hw. eapply nth_error_length; eauto. }
    apply (H a). apply (Ht _ _ _ Ha Hc); auto.
Qed.

Lemma inlined_bw n flag sts q s' : inlined n flag sts -> nth_error sts q = Some s' -> exists s, nth_error (nfa_states n) q = Some s.
Proof. intros [Hl _] H. apply nth_error_lt. rewrite <- Hl. eapply nth_error_length; eauto. Qed.
Lemma inlined_fw n flag sts q s : inlined n flag sts -> nth_error (nfa_states n) q = Some s -> exists s', nth_error sts q = Some s'.
Proof. intros [Hl _] H. apply nth_error_lt. rewrite Hl. eapply nth_error_length; eauto. Qed.

Lemma not_accepting_iff n q s : nth_error (nfa_states n) q = Some s -> (~ nfa_accepting n q <-> ns_accepting s = false).
Proof.
  intros Hs. split.
  - intros H. destruct (ns_accepting s) eqn:E; auto. exfalso. apply H. exists s; auto.
  - intros H (s' & Hs' & Ha). congruence.
Qed.

Lemma dead_search_dead n flag sts D : nfa_valid n -> inlined n flag sts ->
  NoDup D -> (forall q, In q D -> nfa_dead n flag q) ->
  (flag = true -> forall q, In q D -> q <> nfa_initial n) ->
  exists D', dead_search sts D = Ret D' /\ NoDup D' /\ (forall q, In q D' <-> nfa_dead n flag q).
Proof.
  intros V HI Hnd HD _.
  destruct (dead_search_spec sts D (nfa_dead n flag)) as (D' & Hr & H1 & H2 & H3 & H4 & H5); auto.
  { intros q s' Hs' Ha Hi Ht. destruct (inlined_bw _ _ _ _ _ HI Hs') as [s Hs].
    destruct (proj2 HI _ _ _ Hs Hs') as (_ & Ea & _ & Ei & _). constructor.
    - eapply nth_error_length; eauto.
    - apply (not_accepting_iff _ _ _ Hs). congruence.
    - intros -> ->. rewrite Hi, Nat.eqb_refl in Ei. discriminate.
    - intros a t0 t He Hp. apply (proj1 (inlined_targets n flag sts q s s' _ HI Hs Hs') Ht a). exists t0; auto. }
  { intros q Hq. destruct (HD q Hq). destruct HI as [-> _]. auto. }
  exists D'. split; auto. split; auto. intros q. split; auto.
  induction 1 as [q Hq Hacc Hini Ht IH]. destruct (nth_error_lt _ _ Hq) as [s Hs]. destruct (inlined_fw _ _ _ _ _ HI Hs) as [s' Hs'].
  destruct (proj2 HI _ _ _ Hs Hs') as (_ & Ea & _ & Ei & _).
  apply (H5 q s' Hs').
  - rewrite Ea. apply (not_accepting_iff _ _ _ Hs); auto.
  - rewrite Ei. destruct flag; auto. simpl. apply Nat.eqb_neq. auto.
  - apply (inlined_targets n flag sts q s s' _ HI Hs Hs'). intros a t (t0 & H6 & H7). eauto.
Qed.

(** ** The automaton before the dead states are taken out *)
(** [g] has the states of [n] (same names and acceptance) with inlined moves to states outside [D], and possibly a new
    initial state at the end. *)
Record thinned (n : nfa) (D : list nat) (g : nfa) : Prop := {
  th_alphabet : nfa_alphabet g = nfa_alphabet n;
  th_eps : eps_free g;
  th_width : forall q s, nth_error (nfa_states g) q = Some s -> length (ns_transitions s) = length (nfa_alphabet n);
  th_old : forall q s, nth_error (nfa_states n) q = Some s -> exists s', nth_error (nfa_states g) q = Some s' /\
             ns_name s' = ns_name s /\ ns_accepting s' = ns_accepting s;
  th_edge : forall q a t, q < length (nfa_states n) -> (nfa_edge g q a t <-> iedge n q a t /\ ~ In t D);
  th_flag : forall q s, nth_error (nfa_states g) q = Some s -> (ns_initial s = true <-> q = nfa_initial g);
  th_initial : nfa_initial g < length (nfa_states g)
}.

Lemma thinned_accepting n D g q : thinned n D g -> q < length (nfa_states n) -> (nfa_accepting g q <-> nfa_accepting n q).
Proof.
  intros T Hq. destruct (nth_error_lt _ _ Hq) as [s Hs]. destruct (th_old _ _ _ T _ _ Hs) as (s' & Hs' & _ & Ha).
  unfold nfa_accepting. rewrite Hs, Hs'. split; intros (x & [= <-] & Hx); eexists; split; eauto; congruence.
Qed.

Lemma thinned_lang n b D g : nfa_valid n -> thinned n D g -> (forall q, In q D -> nfa_dead n b q) ->
  forall w q, q < length (nfa_states n) -> (nfa_state_lang g q w <-> ilang n q w).
Proof.
  intros V T HD. induction w as [|a w IH]; intros q Hq; simpl.
  - rewrite eps_free_lang_nil by apply T. apply (thinned_accepting n D); auto.
  - rewrite eps_free_lang_cons by apply T. split.
    + intros (t & He & Hl). apply (th_edge _ _ _ T) in He as [He Hn]; auto. exists t. split; auto. apply IH; auto.
      eapply iedge_range; eauto.
    + intros (t & He & Hl). exists t. assert (Ht : t < length (nfa_states n)) by (eapply iedge_range; eauto). split.
      * apply (th_edge _ _ _ T); auto. split; auto. intros Hin. exact (dead_ilang _ _ _ (HD t Hin) _ Hl).
      * apply IH; auto.
Qed.

(** ** remove_epsilon_moves *)
Definition another_live (n : nfa) : Prop :=
  exists q, nfa_path n (nfa_initial n) [] q /\ q <> nfa_initial n /\ ~ nfa_dead n true q.

Definition name_of (n : nfa) (q : nat) : str := match nth_error (nfa_states n) q with Some s => ns_name s | None => [] end.

(** the result of removing epsilon moves: [k] are the surviving states *)
Record eps_removed (n n' : nfa) (k : list nat) : Prop := {
  er_valid : nfa_valid n';
  er_alphabet : nfa_alphabet n' = nfa_alphabet n;
  er_eps : eps_free n';
  er_lang : forall w, nfa_lang n' w <-> nfa_lang n w;
  er_sorted : StronglySorted lt k;
  er_cases : (~ another_live n /\ (forall q, In q k <-> q < length (nfa_states n) /\ ~ nfa_dead n true q) /\
              (forall q, q < length (nfa_states n) -> In q k \/ nfa_dead n true q) /\
              map ns_name (nfa_states n') = map (name_of n) k /\ nth_error k (nfa_initial n') = Some (nfa_initial n)) \/
             (another_live n /\ (forall q, In q k <-> q < length (nfa_states n) /\ ~ nfa_dead n false q) /\
              (forall q, q < length (nfa_states n) -> In q k \/ nfa_dead n false q) /\
              nfa_initial n' = length k /\
              exists nm, map ns_name (nfa_states n') = map (name_of n) k ++ [nm] /\
                         (nfa_dead n false (nfa_initial n) -> nm = name_of n (nfa_initial n)) /\
                         (~ nfa_dead n false (nfa_initial n) -> chosen_name (map ns_name (nfa_states n)) s_new nm));
  er_state : forall j q, nth_error k j = Some q ->
              (nfa_accepting n' j <-> nfa_accepting n q) /\
              (forall w, nfa_state_lang n' j w <-> ilang n q w) /\
              (forall a t, iedge n q a t -> In t k -> exists j', nth_error k j' = Some t /\ nfa_edge n' j a j');
  er_edges : forall j q a j', nth_error k j = Some q ->
              (nfa_edge n' j a j' <-> exists t, iedge n q a t /\ nth_error k j' = Some t);
  er_new : another_live n ->
              (nfa_accepting n' (length k) <-> exists q, nfa_path n (nfa_initial n) [] q /\ nfa_accepting n q) /\
              (forall a j', nfa_edge n' (length k) a j' <->
                 exists q t, nfa_path n (nfa_initial n) [] q /\ iedge n q a t /\ nth_error k j' = Some t)
}.

Lemma filter_app_list {A} (f : A -> bool) l1 l2 : filter f (l1 ++ l2) = filter f l1 ++ filter f l2.
Proof. induction l1; simpl; auto. destruct (f a); simpl; rewrite IHl1; auto. Qed.

Lemma kept_S D n : ~ In n D -> kept D (S n) = kept D n ++ [n].
Proof.
  intros Hn. rewrite !kept_filter, seq_S, filter_app_list. simpl. apply mem_nIn in Hn. rewrite Hn. reflexivity.
Qed.

(** restricting a thinned automaton *)
Lemma thinned_restrict dbg h n b D g : nfa_valid n -> thinned n D g -> NoDup D -> (forall q, In q D <-> nfa_dead n b q) ->
  ~ In (nfa_initial g) D ->
  (length (nfa_states g) = length (nfa_states n) \/
   length (nfa_states g) = S (length (nfa_states n)) /\
   forall a t, nfa_edge g (length (nfa_states n)) a t -> t < length (nfa_states n) /\ ~ In t D) ->
  exists n', nfa_remove_states dbg (ho h [39] D) g = Ret n' /\ nfa_restriction (kept D (length (nfa_states g))) g n'.
Proof.
  intros V T Hnd HD Hi Hlen.
  assert (Hke : forall m, kept (ho h [39] D) m = kept D m) by (intros m; apply kept_ext; intros; apply ho_In).
  rewrite <- Hke. assert (Hl : length (nfa_states n) <= length (nfa_states g)) by lia.
  apply nfa_remove_states_correct.
  - apply ho_NoDup; auto.
  - intros q Hq. apply ho_In, HD in Hq. destruct Hq. lia.
  - apply T.
  - rewrite ho_In. auto.
  - intros q s t Hq Hs Ht. rewrite ho_In in *. destruct Ht as [Ht|Ht].
    { rewrite (th_eps _ _ _ T _ _ Hs) in Ht. destruct Ht. }
    apply in_concat in Ht as (ts & Hts & Ht). apply In_nth_error in Hts as [c Hc].
    destruct (nth_error_lt (nfa_alphabet n) c) as [a Ha].
    { rewrite <- (th_width _ _ _ T _ _ Hs). eapply nth_error_length; eauto. }
    assert (He : nfa_edge g q a t).
    { exists c, s, ts. rewrite (th_alphabet _ _ _ T). auto. }
    destruct (Nat.lt_ge_cases q (length (nfa_states n))) as [Hlt|Hge].
    + apply (th_edge _ _ _ T) in He as [He Hn]; auto. split; auto. pose proof (iedge_range _ _ _ _ V He). lia.
    + destruct Hlen as [Hlen|[Hlen Hnew]].
      * apply nth_error_length in Hs. lia.
      * assert (q = length (nfa_states n)) by (apply nth_error_length in Hs; lia). subst q. apply Hnew in He. split; [lia|tauto].
Qed.

Lemma restricted_eps_free k g n' : nfa_restriction k g n' -> eps_free g -> eps_free n'.
Proof.
  intros Hr He j s' Hj. destruct Hr as (_ & _ & HF). destruct (Forall2_nth_r _ _ _ HF _ _ Hj) as (q & Hq & s & Hs & _ & _ & _ & Hep & _).
  rewrite (He _ _ Hs) in Hep. inversion Hep; auto.
Qed.

Lemma restricted_names k g n' : nfa_restriction k g n' -> map ns_name (nfa_states n') = map (name_of g) k.
Proof.
  intros (_ & _ & HF). induction HF as [|q s' k0 sts (s & Hs & Hn & _) HF IH]; simpl; auto. rewrite IH. unfold name_of at 2.
  rewrite Hs, Hn. reflexivity.
Qed.

Lemma thinned_name n D g q : thinned n D g -> q < length (nfa_states n) -> name_of g q = name_of n q.
Proof.
  intros T Hq. destruct (nth_error_lt _ _ Hq) as [s Hs]. destruct (th_old _ _ _ T _ _ Hs) as (s' & Hs' & Hn & _).
  unfold name_of. rewrite Hs, Hs'. auto.
Qed.

Definition drop_dead (D : list nat) (s : nfa_state) : nfa_state :=
  mk_nfa_state (ns_name s) (ns_initial s) (ns_accepting s) (ns_eps s)
               (map (filter (fun t => negb (mem t D))) (ns_transitions s)).

Lemma inlined_thinned n flag sts D extra init : nfa_valid n -> inlined n flag sts ->
  (flag = true /\ extra = [] /\ init = nfa_initial n \/
   flag = false /\ init = length sts /\
   exists s, extra = [s] /\ ns_initial s = true /\ ns_eps s = [] /\ length (ns_transitions s) = length (nfa_alphabet n)) ->
  thinned n D {| nfa_alphabet := nfa_alphabet n; nfa_states := map (drop_dead D) (sts ++ extra); nfa_initial := init |}.
Proof.
  intros V HI Hex.
  assert (Hold : forall q s', q < length (nfa_states n) -> nth_error (map (drop_dead D) (sts ++ extra)) q = Some s' ->
             exists s s0, nth_error (nfa_states n) q = Some s /\ nth_error sts q = Some s0 /\ s' = drop_dead D s0).
  { intros q s' Hq Hs'. destruct (nth_error_lt _ _ Hq) as [s Hs]. destruct (inlined_fw _ _ _ _ _ HI Hs) as [s0 Hs0].
    exists s, s0. split; auto. split; auto. rewrite nth_error_map, nth_error_app1, Hs0 in Hs'.
    - injection Hs'; auto.
    - eapply nth_error_length; eauto. }
  assert (Hcases : forall q s', nth_error (map (drop_dead D) (sts ++ extra)) q = Some s' ->
     q < length (nfa_states n) \/ q = length sts /\ exists s, extra = [s] /\ s' = drop_dead D s).
  { intros q s' Hs'. destruct HI as [Hl _]. destruct (Nat.lt_ge_cases q (length (nfa_states n))); auto. right.
    rewrite nth_error_map, nth_error_app2 in Hs' by lia.
    destruct Hex as [(_ & -> & _)|(_ & _ & s & -> & _)].
    - destruct (q - length sts); discriminate.
    - destruct (q - length sts) as [|x] eqn:Ex; [|destruct x; discriminate]. simpl in Hs'. injection Hs' as <-.
      split; [lia|]. exists s; auto. }
  constructor; cbn [nfa_alphabet nfa_states nfa_initial].
  - reflexivity.
  - intros q s' Hs'. cbn in Hs'. destruct (Hcases q s' Hs') as [Hq|(_ & s & E & ->)].
    + destruct (Hold q s' Hq Hs') as (s & s0 & H1 & H2 & ->). destruct (proj2 HI _ _ _ H1 H2) as (_ & _ & He & _). exact He.
    + destruct Hex as [(_ & -> & _)|(_ & _ & x & -> & _ & He & _)]; [discriminate|]. injection E as ->. exact He.
  - intros q s' Hs'. destruct (Hcases q s' Hs') as [Hq|(_ & s & E & ->)].
    + destruct (Hold q s' Hq Hs') as (s & s0 & H1 & H2 & ->). destruct (proj2 HI _ _ _ H1 H2) as (_ & _ & _ & _ & Hw & _).
      simpl. rewrite map_length. exact Hw.
    + destruct Hex as [(_ & -> & _)|(_ & _ & x & -> & _ & _ & Hw)]; [discriminate|]. injection E as ->. simpl. rewrite map_length. exact Hw.
  - intros q s Hs. destruct (inlined_fw _ _ _ _ _ HI Hs) as [s0 Hs0]. exists (drop_dead D s0).
    destruct (proj2 HI _ _ _ Hs Hs0) as (Hn & Ha & _). split; [|split; auto].
    rewrite nth_error_map, nth_error_app1, Hs0; auto. eapply nth_error_length; eauto.
  - intros q a t Hq. destruct (nth_error_lt _ _ Hq) as [s Hs]. destruct (inlined_fw _ _ _ _ _ HI Hs) as [s0 Hs0].
    destruct (proj2 HI _ _ _ Hs Hs0) as (_ & _ & _ & _ & Hw & Ht). split.
    + intros (c & s' & ts & Hc & Hs' & Hts & Hin). cbn in Hc, Hs'. destruct (Hold q s' Hq Hs') as (s2 & s02 & H1 & H2 & ->).
      assert (s02 = s0) by congruence. subst s02. simpl in Hts. rewrite nth_error_map in Hts.
      destruct (nth_error (ns_transitions s0) c) as [ts0|] eqn:Hts0; [|discriminate]. simpl in Hts. injection Hts as <-.
      apply filter_negb_mem_In in Hin as [Hin Hn]. split; auto. apply (Ht _ _ _ Hc Hts0); auto.
    + intros [He Hn]. assert (Hin : In a (nfa_alphabet n)) by (destruct He as (t0 & He & _); eapply nfa_edge_elem; eauto).
      apply In_nth_error in Hin as [c Hc]. destruct (nth_error_lt (ns_transitions s0) c) as [ts0 Hts0].
      { rewrite Hw. eapply nth_error_length; eauto. }
      exists c, (drop_dead D s0), (filter (fun t => negb (mem t D)) ts0). cbn. split; auto. split; [|split].
      * rewrite nth_error_map, nth_error_app1, Hs0; auto. eapply nth_error_length; eauto.
      * rewrite nth_error_map, Hts0. auto.
      * apply filter_negb_mem_In. split; auto. apply (Ht _ _ _ Hc Hts0); auto.
  - intros q s' Hs'. destruct (Hcases q s' Hs') as [Hq|(-> & s & E & ->)].
    + destruct (Hold q s' Hq Hs') as (s & s0 & H1 & H2 & ->). destruct (proj2 HI _ _ _ H1 H2) as (_ & _ & _ & Hf & _).
      simpl. rewrite Hf. destruct Hex as [(-> & _ & ->)|(-> & -> & _)]; simpl.
      * apply Nat.eqb_eq.
      * destruct HI as [-> _]. split; [discriminate|lia].
    + destruct Hex as [(_ & -> & _)|(_ & -> & x & -> & Hf & _)]; [discriminate|]. injection E as ->. simpl. tauto.
  - rewrite map_length, app_length. destruct HI as [Hl _].
    destruct Hex as [(_ & -> & ->)|(_ & -> & x & -> & _)]; simpl; [|lia]. pose proof (nv_initial _ V). lia.
Qed.

Lemma nfa_has_epsilon_moves_spec n : nfa_has_epsilon_moves n = false <-> eps_free n.
Proof.
  unfold nfa_has_epsilon_moves, eps_free. split.
  - intros H q s Hs. destruct (ns_eps s) eqn:E; auto. exfalso.
    assert (Ht : existsb (fun s => negb (length (ns_eps s) =? 0)) (nfa_states n) = true).
    { apply existsb_exists. exists s. split; [eapply nth_error_In; eauto|]. rewrite E. auto. }
    congruence.
  - intros H. destruct (existsb _ _) eqn:E; auto. apply existsb_exists in E as (s & Hin & Hl).
    apply In_nth_error in Hin as [q Hq]. rewrite (H _ _ Hq) in Hl. discriminate.
Qed.

Lemma nfa_dead_dec_list n flag D q : (forall q, In q D <-> nfa_dead n flag q) -> nfa_dead n flag q \/ ~ nfa_dead n flag q.
Proof. intros H. destruct (mem_spec q D) as [Hm|Hm]; rewrite H in Hm; auto. Qed.

Lemma one_lt_length {A} (l : list A) : 1 < length l <-> exists x y r, l = x :: y :: r.
Proof.
  split.
  - destruct l as [|x [|y r]]; simpl; intros; try lia. eauto.
  - intros (x & y & r & ->). simpl. lia.
Qed.

Lemma dead_initial n : ~ nfa_dead n true (nfa_initial n).
Proof. intros H. inversion H as [q Hq Ha Hi Ht E]. apply Hi; auto. Qed.

Lemma set_initial_inlined n sts : nfa_valid n -> inlined n true sts ->
  exists sts', set_initial (nfa_initial n) false sts = Ret sts' /\ inlined n false sts' /\ map ns_name sts' = map ns_name sts.
Proof.
  intros V HI. destruct (set_initial_spec (nfa_initial n) false sts) as (sts' & Hr & Hl & Hn & Hg).
  { destruct HI as [-> _]. apply nv_initial; auto. }
  exists sts'. split; auto. split; auto. split; [destruct HI; congruence|].
  intros q s s' Hs Hs'. destruct (inlined_fw _ _ _ _ _ HI Hs) as [s0 Hs0]. specialize (Hg _ _ Hs0). rewrite Hs' in Hg. injection Hg as ->.
  destruct (proj2 HI _ _ _ Hs Hs0) as (H1 & H2 & H3 & H4 & H5 & H6). destruct (Nat.eqb_spec q (nfa_initial n)) as [->|Hne]; simpl.
  - repeat split; auto; intros; eapply H6; eauto.
  - simpl in H4. repeat split; auto; intros; eapply H6; eauto.
Qed.

Lemma inlined_names n flag sts : inlined n flag sts -> map ns_name sts = map ns_name (nfa_states n).
Proof.
  intros [Hl HI]. apply nth_error_ext. intros i. rewrite !nth_error_map.
  destruct (nth_error sts i) as [s'|] eqn:E.
  - destruct (nth_error_lt (nfa_states n) i) as [s Hs]; [rewrite <- Hl; eapply nth_error_length; eauto|].
    rewrite Hs. simpl. f_equal. apply (HI _ _ _ Hs E).
  - apply nth_error_None in E. rewrite Hl in E. apply nth_error_None in E. rewrite E. auto.
Qed.

Lemma new_initial_state_spec h n sts D ic : nfa_valid n -> inlined n true sts ->
  NoDup D -> (forall q, In q D <-> nfa_dead n true q) ->
  (forall q, In q ic <-> nfa_path n (nfa_initial n) [] q /\ ~ In q D) ->
  exists sts' s D', new_initial_state h (length (nfa_alphabet n)) (nfa_initial n) ic sts D = Ret (sts' ++ [s], length sts', D') /\
    inlined n false sts' /\ NoDup D' /\ (forall q, In q D' <-> nfa_dead n false q) /\
    ns_initial s = true /\ ns_eps s = [] /\ length (ns_transitions s) = length (nfa_alphabet n) /\
    (ns_accepting s = true <-> exists q, In q ic /\ nfa_accepting n q) /\
    (forall c a ts, nth_error (nfa_alphabet n) c = Some a -> nth_error (ns_transitions s) c = Some ts ->
                    forall t, In t ts <-> (exists q, In q ic /\ iedge n q a t) /\ ~ In t D') /\
    (nfa_dead n false (nfa_initial n) -> ns_name s = name_of n (nfa_initial n)) /\
    (~ nfa_dead n false (nfa_initial n) -> chosen_name (map ns_name (nfa_states n)) s_new (ns_name s)).
Proof.
  intros V HI Hnd HD Hic. unfold new_initial_state.
  destruct (set_initial_inlined n sts V HI) as (sts' & -> & HI' & Hn'). cbn [bind].
  destruct (nth_error_lt _ _ (nv_initial _ V)) as [s0 Hs0]. destruct (inlined_fw _ _ _ _ _ HI' Hs0) as [s1 Hs1].
  rewrite (index_Some _ _ _ Hs1). cbn [bind].
  set (osd := negb (ns_accepting s1) && forallb (forallb (fun t => mem t D)) (ns_transitions s1)).
  destruct (proj2 HI' _ _ _ Hs0 Hs1) as (En & Ea & _ & _ & _ & _).
  assert (Hosd : osd = true <-> nfa_dead n false (nfa_initial n)).
  { unfold osd. rewrite andb_true_iff, negb_true_iff, forallb2_spec, Ea. fold (all_targets (fun t => In t D) s1).
    rewrite (inlined_targets n false sts' _ _ _ _ HI' Hs0 Hs1), <- (not_accepting_iff _ _ _ Hs0). split.
    - intros [H1 H2]. constructor; auto; [apply nv_initial; auto|discriminate|].
      intros a t0 t He Hp. apply dead_mono, HD, (H2 a). exists t0; auto.
    - intros Hd.
      (* a derivation that the initial state is dead uses only states that are dead anyway *)
      assert (Hall : forall q, nfa_dead n false q -> In q D \/ (~ nfa_accepting n (nfa_initial n) /\ forall a t, iedge n (nfa_initial n) a t -> In t D)).
      { induction 1 as [q Hq Hacc _ Ht IH]. destruct (nth_error_lt _ _ Hq) as [s Hs]. destruct (inlined_fw _ _ _ _ _ HI Hs) as [s' Hs'].
        assert (Hc : (forall a t, iedge n q a t -> In t D) \/ (~ nfa_accepting n (nfa_initial n) /\ forall a t, iedge n (nfa_initial n) a t -> In t D)).
        { destruct (forallb (forallb (fun t => mem t D)) (ns_transitions s')) eqn:Ef.
          - left. rewrite forallb2_spec in Ef. apply (inlined_targets n true sts q s s' _ HI Hs Hs'). exact Ef.
          - apply forallb2_false in Ef as (ts & t & H1 & H2 & H3).
            assert (He : exists a, iedge n q a t).
            { destruct (proj2 HI _ _ _ Hs Hs') as (_ & _ & _ & _ & Hw & Hti). apply In_nth_error in H1 as [c Hc].
              destruct (nth_error_lt (nfa_alphabet n) c) as [a Ha]; [rewrite <- Hw; eapply nth_error_length; eauto|].
              exists a. apply (Hti _ _ _ Ha Hc); auto. }
            destruct He as (a & t0 & He1 & He2). destruct (IH a t0 t He1 He2); tauto. }
        destruct Hc as [Hc|Hc]; auto. destruct (Nat.eq_dec q (nfa_initial n)) as [->|Hne].
        - right. auto.
        - left. apply HD. constructor; auto. intros a t0 t He Hp. apply HD, (Hc a). exists t0; auto. }
      destruct (Hall _ Hd) as [Hin|H]; auto. apply HD in Hin. apply dead_initial in Hin. tauto. }
  assert (Hdead : exists D', (if osd then dead_search sts' (fst (hs_insert (nfa_initial n) D)) else Ret D) = Ret D' /\
             NoDup D' /\ forall q, In q D' <-> nfa_dead n false q).
  { destruct osd eqn:Eo.
    - assert (Hd0 : nfa_dead n false (nfa_initial n)) by (apply Hosd; auto).
      assert (Hnin : ~ In (nfa_initial n) D) by (rewrite HD; apply dead_initial).
      assert (Eins : fst (hs_insert (nfa_initial n) D) = D ++ [nfa_initial n]).
      { unfold hs_insert. apply mem_nIn in Hnin. rewrite Hnin. auto. }
      rewrite Eins. apply dead_search_dead; auto.
      + apply NoDup_snoc; auto.
      + intros q Hq. apply in_app_iff in Hq as [Hq|[<-|[]]]; auto. apply dead_mono, HD; auto.
      + discriminate.
    - exists D. split; auto. split; auto. intros q. split; [intros Hq; apply dead_mono, HD; auto|].
      assert (Hn0 : ~ nfa_dead n false (nfa_initial n)) by (rewrite <- Hosd; discriminate).
      intros Hd. apply HD. induction Hd as [q Hq Hacc Hi Ht IH]. constructor; auto.
      intros _ ->. apply Hn0. constructor; auto. }
  destruct Hdead as (D' & -> & Hnd' & HD'). cbn [bind].
  assert (Hname : exists nm, (if osd then Ret (ns_name s1) else fresh_name (map ns_name sts') s_new) = Ret nm /\
            (nfa_dead n false (nfa_initial n) -> nm = name_of n (nfa_initial n)) /\
            (~ nfa_dead n false (nfa_initial n) -> chosen_name (map ns_name (nfa_states n)) s_new nm)).
  { destruct osd eqn:Eo.
    - exists (ns_name s1). split; auto. split; [|tauto]. intros _. unfold name_of. rewrite Hs0. auto.
    - destruct (fresh_name_spec (map ns_name sts') s_new) as (nm & H1 & _ & H2). exists nm. split; auto. split.
      + intros H. apply Hosd in H. discriminate.
      + intros _. rewrite <- (inlined_names n false sts'); auto. }
  destruct Hname as (nm & -> & Hnm1 & Hnm2). cbn [bind].
  assert (Hicr : forall q, In q ic -> exists s s', nth_error (nfa_states n) q = Some s /\ nth_error sts' q = Some s').
  { intros q Hq. apply Hic in Hq as [Hq _]. assert (Hlt : q < length (nfa_states n)) by (eapply nfa_path_range; eauto; apply nv_initial; auto).
    destruct (nth_error_lt _ _ Hlt) as [s Hs]. destruct (inlined_fw _ _ _ _ _ HI' Hs) as [s' Hs']. eauto. }
  match goal with |- context[mapR ?f (seq 0 _)] => destruct (mapR_total f (fun c ts => forall a, nth_error (nfa_alphabet n) c = Some a ->
      forall t, In t ts <-> (exists q, In q ic /\ iedge n q a t) /\ ~ In t D') (seq 0 (length (nfa_alphabet n)))) as (trs & Htrs & HFt) end.
  { intros c Hc. apply in_seq in Hc. destruct (nth_error_lt (nfa_alphabet n) c) as [a Ha]; [lia|].
    match goal with |- context[mapR ?f (ho h [37; c] ic)] => destruct (mapR_total f (fun q ts => forall t, In t ts <-> iedge n q a t) (ho h [37; c] ic))
       as (tss & Htss & HF) end.
    { intros q Hq. apply ho_In in Hq. destruct (Hicr q Hq) as (s & s' & Hs & Hs'). rewrite (index_Some _ _ _ Hs'). cbn [bind].
      destruct (proj2 HI' _ _ _ Hs Hs') as (_ & _ & _ & _ & Hw & Ht).
      destruct (nth_error_lt (ns_transitions s') c) as [ts Hts]; [lia|]. rewrite (index_Some _ _ _ Hts). eauto. }
    rewrite Htss. cbn [bind]. eexists; split; [reflexivity|]. intros a' Ha' t. rewrite Ha in Ha'. injection Ha' as <-.
    rewrite filter_negb_mem_In, ho_In, hs_collect_In, in_concat. split; (intros [H Hn]; split; [|auto]).
    - destruct H as (ts & H1 & H2). destruct (Forall2_In_r _ _ _ _ HF H1) as (q & H3 & H4). apply ho_In in H3.
      exists q. split; auto. apply H4; auto.
    - destruct H as (q & H1 & H2). assert (H1' : In q (ho h [37; c] ic)) by (apply ho_In; auto).
      destruct (Forall2_In_l _ _ _ _ HF H1') as (ts & H3 & H4). exists ts. split; auto. apply H4; auto. }
  rewrite Htrs. cbn [bind].
  match goal with |- context[mapR ?f ic] => destruct (mapR_total f (fun q b => b = true <-> nfa_accepting n q) ic) as (accs & Haccs & HFa) end.
  { intros q Hq. destruct (Hicr q Hq) as (s & s' & Hs & Hs'). rewrite (index_Some _ _ _ Hs'). cbn [bind].
    eexists; split; [reflexivity|]. destruct (proj2 HI' _ _ _ Hs Hs') as (_ & Ha & _). rewrite Ha. unfold nfa_accepting. rewrite Hs.
    split; [intros E; exists s; auto|intros (x & [= <-] & E); auto]. }
  rewrite Haccs. cbn [bind]. do 3 eexists. split; [reflexivity|]. split; auto. split; auto. split; auto. simpl.
  split; auto. split; auto. split; [|split; [|split; [|split]]]; auto.
  - rewrite <- (Forall2_len _ _ _ HFt), seq_length. auto.
  - rewrite existsb_exists. split.
    + intros (b & H1 & ->). destruct (Forall2_In_r _ _ _ _ HFa H1) as (q & H2 & H3). exists q. split; auto. apply H3; auto.
    + intros (q & H1 & H2). destruct (Forall2_In_l _ _ _ _ HFa H1) as (b & H3 & H4). exists b. split; auto. apply H4; auto.
  - intros c a ts Ha Hts t. destruct (Forall2_nth_r _ _ _ HFt _ _ Hts) as (c' & Hc' & H).
    assert (Hlt : c < length (nfa_alphabet n)) by (eapply nth_error_length; eauto).
    rewrite nth_error_nth' with (d := 0) in Hc' by (rewrite seq_length; auto). rewrite seq_nth in Hc' by auto. injection Hc' as <-.
    apply H; auto.
Qed.

Theorem nfa_remove_epsilon_moves_correct h dbg n : nfa_valid n -> nfa_has_epsilon_moves n = true ->
  exists n' k, nfa_remove_epsilon_moves h dbg n = Ret n' /\ eps_removed n n' k.
Proof.
  intros V Heps. unfold nfa_remove_epsilon_moves. rewrite Heps. simpl negb. cbv iota.
  match goal with |- context[mapR ?f (seq 0 (length (nfa_states n)))] =>
    destruct (mapR_total f (fun q cl => NoDup cl /\ forall x, In x cl <-> nfa_path n q [] x) (seq 0 (length (nfa_states n)))) as (closures & Hcl & HC) end.
  { intros q Hq. apply in_seq in Hq. destruct (nfa_closure_in n q V) as (cl & -> & H1 & H2); [lia|]. exists cl. auto. }
  rewrite Hcl. cbn [bind].
  destruct (inline_closures_spec h n closures V HC) as (sts & -> & HI). cbn [bind].
  destruct (dead_search_dead n true sts [] V HI) as (D & -> & HndD & HD); [constructor|intros q []|intros _ q []|]. cbn [bind].
  assert (Hini := nv_initial _ V).
  destruct (Forall2_nth _ _ _ HC (nfa_initial n) (nfa_initial n)) as (cl & Hcli & Hndcl & Hcl').
  { rewrite nth_error_nth' with (d := 0) by (rewrite seq_length; auto). rewrite seq_nth by auto. auto. }
  rewrite (index_Some _ _ _ Hcli). cbn [bind]. cbv zeta.
  set (ic := filter (fun q => negb (mem q D)) cl).
  assert (Hic : forall q, In q ic <-> nfa_path n (nfa_initial n) [] q /\ ~ In q D).
  { intros q. unfold ic. rewrite filter_negb_mem_In, Hcl'. tauto. }
  assert (Hndic : NoDup ic) by (apply NoDup_filter; auto).
  assert (Hic0 : In (nfa_initial n) ic).
  { apply Hic. split; [constructor|]. rewrite HD. apply dead_initial. }
  assert (Hlen : (1 <? length ic) = true <-> another_live n).
  { rewrite Nat.ltb_lt. split.
    - intros Hl. apply one_lt_length in Hl as (x & y & r & E).
      assert (Hother : exists z, In z ic /\ z <> nfa_initial n).
      { destruct (Nat.eq_dec x (nfa_initial n)) as [->|Hne].
        - exists y. split; [rewrite E; right; left; auto|]. intros ->. rewrite E in Hndic. inversion Hndic as [|? ? Hni _].
          apply Hni. left; auto.
        - exists x. split; auto. rewrite E; left; auto. }
      destruct Hother as (z & Hz & Hne). apply Hic in Hz as [H1 H2]. rewrite HD in H2. exists z. auto.
    - intros (z & H1 & H2 & H3). assert (Hz : In z ic) by (apply Hic; rewrite HD; auto).
      destruct ic as [|x [|y r]]; simpl in *; try lia; tauto. }
  destruct (1 <? length ic) eqn:El.
  - (* a new initial state *)
    assert (Hal : another_live n) by (apply Hlen; auto).
    destruct (new_initial_state_spec h n sts D ic V HI HndD HD Hic)
      as (sts' & s & D' & Hns & HI' & HndD' & HD' & Hsi & Hse & Hsw & Hsa & Hst & Hnm1 & Hnm2). rewrite Hns. cbn [bind].
    set (g := {| nfa_alphabet := nfa_alphabet n; nfa_states := map (drop_dead D') (sts' ++ [s]); nfa_initial := length sts' |}).
    assert (T : thinned n D' g).
    { apply (inlined_thinned n false); auto. right. split; auto. split; auto. exists s. auto. }
    set (N := length (nfa_states n)) in *.
    assert (HlN : length sts' = N) by apply HI'.
    assert (Hlg : length (nfa_states g) = S N) by (simpl; rewrite map_length, app_length; simpl; lia).
    assert (Hgi : nfa_initial g = N) by (simpl; auto).
    assert (HsN : nth_error (nfa_states g) N = Some (drop_dead D' s)).
    { simpl. rewrite nth_error_map, nth_error_app2 by lia. rewrite HlN, Nat.sub_diag. auto. }
    assert (HeN : forall a t, nfa_edge g N a t <-> (exists q, In q ic /\ iedge n q a t) /\ ~ In t D').
    { intros a t. split.
      - intros (c & s2 & ts & Hc & Hs2 & Hts & Hin). rewrite HsN in Hs2. injection Hs2 as <-. simpl in Hc, Hts.
        rewrite nth_error_map in Hts. destruct (nth_error (ns_transitions s) c) as [ts0|] eqn:E; [|discriminate]. simpl in Hts.
        injection Hts as <-. apply filter_negb_mem_In in Hin as [Hin _]. apply (Hst _ _ _ Hc E); auto.
      - intros H. assert (Hin : In a (nfa_alphabet n)) by (destruct H as [(q & _ & t0 & He & _) _]; eapply nfa_edge_elem; eauto).
        apply In_nth_error in Hin as [c Hc]. destruct (nth_error_lt (ns_transitions s) c) as [ts Hts]; [rewrite Hsw; eapply nth_error_length; eauto|].
        exists c, (drop_dead D' s), (filter (fun t => negb (mem t D')) ts). simpl. split; auto. split; auto. split.
        + rewrite nth_error_map, Hts. auto.
        + apply filter_negb_mem_In. split; [apply (Hst _ _ _ Hc Hts); auto|tauto]. }
    assert (HrD : forall q, In q D' -> q < N) by (intros q Hq; apply HD' in Hq; destruct Hq; auto).
    destruct (thinned_restrict dbg h n false D' g) as (n' & Hn' & Hres); auto.
    { rewrite Hgi. intros Hx. apply HrD in Hx. lia. }
    { right. split; auto. intros a t He. apply HeN in He as [(q & _ & He) Hn]. split; auto. eapply iedge_range; eauto. }
    assert (Hgoal : nfa_remove_states dbg (ho h [39] D')
       {| nfa_alphabet := nfa_alphabet n; nfa_states := map (drop_dead D') (sts' ++ [s]); nfa_initial := length sts' |} = Ret n') by exact Hn'.
    exists n', (kept D' N). split; [exact Hgoal|].
    rewrite Hlg in Hres. rewrite kept_S in Hres by (intros Hx; apply HrD in Hx; lia).
    assert (Hkl : forall j q, nth_error (kept D' N) j = Some q -> nth_error (kept D' N ++ [N]) j = Some q).
    { intros j q Hj. rewrite nth_error_app1; auto. eapply nth_error_length; eauto. }
    assert (HkN : nth_error (kept D' N ++ [N]) (length (kept D' N)) = Some N).
    { rewrite nth_error_app2, Nat.sub_diag by lia. auto. }
    assert (Hndk : NoDup (kept D' N ++ [N])).
    { apply NoDup_snoc; [apply kept_NoDup|]. rewrite kept_In. lia. }
    assert (Hold : forall j t, t < N -> nth_error (kept D' N ++ [N]) j = Some t -> nth_error (kept D' N) j = Some t).
    { intros j t Ht Hj. destruct (Nat.lt_ge_cases j (length (kept D' N))) as [Hl|Hl]; [rewrite nth_error_app1 in Hj; auto|].
      exfalso. rewrite nth_error_app2 in Hj by auto. destruct (j - length (kept D' N)) as [|x]; simpl in Hj; [|destruct x; discriminate].
      injection Hj as <-. lia. }
    assert (Hki : nfa_initial n' = length (kept D' N)).
    { destruct Hres as (_ & Hi & _). rewrite Hgi in Hi. exact (NoDup_nth_error_inj _ _ _ _ Hndk Hi HkN). }
    assert (HD'd : forall q, In q D' -> nfa_dead n false q) by (intros; apply HD'; auto).
    assert (Hgl := thinned_lang n false D' g V T HD'd).
    constructor.
    + eapply nfa_restriction_valid; eauto.
      * exact (nv_alphabet _ V).
      * intros p q sp sq Hp Hq Hsp Hsq Hnn. apply in_app_iff in Hp, Hq.
        assert (Hnew : forall x sx, In x (kept D' N) -> nth_error (nfa_states g) x = Some sx -> ns_name sx <> ns_name s).
        { intros x sx Hx Hsx Heq. apply kept_In in Hx as [Hx1 Hx2]. destruct (nth_error_lt _ _ Hx1) as [s0 Hs0].
          destruct (th_old _ _ _ T _ _ Hs0) as (s0' & Hs0' & Hn0 & _). rewrite Hsx in Hs0'. injection Hs0' as <-.
          destruct (nfa_dead_dec_list n false D' (nfa_initial n) HD') as [Hd|Hd].
          - specialize (Hnm1 Hd). destruct (nth_error_lt _ _ Hini) as [si Hsi0]. unfold name_of in Hnm1. rewrite Hsi0 in Hnm1.
            assert (x = nfa_initial n).
            { apply (nodup_names_inj (nfa_states n) _ _ s0 si); auto; [apply nv_names; auto|congruence]. }
            subst x. apply Hx2, HD'; auto.
          - apply (proj1 (Hnm2 Hd)). rewrite <- Heq, Hn0. apply in_map. eapply nth_error_In; eauto. }
        assert (HnameN : forall sx, nth_error (nfa_states g) N = Some sx -> ns_name sx = ns_name s).
        { intros sx Hsx. rewrite HsN in Hsx. injection Hsx as <-. auto. }
        destruct Hp as [Hp|[<-|[]]], Hq as [Hq|[<-|[]]]; auto.
        -- apply kept_In in Hp as [Hp _]. apply kept_In in Hq as [Hq _].
           destruct (nth_error_lt _ _ Hp) as [s1 Hs1]. destruct (nth_error_lt _ _ Hq) as [s2 Hs2].
           destruct (th_old _ _ _ T _ _ Hs1) as (s1' & Hs1' & E1 & _). destruct (th_old _ _ _ T _ _ Hs2) as (s2' & Hs2' & E2 & _).
           rewrite Hsp in Hs1'. injection Hs1' as <-. rewrite Hsq in Hs2'. injection Hs2' as <-.
           apply (nodup_names_inj (nfa_states n) _ _ s1 s2); auto; [apply nv_names; auto|congruence].
        -- exfalso. apply (Hnew p sp Hp Hsp). rewrite (HnameN _ Hsq) in Hnn. auto.
        -- exfalso. apply (Hnew q sq Hq Hsq). rewrite (HnameN _ Hsp) in Hnn. auto.
      * intros; apply (th_flag _ _ _ T); auto.
      * intros q sq _ Hsq. rewrite (th_alphabet _ _ _ T). apply (th_width _ _ _ T _ _ Hsq).
    + destruct Hres as (-> & _). reflexivity.
    + eapply restricted_eps_free; eauto. apply T.
    + intros w. rewrite <- (nfa_restriction_lang _ _ _ w Hres). unfold nfa_lang at 1. rewrite Hgi.
      unfold nfa_lang. rewrite (ilang_lang n).
      assert (E : nfa_state_lang g N w <-> exists q, In q ic /\ ilang n q w).
      { destruct w as [|a w].
        - rewrite eps_free_lang_nil by apply T. unfold nfa_accepting at 1. rewrite HsN. simpl. rewrite <- Hsa. split.
          + intros (x & [= <-] & Ha). exact Ha.
          + intros Ha. eexists; split; [reflexivity|exact Ha].
        - rewrite eps_free_lang_cons by apply T. simpl. split.
          + intros (t & He & Hl). apply HeN in He as [(q & H1 & H2) H3]. exists q. split; auto. exists t. split; auto.
            apply Hgl; auto. eapply iedge_range; eauto.
          + intros (q & H1 & t & H2 & H3). exists t. split.
            * apply HeN. split; eauto. intros Hin. exact (dead_ilang _ _ _ (HD'd t Hin) _ H3).
            * apply Hgl; auto. eapply iedge_range; eauto. }
      rewrite E. split.
      * intros (q & H1 & H2). apply Hic in H1 as [H1 _]. eauto.
      * intros (q & H1 & H2). exists q. split; auto. apply Hic. split; auto. intros Hin. apply HD in Hin.
        exact (dead_ilang _ _ _ Hin _ H2).
    + apply kept_sorted.
    + right. split; auto. split; [|split; [|split; [auto|]]].
      * intros q. rewrite kept_In, HD'. reflexivity.
      * intros q Hq. rewrite kept_In, <- HD'. destruct (mem_spec q D'); auto.
      * exists (ns_name s). rewrite (restricted_names _ _ _ Hres), map_app. simpl. split; auto.
        f_equal; [|unfold name_of; rewrite HsN; auto].
        apply map_ext_in. intros q Hq. apply kept_In in Hq as [Hq _]. eapply thinned_name; eauto.
    + intros j q Hj. assert (Hj' := Hkl _ _ Hj). assert (Hq : q < N) by (apply nth_error_In, kept_In in Hj; tauto). split; [|split].
      * rewrite <- (nfa_restriction_accepting _ _ _ _ _ Hres Hj'). apply (thinned_accepting n D'); auto.
      * intros w. rewrite <- (nfa_restriction_state_lang _ _ _ _ _ w Hres Hj'). apply Hgl; auto.
      * intros a t He Ht. apply kept_In in Ht as [Ht1 Ht2].
        assert (He' : nfa_edge g q a t) by (apply (th_edge _ _ _ T); auto).
        destruct (proj1 (nfa_restriction_edge _ _ _ _ _ a Hres Hj') _ He') as (j' & H1 & H2). exists j'. split; auto.
    + intros j q a j' Hj. assert (Hj' := Hkl _ _ Hj). assert (Hq : q < N) by (apply nth_error_In, kept_In in Hj; tauto). split.
      * intros He. destruct (proj2 (nfa_restriction_edge _ _ _ _ _ a Hres Hj') _ He) as (t & He' & Ht).
        apply (th_edge _ _ _ T) in He' as [He' Hn]; auto. exists t. split; auto. exact (Hold _ _ (iedge_range _ _ _ _ V He') Ht).
      * intros (t & He' & Ht). assert (Htk : In t (kept D' N)) by (eapply nth_error_In; eauto). apply kept_In in Htk as [Ht1 Ht2].
        assert (Hg : nfa_edge g q a t) by (apply (th_edge _ _ _ T); auto).
        destruct (proj1 (nfa_restriction_edge _ _ _ _ _ a Hres Hj') _ Hg) as (j2 & H1 & H2).
        rewrite (NoDup_nth_error_inj _ _ _ _ Hndk (Hkl _ _ Ht) H2). auto.
    + intros _. split.
      * rewrite <- (nfa_restriction_accepting _ _ _ _ _ Hres HkN). unfold nfa_accepting at 1. rewrite HsN. split.
        -- intros (x & [= <-] & Ha). apply Hsa in Ha as (q & Hq & Ha). apply Hic in Hq as [Hq _]. eauto.
        -- intros (q & Hq & Ha). eexists. split; [reflexivity|]. apply Hsa. exists q. split; auto. apply Hic. split; auto.
           rewrite HD. intros Hd. destruct Hd as [x _ Hna _ _]. auto.
      * intros a j'. split.
        -- intros He. destruct (proj2 (nfa_restriction_edge _ _ _ _ _ a Hres HkN) _ He) as (t & He' & Ht).
           apply HeN in He' as [(q & Hq & Hqe) Hn]. apply Hic in Hq as [Hq _]. exists q, t. split; auto. split; auto.
           exact (Hold _ _ (iedge_range _ _ _ _ V Hqe) Ht).
        -- intros (q & t & Hq & Hqe & Ht). assert (Htk : In t (kept D' N)) by (eapply nth_error_In; eauto).
           apply kept_In in Htk as [Ht1 Ht2].
           assert (Hg : nfa_edge g N a t).
           { apply HeN. split; auto. exists q. split; auto. apply Hic. split; auto. rewrite HD. intros Hd.
             apply Ht2, HD', dead_mono. destruct Hd as [x _ _ _ Hall]. destruct Hqe as (t0 & Hqe1 & Hqe2). eauto. }
           destruct (proj1 (nfa_restriction_edge _ _ _ _ _ a Hres HkN) _ Hg) as (j2 & H1 & H2).
           rewrite (NoDup_nth_error_inj _ _ _ _ Hndk (Hkl _ _ Ht) H2). auto.
  - (* the initial state stays *)
    assert (Hnal : ~ another_live n) by (rewrite <- Hlen; discriminate).
    cbn [bind]. set (g := {| nfa_alphabet := nfa_alphabet n; nfa_states := map (drop_dead D) (sts ++ []); nfa_initial := nfa_initial n |}).
    assert (T : thinned n D g) by (apply (inlined_thinned n true); auto).
    set (N := length (nfa_states n)) in *.
    assert (HlN : length sts = N) by apply HI.
    assert (Hlg : length (nfa_states g) = N) by (simpl; rewrite map_length, app_nil_r; auto).
    destruct (thinned_restrict dbg h n true D g) as (n' & Hn' & Hres); auto.
    { simpl. rewrite HD. apply dead_initial. }
    assert (Hgoal : nfa_remove_states dbg (ho h [39] D)
       {| nfa_alphabet := nfa_alphabet n; nfa_states := map (drop_dead D) sts; nfa_initial := nfa_initial n |} = Ret n').
    { rewrite <- Hn'. unfold g. rewrite app_nil_r. auto. }
    exists n', (kept D N). split; [exact Hgoal|].
    rewrite Hlg in Hres. assert (HDd : forall q, In q D -> nfa_dead n true q) by (intros; apply HD; auto).
    assert (Hgl := thinned_lang n true D g V T HDd).
    constructor.
    + eapply nfa_restriction_valid; eauto.
      * apply kept_NoDup.
      * exact (nv_alphabet _ V).
      * intros p q sp sq Hp Hq Hsp Hsq Hnn. 
        apply kept_In in Hp as [Hp _]. apply kept_In in Hq as [Hq _].
        destruct (nth_error_lt _ _ Hp) as [s1 Hs1]. destruct (nth_error_lt _ _ Hq) as [s2 Hs2].
        destruct (th_old _ _ _ T _ _ Hs1) as (s1' & Hs1' & E1 & _). destruct (th_old _ _ _ T _ _ Hs2) as (s2' & Hs2' & E2 & _).
        rewrite Hsp in Hs1'. injection Hs1' as <-. rewrite Hsq in Hs2'. injection Hs2' as <-.
        apply (nodup_names_inj (nfa_states n) _ _ s1 s2); auto; [apply nv_names; auto|congruence].
      * intros; apply (th_flag _ _ _ T); auto.
      * intros q sq _ Hsq. rewrite (th_alphabet _ _ _ T). apply (th_width _ _ _ T _ _ Hsq).
    + destruct Hres as (-> & _). reflexivity.
    + eapply restricted_eps_free; eauto. apply T.
    + intros w. rewrite <- (nfa_restriction_lang _ _ _ w Hres). unfold nfa_lang at 1. simpl nfa_initial.
      unfold nfa_lang. rewrite (ilang_lang n), Hgl by auto. split.
      * intros H. exists (nfa_initial n). split; auto. constructor.
      * intros (q & H1 & H2). destruct (Nat.eq_dec q (nfa_initial n)) as [->|Hne]; auto. exfalso. apply Hnal.
        exists q. split; auto. split; auto. intros Hd. exact (dead_ilang _ _ _ Hd _ H2).
    + apply kept_sorted.
    + left. split; auto. split; [|split; [|split]].
      * intros q. rewrite kept_In, HD. reflexivity.
      * intros q Hq. rewrite kept_In, <- HD. destruct (mem_spec q D); auto.
      * rewrite (restricted_names _ _ _ Hres). apply map_ext_in. intros q Hq. apply kept_In in Hq as [Hq _]. eapply thinned_name; eauto.
      * destruct Hres as (_ & Hi & _). exact Hi.
    + intros j q Hj. assert (Hq : q < N) by (apply nth_error_In, kept_In in Hj; tauto). split; [|split].
      * rewrite <- (nfa_restriction_accepting _ _ _ _ _ Hres Hj). apply (thinned_accepting n D); auto.
      * intros w. rewrite <- (nfa_restriction_state_lang _ _ _ _ _ w Hres Hj). apply Hgl; auto.
      * intros a t He Ht. apply kept_In in Ht as [Ht1 Ht2].
        assert (He' : nfa_edge g q a t) by (apply (th_edge _ _ _ T); auto).
        destruct (proj1 (nfa_restriction_edge _ _ _ _ _ a Hres Hj) _ He') as (j' & H1 & H2). exists j'. split; auto.
    + intros j q a j' Hj. assert (Hq : q < N) by (apply nth_error_In, kept_In in Hj; tauto). split.
      * intros He. destruct (proj2 (nfa_restriction_edge _ _ _ _ _ a Hres Hj) _ He) as (t & He' & Ht).
        apply (th_edge _ _ _ T) in He' as [He' Hn]; auto. exists t. auto.
      * intros (t & He' & Ht). assert (Htk : In t (kept D N)) by (eapply nth_error_In; eauto). apply kept_In in Htk as [Ht1 Ht2].
        assert (Hg : nfa_edge g q a t) by (apply (th_edge _ _ _ T); auto).
        destruct (proj1 (nfa_restriction_edge _ _ _ _ _ a Hres Hj) _ Hg) as (j2 & H1 & H2).
        rewrite (NoDup_nth_error_inj _ _ _ _ (kept_NoDup _ _) Ht H2). auto.
    + intros Hal. destruct (Hnal Hal).
Qed.

(** every state but the initial one and the accepting ones has a move *)
Lemma eps_removed_live n n' k j s : nfa_valid n -> eps_removed n n' k -> nth_error (nfa_states n') j = Some s ->
  ns_initial s = false -> ns_accepting s = false -> exists a t, nfa_edge n' j a t.
Proof.
  intros V E Hs Hi Ha.
  assert (Hk : exists q b, nth_error k j = Some q /\ (b = true -> q <> nfa_initial n) /\ (forall x, In x k <-> x < length (nfa_states n) /\ ~ nfa_dead n b x) /\ (forall x, x < length (nfa_states n) -> In x k \/ nfa_dead n b x)).
  { assert (Hlen : j < length (nfa_states n')) by (eapply nth_error_length; eauto).
    assert (Hni : j <> nfa_initial n').
    { intros ->. apply (nv_flag _ (er_valid _ _ _ E)) in Hs. destruct Hs as [_ Hs]. rewrite (Hs eq_refl) in Hi. discriminate. }
    destruct (er_cases _ _ _ E) as [(_ & Hk & Hkd & Hn & Hki)|(_ & Hk & Hkd & Hki & nm & Hn & _)].
    - assert (Hl : j < length k) by (rewrite <- (map_length (name_of n)), <- Hn, map_length; auto).
      destruct (nth_error_lt _ _ Hl) as [q Hq]. exists q, true. split; auto. split; [|split; auto]. intros _ ->.
      apply Hni. assert (Hnd : NoDup k).
      { pose proof (er_sorted _ _ _ E) as Hss. clear - Hss. induction Hss as [|x k Hss IH Hx]; constructor; auto.
        intros Hin. rewrite Forall_forall in Hx. specialize (Hx x Hin). lia. }
      exact (NoDup_nth_error_inj k _ _ _ Hnd Hq Hki).
    - assert (Hl : j < length k).
      { assert (Hx : length (nfa_states n') = S (length k)) by (rewrite <- (map_length ns_name), Hn, app_length, map_length; simpl; lia).
        rewrite Hki in Hni. lia. }
      destruct (nth_error_lt _ _ Hl) as [q Hq]. exists q, false. split; auto. split; [discriminate|split; auto]. }
  destruct Hk as (q & b & Hq & Hb & Hk & Hkd).
  destruct (er_state _ _ _ E _ _ Hq) as (Hacc & _ & Hedge).
  assert (Hqk : In q k) by (eapply nth_error_In; eauto). destruct (proj1 (Hk q) Hqk) as [Hql Hqd].
  assert (Hna : ~ nfa_accepting n q) by (rewrite <- Hacc; intros (x & Hx & Hxa); congruence).
  (* look for a live target *)
  assert (Hdec : forall l, (forall t, In t l -> t < length (nfa_states n)) ->
            (exists t, In t l /\ In t k) \/ forall t, In t l -> ~ In t k).
  { induction l as [|t l IH]; intros Hl; [right; intros t []|].
    destruct (In_dec t k) as [Hin|Hin]; [left; exists t; simpl; auto|].
    destruct IH as [(t' & H1 & H2)|H]; [intros; apply Hl; right; auto|left; exists t'; simpl; auto|].
    right. intros x [<-|Hx]; auto. }
  destruct (nth_error_lt _ _ Hql) as [s0 Hs0].
  set (inner := fun t0 => match nfa_closure n t0 with Ret (Some cl) => cl | _ => [] end).
  destruct (Hdec (flat_map inner (concat (ns_transitions s0)))) as [(t & Ht & Htk)|Hno].
  { intros t Ht. apply in_flat_map in Ht as (t0 & H1 & H2). apply in_concat in H1 as (ts & H3 & H4).
    assert (Ht0 : t0 < length (nfa_states n)) by (eapply nv_range; eauto).
    unfold inner in H2. destruct (nfa_closure_in n t0 V Ht0) as (cl & Hc & _ & Hin). rewrite Hc in H2. apply Hin in H2.
    eapply nfa_path_range; eauto. }
  - apply in_flat_map in Ht as (t0 & H1 & H2). apply in_concat in H1 as (ts & H3 & H4).
    assert (Ht0 : t0 < length (nfa_states n)) by (eapply nv_range; eauto).
    unfold inner in H2. destruct (nfa_closure_in n t0 V Ht0) as (cl & Hc & _ & Hin). rewrite Hc in H2. apply Hin in H2.
    apply In_nth_error in H3 as [c Hc3]. destruct (nth_error_lt (nfa_alphabet n) c) as [a Hca].
    { rewrite <- (nv_width _ V _ _ Hs0). eapply nth_error_length; eauto. }
    destruct (Hedge a t) as (j' & _ & He); auto; [|eauto]. exists t0. split; auto. exists c, s0, ts. auto.
  - exfalso. apply Hqd. constructor; auto. intros a t0 t He Hp.
    assert (Ht0 : t0 < length (nfa_states n)) by (eapply nfa_edge_dst; eauto).
    assert (Ht : t < length (nfa_states n)) by (eapply nfa_path_range; eauto).
    assert (Hnk : ~ In t k).
    { apply Hno. apply in_flat_map. exists t0. split.
      - destruct He as (c & s1 & ts & _ & H2 & H3 & H4). rewrite Hs0 in H2. injection H2 as <-. apply in_concat. exists ts.
        split; auto. eapply nth_error_In; eauto.
      - unfold inner. destruct (nfa_closure_in n t0 V Ht0) as (cl & Hc & _ & Hin). rewrite Hc. apply Hin; auto. }
    destruct (Hkd t Ht); tauto.
Qed.
