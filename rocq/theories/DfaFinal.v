(** * Consequences for the DFA properties *)
From Coq Require Import List NArith Arith Bool Lia Permutation Sorted.
From Verif Require Import Base BaseLemmas Spec Search DfaModel DfaBasics DfaReach DfaEquiv DfaHopcroft DfaMinimize.
Import ListNotations.

Lemma dfa_product_reach comb d1 d2 d ks : dfa_valid d1 -> dfa_valid d2 -> dfa_valid d -> dfa_is_product comb d1 d2 d ks ->
  forall i, i < length (dfa_states d) -> dfa_reachable d i.
Proof.
  intros V1 V2 V HP i Hi. rewrite (dp_length _ _ _ _ _ HP) in Hi. destruct (nth_error_lt _ _ Hi) as [[q1 q2] Hq].
  destruct (proj1 (dp_reach _ _ _ _ _ HP q1 q2) (nth_error_In _ _ Hq)) as (w & P1 & P2).
  destruct (dfa_path_total d (dfa_initial d) w V (dv_initial _ V)) as (j & Pj & _).
  { rewrite (dp_alphabet _ _ _ _ _ HP). eapply dfa_path_over; eauto. }
  destruct (dfa_product_path _ _ _ _ _ _ _ _ _ _ HP (dp_initial _ _ _ _ _ HP) Pj) as (t1 & t2 & Ht & T1 & T2).
  rewrite <- (dfa_path_fun d1 _ _ _ _ (dv_alphabet _ V1) P1 T1) in Ht.
  rewrite <- (dfa_path_fun d2 _ _ _ _ (dv_alphabet _ V2) P2 T2) in Ht.
  exists w. rewrite (NoDup_nth_error_inj ks i j (q1, q2) (dp_nodup _ _ _ _ _ HP) Hq Ht). auto.
Qed.

(** Several operations at once *)
Lemma dfa_boolean h f d1 d2 (P : Prop -> Prop -> Prop) :
  (forall b1 b2 : bool, f b1 b2 = true <-> P (b1 = true) (b2 = true)) ->
  (forall A A' B B', (A <-> A') -> (B <-> B') -> (P A B <-> P A' B')) ->
  (P False False -> False) ->
  dfa_valid d1 -> dfa_valid d2 ->
  exists r, dfa_product_construction h d1 d2 (fun s1 s2 => f (ds_accepting s1) (ds_accepting s2)) = Ret r /\
    (r = None <-> ~ same_set (dfa_alphabet d1) (dfa_alphabet d2)) /\
    forall d, r = Some d -> dfa_valid d /\ dfa_alphabet d = dfa_alphabet d1 /\
                            forall w, dfa_lang d w <-> P (dfa_lang d1 w) (dfa_lang d2 w).
Proof.
  intros Hf Hext Hff V1 V2.
  destruct (alphabet_equal_spec _ _ (dv_alphabet _ V1) (dv_alphabet _ V2)) as [Hs|Hs].
  - destruct (dfa_product_bool h f d1 d2 V1 V2 Hs) as (d & Hd & V & Ea & Hl). exists (Some d). split; auto.
    split; [split; [discriminate|tauto]|]. intros d' [= <-]. split; auto. split; auto. intros w.
    destruct (over_dec (dfa_alphabet d1) w) as [Ho|Ho].
    + destruct (dfa_lang_dec d1 w V1) as [b1 H1]. destruct (dfa_lang_dec d2 w V2) as [b2 H2].
      rewrite (Hl w Ho b1 b2 H1 H2), Hf. apply Hext; auto.
    + split.
      * intros H. apply dfa_lang_over in H. rewrite Ea in H. tauto.
      * intros H. exfalso. apply Hff. revert H. apply Hext.
        -- split; [tauto|]. intros H. apply dfa_lang_over in H. auto.
        -- split; [tauto|]. intros H. apply dfa_lang_over in H. apply Ho. eapply over_ext; [apply same_set_sym; eauto|auto].
  - exists None. rewrite dfa_product_none by auto. split; auto. split; [tauto|]. discriminate.
Qed.

Lemma dfa_invert_involutive d : dfa_invert (dfa_invert d) = d.
Proof.
  destruct d as [al ss i]. unfold dfa_invert; simpl. f_equal. rewrite map_map. rewrite <- (map_id ss) at 2.
  apply map_ext. intros [nm ini acc tr]; simpl. rewrite negb_involutive. auto.
Qed.

Lemma dfa_minimize_iso h dbg h' dbg' d1 d2 d1' d2' :
  dfa_valid d1 -> dfa_valid d2 -> same_set (dfa_alphabet d1) (dfa_alphabet d2) ->
  (forall w, dfa_lang d1 w <-> dfa_lang d2 w) ->
  dfa_minimize h dbg d1 = Ret d1' -> dfa_minimize h' dbg' d2 = Ret d2' ->
  length (dfa_states d1') = length (dfa_states d2') /\ exists f, dfa_iso d1' d2' f.
Proof.
  intros V1 V2 Hs Hl E1 E2.
  destruct (dfa_minimize_correct h dbg d1 V1) as (m1 & M1 & W1 & T1 & A1 & L1).
  destruct (dfa_minimize_correct h' dbg' d2 V2) as (m2 & M2 & W2 & T2 & A2 & L2).
  rewrite E1 in M1. rewrite E2 in M2. injection M1 as <-. injection M2 as <-.
  assert (Hs' : same_set (dfa_alphabet d1') (dfa_alphabet d2')) by (rewrite A1, A2; auto).
  assert (Hl' : forall w, dfa_lang d1' w <-> dfa_lang d2' w) by (intros; rewrite L1, L2; auto).
  split.
  - apply Nat.le_antisymm; apply dfa_trim_minimal; auto; [apply same_set_sym; auto|]. intros w. symmetry. auto.
  - apply dfa_trim_unique; auto.
Qed.

Lemma dfa_reachable_states_correct h d : dfa_valid d ->
  exists ss k, dfa_reachable_states h d = Ret ss /\ NoDup k /\ (forall q, In q k <-> dfa_reachable d q) /\
               Forall2 (fun q s => nth_error (dfa_states d) q = Some s) k ss.
Proof.
  intros V. unfold dfa_reachable_states. destruct (dfa_reachable_state_idx_correct h d V) as (r & Hr & Hnd & Hin).
  rewrite Hr. simpl. destruct (mapR_index_perm (dfa_states d) (ho h [11] r)) as (ss & Hss & HF).
  { intros q Hq. rewrite ho_In, Hin in Hq. apply dfa_reachable_range; auto. }
  exists ss, (ho h [11] r). split; auto. split; [apply ho_NoDup; auto|]. split; auto. intros q. rewrite ho_In. auto.
Qed.

Lemma dfa_unreachable_states_correct h d : dfa_valid d ->
  exists ss k, dfa_unreachable_states h d = Ret ss /\ NoDup k /\
               (forall q, In q k <-> q < length (dfa_states d) /\ ~ dfa_reachable d q) /\
               Forall2 (fun q s => nth_error (dfa_states d) q = Some s) k ss.
Proof.
  intros V. unfold dfa_unreachable_states. destruct (dfa_unreachable_state_idx_correct h d V) as (r & Hr & Hnd & Hin).
  rewrite Hr. simpl. destruct (mapR_index_perm (dfa_states d) (ho h [12] r)) as (ss & Hss & HF).
  { intros q Hq. rewrite ho_In, Hin in Hq. tauto. }
  exists ss, (ho h [12] r). split; auto. split; [apply ho_NoDup; auto|]. split; auto. intros q. rewrite ho_In. auto.
Qed.

(** [state_equivalence_classes]: the same partition, as states *)
Lemma dfa_state_equivalence_classes_correct h d : dfa_valid d ->
  exists css cs, dfa_state_equivalence_classes h d = Ret css /\ classes_spec d cs /\
    Forall2 (Forall2 (fun q s => nth_error (dfa_states d) q = Some s)) cs css.
Proof.
  intros V. unfold dfa_state_equivalence_classes.
  destruct (dfa_state_equivalence_classes_idx_correct d V) as (cs & Hcs & Hc). rewrite Hcs. simpl.
  destruct (mapR_total (fun '(i, class) => mapR (index (dfa_states d)) (ho h [15; i] class))
              (fun p ss => Forall2 (fun q s => nth_error (dfa_states d) q = Some s) (ho h [15; fst p] (snd p)) ss)
              (enumerate cs)) as (css & Hcss & HF).
  { intros [i cl] Hin. apply enumerate_In in Hin. apply nth_error_In in Hin. simpl. apply mapR_index_perm.
    intros q Hq. rewrite ho_In in Hq. apply (cl_cover _ _ Hc), in_concat_iff. eauto. }
  exists css, (map (fun p => ho h [15; fst p] (snd p)) (enumerate cs)). rewrite Hcss. split; auto. split.
  - set (cs' := map _ _).
    assert (HP : Forall2 (fun c c' => Permutation c' c) cs cs').
    { unfold cs'. apply Forall2_of_nth; [rewrite map_length, enumerate_length; auto|]. intros i x y Hx Hy.
      rewrite nth_error_map in Hy. destruct (nth_error (enumerate cs) i) as [p|] eqn:E; [|discriminate].
      injection Hy as <-. apply enumerate_nth in E as [<- E]. rewrite E in Hx. injection Hx as <-. apply ho_perm. }
    assert (Hconc : Permutation (concat cs') (concat cs)).
    { clear -HP. induction HP as [|x y l l' Hxy HP IH]; simpl; auto. apply Permutation_app; auto. }
    constructor.
    + eapply Permutation_NoDup; [symmetry; exact Hconc|apply (cl_nodup _ _ Hc)].
    + intros q. rewrite <- (cl_cover _ _ Hc). split; apply Permutation_in; auto. symmetry; auto.
    + apply Forall_forall. intros B HB. destruct (Forall2_In_r _ _ _ _ HP HB) as (C & HC & HCB). intros ->.
      apply Permutation_nil in HCB. subst. pose proof (cl_nonempty _ _ Hc) as Hne. rewrite Forall_forall in Hne. apply (Hne [] HC). auto.
    + intros p q Hp Hq. rewrite <- (cl_indist _ _ Hc p q Hp Hq). split.
      * intros (B & HB & H1 & H2). destruct (Forall2_In_r _ _ _ _ HP HB) as (C & HC & HCB). exists C.
        split; auto. split; eapply Permutation_in; eauto.
      * intros (B & HB & H1 & H2). destruct (Forall2_In_l _ _ _ _ HP HB) as (C & HC & HCB). exists C.
        split; auto. split; (eapply Permutation_in; [symmetry; exact HCB|auto]).
  - clear -HF. revert HF. generalize (enumerate cs). intros l. revert css. induction l as [|p l IH]; intros css HF; inv HF; simpl; constructor; auto.
Qed.
