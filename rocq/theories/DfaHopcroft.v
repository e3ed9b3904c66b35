(** * Hopcroft's partition refinement *)
From Coq Require Import List NArith Arith Bool Lia Permutation.
From Verif Require Import Base BaseLemmas Spec Search DfaModel DfaBasics.
Import ListNotations.

(** The target of the [c]-th transition of state [q] *)
Definition dl (d : dfa) (q c : nat) : nat :=
  match nth_error (dfa_states d) q with Some s => nth c (ds_transitions s) 0 | None => 0 end.

Lemma dl_nth d q c s : dfa_valid d -> nth_error (dfa_states d) q = Some s -> c < length (dfa_alphabet d) ->
  nth_error (ds_transitions s) c = Some (dl d q c).
Proof.
  intros V Hs Hc. unfold dl. rewrite Hs. apply nth_error_nth'. rewrite (dv_width _ V _ _ Hs). auto.
Qed.

Lemma dl_range d q c : dfa_valid d -> q < length (dfa_states d) -> c < length (dfa_alphabet d) ->
  dl d q c < length (dfa_states d).
Proof.
  intros V Hq Hc. destruct (nth_error_lt _ _ Hq) as [s Hs]. eapply (dv_range _ V); eauto.
  eapply nth_error_In. eapply dl_nth; eauto.
Qed.

Lemma dl_edge d q c a : dfa_valid d -> q < length (dfa_states d) -> nth_error (dfa_alphabet d) c = Some a ->
  dfa_edge d q a (dl d q c).
Proof.
  intros V Hq Hc. destruct (nth_error_lt _ _ Hq) as [s Hs]. exists c, s. split; auto. split; auto.
  eapply dl_nth; eauto. eapply nth_error_length; eauto.
Qed.

Lemma indist_dl d p q c : dfa_valid d -> p < length (dfa_states d) -> q < length (dfa_states d) ->
  c < length (dfa_alphabet d) -> dfa_indist d p q -> dfa_indist d (dl d p c) (dl d q c).
Proof.
  intros V Hp Hq Hc Hi w. destruct (nth_error_lt _ _ Hc) as [a Ha].
  rewrite <- (dfa_state_lang_cons d p a w _ (dv_alphabet _ V) (dl_edge d p c a V Hp Ha)).
  rewrite <- (dfa_state_lang_cons d q a w _ (dv_alphabet _ V) (dl_edge d q c a V Hq Ha)). apply Hi.
Qed.

Lemma hopcroft_preimage_spec d a c : dfa_valid d -> c < length (dfa_alphabet d) ->
  exists x, hopcroft_preimage d a c = Ret x /\ NoDup x /\
            forall q, In q x <-> q < length (dfa_states d) /\ In (dl d q c) a.
Proof.
  intros V Hc. unfold hopcroft_preimage.
  rewrite (mapR_pure _ (fun '(i, s) => (i, mem (nth c (ds_transitions s) 0) a))).
  - simpl. eexists; split; [reflexivity|]. split.
    + assert (Hnd : NoDup (map fst (map (fun '(i, s) => (i, mem (nth c (ds_transitions s) 0) a)) (enumerate (dfa_states d))))).
      { rewrite map_map. erewrite map_ext; [|intros [i s]; simpl; instantiate (1 := fst); reflexivity].
        rewrite enumerate_fst. apply seq_NoDup. }
      revert Hnd. generalize (map (fun '(i, s) => (i, mem (nth c (ds_transitions s) 0) a)) (enumerate (dfa_states d))).
      intros l. induction l as [|[i b] l IH]; simpl; intros Hnd; [constructor|]. inversion Hnd as [|? ? Hn Hnd']; subst.
      destruct b; simpl; auto. constructor; auto. intros Hin. apply Hn. apply in_map_iff in Hin as (x & Hx & Hin).
      apply filter_In in Hin as [Hin _]. apply in_map_iff. eauto.
    + intros q. rewrite in_map_iff. split.
      * intros ([i b] & Hq & Hin). simpl in Hq. subst. apply filter_In in Hin as [Hin Hb]. simpl in Hb. subst.
        apply in_map_iff in Hin as ([j s] & E & Hin). injection E as -> E. apply enumerate_In in Hin.
        split; [eapply nth_error_length; eauto|]. unfold dl. rewrite Hin. apply mem_In; auto.
      * intros [Hq Hin]. destruct (nth_error_lt _ _ Hq) as [s Hs]. exists (q, true). split; auto. apply filter_In. split; auto.
        apply in_map_iff. exists (q, s). split; [|apply enumerate_In; auto]. f_equal. apply mem_In.
        unfold dl in Hin. rewrite Hs in Hin. auto.
  - intros [i s] Hin. apply enumerate_In in Hin. unfold index. rewrite (dl_nth d i c s V Hin Hc). simpl.
    unfold dl. rewrite Hin. reflexivity.
Qed.

(** ** Splitting one block *)
Inductive split_result (x : list nat) (w : list (list nat)) (y : list nat) : list (list nat) -> list (list nat) -> Prop :=
| split_no : (forall p q, In p y -> In q y -> (In p x <-> In q x)) -> split_result x w y w [y]
| split_yes i df w' :
    i <> [] -> df <> [] -> NoDup i -> NoDup df ->
    (forall q, In q i <-> In q y /\ In q x) -> (forall q, In q df <-> In q y /\ ~ In q x) ->
    ((exists v rest, Permutation w (v :: rest) /\ (forall q, In q v <-> In q y) /\ Permutation w' (i :: df :: rest)) \/
     Permutation w' (i :: w) \/ Permutation w' (df :: w)) ->
    split_result x w y w' [i; df].

Lemma hopcroft_split_spec x w y : NoDup x -> NoDup y -> Forall (@NoDup nat) w ->
  exists w' ys, hopcroft_split x w y = Ret (w', ys) /\ split_result x w y w' ys.
Proof.
  intros Hx Hy Hw. unfold hopcroft_split.
  set (i := filter (fun q => mem q y) x). set (df := filter (fun q => negb (mem q x)) y).
  assert (Hi : forall q, In q i <-> In q y /\ In q x) by (intros q; unfold i; rewrite filter_In, mem_In; tauto).
  assert (Hdf : forall q, In q df <-> In q y /\ ~ In q x)
    by (intros q; unfold df; rewrite filter_In, negb_true_iff, mem_nIn; tauto).
  destruct (Nat.eqb_spec (length i) 0) as [Ei|Ei]; simpl.
  { exists w, [y]. split; auto. apply split_no. intros p q Hp Hq. apply length_zero_iff_nil in Ei.
    assert (forall q, In q y -> ~ In q x) by (intros r Hr Hr'; assert (In r i) as Hri by (apply Hi; auto); rewrite Ei in Hri; destruct Hri).
    split; intros; exfalso; firstorder. }
  destruct (Nat.eqb_spec (length df) 0) as [Ed|Ed]; simpl.
  { exists w, [y]. split; auto. apply split_no. intros p q Hp Hq. apply length_zero_iff_nil in Ed.
    assert (forall q, In q y -> In q x).
    { intros r Hr. destruct (In_dec r x); auto. assert (In r df) as Hrd by (apply Hdf; auto). rewrite Ed in Hrd; destruct Hrd. }
    split; auto. }
  assert (Hine : i <> []) by (intros E; rewrite E in Ei; auto).
  assert (Hdne : df <> []) by (intros E; rewrite E in Ed; auto).
  assert (Hndi : NoDup i) by (apply NoDup_filter; auto).
  assert (Hndd : NoDup df) by (apply NoDup_filter; auto).
  destruct (position (fun hs => hs_eqb hs y) w) as [idx|] eqn:Ep.
  - apply position_Some in Ep as (v & Hv & Heq & _).
    destruct (swap_remove_total idx w) as (v' & rest & Hv' & Hsr & Hp); [eapply nth_error_length; eauto|].
    rewrite Hv in Hv'. injection Hv' as <-. rewrite Hsr. simpl. do 2 eexists; split; [reflexivity|].
    apply split_yes; auto. left. exists v, rest. split; auto. split.
    + assert (Hndv : NoDup v) by (rewrite Forall_forall in Hw; apply Hw; eapply nth_error_In; eauto).
      destruct (hs_eqb_spec v y Hndv Hy); [auto|discriminate].
    + rewrite Permutation_app_comm. reflexivity.
  - destruct (length i <=? length df); simpl; do 2 eexists; (split; [reflexivity|]); apply split_yes; auto; right.
    + left. rewrite Permutation_app_comm. reflexivity.
    + right. rewrite Permutation_app_comm. reflexivity.
Qed.

(** ** Invariants *)
Definition same_block (P : list (list nat)) (p q : nat) : Prop := exists B, In B P /\ In p B /\ In q B.

Definition saturated (d : dfa) (S : list nat) : Prop :=
  forall p q, p < length (dfa_states d) -> q < length (dfa_states d) -> dfa_indist d p q -> In p S -> In q S.

Lemma indist_sym d p q : dfa_indist d p q -> dfa_indist d q p.
Proof. intros H w. symmetry. apply H. Qed.

Definition agree (d : dfa) (c : nat) (A : list nat) (p q : nat) : Prop := In (dl d p c) A <-> In (dl d q c) A.

Record hop_inv (d : dfa) (E : nat -> list (list nat)) (w P : list (list nat)) : Prop := {
  hi_nodup : NoDup (concat P);
  hi_cover : forall q, In q (concat P) <-> q < length (dfa_states d);
  hi_nonempty : Forall (fun B => B <> []) P;
  hi_w_nodup : Forall (@NoDup nat) w;
  hi_w_sat : Forall (saturated d) w;
  hi_sat : Forall (saturated d) P;
  hi_acc : forall p q, same_block P p q -> (dfa_accepting d p <-> dfa_accepting d q);
  hi_step : forall c p q, c < length (dfa_alphabet d) -> same_block P p q ->
              (forall A, In A w \/ In A (E c) -> agree d c A p q) -> same_block P (dl d p c) (dl d q c)
}.

Lemma NoDup_concat_block (P : list (list nat)) B : NoDup (concat P) -> In B P -> NoDup B.
Proof.
  induction P as [|C P IH]; simpl; [tauto|]. intros Hnd [->|Hin]; rewrite NoDup_app_iff in Hnd; [tauto|]. apply IH; tauto.
Qed.

Lemma concat_length_ge (P : list (list nat)) : Forall (fun B => B <> []) P -> length P <= length (concat P).
Proof.
  induction 1 as [|B P HB HP IH]; simpl; auto. rewrite app_length. destruct B; [congruence|simpl; lia].
Qed.

Lemma hop_blocks_le d E w P : hop_inv d E w P -> length P <= length (dfa_states d).
Proof.
  intros Hi. etransitivity; [apply concat_length_ge; apply (hi_nonempty _ _ _ _ Hi)|].
  rewrite <- (seq_length (length (dfa_states d)) 0). apply NoDup_incl_length; [apply (hi_nodup _ _ _ _ Hi)|].
  intros q Hq. apply (hi_cover _ _ _ _ Hi) in Hq. apply in_seq. lia.
Qed.

Definition hop_measure (d : dfa) (w P : list (list nat)) : nat := length w + 2 * (length (dfa_states d) - length P).

Lemma split_preserves d E x w y pre post w' ys :
  dfa_valid d -> saturated d x -> NoDup x ->
  hop_inv d E w (pre ++ y :: post) -> split_result x w y w' ys ->
  hop_inv d E w' (pre ++ ys ++ post) /\
  hop_measure d w' (pre ++ ys ++ post) <= hop_measure d w (pre ++ y :: post).
Proof.
  intros V Hsx Hndx Hi Hs. destruct Hs as [Hhom|i df w' Hine Hdne Hndi Hndd Hii Hdd Hw'].
  { split; auto. }
  assert (Hndy : NoDup y).
  { eapply NoDup_concat_block; [apply (hi_nodup _ _ _ _ Hi)|]. apply in_app_iff. right; left; auto. }
  assert (Hpy : Permutation (i ++ df) y).
  { apply NoDup_Permutation; auto.
    - apply NoDup_app_iff. split; auto. split; auto. intros q H1 H2. apply Hii in H1. apply Hdd in H2. tauto.
    - intros q. rewrite in_app_iff, Hii, Hdd. destruct (In_dec q x); tauto. }
  assert (Hpc : Permutation (concat (pre ++ [i; df] ++ post)) (concat (pre ++ y :: post))).
  { rewrite !concat_app. simpl. rewrite app_nil_r. apply Permutation_app_head.
    rewrite <- Hpy. reflexivity. }
  assert (Hsaty : saturated d y).
  { pose proof (hi_sat _ _ _ _ Hi) as HF. rewrite Forall_forall in HF. apply HF. apply in_app_iff. right; left; auto. }
  assert (Hsati : saturated d i).
  { intros p q Hp Hq Hpq Hin. apply Hii in Hin as [H1 H2]. apply Hii.
    split; [exact (Hsaty p q Hp Hq Hpq H1)|exact (Hsx p q Hp Hq Hpq H2)]. }
  assert (Hsatd : saturated d df).
  { intros p q Hp Hq Hpq Hin. apply Hdd in Hin as [H1 H2]. apply Hdd. split; [exact (Hsaty p q Hp Hq Hpq H1)|].
    intros Hx. apply H2. exact (Hsx q p Hq Hp (indist_sym _ _ _ Hpq) Hx). }
  assert (Hrefine : forall p q, same_block (pre ++ [i; df] ++ post) p q -> same_block (pre ++ y :: post) p q).
  { intros p q (B & HB & Hp & Hq). apply in_app_iff in HB as [HB|HB].
    - exists B. split; auto. apply in_app_iff; auto.
    - simpl in HB. destruct HB as [<-|[<-|HB]].
      + exists y. apply Hii in Hp as [Hp _]. apply Hii in Hq as [Hq _]. split; auto. apply in_app_iff. right; left; auto.
      + exists y. apply Hdd in Hp as [Hp _]. apply Hdd in Hq as [Hq _]. split; auto. apply in_app_iff. right; left; auto.
      + exists B. split; auto. apply in_app_iff. right; right; auto. }
  (* every old element of w is covered by the new ones *)
  assert (Hcov : forall c p q A, (forall A', In A' w' -> agree d c A' p q) -> In A w -> agree d c A p q).
  { intros c p q A Hall HA. destruct Hw' as [(v & rest & Hp & Hv & Hp')|[Hp'|Hp']].
    - assert (Hii' : agree d c i p q) by (apply Hall; rewrite Hp'; left; auto).
      assert (Hdd' : agree d c df p q) by (apply Hall; rewrite Hp'; right; left; auto).
      rewrite Hp in HA. destruct HA as [<-|HA].
      + unfold agree in *. rewrite !Hv. rewrite !Hii in Hii'. rewrite !Hdd in Hdd'.
        destruct (In_dec (dl d p c) x), (In_dec (dl d q c) x); tauto.
      + apply Hall. rewrite Hp'. right; right; auto.
    - apply Hall. rewrite Hp'. right; auto.
    - apply Hall. rewrite Hp'. right; auto. }
  assert (Hpart : In i w' \/ In df w').
  { destruct Hw' as [(v & rest & _ & _ & Hp')|[Hp'|Hp']]; rewrite Hp'; [left|left|right]; left; auto. }
  assert (Hall_w' : forall (Q : list nat -> Prop), Q i -> Q df -> Forall Q w -> Forall Q w').
  { intros Q Qi Qd HF. rewrite Forall_forall in *. intros A HA.
    destruct Hw' as [(v & rest & Hp & _ & Hp')|[Hp'|Hp']]; rewrite Hp' in HA; simpl in HA.
    - destruct HA as [<-|[<-|HA]]; auto. apply HF. rewrite Hp. right; auto.
    - destruct HA as [<-|HA]; auto.
    - destruct HA as [<-|HA]; auto. }
  assert (Hi' : hop_inv d E w' (pre ++ [i; df] ++ post)).
  { constructor.
    - eapply Permutation_NoDup; [symmetry; exact Hpc|apply (hi_nodup _ _ _ _ Hi)].
    - intros q. rewrite <- (hi_cover _ _ _ _ Hi). split; apply Permutation_in; [|symmetry]; auto.
    - pose proof (hi_nonempty _ _ _ _ Hi) as HF. apply Forall_app in HF as [H1 H2]. inv H2.
      apply Forall_app. split; auto. simpl. constructor; auto.
    - apply Hall_w'; auto. apply (hi_w_nodup _ _ _ _ Hi).
    - apply Hall_w'; auto. apply (hi_w_sat _ _ _ _ Hi).
    - pose proof (hi_sat _ _ _ _ Hi) as HF. apply Forall_app in HF as [H1 H2]. inv H2.
      apply Forall_app. split; auto. simpl. constructor; auto.
    - intros p q Hpq. apply (hi_acc _ _ _ _ Hi); auto.
    - intros c p q Hc Hpq Hag.
      assert (Hsb : same_block (pre ++ y :: post) (dl d p c) (dl d q c)).
      { apply (hi_step _ _ _ _ Hi); auto. intros A [HA|HA].
        - apply Hcov; auto.
        - apply Hag; auto. }
      destruct Hsb as (B & HB & Hp & Hq). apply in_app_iff in HB as [HB|[<-|HB]].
      + exists B. split; auto. apply in_app_iff; auto.
      + assert (Hx : In (dl d p c) x <-> In (dl d q c) x).
        { destruct Hpart as [Hpart|Hpart]; assert (Ha := Hag _ (or_introl Hpart)); unfold agree in Ha.
          - rewrite !Hii in Ha. tauto.
          - rewrite !Hdd in Ha. destruct (In_dec (dl d p c) x), (In_dec (dl d q c) x); tauto. }
        destruct (In_dec (dl d p c) x) as [Hpx|Hpx].
        * exists i. split; [apply in_app_iff; right; left; auto|]. rewrite !Hii. tauto.
        * exists df. split; [apply in_app_iff; right; right; left; auto|]. rewrite !Hdd. tauto.
      + exists B. split; auto. apply in_app_iff. right; right; right; auto. }
  split; auto.
  pose proof (hop_blocks_le _ _ _ _ Hi') as Hle. unfold hop_measure.
  rewrite !app_length in *. simpl in *.
  assert (length w' = S (length w)).
  { destruct Hw' as [(v & rest & Hp & _ & Hp')|[Hp'|Hp']]; rewrite (Permutation_length Hp'); simpl; auto.
    rewrite (Permutation_length Hp). auto. }
  lia.
Qed.

Definition homogeneous (x B : list nat) : Prop := forall p q, In p B -> In q B -> (In p x <-> In q x).

Lemma split_all_preserves d E x : dfa_valid d -> saturated d x -> NoDup x -> forall p pre w,
  hop_inv d E w (pre ++ p) -> Forall (homogeneous x) pre ->
  exists w' p', hopcroft_split_all x w p = Ret (w', p') /\ hop_inv d E w' (pre ++ p') /\
                Forall (homogeneous x) (pre ++ p') /\ hop_measure d w' (pre ++ p') <= hop_measure d w (pre ++ p).
Proof.
  intros V Hs Hnd. induction p as [|y p IH]; intros pre w Hi Hh; simpl.
  - exists w, []. split; auto. rewrite app_nil_r in *. auto.
  - assert (Hndy : NoDup y).
    { eapply NoDup_concat_block; [apply (hi_nodup _ _ _ _ Hi)|]. apply in_app_iff. right; left; auto. }
    destruct (hopcroft_split_spec x w y Hnd Hndy (hi_w_nodup _ _ _ _ Hi)) as (w1 & ys & He & Hsr).
    rewrite He. simpl. destruct (split_preserves d E x w y pre p w1 ys V Hs Hnd Hi Hsr) as [Hi1 Hm1].
    destruct (IH (pre ++ ys) w1) as (w2 & p2 & He2 & Hi2 & Hh2 & Hm2).
    { rewrite <- app_assoc. auto. }
    { apply Forall_app. split; auto. destruct Hsr as [Hhom|i df w' _ _ _ _ Hii Hdd _].
      - constructor; auto.
      - constructor; [|constructor; auto]; intros q1 q2 H1 H2.
        + apply Hii in H1, H2. tauto.
        + apply Hdd in H1, H2. tauto. }
    rewrite He2. simpl. exists w2, (ys ++ p2). split; auto. rewrite <- !app_assoc in *. split; auto. split; auto. lia.
Qed.

Lemma preimage_saturated d a c x : dfa_valid d -> c < length (dfa_alphabet d) -> saturated d a ->
  (forall q, In q x <-> q < length (dfa_states d) /\ In (dl d q c) a) -> saturated d x.
Proof.
  intros V Hc Ha Hx p q Hp Hq Hpq Hin. apply Hx in Hin as [_ Hin]. apply Hx. split; auto.
  apply (Ha (dl d p c) (dl d q c)); auto using dl_range, indist_dl.
Qed.

Lemma hopcroft_step_preserves d w P : dfa_valid d -> hop_inv d (fun _ => []) w P ->
  exists r, hopcroft_step d (w, P) = Ret r /\
    match r with
    | inl (w', P') => hop_inv d (fun _ => []) w' P' /\ hop_measure d w' P' < hop_measure d w P
    | inr P' => hop_inv d (fun _ => []) [] P'
    end.
Proof.
  intros V Hi. unfold hopcroft_step. destruct (pop w) as [[w0 a]|] eqn:Ep.
  2:{ apply pop_None in Ep. subst. eexists; split; [reflexivity|]. auto. }
  apply pop_Some in Ep. subst w.
  assert (Hsa : saturated d a).
  { pose proof (hi_w_sat _ _ _ _ Hi) as HF. rewrite Forall_forall in HF. apply HF, in_app_iff. right; left; auto. }
  set (m := length (dfa_alphabet d)).
  match goal with |- context[foldR ?f _ _] => set (F := f) end.
  destruct (foldR_total F
     (fun s xs => exists k, k <= m /\ xs = seq k (m - k) /\
          hop_inv d (fun c => if c <? k then [] else [a]) (fst s) (snd s) /\
          hop_measure d (fst s) (snd s) <= hop_measure d w0 P) (seq 0 m) (w0, P)) as ([w' P'] & He & k & Hk & Hxs & Hi' & Hm').
  - intros [w1 P1] c cs (k & Hk & Hxs & Hi1 & Hm1). simpl in Hi1, Hm1.
    destruct (m - k) as [|mk] eqn:Emk; simpl in Hxs; [discriminate|]. injection Hxs as -> ->.
    assert (Hkm : k < m) by lia.
    destruct (hopcroft_preimage_spec d a k V Hkm) as (x & Hx & Hndx & Hxin).
    assert (Hsx : saturated d x) by (eapply preimage_saturated; eauto).
    unfold F. rewrite Hx. simpl.
    destruct (split_all_preserves d _ x V Hsx Hndx P1 [] w1 Hi1) as (w2 & P2 & He2 & Hi2 & Hh2 & Hm2); [constructor|].
    simpl in *. rewrite He2. eexists; split; [reflexivity|]. exists (S k). split; auto. split; [f_equal; lia|]. simpl. split; [|lia].
    destruct Hi2 as [I1 I2 I3 I4 I5 I6 I7 I8]. constructor; auto.
    intros c p q Hc Hsb Hag. apply I8; auto. intros A [HA|HA]; [apply Hag; auto|].
    destruct (Nat.eq_dec c k) as [->|Hne].
    + rewrite Nat.ltb_irrefl in HA. destruct HA as [<-|[]]. unfold agree.
      destruct Hsb as (B & HB & Hp & Hq). rewrite Forall_forall in Hh2. specialize (Hh2 B HB p q Hp Hq).
      rewrite !Hxin in Hh2.
      assert (p < length (dfa_states d)) by (apply I2, in_concat_iff; eauto).
      assert (q < length (dfa_states d)) by (apply I2, in_concat_iff; eauto). tauto.
    + apply Hag. right. destruct (Nat.ltb_spec c k); [destruct HA|]. destruct (Nat.ltb_spec c (S k)); [lia|auto].
  - exists 0. split; [lia|]. split; [f_equal; lia|]. simpl. split; auto.
    destruct Hi as [I1 I2 I3 I4 I5 I6 I7 I8]. constructor; auto.
    + apply Forall_app in I4. tauto.
    + apply Forall_app in I5. tauto.
    + intros c p q Hc Hsb Hag. apply I8; auto. intros A [HA|[]]. apply Hag. apply in_app_iff in HA as [HA|HA]; auto.
  - rewrite He. simpl. eexists; split; [reflexivity|].
    assert (k = m) as -> by (destruct (m - k) eqn:Emk; simpl in Hxs; [lia|discriminate]).
    simpl in Hi', Hm'. split.
    + destruct Hi' as [I1 I2 I3 I4 I5 I6 I7 I8]. constructor; auto.
      intros c p q Hc Hsb Hag. apply I8; auto. intros A [HA|HA]; [apply Hag; auto|].
      fold m in Hc. apply Nat.ltb_lt in Hc. rewrite Hc in HA. destruct HA.
    + unfold hop_measure in *. rewrite app_length. simpl. lia.
Qed.

(** ** The result *)
Record classes_spec (d : dfa) (cs : list (list nat)) : Prop := {
  cl_nodup : NoDup (concat cs);
  cl_cover : forall q, In q (concat cs) <-> q < length (dfa_states d);
  cl_nonempty : Forall (fun B => B <> []) cs;
  cl_indist : forall p q, p < length (dfa_states d) -> q < length (dfa_states d) ->
                          (same_block cs p q <-> dfa_indist d p q)
}.

Lemma hop_inv_done d P : dfa_valid d -> hop_inv d (fun _ => []) [] P -> classes_spec d P.
Proof.
  intros V Hi. constructor.
  - apply (hi_nodup _ _ _ _ Hi).
  - apply (hi_cover _ _ _ _ Hi).
  - apply (hi_nonempty _ _ _ _ Hi).
  - intros p q Hp Hq. split.
    + intros Hsb w. revert p q Hp Hq Hsb. induction w as [|a w IH]; intros p q Hp Hq Hsb.
      * rewrite !dfa_state_lang_nil. apply (hi_acc _ _ _ _ Hi); auto.
      * destruct (In_dec a (dfa_alphabet d)) as [Ha|Ha].
        -- apply In_nth_error in Ha as [c Hc]. assert (Hcl := nth_error_length _ _ _ Hc).
           rewrite (dfa_state_lang_cons d p a w _ (dv_alphabet _ V) (dl_edge d p c a V Hp Hc)).
           rewrite (dfa_state_lang_cons d q a w _ (dv_alphabet _ V) (dl_edge d q c a V Hq Hc)).
           apply IH; try (apply dl_range; auto). apply (hi_step _ _ _ _ Hi); auto. intros A [[]|[]].
        -- split; intros Hl; apply dfa_state_lang_over in Hl; inv Hl; tauto.
    + intros Hd. rewrite <- (hi_cover _ _ _ _ Hi), in_concat_iff in Hp. destruct Hp as (B & HB & HpB).
      pose proof (hi_sat _ _ _ _ Hi) as HF. rewrite Forall_forall in HF.
      exists B. split; auto. split; auto. apply (HF B HB p q); auto.
      rewrite <- (hi_cover _ _ _ _ Hi), in_concat_iff. eauto.
Qed.

Lemma finals_spec (states : list dfa_state) (f : nat * bool -> bool) (g : bool -> bool) :
  (forall x, f x = g (snd x)) ->
  let l := map fst (filter f (map (fun '(i, s) => (i, ds_accepting s)) (enumerate states))) in
  NoDup l /\ forall q, In q l <-> exists s, nth_error states q = Some s /\ g (ds_accepting s) = true.
Proof.
  intros Hf l. unfold l. split.
  - assert (Hnd : NoDup (map fst (map (fun '(i, s) => (i, ds_accepting s)) (enumerate states)))).
    { rewrite map_map. erewrite map_ext; [|intros [i s]; simpl; instantiate (1 := fst); reflexivity].
      rewrite enumerate_fst. apply seq_NoDup. }
    revert Hnd. generalize (map (fun '(i, s) => (i, ds_accepting s)) (enumerate states)). intros l'.
    induction l' as [|x l' IH]; simpl; intros Hnd; [constructor|]. inversion Hnd as [|? ? Hn Hnd']; subst.
    destruct (f x); simpl; auto. constructor; auto. intros Hin. apply Hn. apply in_map_iff in Hin as (y & Hy & Hin).
    apply filter_In in Hin as [Hin _]. rewrite <- Hy. apply in_map; auto.
  - intros q. rewrite in_map_iff. split.
    + intros ([i b] & Hq & Hin). simpl in Hq. subst. apply filter_In in Hin as [Hin Hb]. rewrite Hf in Hb. simpl in Hb.
      apply in_map_iff in Hin as ([j s] & E & Hin). injection E as -> <-. rewrite enumerate_In in Hin. eauto.
    + intros (s & Hs & Hg). exists (q, ds_accepting s). split; auto. apply filter_In. rewrite Hf. split; auto.
      apply in_map_iff. exists (q, s). split; auto. apply enumerate_In; auto.
Qed.

Theorem dfa_state_equivalence_classes_idx_correct d : dfa_valid d ->
  exists cs, dfa_state_equivalence_classes_idx d = Ret cs /\ classes_spec d cs.
Proof.
  intros V. unfold dfa_state_equivalence_classes_idx.
  destruct (finals_spec (dfa_states d) snd (fun b => b)) as [Hndf Hfin]; [auto|].
  destruct (finals_spec (dfa_states d) (fun x => negb (snd x)) negb) as [Hndn Hnon]; [auto|]. simpl in *.
  set (finals := map fst (filter snd (map (fun '(i, s) => (i, ds_accepting s)) (enumerate (dfa_states d))))) in *.
  set (nonfinals := map fst (filter (fun x => negb (snd x)) (map (fun '(i, s) => (i, ds_accepting s)) (enumerate (dfa_states d))))) in *.
  pose proof (dv_initial _ V) as Hini.
  assert (Hcover : forall q, In q finals \/ In q nonfinals <-> q < length (dfa_states d)).
  { intros q. rewrite Hfin, Hnon. split.
    - intros [(s & Hs & _)|(s & Hs & _)]; eapply nth_error_length; eauto.
    - intros Hq. destruct (nth_error_lt _ _ Hq) as [s Hs]. destruct (ds_accepting s) eqn:Ea; [left|right]; exists s; split; auto.
      rewrite Ea; auto. }
  assert (Hdisj : forall q, In q finals -> ~ In q nonfinals).
  { intros q H1 H2. apply Hfin in H1 as (s & Hs & Ha). apply Hnon in H2 as (s' & Hs' & Ha').
    rewrite Hs in Hs'. injection Hs' as <-. rewrite Ha in Ha'. discriminate. }
  assert (Hacc : forall q, dfa_accepting d q <-> In q finals).
  { intros q. rewrite Hfin. unfold dfa_accepting. tauto. }
  assert (Hone : forall cs, NoDup cs -> (forall q, In q cs <-> q < length (dfa_states d)) ->
             ((forall q, q < length (dfa_states d) -> dfa_accepting d q) \/ forall q, ~ dfa_accepting d q) ->
             classes_spec d [cs]).
  { intros cs Hnd Hc Hall. constructor.
    - simpl. rewrite app_nil_r. auto.
    - simpl. rewrite app_nil_r. auto.
    - constructor; auto. intros E. rewrite E in Hc. apply (Hc (dfa_initial d)); auto.
    - intros p q Hp Hq. split.
      + intros _ w. destruct (over_dec (dfa_alphabet d) w) as [Ho|Ho].
        * destruct (dfa_path_total d p w V Hp Ho) as (p' & P1 & R1). destruct (dfa_path_total d q w V Hq Ho) as (q' & P2 & R2).
          destruct Hall as [Hall|Hall].
          -- split; intros _; [exists q'|exists p']; auto.
          -- split; intros (r & _ & Ha); exfalso; eapply Hall; eauto.
        * split; intros Hl; apply dfa_state_lang_over in Hl; tauto.
      + intros _. exists cs. split; [left; auto|]. rewrite !Hc. auto. }
  destruct (Nat.eqb_spec (length finals) 0) as [Ef|Ef].
  { eexists; split; [reflexivity|]. apply length_zero_iff_nil in Ef. apply Hone; auto.
    - intros q. rewrite <- Hcover, Ef. simpl. tauto.
    - right. intros q. rewrite Hacc, Ef. auto. }
  destruct (Nat.eqb_spec (length nonfinals) 0) as [En|En].
  { eexists; split; [reflexivity|]. apply length_zero_iff_nil in En. apply Hone; auto.
    - intros q. rewrite <- Hcover, En. simpl. tauto.
    - left. intros q Hq. rewrite Hacc. apply Hcover in Hq. rewrite En in Hq. simpl in Hq. tauto. }
  assert (Hsatf : saturated d finals).
  { intros p q Hp Hq Hpq. rewrite <- !Hacc, <- !dfa_state_lang_nil. apply Hpq. }
  assert (Hsatn : saturated d nonfinals).
  { intros p q Hp Hq Hpq Hin. apply Hcover in Hq as [Hqf|Hqn]; auto. exfalso. apply (Hdisj p); auto.
    apply (Hsatf q p); auto using indist_sym. apply Hcover; auto. }
  assert (Hinit : hop_inv d (fun _ => []) [finals; nonfinals] [finals; nonfinals]).
  { constructor.
    - simpl. rewrite app_nil_r. apply NoDup_app_iff. auto.
    - intros q. simpl. rewrite app_nil_r, in_app_iff. auto.
    - constructor; [intros E; rewrite E in Ef; auto|]. constructor; auto. intros E; rewrite E in En; auto.
    - repeat constructor; auto.
    - repeat constructor; auto.
    - repeat constructor; auto.
    - intros p q (B & [<-|[<-|[]]] & Hp & Hq); rewrite !Hacc.
      + tauto.
      + split; intros Hx; exfalso; eapply Hdisj; eauto.
    - intros c p q Hc (B & HB & HpB & HqB) Hag.
      assert (Hr : p < length (dfa_states d) /\ q < length (dfa_states d)).
      { rewrite <- !Hcover. destruct HB as [<-|[<-|[]]]; auto. }
      assert (H1 := Hag finals (or_introl (or_introl eq_refl))). unfold agree in H1.
      destruct (In_dec (dl d p c) finals) as [Hf|Hf].
      + exists finals. split; [left; auto|]. tauto.
      + exists nonfinals. split; [right; left; auto|].
        assert (Hp' : dl d p c < length (dfa_states d)) by (apply dl_range; tauto).
        assert (Hq' : dl d q c < length (dfa_states d)) by (apply dl_range; tauto).
        apply Hcover in Hp', Hq'. tauto. }
  destruct (while_total (fun s => hop_inv d (fun _ => []) (fst s) (snd s)) (fun P => hop_inv d (fun _ => []) [] P)
              (fun s => hop_measure d (fst s) (snd s)) (hopcroft_step d) (2 * length (dfa_states d))
              ([finals; nonfinals], [finals; nonfinals])) as (cs & Hcs & Hres); auto.
  - intros [w P] Hi. simpl in Hi. destruct (hopcroft_step_preserves d w P V Hi) as (r & Hr & Hp). exists r. split; auto.
    destruct r as [[w' P']|P']; auto.
  - unfold hop_measure. simpl.
    assert (Hle := hop_blocks_le _ _ _ _ Hinit). simpl in Hle.
    pose proof (pow2_gt (length (dfa_states d) + (length (dfa_states d) + 0))). lia.
  - exists cs. split; auto. apply hop_inv_done; auto.
Qed.
