(** * Proofs about client programs *)
From Coq Require Import List NArith Arith Bool Lia Decimal.
From Verif Require Import Base BaseLemmas Spec TableSpec LayoutSpec DfaModel NfaModel RegexModel ValidateModel ParserModel TableModel
  RegexParserModel ApiModel DfaBasics DfaEquiv NfaBasics NfaUnion NfaProduct NfaEps RegexProofs ParserBasics FaParserProofs
  ValidateProofs TableProofs RegexParserProofs DfaMinimize DfaFinal
  Prop_Dfa Prop_Nfa Prop_Regex Prop_Validate.
Import ListNotations.

(** ** Legal names *)
Lemma uint_str_digits u : Forall (fun c => (48 <= c /\ c <= 57)%N) (uint_str u).
Proof. induction u; simpl; constructor; auto; lia. Qed.
Lemma digit_no_end c : (48 <= c /\ c <= 57)%N -> token_end c = false.
Proof.
  intros H. apply not_true_iff_false. rewrite token_end_spec. unfold whitespace. lia.
Qed.
Lemma dec_nonempty i : dec i <> [].
Proof.
  unfold dec. destruct (Nat.to_uint i) eqn:E; simpl; try discriminate.
  exfalso. pose proof (DecimalNat.Unsigned.to_of (Nat.to_uint i)) as H. rewrite DecimalNat.Unsigned.of_to, E in H. discriminate.
Qed.
Lemma dec_legal i : legal_token (dec i).
Proof.
  apply legal_token_iff. split; [apply dec_nonempty|]. split.
  - intros c Hc. apply digit_no_end. pose proof (uint_str_digits (Nat.to_uint i)) as H. rewrite Forall_forall in H. auto.
  - pose proof (uint_str_digits (Nat.to_uint i)) as H. fold (dec i) in H. apply mem_nIn. intros Hin.
    simpl in Hin. destruct Hin as [E|[E|[E|[E|[E|[]]]]]]; rewrite <- E in H; inversion H; subst; lia.
Qed.
Lemma pair_name_legal a b : legal_token a -> legal_token b -> legal_token (pair_name a b).
Proof.
  rewrite !legal_token_iff. intros (_ & Ha & _) (_ & Hb & _). unfold pair_name. split; [discriminate|]. split.
  - intros c Hc. simpl in Hc. destruct Hc as [<- |Hc]; [reflexivity|]. apply in_app_iff in Hc as [Hc|[<- |Hc]]; auto.
    apply in_app_iff in Hc as [Hc|[<- |[]]]; auto.
  - apply mem_nIn. intros Hin. simpl in Hin. destruct Hin as [E|[E|[E|[E|[E|[]]]]]]; discriminate E.
Qed.
Lemma s_new_legal : legal_token s_new. Proof. apply legal_tokenb_legal. reflexivity. Qed.
Lemma none_name_legal : legal_token none_name. Proof. apply legal_tokenb_legal. reflexivity. Qed.
Lemma chosen_legal names nm : chosen_name names s_new nm -> legal_token nm.
Proof. intros (_ & [-> |(_ & i & -> & _)]); [apply s_new_legal|apply dec_legal]. Qed.

(** ** Names and alphabets of the results are legal again *)
Definition dnames_legal (d : dfa) : Prop := Forall (fun s => legal_token (ds_name s)) (dfa_states d).
Definition nnames_legal (n : nfa) : Prop := Forall (fun s => legal_token (ns_name s)) (nfa_states n).

Lemma dnames_legal_map d : dnames_legal d <-> Forall legal_token (map ds_name (dfa_states d)).
Proof. unfold dnames_legal. rewrite Forall_map. reflexivity. Qed.
Lemma nnames_legal_map n : nnames_legal n <-> Forall legal_token (map ns_name (nfa_states n)).
Proof. unfold nnames_legal. rewrite Forall_map. reflexivity. Qed.

Lemma dnames_nth d : dnames_legal d <-> forall i s, nth_error (dfa_states d) i = Some s -> legal_token (ds_name s).
Proof.
  unfold dnames_legal. rewrite Forall_forall. split; [intros H i s Hi; apply H; eapply nth_error_In; eauto|].
  intros H s Hs. apply In_nth_error in Hs as [i Hi]. eauto.
Qed.
Lemma nnames_nth n : nnames_legal n <-> forall i s, nth_error (nfa_states n) i = Some s -> legal_token (ns_name s).
Proof.
  unfold nnames_legal. rewrite Forall_forall. split; [intros H i s Hi; apply H; eapply nth_error_In; eauto|].
  intros H s Hs. apply In_nth_error in Hs as [i Hi]. eauto.
Qed.

Lemma dfa_restriction_legal k d d' : dfa_restriction k d d' -> dnames_legal d -> dnames_legal d'.
Proof.
  intros (_ & _ & HF) H. rewrite dnames_nth in H. unfold dnames_legal. induction HF as [|q s' k0 l (s & Hs & En & _) HF IH]; constructor; auto.
  rewrite En. eauto.
Qed.
Lemma nfa_restriction_legal k n n' : nfa_restriction k n n' -> nnames_legal n -> nnames_legal n'.
Proof.
  intros (_ & _ & HF) H. rewrite nnames_nth in H. unfold nnames_legal. induction HF as [|q s' k0 l (s & Hs & En & _) HF IH]; constructor; auto.
  rewrite En. eauto.
Qed.

Lemma dfa_remove_legal h dbg d d' : dfa_valid d -> dfa_remove_unreachable_states h dbg d = Ret d' -> dnames_legal d -> dnames_legal d'.
Proof.
  intros V E. destruct (C17_dfa_remove_unreachable h dbg d V) as (d1 & E1 & _ & (k & _ & _ & R) & _).
  rewrite E in E1. injection E1 as <-. apply (dfa_restriction_legal k d d' R).
Qed.
Lemma dfa_merge_legal h dbg d d' : dfa_valid d -> dfa_merge_nondistinguishable_states h dbg d = Ret d' -> dnames_legal d -> dnames_legal d'.
Proof.
  intros V E H. destruct (C20_merge h dbg d V) as (d1 & k & E1 & _ & _ & _ & _ & _ & Hl & Hk & _).
  rewrite E in E1. injection E1 as <-. rewrite dnames_nth in *. intros i s' Hs'.
  destruct (nth_error_lt k i) as [q Hq]; [rewrite Hl; eapply nth_error_length; eauto|].
  destruct (Hk i q Hq) as (s & s1 & H1 & H2 & H3 & _). rewrite Hs' in H2. injection H2 as <-. rewrite H3. eauto.
Qed.
Lemma dfa_minimize_legal h dbg d d' : dfa_valid d -> dfa_minimize h dbg d = Ret d' -> dnames_legal d -> dnames_legal d'.
Proof.
  intros V E H. unfold dfa_minimize in E.
  destruct (C17_dfa_remove_unreachable h dbg d V) as (d1 & E1 & V1 & _). rewrite E1 in E. cbn [bind] in E.
  apply (dfa_merge_legal h dbg d1); auto. apply (dfa_remove_legal h dbg d); auto.
Qed.
Lemma dfa_product_legal h d1 d2 comb d : dfa_valid d1 -> dfa_valid d2 -> dfa_product_construction h d1 d2 comb = Ret (Some d) ->
  dnames_legal d1 -> dnames_legal d2 -> dnames_legal d.
Proof.
  intros V1 V2 E L1 L2. destruct (alphabet_equal_spec _ _ (dv_alphabet _ V1) (dv_alphabet _ V2)) as [Hs|Hs].
  2:{ rewrite dfa_product_none in E by auto. discriminate. }
  destruct (dfa_product_construction_correct h d1 d2 comb V1 V2 Hs) as (d' & ks & E' & V & HP).
  rewrite E in E'. injection E' as <-. rewrite dnames_nth in *. intros i s Hi.
  destruct (nth_error_lt ks i) as [[q1 q2] Hq]; [rewrite <- (dp_length _ _ _ _ _ HP); eapply nth_error_length; eauto|].
  destruct (dp_names _ _ _ _ _ HP) as [Hn|[_ Hn]].
  - rewrite (Hn _ _ _ Hq Hi). unfold dfa_pair_name. simpl.
    assert (Hp : In (q1, q2) ks) by (eapply nth_error_In; eauto). apply (dp_reach _ _ _ _ _ HP) in Hp as (w & P1 & P2).
    apply dfa_path_range in P1; [|auto|apply dv_initial; auto]. apply dfa_path_range in P2; [|auto|apply dv_initial; auto].
    destruct (nth_error_lt _ _ P1) as [s1 H1]. destruct (nth_error_lt _ _ P2) as [s2 H2]. rewrite H1, H2.
    apply pair_name_legal; eauto.
  - destruct (Hn s) as (j & _ & ->); [eapply nth_error_In; eauto|]. apply dec_legal.
Qed.
Lemma nfa_remove_legal h dbg n n' : nfa_valid n -> nfa_remove_unreachable_states h dbg n = Ret n' -> nnames_legal n -> nnames_legal n'.
Proof.
  intros V E. destruct (C17_nfa_remove_unreachable h dbg n V) as (n1 & E1 & _ & (k & _ & _ & R) & _).
  rewrite E in E1. injection E1 as <-. apply (nfa_restriction_legal k n n' R).
Qed.
Lemma nfa_eps_legal h dbg n n' : nfa_valid n -> nfa_remove_epsilon_moves h dbg n = Ret n' -> nnames_legal n -> nnames_legal n'.
Proof.
  intros V E H. destruct (nfa_has_epsilon_moves n) eqn:Eh.
  - destruct (nfa_remove_epsilon_moves_correct h dbg n V Eh) as (n1 & k & E1 & R). rewrite E in E1. injection E1 as <-.
    assert (Hk : forall q, q < length (nfa_states n) -> legal_token (name_of n q)).
    { intros q Hq. unfold name_of. destruct (nth_error_lt _ _ Hq) as [s Hs]. rewrite Hs. rewrite nnames_nth in H. eauto. }
    rewrite nnames_legal_map. destruct (er_cases _ _ _ R) as [(_ & Hin & _ & Hm & _)|(_ & Hin & Hd & _ & nm & Hm & Hn1 & Hn2)]; rewrite Hm.
    + apply Forall_map, Forall_forall. intros q Hq. apply Hk, Hin; auto.
    + apply Forall_app. split.
      * apply Forall_map, Forall_forall. intros q Hq. apply Hk, Hin; auto.
      * constructor; auto. pose proof (nv_initial _ V) as Hi. destruct (Hd _ Hi) as [Hd'|Hd'].
        -- apply Hin in Hd' as [_ Hd']. exact (chosen_legal _ _ (Hn2 Hd')).
        -- rewrite (Hn1 Hd'). apply Hk; auto.
  - destruct (C30_remove_epsilon_moves h dbg n V) as (n1 & E1 & _ & _ & _ & _ & _ & Hf). rewrite E in E1. injection E1 as <-.
    apply nfa_has_epsilon_moves_spec in Eh. rewrite (Hf Eh). exact H.
Qed.
Lemma nfa_optimize_legal h dbg n n' : nfa_valid n -> nfa_optimize h dbg n = Ret n' -> nnames_legal n -> nnames_legal n'.
Proof.
  intros V E H. unfold nfa_optimize in E.
  destruct (C17_nfa_remove_unreachable h dbg n V) as (n1 & E1 & V1 & _). rewrite E1 in E. cbn [bind] in E.
  apply (nfa_eps_legal h dbg n1); auto. apply (nfa_remove_legal h dbg n); auto.
Qed.
Lemma nfa_union_legal n1 n2 n : nfa_valid n1 -> nfa_valid n2 -> nfa_union n1 n2 = Ret (inl n) ->
  nnames_legal n1 -> nnames_legal n2 -> nnames_legal n.
Proof.
  intros V1 V2 E L1 L2. destruct (alphabet_equal_spec _ _ (nv_alphabet _ V1) (nv_alphabet _ V2)) as [Hs|Hs].
  2:{ rewrite nfa_union_none in E by auto. discriminate. }
  destruct (nfa_union_struct n1 n2 V1 V2 Hs) as (n' & E' & U). rewrite E in E'. injection E' as <-.
  destruct (un_names _ _ _ U) as (nm & Hm & Hch). rewrite nnames_legal_map, Hm. apply Forall_app. split; [|constructor; auto; exact (chosen_legal _ _ Hch)].
  destruct (_ =? _).
  - rewrite map_app. apply Forall_app. rewrite nnames_legal_map in *. auto.
  - apply Forall_map, Forall_forall. intros. rewrite <- ?MessageSpec.dec_decimal. apply dec_legal.
Qed.
Lemma nfa_product_legal h n1 n2 comb n : nfa_valid n1 -> nfa_valid n2 -> nfa_product_construction h n1 n2 comb = Ret (Some n) ->
  nnames_legal n1 -> nnames_legal n2 -> nnames_legal n.
Proof.
  intros V1 V2 E L1 L2. destruct (alphabet_equal_spec _ _ (nv_alphabet _ V1) (nv_alphabet _ V2)) as [Hs|Hs].
  2:{ rewrite nfa_product_none in E by auto. discriminate. }
  destruct (nfa_product_construction_struct h n1 n2 comb V1 V2 Hs) as (n' & ks & E' & V & HP).
  rewrite E in E'. injection E' as <-. rewrite nnames_nth in *. intros i s Hi.
  destruct (nth_error_lt ks i) as [[q1 q2] Hq]; [rewrite <- (np_length _ _ _ _ _ HP); eapply nth_error_length; eauto|].
  destruct (np_names _ _ _ _ _ HP) as [Hn|[_ Hn]].
  - rewrite (Hn _ _ _ Hq Hi). unfold nfa_pair_name, onm, nfa_at. simpl.
    apply pair_name_legal.
    + destruct q1 as [q1|]; [|apply none_name_legal]. destruct (nth_error (nfa_states n1) q1) eqn:Eq; [eauto|apply none_name_legal].
    + destruct q2 as [q2|]; [|apply none_name_legal]. destruct (nth_error (nfa_states n2) q2) eqn:Eq; [eauto|apply none_name_legal].
  - destruct (Hn s) as (j & _ & ->); [eapply nth_error_In; eauto|]. apply dec_legal.
Qed.
Lemma nfa_to_dfa_legal h n d : nfa_valid n -> nfa_to_dfa h n = Ret d -> dnames_legal d.
Proof.
  intros V E. destruct (C15_nfa_to_dfa h n V) as (d1 & E1 & _ & _ & _ & Hn & _). rewrite E in E1. injection E1 as <-.
  apply dnames_nth. intros i s Hi. rewrite (Hn _ _ Hi), <- ?MessageSpec.dec_decimal. apply dec_legal.
Qed.
Lemma regex_to_nfa_legal h t : nnames_legal (regex_to_nfa h t).
Proof. rewrite nnames_legal_map, C36_names. apply Forall_map, Forall_forall. intros. rewrite <- ?MessageSpec.dec_decimal. apply dec_legal. Qed.

(** tables consist of legal tokens *)
Lemma sep_by_Forall {A} (sep : str -> Prop) (item : A -> str -> Prop) (P : A -> Prop) :
  (forall a u, item a u -> P a) -> forall l u, sep_by sep item l u -> Forall P l.
Proof. intros H l u S. induction S; constructor; eauto. Qed.

Lemma Forall2_transfer {A B} (R : A -> B -> Prop) (P : A -> Prop) (Q : B -> Prop) l l' :
  (forall a b, R a b -> P a -> Q b) -> Forall2 R l l' -> Forall P l -> Forall Q l'.
Proof. intros H HF. induction HF; intros HP; inversion HP; subst; constructor; eauto. Qed.

Lemma dfa_text_legal t u d : dfa_text t u -> dfa_denotes t d -> dfa_legal d.
Proof.
  intros (j0 & hd & j1 & body & j2 & tr & _ & _ & (b & ts & _ & _ & Hts) & _ & Hbody & _) (Ea & HF & _). split.
  - rewrite Ea. eapply sep_by_Forall; [|exact Hts]. intros a v (H & _); auto.
  - assert (HL : Forall (fun s => legal_token (pds_name s)) (pd_states t)).
    { eapply sep_by_Forall; [|exact Hbody]. intros s v (b0 & st & b1 & ts1 & _ & _ & _ & (a & x & _ & _ & _ & H) & _). auto. }
    eapply Forall2_transfer; [|exact HF|exact HL]. simpl. intros ps s (-> & _) H. exact H.
Qed.
Lemma nfa_text_legal t u n : nfa_text t u -> nfa_denotes t n -> nfa_legal n.
Proof.
  intros (j0 & hd & j1 & body & j2 & tr & _ & _ & (b & ts & _ & _ & Hts) & _ & Hbody & _) (Ea & HF & _). split.
  - rewrite Ea. assert (HH : Forall (fun e => match e with Element a => legal_token a | Eps => True end) (pn_head t)).
    { eapply sep_by_Forall; [|exact Hts]. intros [a|] v H; simpl in H; auto. destruct H; auto. }
    unfold elements. clear - HH. induction HH as [|[a|] l Hx HH IH]; simpl; auto.
  - assert (HL : Forall (fun s => legal_token (pns_name s)) (pn_states t)).
    { eapply sep_by_Forall; [|exact Hbody]. intros s v (b0 & st & b1 & ts1 & _ & _ & _ & (a & x & _ & _ & _ & H) & _). auto. }
    eapply Forall2_transfer; [|exact HF|exact HL]. simpl. intros ps s (-> & _) H. exact H.
Qed.

(** ** The invariant *)
Record dfa_ok (p : dfa_prog) (d : dfa) : Prop := {
  do_valid : dfa_valid d;
  do_symbol : forall a, In a (dfa_alphabet d) <-> dfa_prog_symbol p a;
  do_lang : dfa_prog_sets p -> forall w, dfa_lang d w <-> dfa_prog_lang p w;
  do_legal : dfa_prog_legal p -> dfa_legal d
}.
Record nfa_ok (p : nfa_prog) (n : nfa) : Prop := {
  no_valid : nfa_valid n;
  no_symbol : forall a, In a (nfa_alphabet n) <-> nfa_prog_symbol p a;
  no_lang : nfa_prog_sets p -> forall w, nfa_lang n w <-> nfa_prog_lang p w;
  no_legal : nfa_prog_legal p -> nfa_legal n
}.
Definition dfa_run_ok (p : dfa_prog) : Prop :=
  (dfa_prog_defined p /\ exists d, run_dfa p = Ret (Some d) /\ dfa_ok p d) \/ (~ dfa_prog_defined p /\ run_dfa p = Ret None).
Definition nfa_run_ok (p : nfa_prog) : Prop :=
  (nfa_prog_defined p /\ exists n, run_nfa p = Ret (Some n) /\ nfa_ok p n) \/ (~ nfa_prog_defined p /\ run_nfa p = Ret None).

Scheme dfa_prog_mut := Induction for dfa_prog Sort Prop
with nfa_prog_mut := Induction for nfa_prog Sort Prop.
Combined Scheme prog_ind from dfa_prog_mut, nfa_prog_mut.

Lemma dfa_text_unique t t' u : dfa_text t u -> dfa_text t' u -> t = t'.
Proof. rewrite <- !parse_dfa_iff. congruence. Qed.
Lemma nfa_text_unique t t' u : nfa_text t u -> nfa_text t' u -> t = t'.
Proof. rewrite <- !parse_nfa_iff. congruence. Qed.

Lemma elements_In head a : In a (elements head) <-> In (Element a) head.
Proof.
  unfold elements. rewrite in_flat_map. split.
  - intros ([x|] & H & []); subst; auto; contradiction.
  - intros H. exists (Element a). split; auto. left; auto.
Qed.

Lemma dfa_parse_ok u : dfa_run_ok (PDParse u).
Proof.
  unfold dfa_run_ok. cbn [dfa_prog_defined run_dfa]. unfold load_dfa.
  destruct (parse_dfa_total u) as [[t|] E]; rewrite E; cbn [obind bind].
  - apply parse_dfa_iff in E. destruct (dfa_try_from t) as [d|e] eqn:Et.
    + left. assert (W : dfa_well_formed t) by (apply C06_dfa_accepted_iff_well_formed; eauto).
      split; [eauto|]. exists d. split; auto. assert (D : dfa_denotes t d) by (apply C06_dfa_faithful; auto).
      constructor.
      * eapply C06_dfa_valid; eauto.
      * intros a. cbn [dfa_prog_symbol]. rewrite (proj1 D). split; eauto. intros (t' & H1 & H2).
        rewrite (dfa_text_unique _ _ _ E H1). auto.
      * intros _ w. cbn [dfa_prog_lang]. split; [eauto|]. intros (t' & d' & H1 & H2 & H3).
        rewrite <- (dfa_text_unique _ _ _ E H1) in H2. rewrite (dfa_denotes_unique t d d' W D H2); auto.
      * intros _. eapply dfa_text_legal; eauto.
    + right. split; auto. intros (t' & H1 & H2). rewrite <- (dfa_text_unique _ _ _ E H1) in H2.
      apply C06_dfa_accepted_iff_well_formed in H2 as [d Hd]. congruence.
  - right. split; auto. intros (t & H & _). apply parse_dfa_iff in H. congruence.
Qed.
Lemma nfa_parse_ok u : nfa_run_ok (PNParse u).
Proof.
  unfold nfa_run_ok. cbn [nfa_prog_defined run_nfa]. unfold load_nfa.
  destruct (parse_nfa_total u) as [[t|] E]; rewrite E; cbn [obind bind].
  - apply parse_nfa_iff in E. destruct (nfa_try_from t) as [n|e] eqn:Et.
    + left. assert (W : nfa_well_formed t) by (apply C07_nfa_accepted_iff_well_formed; eauto).
      split; [eauto|]. exists n. split; auto. assert (D : nfa_denotes t n) by (apply C07_nfa_faithful; auto).
      constructor.
      * eapply C07_nfa_valid; eauto.
      * intros a. cbn [nfa_prog_symbol]. rewrite (proj1 D), elements_In. split; eauto. intros (t' & H1 & H2).
        rewrite (nfa_text_unique _ _ _ E H1). auto.
      * intros _ w. cbn [nfa_prog_lang]. split; [eauto|]. intros (t' & n' & H1 & H2 & H3).
        rewrite <- (nfa_text_unique _ _ _ E H1) in H2. rewrite (nfa_denotes_unique t n n' W D H2); auto.
      * intros _. eapply nfa_text_legal; eauto.
    + right. split; auto. intros (t' & H1 & H2). rewrite <- (nfa_text_unique _ _ _ E H1) in H2.
      apply C07_nfa_accepted_iff_well_formed in H2 as [d Hd]. congruence.
  - right. split; auto. intros (t & H & _). apply parse_nfa_iff in H. congruence.
Qed.

Lemma first_occurrences_In (l : list str) a : In a (first_occurrences l) <-> In a l.
Proof.
  induction l as [|x l IH]; [simpl; tauto|]. cbn [first_occurrences]. simpl In. rewrite filter_In, IH.
  destruct (list_eqb_spec x a) as [->|H]; simpl; [tauto|]. split; tauto.
Qed.

Lemma regex_ok_of h t (p : nfa_prog) :
  (forall a, nfa_prog_symbol p a <-> In a (regex_graphemes t)) -> (forall w, nfa_prog_lang p w <-> matches t w) ->
  (nfa_prog_legal p -> Forall legal_token (regex_graphemes t)) -> nfa_ok p (regex_to_nfa h t).
Proof.
  intros H1 H2 H3. constructor.
  - apply C36_valid.
  - intros a. rewrite C36_alphabet, H1. apply first_occurrences_In.
  - intros _ w. rewrite C36_regex_to_nfa. symmetry. auto.
  - intros H. split; [|apply regex_to_nfa_legal]. rewrite C36_alphabet. apply Forall_forall. intros a Ha.
    apply (proj1 (first_occurrences_In _ _)) in Ha. specialize (H3 H). rewrite Forall_forall in H3. auto.
Qed.

(** one operand *)
Lemma dd_step (p p' : dfa_prog) (f : dfa -> R dfa) :
  run_dfa p' = obind (run_dfa p) (fun d => d' <- f d ;; Ret (Some d')) ->
  dfa_prog_defined p' = dfa_prog_defined p ->
  (forall d, dfa_ok p d -> exists d', f d = Ret d' /\ dfa_ok p' d') -> dfa_run_ok p -> dfa_run_ok p'.
Proof.
  intros E1 E2 H [(D & d & Er & O)|(D & Er)].
  - left. rewrite E2. split; auto. destruct (H d O) as (d' & Ed & O'). exists d'. split; auto. rewrite E1, Er. simpl. rewrite Ed. reflexivity.
  - right. rewrite E2. split; auto. rewrite E1, Er. reflexivity.
Qed.
Lemma nd_step (p : nfa_prog) (p' : dfa_prog) (f : nfa -> R dfa) :
  run_dfa p' = obind (run_nfa p) (fun d => d' <- f d ;; Ret (Some d')) ->
  dfa_prog_defined p' = nfa_prog_defined p ->
  (forall d, nfa_ok p d -> exists d', f d = Ret d' /\ dfa_ok p' d') -> nfa_run_ok p -> dfa_run_ok p'.
Proof.
  intros E1 E2 H [(D & d & Er & O)|(D & Er)].
  - left. rewrite E2. split; auto. destruct (H d O) as (d' & Ed & O'). exists d'. split; auto. rewrite E1, Er. simpl. rewrite Ed. reflexivity.
  - right. rewrite E2. split; auto. rewrite E1, Er. reflexivity.
Qed.
Lemma nn_step (p p' : nfa_prog) (f : nfa -> R nfa) :
  run_nfa p' = obind (run_nfa p) (fun d => d' <- f d ;; Ret (Some d')) ->
  nfa_prog_defined p' = nfa_prog_defined p ->
  (forall d, nfa_ok p d -> exists d', f d = Ret d' /\ nfa_ok p' d') -> nfa_run_ok p -> nfa_run_ok p'.
Proof.
  intros E1 E2 H [(D & d & Er & O)|(D & Er)].
  - left. rewrite E2. split; auto. destruct (H d O) as (d' & Ed & O'). exists d'. split; auto. rewrite E1, Er. simpl. rewrite Ed. reflexivity.
  - right. rewrite E2. split; auto. rewrite E1, Er. reflexivity.
Qed.
(** two operands *)
Lemma dd2_step (p1 p2 p' : dfa_prog) (f : dfa -> dfa -> R (option dfa)) :
  run_dfa p' = obind (run_dfa p1) (fun d1 => obind (run_dfa p2) (fun d2 => f d1 d2)) ->
  dfa_prog_defined p' = (dfa_prog_defined p1 /\ dfa_prog_defined p2 /\ forall a, dfa_prog_symbol p1 a <-> dfa_prog_symbol p2 a) ->
  (forall d1 d2, dfa_ok p1 d1 -> dfa_ok p2 d2 -> exists r, f d1 d2 = Ret r /\
     (r = None <-> ~ same_set (dfa_alphabet d1) (dfa_alphabet d2)) /\ forall d, r = Some d -> dfa_ok p' d) ->
  dfa_run_ok p1 -> dfa_run_ok p2 -> dfa_run_ok p'.
Proof.
  unfold dfa_run_ok at 3. intros E1 E2 H R1 R2. rewrite E1, E2. destruct R1 as [(D1 & d1 & -> & O1)|(D1 & ->)]; cbn [obind bind]; [|right; tauto].
  destruct R2 as [(D2 & d2 & -> & O2)|(D2 & ->)]; cbn [obind bind]; [|right; tauto].
  destruct (H d1 d2 O1 O2) as (r & -> & Hn & Hr).
  assert (Hs : same_set (dfa_alphabet d1) (dfa_alphabet d2) <-> forall a, dfa_prog_symbol p1 a <-> dfa_prog_symbol p2 a).
  { unfold same_set. split; intros Hs a; specialize (Hs a); rewrite <- ?(do_symbol _ _ O1), <- ?(do_symbol _ _ O2) in *; auto. }
  destruct r as [d|].
  - left. split.
    + split; auto. split; auto. apply Hs. destruct (alphabet_equal_spec _ _ (dv_alphabet _ (do_valid _ _ O1)) (dv_alphabet _ (do_valid _ _ O2))) as [Hq|Hq]; auto.
      apply Hn in Hq. discriminate.
    + exists d. auto.
  - right. split; auto. intros (_ & _ & Hq). apply Hs in Hq. apply Hn; auto.
Qed.
Lemma nn2_step (p1 p2 p' : nfa_prog) (f : nfa -> nfa -> R (option nfa)) :
  run_nfa p' = obind (run_nfa p1) (fun d1 => obind (run_nfa p2) (fun d2 => f d1 d2)) ->
  nfa_prog_defined p' = (nfa_prog_defined p1 /\ nfa_prog_defined p2 /\ forall a, nfa_prog_symbol p1 a <-> nfa_prog_symbol p2 a) ->
  (forall d1 d2, nfa_ok p1 d1 -> nfa_ok p2 d2 -> exists r, f d1 d2 = Ret r /\
     (r = None <-> ~ same_set (nfa_alphabet d1) (nfa_alphabet d2)) /\ forall d, r = Some d -> nfa_ok p' d) ->
  nfa_run_ok p1 -> nfa_run_ok p2 -> nfa_run_ok p'.
Proof.
  unfold nfa_run_ok at 3. intros E1 E2 H R1 R2. rewrite E1, E2. destruct R1 as [(D1 & d1 & -> & O1)|(D1 & ->)]; cbn [obind bind]; [|right; tauto].
  destruct R2 as [(D2 & d2 & -> & O2)|(D2 & ->)]; cbn [obind bind]; [|right; tauto].
  destruct (H d1 d2 O1 O2) as (r & -> & Hn & Hr).
  assert (Hs : same_set (nfa_alphabet d1) (nfa_alphabet d2) <-> forall a, nfa_prog_symbol p1 a <-> nfa_prog_symbol p2 a).
  { unfold same_set. split; intros Hs a; specialize (Hs a); rewrite <- ?(no_symbol _ _ O1), <- ?(no_symbol _ _ O2) in *; auto. }
  destruct r as [d|].
  - left. split.
    + split; auto. split; auto. apply Hs. destruct (alphabet_equal_spec _ _ (nv_alphabet _ (no_valid _ _ O1)) (nv_alphabet _ (no_valid _ _ O2))) as [Hq|Hq]; auto.
      apply Hn in Hq. discriminate.
    + exists d. auto.
  - right. split; auto. intros (_ & _ & Hq). apply Hs in Hq. apply Hn; auto.
Qed.

(** a unary operation that keeps alphabet and language *)
Lemma dfa_ok_keep p p' d d' : dfa_ok p d -> dfa_prog_symbol p' = dfa_prog_symbol p -> dfa_prog_lang p' = dfa_prog_lang p ->
  dfa_prog_sets p' = dfa_prog_sets p -> dfa_prog_legal p' = dfa_prog_legal p ->
  dfa_valid d' -> dfa_alphabet d' = dfa_alphabet d -> (forall w, dfa_lang d' w <-> dfa_lang d w) ->
  (dnames_legal d -> dnames_legal d') -> dfa_ok p' d'.
Proof.
  intros [O1 O2 O3 O4] E1 E2 E3 E4 V A L N. constructor; auto.
  - intros a. rewrite A, E1. auto.
  - rewrite E2, E3. intros H w. rewrite L. auto.
  - rewrite E4. intros H. destruct (O4 H). split; [rewrite A|]; auto. apply N; auto.
Qed.
Lemma nfa_ok_keep p p' n n' : nfa_ok p n -> nfa_prog_symbol p' = nfa_prog_symbol p -> nfa_prog_lang p' = nfa_prog_lang p ->
  nfa_prog_sets p' = nfa_prog_sets p -> nfa_prog_legal p' = nfa_prog_legal p ->
  nfa_valid n' -> nfa_alphabet n' = nfa_alphabet n -> (forall w, nfa_lang n' w <-> nfa_lang n w) ->
  (nnames_legal n -> nnames_legal n') -> nfa_ok p' n'.
Proof.
  intros [O1 O2 O3 O4] E1 E2 E3 E4 V A L N. constructor; auto.
  - intros a. rewrite A, E1. auto.
  - rewrite E2, E3. intros H w. rewrite L. auto.
  - rewrite E4. intros H. destruct (O4 H). split; [rewrite A|]; auto. apply N; auto.
Qed.

Lemma set_op_correct o h d1 d2 : dfa_valid d1 -> dfa_valid d2 ->
  exists r, dfa_set_op o h d1 d2 = Ret r /\ (r = None <-> ~ same_set (dfa_alphabet d1) (dfa_alphabet d2)) /\
    forall d, r = Some d -> dfa_valid d /\ dfa_alphabet d = dfa_alphabet d1 /\
                            (forall w, dfa_lang d w <-> set_op_spec o (dfa_lang d1 w) (dfa_lang d2 w)) /\
                            (dnames_legal d1 -> dnames_legal d2 -> dnames_legal d).
Proof.
  intros V1 V2.
  assert (L : forall d, dfa_set_op o h d1 d2 = Ret (Some d) -> dnames_legal d1 -> dnames_legal d2 -> dnames_legal d).
  { intros d E. destruct o; eapply dfa_product_legal; eauto. }
  assert (H : exists r, dfa_set_op o h d1 d2 = Ret r /\ (r = None <-> ~ same_set (dfa_alphabet d1) (dfa_alphabet d2)) /\
    forall d, r = Some d -> dfa_valid d /\ dfa_alphabet d = dfa_alphabet d1 /\
                            (forall w, dfa_lang d w <-> set_op_spec o (dfa_lang d1 w) (dfa_lang d2 w))).
  { destruct o; [apply C25_union|apply C25_intersection|apply C25_difference|apply C25_symmetric_difference]; auto. }
  destruct H as (r & E & Hn & Hr). exists r. split; auto. split; auto. intros d ->. destruct (Hr d eq_refl) as (H1 & H2 & H3). auto.
Qed.

Lemma set_op_spec_iff o A B A' B' : (A <-> A') -> (B <-> B') -> (set_op_spec o A B <-> set_op_spec o A' B').
Proof. intros H1 H2. destruct o; simpl; tauto. Qed.

Theorem prog_ok : (forall p, dfa_run_ok p) /\ (forall p, nfa_run_ok p).
Proof.
  apply prog_ind.
  - exact dfa_parse_ok.
  - intros h p. apply (nd_step p _ (nfa_to_dfa h)); auto. intros n O.
    destruct (C15_nfa_to_dfa h n (no_valid _ _ O)) as (d & E & V & A & _ & _ & _ & L). exists d. split; auto.
    destruct O as [O1 O2 O3 O4]. constructor; auto; cbn [dfa_prog_symbol dfa_prog_sets dfa_prog_lang dfa_prog_legal].
    + intros a. rewrite A. auto.
    + intros H w. rewrite L. auto.
    + intros H. split; [rewrite A; apply O4; auto|]. exact (nfa_to_dfa_legal h n d O1 E).
  - intros p. apply (dd_step p _ (fun d => Ret (dfa_invert d))); auto. intros d [O1 O2 O3 O4].
    destruct (C23_invert d O1) as (V & A & _ & N & _ & _ & L). eexists. split; [reflexivity|].
    constructor; auto; cbn [dfa_prog_symbol dfa_prog_sets dfa_prog_lang dfa_prog_legal].
    + intros H w. rewrite L, (O3 H). unfold over. rewrite !Forall_forall. split; intros [H1 H2]; split; auto; intros a Ha; apply O2; auto.
    + intros H. destruct (O4 H) as [H1 H2]. split; auto. apply dnames_legal_map. rewrite N. apply dnames_legal_map. exact H2.
  - intros h dbg p. apply (dd_step p _ (dfa_remove_unreachable_states h dbg)); auto. intros d O.
    destruct (C17_dfa_remove_unreachable h dbg d (do_valid _ _ O)) as (d' & E & V & (k & _ & _ & R) & L). exists d'. split; auto.
    apply (dfa_ok_keep p _ d); auto; [apply R|]. apply (dfa_remove_legal h dbg); auto. apply O.
  - intros h dbg p. apply (dd_step p _ (dfa_merge_nondistinguishable_states h dbg)); auto. intros d O.
    destruct (C20_merge h dbg d (do_valid _ _ O)) as (d' & k & E & V & A & L & _). exists d'. split; auto.
    apply (dfa_ok_keep p _ d); auto. apply (dfa_merge_legal h dbg); auto. apply O.
  - intros h dbg p. apply (dd_step p _ (dfa_minimize h dbg)); auto. intros d O.
    destruct (C21_minimize h dbg d (do_valid _ _ O)) as (d' & E & V & A & L & _). exists d'. split; auto.
    apply (dfa_ok_keep p _ d); auto. apply (dfa_minimize_legal h dbg); auto. apply O.
  - intros o h p1 IH1 p2 IH2. apply (dd2_step p1 p2 _ (dfa_set_op o h)); auto. intros d1 d2 O1 O2.
    destruct (set_op_correct o h d1 d2 (do_valid _ _ O1) (do_valid _ _ O2)) as (r & E & Hn & Hr). exists r. split; auto. split; auto.
    intros d Hd. destruct (Hr d Hd) as (V & A & L & N).
    constructor; auto; cbn [dfa_prog_symbol dfa_prog_sets dfa_prog_lang dfa_prog_legal].
    + intros a. rewrite A. apply O1.
    + intros [H1 H2] w. rewrite L. apply set_op_spec_iff; [apply O1|apply O2]; auto.
    + intros [H1 H2]. destruct (do_legal _ _ O1 H1) as [A1 N1]. destruct (do_legal _ _ O2 H2) as [A2 N2]. split; [rewrite A; auto|].
      apply N; auto.
  - intros h comb p1 IH1 p2 IH2. apply (dd2_step p1 p2 _ (fun d1 d2 => dfa_product_construction h d1 d2 comb)); auto. intros d1 d2 O1 O2.
    destruct (C24_dfa_product h d1 d2 comb (do_valid _ _ O1) (do_valid _ _ O2)) as (r & E & Hn & Hr). exists r. split; auto. split; auto.
    intros d Hd. destruct (Hr d Hd) as (V & A & _).
    constructor; auto; cbn [dfa_prog_symbol dfa_prog_sets dfa_prog_lang dfa_prog_legal].
    + intros a. rewrite A. apply O1.
    + intros [].
    + intros [H1 H2]. destruct (do_legal _ _ O1 H1) as [A1 N1]. destruct (do_legal _ _ O2 H2) as [A2 N2]. split; [rewrite A; auto|].
      subst r. apply (dfa_product_legal h d1 d2 comb d (do_valid _ _ O1) (do_valid _ _ O2) E); auto.
  - exact nfa_parse_ok.
  - intros seg h u. unfold nfa_run_ok. cbn [run_nfa nfa_prog_defined]. destruct (parse_regex_total seg u) as [[t|] E]; rewrite E; cbn [obind bind].
    + left. split; [eauto|]. eexists. split; [reflexivity|]. apply regex_ok_of; cbn [nfa_prog_symbol nfa_prog_lang nfa_prog_legal].
      * intros a. split; [intros (t' & H1 & H2); rewrite E in H1; injection H1 as <-; auto|eauto].
      * intros w. split; [intros (t' & H1 & H2); rewrite E in H1; injection H1 as <-; auto|eauto].
      * eauto.
    + right. split; auto. intros (t & H). congruence.
  - intros h t. left. split; [exact I|]. eexists. split; [reflexivity|]. apply regex_ok_of; cbn [nfa_prog_symbol nfa_prog_lang nfa_prog_legal]; tauto.
  - intros p [(D & d & E & O)|(D & E)]; unfold nfa_run_ok; cbn [run_nfa nfa_prog_defined]; rewrite E; cbn [obind bind]; [left|right; auto].
    split; auto. eexists. split; [reflexivity|]. destruct O as [O1 O2 O3 O4].
    destruct (C14_dfa_to_nfa d O1) as (V & _ & A & N & _ & _ & _ & _ & L).
    constructor; auto; cbn [nfa_prog_symbol nfa_prog_sets nfa_prog_lang nfa_prog_legal].
    + intros H w. rewrite L. auto.
    + intros H. destruct (O4 H). split; auto. apply nnames_legal_map. rewrite N. apply dnames_legal_map; auto.
  - intros h dbg p. apply (nn_step p _ (nfa_remove_unreachable_states h dbg)); auto. intros d O.
    destruct (C17_nfa_remove_unreachable h dbg d (no_valid _ _ O)) as (d' & E & V & (k & _ & _ & R) & L). exists d'. split; auto.
    apply (nfa_ok_keep p _ d); auto; [apply R|]. apply (nfa_remove_legal h dbg); auto. apply O.
  - intros h dbg p. apply (nn_step p _ (nfa_remove_epsilon_moves h dbg)); auto. intros d O.
    destruct (C30_remove_epsilon_moves h dbg d (no_valid _ _ O)) as (d' & E & V & _ & _ & A & L & _). exists d'. split; auto.
    apply (nfa_ok_keep p _ d); auto. apply (nfa_eps_legal h dbg); auto. apply O.
  - intros h dbg p. apply (nn_step p _ (nfa_optimize h dbg)); auto. intros d O.
    destruct (C31_optimize h dbg d (no_valid _ _ O)) as (d' & E & V & _ & A & L). exists d'. split; auto.
    apply (nfa_ok_keep p _ d); auto. apply (nfa_optimize_legal h dbg); auto. apply O.
  - intros p1 IH1 p2 IH2.
    apply (nn2_step p1 p2 _ (fun n1 n2 => r <- nfa_union n1 n2 ;; Ret (match r with inl n => Some n | inr _ => None end))); auto.
    intros d1 d2 O1 O2. destruct (C27_nfa_union d1 d2 (no_valid _ _ O1) (no_valid _ _ O2)) as (r & E & Hn & Hr). rewrite E. cbn [bind].
    eexists. split; [reflexivity|].
    destruct (alphabet_equal_spec _ _ (nv_alphabet _ (no_valid _ _ O1)) (nv_alphabet _ (no_valid _ _ O2))) as [Hs|Hs].
    + destruct (Hr Hs) as (n & -> & V & A & L). split; [split; [discriminate|tauto]|]. intros n' [= <-].
      constructor; auto; cbn [nfa_prog_symbol nfa_prog_sets nfa_prog_lang nfa_prog_legal].
      * intros a. rewrite A. apply O1.
      * intros [H1 H2] w. rewrite L, (no_lang _ _ O1 H1), (no_lang _ _ O2 H2). reflexivity.
      * intros [H1 H2]. destruct (no_legal _ _ O1 H1) as [A1 N1]. destruct (no_legal _ _ O2 H2) as [A2 N2]. split; [rewrite A; auto|].
        apply (nfa_union_legal d1 d2 n (no_valid _ _ O1) (no_valid _ _ O2) E); auto.
    + apply Hn in Hs as Hr'. subst r. split; [tauto|]. discriminate.
  - intros h p1 IH1 p2 IH2. apply (nn2_step p1 p2 _ (nfa_intersection h)); auto. intros d1 d2 O1 O2.
    destruct (C28_nfa_intersection h d1 d2 (no_valid _ _ O1) (no_valid _ _ O2)) as (r & E & Hn & Hr). exists r. split; auto. split; auto.
    intros d Hd. destruct (Hr d Hd) as (V & A & L).
    constructor; auto; cbn [nfa_prog_symbol nfa_prog_sets nfa_prog_lang nfa_prog_legal].
    + intros a. rewrite A. apply O1.
    + intros [H1 H2] w. rewrite L, (no_lang _ _ O1 H1), (no_lang _ _ O2 H2). reflexivity.
    + intros [H1 H2]. destruct (no_legal _ _ O1 H1) as [A1 N1]. destruct (no_legal _ _ O2 H2) as [A2 N2]. split; [rewrite A; auto|].
      subst r. eapply (nfa_product_legal h d1 d2 _ d (no_valid _ _ O1) (no_valid _ _ O2) E); auto.
  - intros h comb p1 IH1 p2 IH2. apply (nn2_step p1 p2 _ (fun d1 d2 => nfa_product_construction h d1 d2 comb)); auto. intros d1 d2 O1 O2.
    destruct (C29_nfa_product h d1 d2 comb (no_valid _ _ O1) (no_valid _ _ O2)) as (r & E & Hn & Hr). exists r. split; auto. split; auto.
    intros d Hd. destruct (Hr d Hd) as (V & A & _).
    constructor; auto; cbn [nfa_prog_symbol nfa_prog_sets nfa_prog_lang nfa_prog_legal].
    + intros a. rewrite A. apply O1.
    + intros [].
    + intros [H1 H2]. destruct (no_legal _ _ O1 H1) as [A1 N1]. destruct (no_legal _ _ O2 H2) as [A2 N2]. split; [rewrite A; auto|].
      subst r. apply (nfa_product_legal h d1 d2 comb d (no_valid _ _ O1) (no_valid _ _ O2) E); auto.
Qed.
