(** * RegexProofs: regular expressions to NFAs *)
From Coq Require Import List NArith Arith Bool Lia Permutation.
From Verif Require Import Base BaseLemmas Spec NfaModel RegexModel NfaBasics NfaToDfa.
Import ListNotations.

(** ** Induction on trees *)
Section TreeInd.
  Variable P : regex_tree -> Prop.
  Hypothesis Hs : forall l, Forall P l -> P (RSequence l).
  Hypothesis Ha : forall l, Forall P l -> P (RAlt l).
  Hypothesis Hr : forall r, P r -> P (RRepeat r).
  Hypothesis Hc : forall c, P (RChar c).
  Fixpoint regex_ind' (t : regex_tree) : P t :=
    match t with
    | RSequence l => Hs l ((fix go (l : list regex_tree) : Forall P l :=
                              match l with [] => Forall_nil P | x :: xs => Forall_cons x (regex_ind' x) (go xs) end) l)
    | RAlt l => Ha l ((fix go (l : list regex_tree) : Forall P l :=
                              match l with [] => Forall_nil P | x :: xs => Forall_cons x (regex_ind' x) (go xs) end) l)
    | RRepeat r => Hr r (regex_ind' r)
    | RChar c => Hc c
    end.
End TreeInd.

(** ** The loops of [tree_to_nfa], named *)
Definition seq_states (send_to : nat) : list regex_tree -> regex_st -> regex_st * list nfa_state :=
  fix seq_loop (l : list regex_tree) (st : regex_st) : regex_st * list nfa_state :=
    match l with
    | [] => (st, [])
    | subtree :: l' =>
        let '(st, after) := counter_next st in
        let '(st, new_states) := tree_to_nfa subtree st after in
        let after_eps := match l' with [] => send_to | _ => rs_counter st + 1 end in
        let '(st, rest) := seq_loop l' st in
        (st, (plain_state after [after_eps] [] :: new_states) ++ rest)
    end.
Definition alt_states (send_to : nat) : list regex_tree -> regex_st -> regex_st * list nat * list nfa_state :=
  fix alt_loop (l : list regex_tree) (st : regex_st) : regex_st * list nat * list nfa_state :=
    match l with
    | [] => (st, [], [])
    | subtree :: l' =>
        let e := rs_counter st in
        let '(st, new_states) := tree_to_nfa subtree st send_to in
        let '(st, es, rest) := alt_loop l' st in
        (st, e :: es, new_states ++ rest)
    end.
Lemma tree_to_nfa_seq x l st send : tree_to_nfa (RSequence (x :: l)) st send =
  let '(st, incoming) := counter_next st in
  let '(st', states) := seq_states send (x :: l) st in
  (st', plain_state incoming [rs_counter st + 1] [] :: states).
Proof. reflexivity. Qed.
Lemma tree_to_nfa_alt l st send : tree_to_nfa (RAlt l) st send =
  let '(st, incoming) := counter_next st in
  let '(st', es, additional) := alt_states send l st in
  (st', plain_state incoming es [] :: additional).
Proof. reflexivity. Qed.

(** ** The alphabet being built *)
Definition rs_al (st : regex_st) : list str := map fst (rs_map st).
Definition rs_ok (st : regex_st) : Prop :=
  NoDup (rs_al st) /\ map snd (rs_map st) = seq 0 (length (rs_map st)) /\ rs_idx st = length (rs_map st).
Definition add_new (s : list str) (l : list str) : list str := fold_left (fun s x => fst (hs_insert x s)) l s.

Lemma hm_insert_absent {K W} `{Eqb K} (k : K) (v : W) m : hm_get k m = None -> hm_insert k v m = m ++ [(k, v)].
Proof.
  induction m as [|[k' v'] m IH]; simpl; auto. destruct (eqb k k'); [discriminate|]. intros E. rewrite IH; auto.
Qed.

Lemma grapheme_idx_spec st g st' i : rs_ok st -> grapheme_idx st g = (st', i) ->
  rs_ok st' /\ rs_counter st' = rs_counter st /\ nth_error (rs_al st') i = Some g /\ rs_al st' = add_new (rs_al st) [g].
Proof.
  intros (Hnd & Hsnd & Hidx). unfold grapheme_idx. destruct (hm_get g (rs_map st)) as [j|] eqn:E; intros [= <- <-].
  - apply hm_get_In in E. split; [split; auto|]. split; auto.
    apply In_nth_error in E as [k Hk]. 
    assert (Hkj : nth_error (map snd (rs_map st)) k = Some j) by (rewrite nth_error_map, Hk; auto).
    rewrite Hsnd in Hkj. pose proof (nth_error_length _ _ _ Hk) as Hlt.
    rewrite (nth_error_nth' _ 0), seq_nth in Hkj by (rewrite ?seq_length; auto). injection Hkj as <-. simpl.
    assert (Hg : nth_error (rs_al st) k = Some g) by (unfold rs_al; rewrite nth_error_map, Hk; auto).
    split; auto. unfold add_new. simpl. unfold hs_insert. 
    assert (Hm : mem g (rs_al st) = true) by (apply mem_In; eapply nth_error_In; eauto). rewrite Hm. auto.
  - assert (Hn : ~ In g (rs_al st)).
    { intros Hi. unfold rs_al in Hi. apply in_map_iff in Hi as ([g' v] & Eg & Hi). simpl in Eg. subst g'.
      apply (hm_In_get g v) in Hi; [congruence|]. exact Hnd. }
    unfold rs_ok, rs_al. cbn [rs_map rs_idx rs_counter]. rewrite (hm_insert_absent _ _ _ E), !map_app, app_length. simpl.
    split; [|split; [auto|]].
    + split; [apply NoDup_snoc; auto|]. split; [|lia]. rewrite Hsnd, Hidx. rewrite Nat.add_1_r, seq_S. auto.
    + split.
      * rewrite Hidx, nth_error_app2, map_length, Nat.sub_diag by (rewrite map_length; lia). auto.
      * unfold add_new. simpl. unfold hs_insert. apply mem_nIn in Hn. unfold rs_al in Hn. rewrite Hn. auto.
Qed.

Lemma add_new_app s l l' : add_new s (l ++ l') = add_new (add_new s l) l'.
Proof. apply fold_left_app. Qed.
Lemma add_new_extends l : forall s, exists s', add_new s l = s ++ s'.
Proof.
  induction l as [|x l IH]; intros s; simpl.
  - exists []. rewrite app_nil_r. auto.
  - unfold add_new. simpl. destruct (IH (fst (hs_insert x s))) as [s' Hs']. unfold add_new in Hs'. rewrite Hs'.
    unfold hs_insert. destruct (mem x s); simpl; [eauto|]. exists (x :: s'). rewrite <- app_assoc. auto.
Qed.

(** ** Runs with a number of steps *)
Inductive npath (n : nfa) : nat -> nat -> word -> nat -> Prop :=
| npath_nil p : npath n 0 p [] p
| npath_eps k p q w r : nfa_eps_edge n p q -> npath n k q w r -> npath n (S k) p w r
| npath_cons k p a q w r : nfa_edge n p a q -> npath n k q w r -> npath n (S k) p (a :: w) r.
Lemma npath_of n p w q : nfa_path n p w q -> exists k, npath n k p w q.
Proof.
  induction 1 as [p|p q w r He Hp [k IH]|p a q w r He Hp [k IH]].
  - exists 0. constructor.
  - exists (S k). econstructor; eauto.
  - exists (S k). eapply npath_cons; eauto.
Qed.
Lemma of_npath n k p w q : npath n k p w q -> nfa_path n p w q.
Proof. induction 1; [constructor|eapply nfa_path_eps; eauto|eapply nfa_path_cons; eauto]. Qed.

(** ** A block of states placed in an automaton *)
Definition at_state (n : nfa) (p : nat) (s : nfa_state) : Prop :=
  exists s', nth_error (nfa_states n) p = Some s' /\ ns_eps s' = ns_eps s /\
    forall j t, (exists ts, nth_error (ns_transitions s') j = Some ts /\ In t ts) <->
                (exists ts, nth_error (ns_transitions s) j = Some ts /\ In t ts).
Definition placed (n : nfa) (c : nat) (sts : list nfa_state) : Prop :=
  forall i s, nth_error sts i = Some s -> at_state n (c + i) s.

Lemma placed_cons n c s sts : placed n c (s :: sts) <-> at_state n c s /\ placed n (S c) sts.
Proof.
  split.
  - intros H. split; [rewrite <- (Nat.add_0_r c); apply H; auto|]. intros i s' Hi. rewrite Nat.add_succ_comm. apply H. auto.
  - intros [H1 H2] [|i] s' Hi; simpl in Hi; [injection Hi as <-; rewrite Nat.add_0_r; auto|].
    rewrite <- Nat.add_succ_comm. apply H2; auto.
Qed.
Lemma placed_app n c a b : placed n c (a ++ b) <-> placed n c a /\ placed n (c + length a) b.
Proof.
  split.
  - intros H. split.
    + intros i s Hi. apply H. rewrite nth_error_app1; auto. eapply nth_error_length; eauto.
    + intros i s Hi. rewrite <- Nat.add_assoc. apply H. rewrite nth_error_app2 by lia. replace (length a + i - length a) with i by lia. auto.
  - intros [H1 H2] i s Hi. destruct (lt_dec i (length a)) as [L|L].
    + apply H1. rewrite nth_error_app1 in Hi; auto.
    + rewrite nth_error_app2 in Hi by lia. apply H2 in Hi. replace (c + i) with (c + length a + (i - length a)) by lia. auto.
Qed.

Lemma at_eps n p s q : at_state n p s -> In q (ns_eps s) -> nfa_eps_edge n p q.
Proof. intros (s' & H1 & H2 & _) Hq. exists s'. split; auto. congruence. Qed.
Lemma at_edge n p s j ts a q : at_state n p s -> nth_error (nfa_alphabet n) j = Some a ->
  nth_error (ns_transitions s) j = Some ts -> In q ts -> nfa_edge n p a q.
Proof.
  intros (s' & H1 & H2 & H3) Ha Hts Hq. destruct (proj2 (H3 j q)) as (ts' & Hts' & Hq'); [eauto|].
  exists j, s', ts'. auto.
Qed.
Lemma at_step n p s k w q : at_state n p s -> npath n k p w q ->
  (k = 0 /\ w = [] /\ p = q) \/
  (exists e k', k = S k' /\ In e (ns_eps s) /\ npath n k' e w q) \/
  (exists j a w' t ts k', k = S k' /\ w = a :: w' /\ nth_error (nfa_alphabet n) j = Some a /\
     nth_error (ns_transitions s) j = Some ts /\ In t ts /\ npath n k' t w' q).
Proof.
  intros (s' & H1 & H2 & H3) Hp. destruct Hp as [p|k p e w r (s0 & E1 & E2) Hp|k p a t w r (j & s0 & ts & E0 & E1 & E2 & E3) Hp].
  - left. auto.
  - right. left. exists e, k. split; auto. split; auto. congruence.
  - right. right. assert (s0 = s') by congruence. subst s0.
    destruct (proj1 (H3 j t)) as (ts' & Hts' & Ht); [eauto|]. exists j, a, w, t, ts', k. auto 7.
Qed.
Lemma at_step_eps n p k w q idx e : at_state n p (plain_state idx e []) -> npath n k p w q ->
  (k = 0 /\ w = [] /\ p = q) \/ (exists t k', k = S k' /\ In t e /\ npath n k' t w q).
Proof.
  intros H Hp. destruct (at_step _ _ _ _ _ _ H Hp) as [E|[E|(j & a & w' & t & ts & k' & _ & _ & _ & E & _)]]; auto.
  destruct j; discriminate.
Qed.

(** ** Shape of a block *)
Record shape (sts : list nfa_state) (c send width : nat) : Prop := {
  sh_name : forall i s, nth_error sts i = Some s -> ns_name s = dec (c + i) /\ ns_initial s = false /\ ns_accepting s = false;
  sh_width : forall s, In s sts -> length (ns_transitions s) <= width;
  sh_target : forall s t, In s sts -> In t (ns_eps s) \/ (exists ts, In ts (ns_transitions s) /\ In t ts) ->
                t = send \/ c <= t < c + length sts
}.
Lemma shape_plain c send width e ts :
  length ts <= width -> (forall t, In t e \/ (exists l, In l ts /\ In t l) -> t = send \/ t = c) ->
  shape [plain_state c e ts] c send width.
Proof.
  intros Hw Ht. constructor.
  - intros [|i] s Hi; [injection Hi as <-; simpl; rewrite Nat.add_0_r; auto|destruct i; discriminate].
  - intros s [<- |[]]. auto.
  - intros s t [<- |[]] H. simpl in H. apply Ht in H. simpl. destruct H; [auto|right; lia].
Qed.

(** ** The fragment lemma *)
Definition outside (q c len : nat) : Prop := ~ (c <= q < c + len).
Definition host (n : nfa) (c : nat) (sts : list nfa_state) (st' : regex_st) (send : nat) : Prop :=
  placed n c sts /\ (exists al', nfa_alphabet n = rs_al st' ++ al') /\ NoDup (nfa_alphabet n) /\ outside send c (length sts).

Record fragment (t : regex_tree) (st : regex_st) (send : nat) (st' : regex_st) (sts : list nfa_state) : Prop := {
  fr_ok : rs_ok st';
  fr_counter : rs_counter st' = rs_counter st + length sts;
  fr_pos : 1 <= length sts;
  fr_al : rs_al st' = add_new (rs_al st) (regex_graphemes t);
  fr_shape : shape sts (rs_counter st) send (length (rs_al st'));
  fr_complete : forall n w, host n (rs_counter st) sts st' send -> matches t w -> nfa_path n (rs_counter st) w send;
  fr_sound : forall n k w q, host n (rs_counter st) sts st' send -> npath n k (rs_counter st) w q ->
               outside q (rs_counter st) (length sts) ->
               exists w1 w2 k2, w = w1 ++ w2 /\ k2 < k /\ matches t w1 /\ npath n k2 send w2 q
}.
Definition frag_ok (t : regex_tree) : Prop := forall st send st' sts, rs_ok st -> tree_to_nfa t st send = (st', sts) ->
  fragment t st send st' sts.

(** *** Sequences *)
Lemma seq_states_ok send l : Forall frag_ok l -> l <> [] -> forall st st' sts, rs_ok st -> seq_states send l st = (st', sts) ->
  rs_ok st' /\ rs_counter st' = rs_counter st + length sts /\ 2 <= length sts /\
  rs_al st' = add_new (rs_al st) (flat_map regex_graphemes l) /\
  shape sts (rs_counter st) send (length (rs_al st')) /\
  (forall n w, host n (rs_counter st) sts st' send -> matches_seq l w -> nfa_path n (rs_counter st + 1) w send) /\
  (forall n k w q, host n (rs_counter st) sts st' send -> npath n k (rs_counter st + 1) w q ->
     outside q (rs_counter st) (length sts) ->
     exists w1 w2 k2, w = w1 ++ w2 /\ k2 < k /\ matches_seq l w1 /\ npath n k2 send w2 q).
Proof.
  induction l as [|x l IH]; intros HF Hne st st' sts Hok E; [congruence|]. clear Hne. inversion HF as [|? ? Hx HF']; subst.
  cbn [seq_states] in E. unfold counter_next in E. set (c := rs_counter st) in *.
  set (st1 := mk_regex_st (S c) (rs_map st) (rs_idx st)) in *.
  destruct (tree_to_nfa x st1 c) as [st2 new] eqn:Ex.
  assert (Hok1 : rs_ok st1) by exact Hok.
  destruct (Hx _ _ _ _ Hok1 Ex) as [F1 F2 F3 F4 F5 F6 F7].
  change (rs_counter st1) with (S c) in *. change (rs_al st1) with (rs_al st) in *.
  fold (seq_states send) in E. destruct (seq_states send l st2) as [st3 rest] eqn:El. injection E as <- <-.
  set (after_eps := match l with [] => send | _ => rs_counter st2 + 1 end).
  (* what the rest of the sequence gives *)
  assert (HR : rs_ok st3 /\ rs_counter st3 = rs_counter st2 + length rest /\
               rs_al st3 = add_new (rs_al st2) (flat_map regex_graphemes l) /\
               shape rest (rs_counter st2) send (length (rs_al st3)) /\
               (after_eps = send \/ rs_counter st2 <= after_eps < rs_counter st2 + length rest) /\
               (forall n w, host n (rs_counter st2) rest st3 send -> matches_seq l w -> nfa_path n after_eps w send) /\
               (forall n k w q, host n (rs_counter st2) rest st3 send -> npath n k after_eps w q ->
                  outside q (rs_counter st2) (length rest) ->
                  exists w1 w2 k2, w = w1 ++ w2 /\ k2 <= k /\ matches_seq l w1 /\ npath n k2 send w2 q)).
  { destruct l as [|y l].
    - simpl in El. injection El as <- <-. split; auto. split; [simpl; lia|]. split; auto. split.
      { constructor; [intros i s Hi; destruct i; discriminate|intros s []|intros s t []]. }
      split; [auto|]. subst after_eps. split.
      + intros n w _ Hm. inversion Hm; subst. constructor.
      + intros n k w q _ Hp _. exists [], w, k. split; auto. split; auto. split; [constructor|auto].
    - destruct (IH HF' ltac:(discriminate) st2 st3 rest F1 El) as (G1 & G2 & G3 & G4 & G5 & G6 & G7).
      split; auto. split; auto. split; auto. split; auto. split; [right; subst after_eps; simpl; lia|]. split; auto.
      intros n k w q H1 H2 H3. destruct (G7 n k w q H1 H2 H3) as (w1 & w2 & k2 & A & B & C). exists w1, w2, k2.
      split; auto. split; [lia|auto]. }
  destruct HR as (G1 & G2 & G3 & G4 & Gt & G5 & G6).
  change (plain_state c [after_eps] [] :: new ++ rest) with ([plain_state c [after_eps] []] ++ new ++ rest).
  assert (Hlen : length ([plain_state c [after_eps] []] ++ new ++ rest) = S (length new + length rest)).
  { rewrite !app_length. simpl. lia. }
  rewrite Hlen. change (rs_counter st) with c.
  assert (Hal3 : rs_al st3 = add_new (rs_al st) (flat_map regex_graphemes (x :: l))).
  { cbn [flat_map]. rewrite add_new_app, G3, F4. auto. }
  assert (Hext : exists al', rs_al st3 = rs_al st2 ++ al') by (rewrite G3; apply add_new_extends).
  assert (Hhost : forall n, host n c ([plain_state c [after_eps] []] ++ new ++ rest) st3 send ->
            at_state n c (plain_state c [after_eps] []) /\ host n (S c) new st2 c /\ host n (rs_counter st2) rest st3 send).
  { intros n (Hp & (al' & Hal) & Hnd & Ho). simpl app in Hp. apply placed_cons in Hp as [Hp1 Hp2]. apply placed_app in Hp2 as [Hp2 Hp3].
    split; auto. split.
    - split; auto. split; [|split; auto].
      + destruct Hext as [al2 ->] in Hal. exists (al2 ++ al'). rewrite Hal, app_assoc. auto.
      + unfold outside. lia.
    - rewrite F2. simpl. split; auto. split; eauto. split; auto. unfold outside in *. rewrite Hlen in Ho. lia. }
  split; auto. split; [simpl; lia|]. split; [lia|]. split; auto. split; [|split].
  - constructor.
    + intros [|i] s Hi; simpl in Hi; [injection Hi as <-; simpl; rewrite Nat.add_0_r; auto|].
      destruct (lt_dec i (length new)) as [L|L].
      * rewrite nth_error_app1 in Hi by auto. apply (sh_name _ _ _ _ F5) in Hi. rewrite <- Nat.add_succ_comm. auto.
      * rewrite nth_error_app2 in Hi by lia. apply (sh_name _ _ _ _ G4) in Hi.
        replace (rs_counter st2 + (i - length new)) with (c + S i) in Hi by lia. auto.
    + intros s Hs. destruct Hext as [al2 Hext]. rewrite Hext, app_length. apply in_app_or in Hs as [[<- |[]]|Hs]; [simpl; lia|].
      apply in_app_or in Hs as [Hs|Hs].
      * apply (sh_width _ _ _ _ F5) in Hs. lia.
      * apply (sh_width _ _ _ _ G4) in Hs. rewrite Hext, app_length in Hs. lia.
    + intros s t Hs Ht. rewrite Hlen. apply in_app_or in Hs as [[<- |[]]|Hs].
      * simpl in Ht. destruct Ht as [[<- |[]]|(ts & [] & _)]. destruct Gt; [auto|right; lia].
      * apply in_app_or in Hs as [Hs|Hs].
        -- destruct (sh_target _ _ _ _ F5 s t Hs Ht); right; lia.
        -- destruct (sh_target _ _ _ _ G4 s t Hs Ht); [auto|right; lia].
  - intros n w Hh Hm. apply Hhost in Hh as (Ha & Hn & Hr). inversion Hm as [|? ? w1 w2 Hm1 Hm2]; subst.
    rewrite Nat.add_1_r. eapply nfa_path_app; [apply F6; eauto|]. eapply nfa_path_eps; [eapply at_eps; eauto; left; auto|].
    apply G5; auto.
  - intros n k w q Hh Hp Hq. apply Hhost in Hh as (Ha & Hn & Hr). rewrite Nat.add_1_r in Hp.
    destruct (F7 n k w q Hn Hp) as (w1 & w2 & k2 & -> & Hk & Hm & Hp2). { unfold outside in *. lia. }
    destruct (at_step_eps _ _ _ _ _ _ _ Ha Hp2) as [(_ & _ & <-)|(t & k' & -> & [<- |[]] & Hp3)].
    { exfalso. unfold outside in Hq. lia. }
    destruct (G6 n k' w2 q Hr Hp3) as (v1 & v2 & k3 & -> & Hk3 & Hm3 & Hp4). { unfold outside in *. lia. }
    exists (w1 ++ v1), v2, k3. rewrite app_assoc. split; auto. split; [lia|]. split; [constructor; auto|auto].
Qed.

(** *** Alternatives *)
Lemma alt_states_ok send l : Forall frag_ok l -> forall st st' es sts, rs_ok st -> alt_states send l st = (st', es, sts) ->
  rs_ok st' /\ rs_counter st' = rs_counter st + length sts /\
  rs_al st' = add_new (rs_al st) (flat_map regex_graphemes l) /\
  shape sts (rs_counter st) send (length (rs_al st')) /\
  (forall e, In e es -> rs_counter st <= e < rs_counter st + length sts) /\
  (forall n w r, host n (rs_counter st) sts st' send -> In r l -> matches r w -> exists e, In e es /\ nfa_path n e w send) /\
  (forall n k w q e, host n (rs_counter st) sts st' send -> In e es -> npath n k e w q ->
     outside q (rs_counter st) (length sts) ->
     exists r w1 w2 k2, In r l /\ w = w1 ++ w2 /\ k2 < k /\ matches r w1 /\ npath n k2 send w2 q).
Proof.
  induction l as [|x l IH]; intros HF st st' es sts Hok E.
  - simpl in E. injection E as <- <- <-. split; auto. split; [simpl; lia|]. split; auto. split.
    { constructor; [intros i s Hi; destruct i; discriminate|intros s []|intros s t []]. }
    split; [intros e []|]. split; [intros n w r _ []|intros n k w q e _ []].
  - inversion HF as [|? ? Hx HF']; subst. cbn [alt_states] in E. set (c := rs_counter st) in *.
    destruct (tree_to_nfa x st send) as [st2 new] eqn:Ex. fold (alt_states send) in E.
    destruct (alt_states send l st2) as [[st3 es'] rest] eqn:El. injection E as <- <- <-.
    destruct (Hx _ _ _ _ Hok Ex) as [F1 F2 F3 F4 F5 F6 F7]. fold c in F2, F5, F6, F7.
    destruct (IH HF' st2 st3 es' rest F1 El) as (G1 & G2 & G3 & G4 & Gt & G5 & G6).
    assert (Hal3 : rs_al st3 = add_new (rs_al st) (flat_map regex_graphemes (x :: l))).
    { cbn [flat_map]. rewrite add_new_app, G3, F4. auto. }
    assert (Hext : exists al', rs_al st3 = rs_al st2 ++ al') by (rewrite G3; apply add_new_extends).
    assert (Hhost : forall n, host n c (new ++ rest) st3 send -> host n c new st2 send /\ host n (rs_counter st2) rest st3 send).
    { intros n (Hp & (al' & Hal) & Hnd & Ho). apply placed_app in Hp as [Hp2 Hp3]. rewrite <- F2 in Hp3.
      unfold outside in Ho. rewrite app_length in Ho. split.
      - split; auto. split; [|split; auto; unfold outside; lia]. destruct Hext as [al2 ->] in Hal. exists (al2 ++ al').
        rewrite Hal, app_assoc. auto.
      - split; auto. split; eauto. split; auto. unfold outside. lia. }
    rewrite app_length. split; auto. split; [lia|]. split; auto. split; [|split; [|split]].
    + constructor.
      * intros i s Hi. destruct (lt_dec i (length new)) as [L|L].
        -- rewrite nth_error_app1 in Hi by auto. apply (sh_name _ _ _ _ F5) in Hi. auto.
        -- rewrite nth_error_app2 in Hi by lia. apply (sh_name _ _ _ _ G4) in Hi.
           replace (rs_counter st2 + (i - length new)) with (c + i) in Hi by lia. auto.
      * intros s Hs. destruct Hext as [al2 Hext]. rewrite Hext, app_length. apply in_app_or in Hs as [Hs|Hs].
        -- apply (sh_width _ _ _ _ F5) in Hs. lia.
        -- apply (sh_width _ _ _ _ G4) in Hs. rewrite Hext, app_length in Hs. lia.
      * intros s t Hs Ht. rewrite app_length. apply in_app_or in Hs as [Hs|Hs].
        -- destruct (sh_target _ _ _ _ F5 s t Hs Ht); [auto|right; lia].
        -- destruct (sh_target _ _ _ _ G4 s t Hs Ht); [auto|right; lia].
    + intros e [<- |He]; [lia|]. apply Gt in He. lia.
    + intros n w r Hh [<- |Hr] Hm; apply Hhost in Hh as [Hn Hr'].
      * exists c. split; [left; auto|]. apply F6; auto.
      * destruct (G5 n w r Hr' Hr Hm) as (e & He & Hp). exists e. split; [right; auto|auto].
    + intros n k w q e Hh He Hp Hq. apply Hhost in Hh as [Hn Hr']. unfold outside in Hq. destruct He as [<- |He].
      * destruct (F7 n k w q Hn Hp) as (w1 & w2 & k2 & A). { unfold outside; lia. }
        exists x, w1, w2, k2. split; [left; auto|auto].
      * destruct (G6 n k w q e Hr' He Hp) as (r & w1 & w2 & k2 & Hr & A). { unfold outside; lia. }
        exists r, w1, w2, k2. split; [right; auto|auto].
Qed.

(** *** Repetition *)
Lemma matches_repeat r w : matches (RRepeat r) w -> exists ws, Forall (matches r) ws /\ w = concat ws.
Proof.
  intros H. remember (RRepeat r) as t eqn:Et. induction H; try discriminate; injection Et as ->.
  - exists []. auto.
  - destruct IHmatches2 as (ws & H1 & ->); auto. exists (w1 :: ws). auto.
Qed.

Theorem tree_to_nfa_ok : forall t, frag_ok t.
Proof.
  induction t as [l HF|l HF|r IH|ch] using regex_ind'; intros st send st' sts Hok E.
  - destruct l as [|x l].
    + simpl in E. injection E as <- <-. constructor.
      * exact Hok.
      * simpl. lia.
      * simpl. lia.
      * auto.
      * apply shape_plain; [simpl; lia|]. intros t [[<- |[]]|(l & [] & _)]. auto.
      * intros n w Hh Hm. inversion Hm as [| |l0 w0 Hm0| | | ]; subst. inversion Hm0; subst. destruct Hh as [Hp _].
        apply placed_cons in Hp as [Hp _]. eapply nfa_path_eps; [|constructor]. eapply at_eps; eauto. left; auto.
      * intros n k w q Hh Hp Hq. destruct Hh as [Hpl _]. apply placed_cons in Hpl as [Hpl _].
        destruct (at_step_eps _ _ _ _ _ _ _ Hpl Hp) as [(_ & _ & <-)|(t & k' & -> & [<- |[]] & Hp')].
        -- exfalso. unfold outside in Hq. simpl in Hq. lia.
        -- exists [], w, k'. split; auto. split; [lia|]. split; auto. constructor. constructor.
    + rewrite tree_to_nfa_seq in E. unfold counter_next in E.
      set (c := rs_counter st) in *. set (st1 := mk_regex_st (S c) (rs_map st) (rs_idx st)) in *.
      destruct (seq_states send (x :: l) st1) as [st2 states] eqn:El. injection E as <- <-.
      destruct (seq_states_ok send (x :: l) HF ltac:(discriminate) st1 st2 states Hok El) as (G1 & G2 & G3 & G4 & G5 & G6 & G7).
      change (rs_counter st1) with (S c) in *. change (rs_al st1) with (rs_al st) in *.
      assert (Hhost : forall n, host n c (plain_state c [S c + 1] [] :: states) st2 send ->
                at_state n c (plain_state c [S c + 1] []) /\ host n (S c) states st2 send).
      { intros n (Hp & Hal & Hnd & Ho). apply placed_cons in Hp as [Hp1 Hp2]. split; auto. split; auto. split; auto. split; auto.
        unfold outside in *. simpl in Ho. lia. }
      constructor; fold c.
      * auto.
      * simpl. lia.
      * simpl. lia.
      * auto.
      * constructor.
        -- intros [|i] s Hi; simpl in Hi; [injection Hi as <-; simpl; rewrite Nat.add_0_r; auto|].
           apply (sh_name _ _ _ _ G5) in Hi. rewrite <- Nat.add_succ_comm. auto.
        -- intros s [<- |Hs]; [simpl; lia|]. apply (sh_width _ _ _ _ G5) in Hs. auto.
        -- intros s t [<- |Hs] Ht.
           ++ simpl in Ht. destruct Ht as [[<- |[]]|(ts & [] & _)]. right. simpl. lia.
           ++ destruct (sh_target _ _ _ _ G5 s t Hs Ht); [auto|right; simpl; lia].
      * intros n w Hh Hm. apply Hhost in Hh as [Ha Hh]. inversion Hm; subst.
        eapply nfa_path_eps; [eapply at_eps; eauto; left; reflexivity|]. apply G6; auto.
      * intros n k w q Hh Hp Hq. apply Hhost in Hh as [Ha Hh]. unfold outside in Hq. simpl in Hq.
        destruct (at_step_eps _ _ _ _ _ _ _ Ha Hp) as [(_ & _ & <-)|(t & k' & -> & [<- |[]] & Hp')]; [lia|].
        destruct (G7 n k' w q Hh Hp') as (w1 & w2 & k2 & A & B & C & D). { unfold outside; lia. }
        exists w1, w2, k2. split; auto. split; [lia|]. split; [constructor; auto|auto].
  - rewrite tree_to_nfa_alt in E. unfold counter_next in E.
    set (c := rs_counter st) in *. set (st1 := mk_regex_st (S c) (rs_map st) (rs_idx st)) in *.
    destruct (alt_states send l st1) as [[st2 es] states] eqn:El. injection E as <- <-.
    destruct (alt_states_ok send l HF st1 st2 es states Hok El) as (G1 & G2 & G3 & G4 & Gt & G5 & G6).
    change (rs_counter st1) with (S c) in *. change (rs_al st1) with (rs_al st) in *.
    assert (Hhost : forall n, host n c (plain_state c es [] :: states) st2 send ->
              at_state n c (plain_state c es []) /\ host n (S c) states st2 send).
    { intros n (Hp & Hal & Hnd & Ho). apply placed_cons in Hp as [Hp1 Hp2]. split; auto. split; auto. split; auto. split; auto.
      unfold outside in *. simpl in Ho. lia. }
    constructor; fold c.
    + auto.
    + simpl. lia.
    + simpl. lia.
    + auto.
    + constructor.
      * intros [|i] s Hi; simpl in Hi; [injection Hi as <-; simpl; rewrite Nat.add_0_r; auto|].
        apply (sh_name _ _ _ _ G4) in Hi. rewrite <- Nat.add_succ_comm. auto.
      * intros s [<- |Hs]; [simpl; lia|]. apply (sh_width _ _ _ _ G4) in Hs. auto.
      * intros s t [<- |Hs] Ht.
        -- simpl in Ht. destruct Ht as [Ht|(ts & [] & _)]. apply Gt in Ht. right. simpl. lia.
        -- destruct (sh_target _ _ _ _ G4 s t Hs Ht); [auto|right; simpl; lia].
    + intros n w Hh Hm. apply Hhost in Hh as [Ha Hh]. inversion Hm as [| | |l0 r w0 Hr Hm0| | ]; subst.
      destruct (G5 n w r Hh Hr Hm0) as (e & He & Hp). eapply nfa_path_eps; [eapply at_eps; eauto|auto].
    + intros n k w q Hh Hp Hq. apply Hhost in Hh as [Ha Hh]. unfold outside in Hq. simpl in Hq.
      destruct (at_step_eps _ _ _ _ _ _ _ Ha Hp) as [(_ & _ & <-)|(t & k' & -> & Ht & Hp')]; [lia|].
      destruct (G6 n k' w q t Hh Ht Hp') as (r & w1 & w2 & k2 & Hr & A & B & C & D). { unfold outside; lia. }
      exists w1, w2, k2. split; auto. split; [lia|]. split; [econstructor; eauto|auto].
  - simpl in E. set (c := rs_counter st) in *. set (st1 := mk_regex_st (S c) (rs_map st) (rs_idx st)) in *.
    destruct (tree_to_nfa r st1 c) as [st2 states] eqn:Er. injection E as <- <-.
    destruct (IH _ _ _ _ (Hok : rs_ok st1) Er) as [F1 F2 F3 F4 F5 F6 F7].
    change (rs_counter st1) with (S c) in *. change (rs_al st1) with (rs_al st) in *.
    assert (Hhost : forall n, host n c (plain_state c [S c; send] [] :: states) st2 send ->
              at_state n c (plain_state c [S c; send] []) /\ host n (S c) states st2 c).
    { intros n (Hp & Hal & Hnd & Ho). apply placed_cons in Hp as [Hp1 Hp2]. split; auto. split; auto. split; auto. split; auto.
      unfold outside. lia. }
    constructor; fold c.
    + auto.
    + simpl. lia.
    + simpl. lia.
    + auto.
    + constructor.
      * intros [|i] s Hi; simpl in Hi; [injection Hi as <-; simpl; rewrite Nat.add_0_r; auto|].
        apply (sh_name _ _ _ _ F5) in Hi. rewrite <- Nat.add_succ_comm. auto.
      * intros s [<- |Hs]; [simpl; lia|]. apply (sh_width _ _ _ _ F5) in Hs. auto.
      * intros s t [<- |Hs] Ht.
        -- simpl in Ht. destruct Ht as [[<- |[<- |[]]]|(ts & [] & _)]; [right; simpl; lia|auto].
        -- destruct (sh_target _ _ _ _ F5 s t Hs Ht); right; simpl; lia.
    + intros n w Hh Hm. apply Hhost in Hh as [Ha Hh]. apply matches_repeat in Hm as (ws & Hws & ->).
      induction Hws as [|w ws Hw Hws IHw]; simpl.
      * eapply nfa_path_eps; [eapply at_eps; eauto; right; left; reflexivity|constructor].
      * eapply nfa_path_eps; [eapply at_eps; eauto; left; reflexivity|]. eapply nfa_path_app; [apply F6; eauto|auto].
    + intros n k w q Hh Hp Hq. apply Hhost in Hh as [Ha Hh]. unfold outside in Hq. simpl in Hq.
      revert w Hp. induction k as [k IHk] using (well_founded_induction lt_wf). intros w Hp.
      destruct (at_step_eps _ _ _ _ _ _ _ Ha Hp) as [(_ & _ & <-)|(t & k' & -> & [<- |[<- |[]]] & Hp')]; [lia| |].
      * destruct (F7 n k' w q Hh Hp') as (w1 & w2 & k2 & -> & Hk2 & Hm & Hp2). { unfold outside; lia. }
        destruct (IHk k2 ltac:(lia) w2 Hp2) as (v1 & v2 & k3 & -> & Hk3 & Hm3 & Hp3).
        exists (w1 ++ v1), v2, k3. rewrite app_assoc. split; auto. split; [lia|]. split; [constructor; auto|auto].
      * exists [], w, k'. split; auto. split; [lia|]. split; [constructor|auto].
  - destruct ch as [g| |]; simpl in E; set (c := rs_counter st) in *.
    + set (st1 := mk_regex_st (S c) (rs_map st) (rs_idx st)) in *.
      destruct (grapheme_idx st1 g) as [st2 i] eqn:Eg. injection E as <- <-.
      destruct (grapheme_idx_spec st1 g st2 i (Hok : rs_ok st1) Eg) as (G1 & G2 & G3 & G4).
      change (rs_counter st1) with (S c) in *. change (rs_al st1) with (rs_al st) in *.
      assert (Hrow : forall j ts t, nth_error (repeat [] i ++ [[send]]) j = Some ts -> In t ts -> j = i /\ t = send).
      { intros j ts t Hj Ht. destruct (lt_dec j i) as [L|L].
        - rewrite nth_error_app1 in Hj by (rewrite repeat_length; auto). apply nth_error_In, repeat_spec in Hj. subst. destruct Ht.
        - rewrite nth_error_app2, repeat_length in Hj by (rewrite repeat_length; lia).
          destruct (j - i) as [|d] eqn:Ed; [|destruct d; discriminate]. injection Hj as <-. destruct Ht as [<- |[]]. split; [lia|auto]. }
      constructor; fold c.
      * auto.
      * rewrite G2. simpl. lia.
      * simpl. lia.
      * rewrite G4. auto.
      * apply shape_plain.
        -- rewrite app_length, repeat_length. simpl. pose proof (nth_error_length _ _ _ G3). lia.
        -- intros t [[]|(l & Hl & Ht)]. apply In_nth_error in Hl as [j Hj]. destruct (Hrow j l t Hj Ht). auto.
      * intros n w (Hp & (al' & Hal) & _) Hm. inversion Hm; subst. apply placed_cons in Hp as [Hp _].
        eapply nfa_path_cons; [|constructor]. eapply (at_edge n c _ i [send]); eauto.
        -- rewrite Hal, nth_error_app1; auto. eapply nth_error_length; eauto.
        -- simpl. rewrite nth_error_app2, repeat_length, Nat.sub_diag by (rewrite repeat_length; lia). auto.
        -- left; auto.
      * intros n k w q (Hpl & (al' & Hal) & Hnd & _) Hp Hq. apply placed_cons in Hpl as [Hpl _]. unfold outside in Hq. simpl in Hq.
        destruct (at_step _ _ _ _ _ _ Hpl Hp) as [(_ & _ & <-)|[(e & k' & _ & [] & _)|(j & a & w' & t & ts & k' & -> & -> & Ha & Hts & Ht & Hp')]]; [lia|].
        destruct (Hrow j ts t Hts Ht) as [-> ->]. exists [g], w', k'. split.
        -- simpl. f_equal. rewrite Hal, nth_error_app1 in Ha; [congruence|]. eapply nth_error_length; eauto.
        -- split; [lia|]. split; [constructor|auto].
    + injection E as <- <-. constructor; fold c.
      * exact Hok.
      * simpl. lia.
      * simpl. lia.
      * auto.
      * apply shape_plain; [simpl; lia|]. intros t [[<- |[]]|(l & [] & _)]. auto.
      * intros n w Hh Hm. inversion Hm; subst. destruct Hh as [Hp _].
        apply placed_cons in Hp as [Hp _]. eapply nfa_path_eps; [|constructor]. eapply at_eps; eauto. left; auto.
      * intros n k w q Hh Hp Hq. destruct Hh as [Hpl _]. apply placed_cons in Hpl as [Hpl _].
        destruct (at_step_eps _ _ _ _ _ _ _ Hpl Hp) as [(_ & _ & <-)|(t & k' & -> & [<- |[]] & Hp')].
        -- exfalso. unfold outside in Hq. simpl in Hq. lia.
        -- exists [], w, k'. split; auto. split; [lia|]. split; auto. constructor.
    + injection E as <- <-. constructor; fold c.
      * exact Hok.
      * simpl. lia.
      * simpl. lia.
      * auto.
      * apply shape_plain; [simpl; lia|]. intros t [[]|(l & [] & _)].
      * intros n w Hh Hm. inversion Hm.
      * intros n k w q Hh Hp Hq. destruct Hh as [Hpl _]. apply placed_cons in Hpl as [Hpl _].
        destruct (at_step_eps _ _ _ _ _ _ _ Hpl Hp) as [(_ & _ & <-)|(t & k' & -> & [] & Hp')].
        exfalso. unfold outside in Hq. simpl in Hq. lia.
Qed.

(** ** The whole automaton *)
Lemma resize_length k l : length l <= k -> length (resize k l) = k.
Proof. intros H. unfold resize. rewrite app_length, firstn_all2, repeat_length by auto. lia. Qed.
Lemma resize_nth k l j t : length l <= k ->
  ((exists ts, nth_error (resize k l) j = Some ts /\ In t ts) <-> (exists ts, nth_error l j = Some ts /\ In t ts)).
Proof.
  intros H. unfold resize. rewrite firstn_all2 by auto. split; intros (ts & Hj & Ht).
  - destruct (lt_dec j (length l)) as [L|L].
    + rewrite nth_error_app1 in Hj by auto. eauto.
    + rewrite nth_error_app2 in Hj by lia. apply nth_error_In, repeat_spec in Hj. subst. destruct Ht.
  - exists ts. split; auto. rewrite nth_error_app1; auto. eapply nth_error_length; eauto.
Qed.

Lemma add_new_hs_collect l : add_new [] l = hs_collect l.
Proof. reflexivity. Qed.

Lemma filter_filter {A} (f g : A -> bool) l : filter f (filter g l) = filter (fun x => f x && g x) l.
Proof. induction l as [|x l IH]; simpl; auto. destruct (g x) eqn:E; simpl; rewrite ?andb_true_r, ?andb_false_r, ?IH; auto. Qed.
Lemma mem_app {A} `{Eqb A} (x : A) l l' : mem x (l ++ l') = mem x l || mem x l'.
Proof. induction l as [|y l IH]; simpl; auto. rewrite IH. apply orb_assoc. Qed.

Lemma first_occurrences_add l : forall s,
  add_new s l = s ++ filter (fun x => negb (mem x s)) (first_occurrences l).
Proof.
  induction l as [|x l IH]; intros s.
  - simpl. rewrite app_nil_r. auto.
  - change (add_new s (x :: l)) with (add_new (fst (hs_insert x s)) l). rewrite IH. unfold hs_insert.
    cbn [first_occurrences filter]. destruct (mem x s) eqn:E; cbn [fst negb].
    + f_equal. rewrite filter_filter. apply filter_ext. intros y. destruct (eqb_spec x y) as [-> |Hne].
      * rewrite E. auto.
      * cbn [negb]. rewrite andb_true_r. auto.
    + rewrite <- app_assoc. cbn [app]. f_equal. f_equal. rewrite filter_filter. apply filter_ext. intros y.
      rewrite mem_app. cbn [mem]. rewrite orb_false_r, negb_orb. f_equal. f_equal.
      destruct (eqb_spec y x), (eqb_spec x y); congruence.
Qed.

Theorem regex_to_nfa_full h t :
  map ns_name (nfa_states (regex_to_nfa h t)) = map dec (seq 0 (length (nfa_states (regex_to_nfa h t)))) /\
  nfa_valid (regex_to_nfa h t) /\
  nfa_alphabet (regex_to_nfa h t) = first_occurrences (regex_graphemes t) /\
  forall w, nfa_lang (regex_to_nfa h t) w <-> matches t w.
Proof.
  unfold regex_to_nfa. simpl counter_next. cbv beta iota zeta. cbn [counter_next rs_counter rs_map rs_idx].
  set (st0 := mk_regex_st 2 [] 0). destruct (tree_to_nfa t st0 0) as [st sts] eqn:E.
  assert (Hok0 : rs_ok st0). { split; [constructor|]. split; auto. }
  destruct (tree_to_nfa_ok t st0 0 st sts Hok0 E) as [F1 F2 F3 F4 F5 F6 F7].
  change (rs_counter st0) with 2 in *. change (rs_al st0) with (@nil str) in *.
  destruct F1 as (Hnd & Hsnd & _).
  assert (Hsort : sort_by_snd (ho h [51] (rs_map st)) = rs_map st).
  { apply sort_by_snd_numbered; auto. apply ho_perm. }
  rewrite Hsort. fold (rs_al st).
  assert (Hlen : length (rs_map st) = length (rs_al st)) by (unfold rs_al; rewrite map_length; auto). rewrite Hlen.
  set (rsz := fun s => mk_nfa_state (ns_name s) (ns_initial s) (ns_accepting s) (ns_eps s)
                                    (resize (length (rs_al st)) (ns_transitions s))).
  set (acc_st := {| ns_name := dec 0; ns_initial := false; ns_accepting := true; ns_eps := []; ns_transitions := [] |}).
  set (ini_st := {| ns_name := dec 1; ns_initial := true; ns_accepting := false; ns_eps := [2]; ns_transitions := [] |}).
  set (n := {| nfa_alphabet := rs_al st; nfa_states := map rsz (acc_st :: ini_st :: sts); nfa_initial := 1 |}).
  assert (Hw : forall s, In s (acc_st :: ini_st :: sts) -> length (ns_transitions s) <= length (rs_al st)).
  { intros s [<- |[<- |Hs]]; [simpl; lia|simpl; lia|]. apply (sh_width _ _ _ _ F5); auto. }
  assert (Hat : forall i s, nth_error (acc_st :: ini_st :: sts) i = Some s -> at_state n i s).
  { intros i s Hi. exists (rsz s). cbn [n nfa_states]. rewrite nth_error_map, Hi. split; auto. split; auto.
    intros j q. apply resize_nth. apply Hw. eapply nth_error_In; eauto. }
  assert (Hhost : host n 2 sts st 0).
  { split; [|split; [|split]].
    - intros i s Hi. apply (Hat (2 + i)). auto.
    - exists []. rewrite app_nil_r. auto.
    - exact Hnd.
    - unfold outside. lia. }
  assert (Hinv : forall i s, nth_error (nfa_states n) i = Some s ->
            exists s0, nth_error (acc_st :: ini_st :: sts) i = Some s0 /\ s = rsz s0).
  { intros i s Hi. cbn [n nfa_states] in Hi. rewrite nth_error_map in Hi.
    destruct (nth_error (acc_st :: ini_st :: sts) i) as [s0|] eqn:E0; [|discriminate]. injection Hi as <-. eauto. }
  assert (Hnames : map ns_name (nfa_states n) = map dec (seq 0 (length (nfa_states n)))).
  { apply nth_error_ext. intros i. rewrite !nth_error_map. destruct (nth_error (nfa_states n) i) as [s|] eqn:Ei.
    - pose proof (nth_error_length _ _ _ Ei) as Hi. rewrite (nth_error_nth' _ 0), seq_nth by (rewrite ?seq_length; auto).
      simpl. f_equal. apply Hinv in Ei as (s0 & E0 & ->). simpl. destruct i as [|[|i]]; simpl in E0.
      + injection E0 as <-. auto.
      + injection E0 as <-. auto.
      + apply (sh_name _ _ _ _ F5) in E0 as [-> _]. auto.
    - rewrite (proj2 (nth_error_None _ _)); auto. rewrite seq_length. apply nth_error_None; auto. }
  assert (Hnl : length (nfa_states n) = 2 + length sts) by (cbn [n nfa_states]; rewrite map_length; auto).
  assert (Htgt : forall s0 q, In s0 (acc_st :: ini_st :: sts) -> In q (ns_eps s0) \/ (exists ts, In ts (ns_transitions s0) /\ In q ts) ->
            q < length (nfa_states n)).
  { intros s0 q Hs0 Hq. rewrite Hnl. destruct Hs0 as [<- |[<- |Hs0]].
    - simpl in Hq. destruct Hq as [[]|(ts & [] & _)].
    - simpl in Hq. destruct Hq as [[<- |[]]|(ts & [] & _)]. lia.
    - destruct (sh_target _ _ _ _ F5 s0 q Hs0 Hq); lia. }
  split; [exact Hnames|]. split; [|split].
  - constructor.
    + exact Hnd.
    + rewrite Hnames. apply map_dec_NoDup. apply seq_NoDup.
    + rewrite Hnl. simpl. lia.
    + intros i s Hi. apply Hinv in Hi as (s0 & E0 & ->). simpl. destruct i as [|[|i]]; simpl in E0.
      * injection E0 as <-. simpl. split; [discriminate|lia].
      * injection E0 as <-. simpl. split; auto.
      * apply (sh_name _ _ _ _ F5) in E0 as (_ & -> & _). split; [discriminate|lia].
    + intros i s Hi. apply Hinv in Hi as (s0 & E0 & ->). simpl. apply resize_length. apply Hw. eapply nth_error_In; eauto.
    + intros i s ts q Hi Hts Hq. apply Hinv in Hi as (s0 & E0 & ->). apply nth_error_In in E0. cbn [rsz ns_transitions] in Hts.
      apply In_nth_error in Hts as [j Hj]. destruct (proj1 (resize_nth _ _ j q (Hw s0 E0))) as (ts' & Hj' & Hq'); [eauto|].
      apply (Htgt s0 q E0). right. exists ts'. split; auto. eapply nth_error_In; eauto.
    + intros i s q Hi Hq. apply Hinv in Hi as (s0 & E0 & ->). apply nth_error_In in E0. apply (Htgt s0 q E0). left. auto.
  - cbn [n nfa_alphabet]. rewrite F4, first_occurrences_add. simpl. induction (first_occurrences (regex_graphemes t)) as [|x l IHl]; simpl; auto.
    f_equal; auto.
  - intros w. split.
    + intros (q & Hp & (s & Hs & Ha)). apply Hinv in Hs as (s0 & E0 & ->). simpl in Ha.
      assert (q = 0). { destruct q as [|[|q]]; auto; simpl in E0; [injection E0 as <-; discriminate|].
        apply (sh_name _ _ _ _ F5) in E0 as (_ & _ & Hacc). congruence. }
      subst q. apply npath_of in Hp as [k Hp]. cbn [n nfa_initial] in Hp.
      destruct (at_step _ _ _ _ _ _ (Hat 1 ini_st eq_refl) Hp) as [(_ & _ & E1)|[(e & k' & -> & [<- |[]] & Hp')|(j & a & w' & q & ts & k' & _ & _ & _ & E1 & _)]].
      * discriminate.
      * destruct (F7 n k' w 0 Hhost Hp') as (w1 & w2 & k2 & -> & _ & Hm & Hp2). { unfold outside. lia. }
        destruct (at_step _ _ _ _ _ _ (Hat 0 acc_st eq_refl) Hp2) as [(_ & -> & _)|[(e & k3 & _ & [] & _)|(j & a & w' & q & ts & k3 & _ & _ & _ & E1 & _)]].
        -- rewrite app_nil_r. auto.
        -- destruct j; discriminate.
      * destruct j; discriminate.
    + intros Hm. exists 0. split.
      * eapply nfa_path_eps; [apply (at_eps n 1 ini_st); [apply Hat; auto|left; reflexivity]|]. apply F6; auto.
      * exists (rsz acc_st). auto.
Qed.

Theorem regex_to_nfa_correct h t :
  nfa_valid (regex_to_nfa h t) /\
  nfa_alphabet (regex_to_nfa h t) = first_occurrences (regex_graphemes t) /\
  forall w, nfa_lang (regex_to_nfa h t) w <-> matches t w.
Proof. apply regex_to_nfa_full. Qed.
