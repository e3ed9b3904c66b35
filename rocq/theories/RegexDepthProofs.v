(** * RegexDepthProofs: recursion of the parser of expressions and the height of trees *)
From Coq Require Import List NArith Arith Bool Lia.
From Verif Require Import Base BaseLemmas Spec LayoutSpec RegexSpec SizeSpec RegexModel ParserModel ParserBasics RegexParserModel RegexParserProofs
  RegexSizeProofs RegexDepthSpec.
Import ListNotations.

(** ** Nesting *)
Definition step_open (d : nat) (g : str) : nat := if eqb g [40%N] then S d else if eqb g [41%N] then pred d else d.
Fixpoint nest (d : nat) (gs : list str) : nat :=
  match gs with
  | [] => d
  | g :: gs => max d (nest (step_open d g) gs)
  end.
Lemma nest_ge d gs : d <= nest d gs.
Proof. destruct gs; simpl; lia. Qed.
Lemma nest_nested_at gs : forall d, (exists u v, gs = u ++ v /\ open_after d u = nest d gs) /\ (forall u v, gs = u ++ v -> open_after d u <= nest d gs).
Proof.
  induction gs as [|g gs IH]; intros d.
  - split; [exists [], []; auto|]. intros [|] v E; [simpl; lia|discriminate].
  - destruct (IH (step_open d g)) as ((u & v & E & H) & Hall). split.
    + cbn [nest]. destruct (Nat.le_gt_cases (nest (step_open d g) gs) d) as [L|L].
      * exists [], (g :: gs). split; auto. simpl. lia.
      * exists (g :: u), v. subst gs. split; auto. cbn [open_after]. change (open_after (step_open d g) u = max d (nest (step_open d g) (u ++ v))). rewrite H. lia.
    + intros [|x u'] v' E'; cbn [nest]; [simpl; lia|]. injection E' as <- E'. specialize (Hall u' v' E').
      cbn [open_after]. fold (step_open d g). lia.
Qed.
Lemma nest_nested gs : nested gs (nest 0 gs).
Proof. exact (nest_nested_at gs 0). Qed.
Lemma nested_nest gs n : nested gs n -> n = nest 0 gs.
Proof.
  intros ((u & v & E & H) & Hall). destruct (nest_nested gs) as ((u' & v' & E' & H') & Hall').
  specialize (Hall u' v' E'). specialize (Hall' u v E). lia.
Qed.

(** [closed u]: the groups of [u] are complete *)
Definition closed (u : list str) : Prop := forall d, nest d u = d + nest 0 u /\ forall k, nest d (u ++ k) = max (nest d u) (nest d k).
Lemma closed_nil : closed [].
Proof. intros d. split; [simpl; lia|]. intros k. simpl. pose proof (nest_ge d k). lia. Qed.
Lemma closed_other (g : str) : g <> [40%N] -> g <> [41%N] -> closed [g].
Proof.
  intros H1 H2 d. cbn [app nest]. unfold step_open. destruct (eqb_spec g [40%N]); [contradiction|]. destruct (eqb_spec g [41%N]); [contradiction|].
  split; [lia|]. intros k. pose proof (nest_ge d k). lia.
Qed.
Lemma closed_app u v : closed u -> closed v -> closed (u ++ v).
Proof.
  intros Hu Hv d. destruct (Hu d) as (E & K). destruct (Hv d) as (E' & K'). split.
  - rewrite K, E, E'. rewrite (proj2 (Hu 0)). lia.
  - intros k. rewrite <- app_assoc, K, K', K. lia.
Qed.
Lemma nest_group u d k : closed u -> nest d ([40%N] :: u ++ [41%N] :: k) = max (S (nest d u)) (nest d k).
Proof.
  intros H. cbn [nest]. unfold step_open. change (eqb [40%N] [40%N]) with true. cbn match.
  rewrite (proj2 (H (S d))). cbn [nest]. unfold step_open. change (eqb [41%N] [40%N]) with false. change (eqb [41%N] [41%N]) with true. cbn match.
  destruct (H (S d)) as (-> & _). destruct (H d) as (-> & _). cbn [pred]. pose proof (nest_ge d k). lia.
Qed.
Lemma closed_group u : closed u -> closed ([40%N] :: u ++ [[41%N]]).
Proof.
  intros H d. rewrite !nest_group by auto. destruct (H d) as (-> & _). cbn [nest]. split; [lia|].
  intros k. cbn [app]. rewrite <- app_assoc. cbn [app]. rewrite nest_group by auto. destruct (H d) as (-> & _). pose proof (nest_ge d k). lia.
Qed.
Lemma closed_kleene k : closed (ktoks k).
Proof. destruct k; [apply closed_nil|apply closed_other; discriminate|apply closed_other; discriminate]. Qed.
Lemma closed_char c u : char_toks c u -> closed u.
Proof.
  intros [| |g H|g H]; apply closed_other; try discriminate; try (destruct g; discriminate).
  - intros ->. apply H. exists 40%N, []. split; auto. unfold syntax_char. simpl. tauto.
  - intros ->. apply H. exists 41%N, []. split; auto. unfold syntax_char. simpl. tauto.
Qed.
Lemma nest_kleene k : nest 0 (ktoks k) = 0.
Proof. destruct k; reflexivity. Qed.
Lemma nest_char c u : char_toks c u -> nest 0 u = 0.
Proof.
  intros [| |g H|g H]; try reflexivity; cbn [nest]; unfold step_open.
  destruct (eqb_spec g [40%N]) as [-> |]; [destruct H; exists 40%N, []; split; auto; unfold syntax_char; simpl; tauto|].
  destruct (eqb_spec g [41%N]) as [-> |]; reflexivity.
Qed.
Lemma toks_closed : (forall t u, prim t u -> closed u) /\ (forall l u, atoms l u -> closed u) /\ (forall l u, alts l u -> closed u).
Proof.
  apply toks_mind; intros.
  - eapply closed_char; eauto.
  - apply closed_group; auto.
  - apply closed_app; auto using closed_kleene.
  - apply closed_app; auto. apply closed_app; auto using closed_kleene.
  - auto.
  - apply closed_app; auto. apply (closed_app [[124%N]]); auto. apply closed_other; discriminate.
Qed.
Lemma nest_app u v : closed u -> nest 0 (u ++ v) = max (nest 0 u) (nest 0 v).
Proof. intros H. apply (proj2 (H 0)). Qed.
Lemma nest_bar v : nest 0 ([124%N] :: v) = nest 0 v.
Proof. reflexivity. Qed.

(** ** Height *)
Definition heights (l : list regex_tree) : nat := fold_right (fun t m => max (height t) m) 0 l.
Lemma height_wrap f l : (forall l, height (f l) = S (heights l)) -> l <> [] -> height (wrap f l) <= S (heights l).
Proof. intros Hf Hl. destruct l as [|x [|y l]]; [congruence|simpl; lia|]. cbn [wrap]. rewrite Hf. lia. Qed.
Lemma height_kapply k t : height (kapply k t) <= height t + 2.
Proof. destruct k; simpl; lia. Qed.
Lemma heights_le l n : (forall t, In t l -> height t <= n) -> heights l <= n.
Proof. induction l as [|t l IH]; intros H; simpl; [lia|]. pose proof (H t (or_introl eq_refl)). assert (heights l <= n) by (apply IH; intros; apply H; right; auto). unfold heights in *. lia. Qed.

Lemma toks_height : (forall t u, prim t u -> height t <= 4 * nest 0 u + 1) /\ (forall l u, atoms l u -> heights l <= 4 * nest 0 u + 3) /\
  (forall l u, alts l u -> heights l <= 4 * nest 0 u + 4).
Proof.
  destruct toks_closed as (Cp & Ca & Cl). apply toks_mind.
  - intros c u Hc. simpl. lia.
  - intros l u Ha IH. rewrite nest_group by eauto. cbn [nest].
    pose proof (height_wrap RAlt l (fun _ => eq_refl) (alts_nonempty _ _ Ha)). lia.
  - intros t u k Hp IH. rewrite nest_app by eauto. rewrite nest_kleene. pose proof (height_kapply k t). simpl. lia.
  - intros t u k l v Hp IH Ha IHa. pose proof (Cp _ _ Hp) as Hc. rewrite <- app_assoc, nest_app by auto.
    rewrite (nest_app (ktoks k)) by apply closed_kleene. rewrite nest_kleene. pose proof (height_kapply k t). simpl in *. unfold heights in *. lia.
  - intros l u Ha IH. pose proof (height_wrap RSequence l (fun _ => eq_refl) (atoms_nonempty _ _ Ha)). simpl in *. lia.
  - intros l u ls v Ha IHa Hl IHl. rewrite nest_app by eauto. rewrite nest_bar.
    pose proof (height_wrap RSequence l (fun _ => eq_refl) (atoms_nonempty _ _ Ha)). simpl in *. unfold heights in *. lia.
Qed.

(** ** The parser with a bounded recursion *)
Section Seg.
  Variable seg : str -> list str.
  Hypothesis Hdiv : divides seg.
  Local Notation good := (tokens seg).
  Ltac synch := unfold syntax_char; simpl; tauto.

  Definition d_P_prim (t : regex_tree) (u : list str) : Prop := forall f kl k, good (u ++ ktoks kl ++ k) -> (kl = KNone -> no_kleene k) ->
    nest 0 u <= f -> ok (p_atom seg f) (concat (u ++ ktoks kl ++ k)) (concat k) (kapply kl t).
  Definition d_P_atoms (l : list regex_tree) (u : list str) : Prop := forall f k, good (u ++ k) -> stop [41; 124]%N k ->
    nest 0 u <= f ->
    (forall acc fuel, length (concat (u ++ k)) < fuel -> many_loop fuel (p_atom seg f) acc (concat (u ++ k)) = Ret (Some (concat k, acc ++ l))) /\
    ok (many1 (p_atom seg f)) (concat (u ++ k)) (concat k) l.
  Definition d_P_alts (l : list regex_tree) (u : list str) : Prop := forall f k, good (u ++ k) -> stop [41]%N k ->
    nest 0 u <= f ->
    (forall acc fuel, length (concat ([124%N] :: u ++ k)) < fuel -> good ([124%N] :: u ++ k) ->
       sep_loop fuel (tag [124%N]) (p_sequence seg (expression seg f)) acc (concat ([124%N] :: u ++ k)) = Ret (Some (concat k, acc ++ l))) /\
    ok (separated_list1 (tag [124%N]) (p_sequence seg (expression seg f))) (concat (u ++ k)) (concat k) l.

  Lemma d_alts_expression l u f k : d_P_alts l u -> l <> [] -> good (u ++ k) -> stop [41]%N k -> nest 0 u < f ->
    ok (expression seg f) (concat (u ++ k)) (concat k) (wrap RAlt l).
  Proof.
    intros H Hl Hg Hs Hf. destruct f as [|f]; [lia|]. cbn [expression]. unfold p_alternation, pmapR.
    destruct (H f k Hg Hs) as (_ & Hok); [lia|]. eapply pbind_ok; [exact Hok|]. unfold ok. rewrite wrap_multiple_wrap by auto. reflexivity.
  Qed.
  Lemma d_atoms_sequence l u f k : d_P_atoms l u -> l <> [] -> good (u ++ k) -> stop [41; 124]%N k -> nest 0 u <= f ->
    ok (p_sequence seg (expression seg f)) (concat (u ++ k)) (concat k) (wrap RSequence l).
  Proof.
    intros H Hl Hg Hs Hf. unfold p_sequence, pmapR. destruct (H f k Hg Hs Hf) as (_ & Hok).
    eapply pbind_ok; [exact Hok|]. unfold ok. rewrite wrap_multiple_wrap by auto. reflexivity.
  Qed.

  Lemma d_toks_complete : (forall t u, prim t u -> d_P_prim t u) /\ (forall l u, atoms l u -> d_P_atoms l u) /\ (forall l u, alts l u -> d_P_alts l u).
  Proof.
    apply toks_mind.
    - (* characters *)
      intros c u Hc f kl k Hg Hk Hf. apply palt_ok_r.
      + unfold par_expr, pmapR. apply pbind_bad. apply pbind_bad. unfold delimited. apply preceded_bad.
        destruct (good_tag seg Hdiv 40%N _ ltac:(synch) ltac:(discriminate) Hg) as [(gs' & E & _)|(H & _)]; auto.
        inversion Hc as [| |g Hne|g Hn]; subst; try discriminate. injection E as -> _. destruct Hn. exists 40%N, []. split; auto. synch.
      + unfold combinated_char. apply (kleene_ok seg Hdiv _ _ (RChar c) u k kl); auto. apply pmap_ok. apply (char_ok seg Hdiv); auto.
    - (* groups *)
      intros l u Ha IH f kl k Hg Hk Hf. apply palt_ok_l. unfold par_expr.
      cbn [app] in Hg |- *. rewrite <- app_assoc in Hg |- *. cbn [app] in Hg |- *.
      apply (kleene_ok seg Hdiv _ _ (wrap RAlt l) ([40%N] :: u ++ [[41%N]]) k kl); auto.
      2:{ cbn [app]. rewrite <- app_assoc. exact Hg. }
      pose proof (good_tail seg _ _ Hg) as Hg1. pose proof (good_app seg _ _ Hg1) as Hg2.
      eapply delimited_ok.
      + destruct (good_tag seg Hdiv 40%N _ ltac:(synch) ltac:(discriminate) Hg) as [(gs' & E & H)|(_ & H)]; [|destruct (H _ eq_refl)]. injection E as <-. exact H.
      + apply d_alts_expression.
        * exact IH.
        * eapply alts_nonempty; eauto.
        * exact Hg1.
        * intros g k' E. injection E as <- <-. exists 41%N. split; auto. simpl; auto.
        * rewrite nest_group in Hf by (eapply (proj2 (proj2 toks_closed)); eauto). cbn [nest] in Hf. lia.
      + destruct (good_tag seg Hdiv 41%N _ ltac:(synch) ltac:(discriminate) Hg2) as [(gs' & E & H)|(_ & H)]; [|destruct (H _ eq_refl)]. injection E as <-. exact H.
    - (* one atom *)
      intros t u kl Hp IH f k Hg Hs Hf. rewrite nest_app in Hf by (eapply (proj1 toks_closed); eauto). rewrite <- app_assoc in *.
      pose proof (IH f kl k Hg (fun _ => stop_no_kleene k Hs) ltac:(lia)) as Hok.
      pose proof (good_app seg _ _ (good_app seg _ _ Hg)) as Hgk.
      assert (Hlt : length (concat k) < length (concat (u ++ ktoks kl ++ k))).
      { rewrite app_assoc. apply (shorter_app seg Hdiv); [rewrite <- app_assoc; auto|]. destruct (prim_head _ _ Hp) as (g & u' & -> & _). discriminate. }
      split.
      + intros acc fuel Hfu. destruct fuel as [|fuel]; [lia|]. rewrite (many_step seg f _ _ _ _ _ Hok Hlt).
        apply (many_loop_stop seg Hdiv); auto. lia.
      + eapply pbind_ok; [exact Hok|]. unfold ok. apply (many_loop_stop seg Hdiv); auto. lia.
    - (* more atoms *)
      intros t u kl l v Hp IH Ha IHa f k Hg Hs Hf. rewrite <- app_assoc in Hf.
      rewrite nest_app in Hf by (eapply (proj1 toks_closed); eauto). rewrite nest_app in Hf by apply closed_kleene. rewrite <- !app_assoc in *.
      pose proof (good_app seg _ _ (good_app seg _ _ Hg)) as Hgv.
      assert (Hk : no_kleene (v ++ k)).
      { destruct (atoms_head _ _ Ha) as (g & v' & -> & Hh). intros c k' Hc E. injection E as E _. apply (Hh c); tauto. }
      pose proof (IH f kl (v ++ k) Hg (fun _ => Hk) ltac:(lia)) as Hok.
      assert (Hlt : length (concat (v ++ k)) < length (concat (u ++ ktoks kl ++ v ++ k))).
      { rewrite app_assoc. apply (shorter_app seg Hdiv); [rewrite <- app_assoc; auto|]. destruct (prim_head _ _ Hp) as (g & u' & -> & _). discriminate. }
      destruct (IHa f k Hgv Hs) as (Hloop & _); [lia|]. split.
      + intros acc fuel Hfu. destruct fuel as [|fuel]; [lia|]. rewrite (many_step seg f _ _ _ _ _ Hok Hlt).
        rewrite Hloop by lia. rewrite <- app_assoc. reflexivity.
      + eapply pbind_ok; [exact Hok|]. unfold ok. rewrite Hloop by lia. reflexivity.
    - (* one alternative *)
      intros l u Ha IHa f k Hg Hs Hf.
      assert (Hs' : stop [41; 124]%N k). { intros g k' E. destruct (Hs g k' E) as (c & -> & Hc). exists c. split; auto. simpl in *; tauto. }
      pose proof (d_atoms_sequence l u f k IHa (atoms_nonempty _ _ Ha) Hg Hs' Hf) as Hok.
      pose proof (good_app seg _ _ Hg) as Hgk.
      assert (Hend : forall acc fuel, 0 < fuel -> sep_loop fuel (tag [124%N]) (p_sequence seg (expression seg f)) acc (concat k) = Ret (Some (concat k, acc))).
      { intros acc fuel Hfu. destruct fuel as [|fuel]; [lia|]. cbn [sep_loop].
        destruct (good_tag seg Hdiv 124%N k ltac:(synch) ltac:(discriminate) Hgk) as [(gs' & -> & _)|(H & _)].
        - destruct (Hs _ _ eq_refl) as (c & E & Hc). injection E as <-. simpl in Hc. intuition discriminate.
        - unfold bad in H. rewrite H. reflexivity. }
      split.
      + intros acc fuel Hfu Hg'. destruct fuel as [|fuel]; [lia|]. cbn [sep_loop].
        destruct (good_tag seg Hdiv 124%N _ ltac:(synch) ltac:(discriminate) Hg') as [(gs' & E & H)|(_ & H)]; [|destruct (H _ eq_refl)]. injection E as <-.
        unfold ok in H. rewrite H. cbn [bind]. destruct (Nat.eqb_spec (length (concat (u ++ k))) (length (concat ([124%N] :: u ++ k)))) as [C|_]; [simpl in C; lia|].
        unfold ok in Hok. rewrite Hok. cbn [bind]. apply Hend. simpl in Hfu. lia.
      + eapply pbind_ok; [exact Hok|]. unfold ok. rewrite Hend by lia. reflexivity.
    - (* more alternatives *)
      intros l u ls v Ha IHa Hl IHl f k Hg Hs Hf. rewrite nest_app in Hf by (eapply (proj1 (proj2 toks_closed)); eauto). rewrite nest_bar in Hf. rewrite <- app_assoc in *. cbn [app] in *.
      assert (Hs' : stop [41; 124]%N ([124%N] :: v ++ k)). { intros g k' E. injection E as <- <-. exists 124%N. split; auto. simpl; tauto. }
      pose proof (d_atoms_sequence l u f _ IHa (atoms_nonempty _ _ Ha) Hg Hs' ltac:(lia)) as Hok.
      pose proof (good_app seg _ _ Hg) as Hgk. pose proof (good_tail seg _ _ Hgk) as Hgv.
      assert (Hlt : length (concat ([124%N] :: v ++ k)) < length (concat (u ++ [124%N] :: v ++ k))).
      { apply (shorter_app seg Hdiv); auto. destruct (atoms_head _ _ Ha) as (g & u' & -> & _). discriminate. }
      assert (Hle : nest 0 v <= f) by lia.
      destruct (IHl f k Hgv Hs Hle) as (Hloop & _). split.
      + intros acc fuel Hfu Hg'. destruct fuel as [|fuel]; [lia|]. cbn [sep_loop].
        destruct (good_tag seg Hdiv 124%N _ ltac:(synch) ltac:(discriminate) Hg') as [(gs' & E & H)|(_ & H)]; [|destruct (H _ eq_refl)]. injection E as <-.
        unfold ok in H. rewrite H. cbn [bind].
        match goal with |- context [?a =? ?b] => destruct (Nat.eqb_spec a b) as [C|_]; [exfalso; revert C; apply Nat.neq_succ_diag_r|] end.
        unfold ok in Hok. rewrite Hok. cbn [bind]. rewrite Hloop; auto.
        * rewrite <- app_assoc. reflexivity.
        * change (concat ([124%N] :: u ++ [124%N] :: v ++ k)) with (124%N :: concat (u ++ [124%N] :: v ++ k)) in Hfu. cbn [length] in Hfu. lia.
      + eapply pbind_ok; [exact Hok|]. unfold ok. rewrite Hloop; auto.
  Qed.

  Lemma d_expression_complete l u f : alts l u -> good u -> nest 0 u < f -> ok (expression seg f) (concat u) [] (wrap RAlt l).
  Proof.
    intros Ha Hg Hf. pose proof (d_alts_expression l u f [] (proj2 (proj2 d_toks_complete) l u Ha) (alts_nonempty _ _ Ha)) as H.
    rewrite app_nil_r in H. apply H; auto. intros g k' E. discriminate.
  Qed.

  (** ** Soundness *)
  Definition d_expr_sound (f : nat) : Prop := forall gs i t, good gs -> ok (expression seg f) (concat gs) i t ->
    exists l u k, gs = u ++ k /\ i = concat k /\ alts l u /\ t = wrap RAlt l /\ nest 0 u < f.

  Lemma d_atom_sound f gs i t : d_expr_sound f -> good gs -> ok (p_atom seg f) (concat gs) i t ->
    exists t0 u kl k, gs = u ++ ktoks kl ++ k /\ i = concat k /\ prim t0 u /\ t = kapply kl t0 /\ nest 0 u <= f.
  Proof.
    intros He Hg H. apply palt_inv in H as [H|(_ & H)].
    - unfold par_expr in H.
      apply (kleene_inv seg Hdiv _ _ _ _ (fun t1 k1 => exists l u, gs = ([40%N] :: u ++ [[41%N]]) ++ k1 /\ alts l u /\ t1 = wrap RAlt l /\ nest 0 u < f)) in H
        as (t1 & kl & k & (l & u & E & Ha & -> & Hn) & -> & Hgk & ->).
      + exists (wrap RAlt l), ([40%N] :: u ++ [[41%N]]), kl, k. repeat split; auto; [constructor; auto|].
        rewrite nest_group by (eapply (proj2 (proj2 toks_closed)); eauto). cbn [nest]. lia.
      + intros i1 t1 H1. apply delimited_inv in H1 as (i2 & [] & i3 & [] & H1 & H2 & H3).
        destruct (good_tag seg Hdiv 40%N gs ltac:(synch) ltac:(discriminate) Hg) as [(gs' & -> & H4)|(H4 & _)]; unfold ok, bad in H1, H4; [|congruence].
        rewrite H1 in H4. injection H4 as ->. pose proof (good_tail seg _ _ Hg) as Hg'.
        destruct (He gs' i3 t1 Hg' H2) as (l & u & k & -> & -> & Ha & -> & Hn). pose proof (good_app seg _ _ Hg') as Hgk.
        destruct (good_tag seg Hdiv 41%N k ltac:(synch) ltac:(discriminate) Hgk) as [(k' & -> & H4)|(H4 & _)]; unfold ok, bad in H3, H4; [|congruence].
        rewrite H3 in H4. injection H4 as ->. exists k'. split; [|split; [auto|exact (good_tail seg _ _ Hgk)]].
        exists l, u. repeat split; auto. cbn [app]. rewrite <- app_assoc. reflexivity.
    - unfold combinated_char in H.
      apply (kleene_inv seg Hdiv _ _ _ _ (fun t1 k1 => exists c u, gs = u ++ k1 /\ char_toks c u /\ t1 = RChar c)) in H
        as (t1 & kl & k & (c & u & E & Ha & ->) & -> & Hgk & ->).
      + exists (RChar c), u, kl, k. repeat split; auto; [constructor; auto|]. rewrite (nest_char _ _ Ha). lia.
      + intros i1 t1 H1. apply pmap_inv in H1 as (c & H1 & ->). destruct (char_inv seg Hdiv gs i1 c Hg H1) as (u & k & -> & -> & Hc).
        exists k. split; [|split; [auto|exact (good_app seg _ _ Hg)]]. exists c, u. auto.
  Qed.

  Lemma d_many_sound f (He : d_expr_sound f) : forall fuel gs acc i l, good gs ->
    many_loop fuel (p_atom seg f) acc (concat gs) = Ret (Some (i, l)) ->
    exists l' u k, l = acc ++ l' /\ gs = u ++ k /\ i = concat k /\ (l' = [] /\ u = [] \/ atoms l' u) /\ nest 0 u <= f.
  Proof.
    induction fuel as [|fuel IH]; intros gs acc i l Hg H; [discriminate|]. cbn [many_loop] in H.
    apply bind_Ret_inv in H as ([[i1 t]|] & E & H).
    - destruct (length i1 =? length (concat gs)); [discriminate|].
      destruct (d_atom_sound f gs i1 t He Hg E) as (t0 & u & kl & k & -> & -> & Hp & -> & Hn).
      pose proof (good_app seg _ _ (good_app seg _ _ Hg)) as Hgk.
      destruct (IH k _ _ _ Hgk H) as (l' & u' & k' & -> & -> & -> & Hl & Hn').
      exists (kapply kl t0 :: l'), ((u ++ ktoks kl) ++ u'), k'. rewrite <- !app_assoc. split; [auto|]. split; [auto|]. split; [auto|].
      split; [|rewrite nest_app by (eapply (proj1 toks_closed); eauto); rewrite nest_app by apply closed_kleene; rewrite nest_kleene; lia]. right.
      destruct Hl as [(-> & ->)|Hl].
      + rewrite app_nil_r. constructor; auto.
      + rewrite app_assoc. constructor; auto.
    - injection H as <- <-. exists [], [], gs. rewrite app_nil_r. repeat split; auto. simpl. lia.
  Qed.
  Lemma d_sequence_sound f gs i t : d_expr_sound f -> good gs -> ok (p_sequence seg (expression seg f)) (concat gs) i t ->
    exists l u k, gs = u ++ k /\ i = concat k /\ atoms l u /\ t = wrap RSequence l /\ nest 0 u <= f.
  Proof.
    intros He Hg H. unfold p_sequence, pmapR in H. apply pbind_inv in H as (i1 & l & H & Hw).
    unfold many1 in H. apply pbind_inv in H as (i2 & a & H1 & H2).
    destruct (d_atom_sound f gs i2 a He Hg H1) as (t0 & u & kl & k & -> & -> & Hp & -> & Hn).
    pose proof (good_app seg _ _ (good_app seg _ _ Hg)) as Hgk.
    destruct (d_many_sound f He _ k _ _ _ Hgk H2) as (l' & u' & k' & -> & -> & -> & Hl & Hn').
    unfold ok in Hw. rewrite wrap_multiple_wrap in Hw by discriminate. cbn [bind] in Hw. injection Hw as <- <-.
    exists ([kapply kl t0] ++ l'), ((u ++ ktoks kl) ++ u'), k'. rewrite <- !app_assoc. split; [auto|]. split; [auto|].
    split; [|split; [auto|rewrite nest_app by (eapply (proj1 toks_closed); eauto); rewrite nest_app by apply closed_kleene; rewrite nest_kleene; lia]].
    destruct Hl as [(-> & ->)|Hl]; cbn [app].
    - rewrite app_nil_r. constructor; auto.
    - rewrite app_assoc. constructor; auto.
  Qed.
  Lemma d_sep_sound f (He : d_expr_sound f) : forall fuel gs acc i l, good gs ->
    sep_loop fuel (tag [124%N]) (p_sequence seg (expression seg f)) acc (concat gs) = Ret (Some (i, l)) ->
    exists l' u k, l = acc ++ l' /\ gs = u ++ k /\ i = concat k /\ (l' = [] /\ u = [] \/ exists u', u = [124%N] :: u' /\ alts l' u') /\ nest 0 u <= f.
  Proof.
    induction fuel as [|fuel IH]; intros gs acc i l Hg H; [discriminate|]. cbn [sep_loop] in H.
    apply bind_Ret_inv in H as ([[i1 []]|] & E & H).
    - destruct (length i1 =? length (concat gs)); [discriminate|].
      destruct (good_tag seg Hdiv 124%N gs ltac:(synch) ltac:(discriminate) Hg) as [(gs' & -> & H4)|(H4 & _)]; unfold ok, bad in H4; [|congruence].
      rewrite E in H4. injection H4 as ->. pose proof (good_tail seg _ _ Hg) as Hg'.
      apply bind_Ret_inv in H as ([[i2 t]|] & E2 & H).
      + destruct (d_sequence_sound f gs' i2 t He Hg' E2) as (la & u & k & -> & -> & Ha & -> & Hn).
        pose proof (good_app seg _ _ Hg') as Hgk. destruct (IH k _ _ _ Hgk H) as (l' & u' & k' & -> & -> & -> & Hl & Hn').
        exists (wrap RSequence la :: l'), ([124%N] :: u ++ u'), k'. rewrite <- !app_assoc. cbn [app]. rewrite <- app_assoc.
        split; [auto|]. split; [auto|]. split; [auto|].
        split; [|rewrite nest_bar, nest_app by (eapply (proj1 (proj2 toks_closed)); eauto); lia]. right. exists (u ++ u'). split; auto. destruct Hl as [(-> & ->)|(v & -> & Hl)].
        * rewrite app_nil_r. constructor; auto.
        * constructor; auto.
      + injection H as <- <-. exists [], [], ([124%N] :: gs'). rewrite app_nil_r. repeat split; auto. simpl. lia.
    - injection H as <- <-. exists [], [], gs. rewrite app_nil_r. repeat split; auto. simpl. lia.
  Qed.
  Lemma d_expression_sound : forall f, d_expr_sound f.
  Proof.
    induction f as [|f IH]; intros gs i t Hg H; [discriminate|]. cbn [expression] in H. unfold p_alternation, pmapR in H.
    apply pbind_inv in H as (i1 & l & H & Hw). unfold separated_list1 in H. apply pbind_inv in H as (i2 & a & H1 & H2).
    destruct (d_sequence_sound f gs i2 a IH Hg H1) as (la & u & k & -> & -> & Ha & -> & Hn).
    pose proof (good_app seg _ _ Hg) as Hgk. destruct (d_sep_sound f IH _ k _ _ _ Hgk H2) as (l' & u' & k' & -> & -> & -> & Hl & Hn').
    unfold ok in Hw. rewrite wrap_multiple_wrap in Hw by discriminate. cbn [bind] in Hw. injection Hw as <- <-.
    exists ([wrap RSequence la] ++ l'), (u ++ u'), k'. rewrite <- !app_assoc. split; [auto|]. split; [auto|].
    split; [|split; [auto|rewrite nest_app by (eapply (proj1 (proj2 toks_closed)); eauto); lia]].
    destruct Hl as [(-> & ->)|(v & -> & Hl)]; cbn [app].
    - rewrite app_nil_r. constructor; auto.
    - constructor; auto.
  Qed.
End Seg.

(** ** More recursion does not change results *)
Definition within {A} (p q : P A) : Prop := forall i, p i <> Diverge -> q i = p i.
Lemma within_refl {A} (p : P A) : within p p.
Proof. intros i _. reflexivity. Qed.
Lemma within_pbind {A B} (p q : P A) (f g : A -> P B) : within p q -> (forall a, within (f a) (g a)) -> within (pbind p f) (pbind q g).
Proof.
  intros H Hf i. unfold pbind. intros Hi. rewrite H by (intros E; rewrite E in Hi; apply Hi; reflexivity).
  destruct (p i) as [[[i1 a]|]| |]; cbn [bind] in *; auto. apply Hf. exact Hi.
Qed.
Lemma within_pmap {A B} (f : A -> B) p q : within p q -> within (pmap f p) (pmap f q).
Proof. intros H. apply within_pbind; auto using @within_refl. Qed.
Lemma within_pmapR {A B} (f : A -> R B) p q : within p q -> within (pmapR f p) (pmapR f q).
Proof. intros H. apply within_pbind; auto using @within_refl. Qed.
Lemma within_ppair {A B} (p q : P A) (p' q' : P B) : within p q -> within p' q' -> within (ppair p p') (ppair q q').
Proof. intros H H'. apply within_pbind; auto. intros a. apply within_pmap; auto. Qed.
Lemma within_palt {A} (p q p' q' : P A) : within p q -> within p' q' -> within (palt p p') (palt q q').
Proof.
  intros H H' i. unfold palt. intros Hi. rewrite H by (intros E; rewrite E in Hi; apply Hi; reflexivity).
  destruct (p i) as [[x|]| |]; cbn [bind] in *; auto.
Qed.
Lemma within_many {A} (p q : P A) : within p q -> forall fuel acc, within (many_loop fuel p acc) (many_loop fuel q acc).
Proof.
  intros H. induction fuel as [|fuel IH]; intros acc i Hi; auto. cbn [many_loop] in *.
  rewrite H by (intros E; rewrite E in Hi; apply Hi; reflexivity). destruct (p i) as [[[i1 a]|]| |]; cbn [bind] in *; auto.
  destruct (length i1 =? length i); auto. apply IH. exact Hi.
Qed.
Lemma within_sep {A B} (s : P B) (p q : P A) : within p q -> forall fuel acc, within (sep_loop fuel s p acc) (sep_loop fuel s q acc).
Proof.
  intros H. induction fuel as [|fuel IH]; intros acc i Hi; auto. cbn [sep_loop] in *.
  destruct (s i) as [[[i1 b]|]| |]; cbn [bind] in *; auto. destruct (length i1 =? length i); auto.
  rewrite H by (intros E; rewrite E in Hi; apply Hi; reflexivity). destruct (p i1) as [[[i2 a]|]| |]; cbn [bind] in *; auto. apply IH. exact Hi.
Qed.
Lemma within_alternation seg e e' : within e e' -> within (p_alternation seg e) (p_alternation seg e').
Proof.
  intros H.
  assert (Hs : within (p_sequence seg e) (p_sequence seg e')).
  { apply within_pmapR. unfold many1.
    assert (Ha : within (palt (par_expr e) (combinated_char seg)) (palt (par_expr e') (combinated_char seg))).
    { apply within_palt; [|apply within_refl]. apply within_pmapR, within_ppair; [|apply within_refl].
      apply within_pmap, within_ppair; [apply within_refl|]. apply within_pmap, within_ppair; [auto|apply within_refl]. }
    apply within_pbind; auto. intros a i. apply within_many; auto. }
  apply within_pmapR. unfold separated_list1. apply within_pbind; auto. intros a i. apply within_sep; auto.
Qed.
Lemma within_expression seg : forall k m, k <= m -> within (expression seg k) (expression seg m).
Proof.
  induction k as [|k IH]; intros m Hm; [intros i Hi; destruct Hi; reflexivity|]. destruct m as [|m]; [lia|].
  cbn [expression]. apply within_alternation, IH. lia.
Qed.

(** ** Enough recursion for every text *)
Definition parens (i : str) : nat := length (filter (N.eqb 40) i).
Lemma parens_app u v : parens (u ++ v) = parens u + parens v.
Proof. unfold parens. rewrite filter_app, app_length. reflexivity. Qed.
Definition totalM {A} (n : nat) (p : P A) : Prop := forall i, parens i < n ->
  exists r, p i = Ret r /\ match r with Some (i', _) => exists u, i = u ++ i' | None => True end.
Lemma total_M {A} n (p : P A) : total p -> totalM n p.
Proof. intros H i _. apply H. Qed.
Lemma totalM_pbind {A B} n (p : P A) (f : A -> P B) : totalM n p -> (forall a, totalM n (f a)) -> totalM n (pbind p f).
Proof.
  intros Hp Hf i Hi. unfold pbind. destruct (Hp i Hi) as ([[i1 a]|] & -> & H1); cbn [bind].
  - destruct H1 as (u & ->). rewrite parens_app in Hi. destruct (Hf a i1) as ([[i2 b]|] & -> & H2); [lia| |].
    + destruct H2 as (v & ->). exists (Some (i2, b)). split; auto. exists (u ++ v). rewrite app_assoc. auto.
    + exists None. auto.
  - exists None. auto.
Qed.
Lemma totalM_pmap {A B} n (f : A -> B) p : totalM n p -> totalM n (pmap f p).
Proof. intros H. apply totalM_pbind; auto. intros a. apply total_M, total_pret. Qed.
Lemma totalM_ppair {A B} n (p : P A) (q : P B) : totalM n p -> totalM n q -> totalM n (ppair p q).
Proof. intros Hp Hq. apply totalM_pbind; auto. intros a. apply totalM_pmap; auto. Qed.
Lemma totalM_terminated {A B} n (p : P A) (q : P B) : totalM n p -> totalM n q -> totalM n (terminated p q).
Proof. intros Hp Hq. apply totalM_pmap, totalM_ppair; auto. Qed.
Lemma totalM_palt {A} n (p q : P A) : totalM n p -> totalM n q -> totalM n (palt p q).
Proof.
  intros Hp Hq i Hi. unfold palt. destruct (Hp i Hi) as ([x|] & -> & H); cbn [bind].
  - exists (Some x). auto.
  - apply Hq; auto.
Qed.
Lemma totalM_many_loop {A} n (p : P A) (Hp : totalM n p) : forall fuel acc i, length i < fuel -> parens i < n ->
  exists r, many_loop fuel p acc i = Ret r /\ match r with Some (i', l) => (exists u, i = u ++ i') /\ length acc <= length l | None => True end.
Proof.
  induction fuel as [|fuel IH]; intros acc i Hl Hn; [lia|]. cbn [many_loop].
  destruct (Hp i Hn) as ([[i1 a]|] & -> & H); cbn [bind].
  - destruct H as (u & ->). destruct (Nat.eqb_spec (length i1) (length (u ++ i1))) as [E|E].
    + exists None. auto.
    + rewrite app_length in E, Hl. rewrite parens_app in Hn. destruct (IH (acc ++ [a]) i1) as (r & -> & Hr); [lia|lia|].
      exists r. split; auto. destruct r as [[i2 l]|]; auto. destruct Hr as ((v & ->) & Hle). rewrite app_length in Hle.
      split; [|simpl in Hle; lia]. exists (u ++ v). rewrite app_assoc. auto.
  - exists (Some (i, acc)). split; auto. split; auto. exists []. auto.
Qed.
Lemma totalM_sep_loop {A B} n (sep : P B) (p : P A) (Hs : totalM n sep) (Hp : totalM n p) : forall fuel acc i, length i < fuel -> parens i < n ->
  exists r, sep_loop fuel sep p acc i = Ret r /\ match r with Some (i', l) => (exists u, i = u ++ i') /\ length acc <= length l | None => True end.
Proof.
  induction fuel as [|fuel IH]; intros acc i Hl Hn; [lia|]. cbn [sep_loop].
  destruct (Hs i Hn) as ([[i1 b]|] & -> & H); cbn [bind].
  - destruct H as (u & ->). destruct (Nat.eqb_spec (length i1) (length (u ++ i1))) as [E|E].
    + exists None. auto.
    + rewrite app_length in E, Hl. rewrite parens_app in Hn. destruct (Hp i1) as ([[i2 a]|] & -> & H); [lia| |]; cbn [bind].
      * destruct H as (v & ->). rewrite app_length in *. rewrite parens_app in Hn. destruct (IH (acc ++ [a]) i2) as (r & -> & Hr); [lia|lia|].
        exists r. split; auto. destruct r as [[i3 l]|]; auto. destruct Hr as ((w & ->) & Hle). rewrite app_length in Hle.
        split; [|simpl in Hle; lia]. exists (u ++ v ++ w). rewrite !app_assoc. auto.
      * exists (Some (u ++ i1, acc)). split; auto. split; auto. exists []. auto.
  - exists (Some (i, acc)). split; auto. split; auto. exists []. auto.
Qed.

(** [many1] and [separated_list1] yield at least one item *)
Lemma totalM_pmapR {A B} n (f : A -> R B) (p : P A) (Q : A -> Prop) :
  (forall i, parens i < n -> exists r, p i = Ret r /\ match r with Some (i', a) => (exists u, i = u ++ i') /\ Q a | None => True end) ->
  (forall a, Q a -> exists b, f a = Ret b) -> totalM n (pmapR f p).
Proof.
  intros Hp Hf i Hi. unfold pmapR, pbind. destruct (Hp i Hi) as ([[i1 a]|] & -> & H); cbn [bind].
  - destruct H as (Hu & Ha). destruct (Hf a Ha) as (b & ->). cbn [bind]. exists (Some (i1, b)). auto.
  - exists None. auto.
Qed.

Lemma totalM_sequence seg n e : totalM n (palt (par_expr e) (combinated_char seg)) -> totalM n (p_sequence seg e).
Proof.
  intros H. apply (totalM_pmapR n _ _ (fun l => 1 <= length l)); [|apply wrap_multiple_total].
  intros i Hi. unfold many1, pbind. destruct (H i Hi) as ([[i1 a]|] & -> & H1); cbn [bind].
  - destruct H1 as (u & ->). rewrite parens_app in Hi.
    destruct (totalM_many_loop n _ H (S (length i1)) [a] i1) as (r & -> & Hr); [lia|lia|].
    exists r. split; auto. destruct r as [[i2 l]|]; auto. destruct Hr as ((v & ->) & Hl). split; auto.
    exists (u ++ v). rewrite app_assoc. auto.
  - exists None. auto.
Qed.
Lemma totalM_alternation seg n e : totalM n (palt (par_expr e) (combinated_char seg)) -> totalM n (p_alternation seg e).
Proof.
  intros H. apply totalM_sequence in H. apply (totalM_pmapR n _ _ (fun l => 1 <= length l)); [|apply wrap_multiple_total].
  intros i Hi. unfold separated_list1, pbind. destruct (H i Hi) as ([[i1 a]|] & -> & H1); cbn [bind].
  - destruct H1 as (u & ->). rewrite parens_app in Hi.
    destruct (totalM_sep_loop n (tag [124%N]) _ (total_M n _ (total_tag _)) H (S (length i1)) [a] i1) as (r & -> & Hr); [lia|lia|].
    exists r. split; auto. destruct r as [[i2 l]|]; auto. destruct Hr as ((v & ->) & Hl). split; auto.
    exists (u ++ v). rewrite app_assoc. auto.
  - exists None. auto.
Qed.

Lemma totalM_kleene n p : totalM n p -> totalM n (pmapR apply_kleene (ppair p (popt (one_of [43; 42]%N)))).
Proof.
  intros H. apply (totalM_pmapR n _ _ (fun x => match snd x with Some c => In c [43; 42]%N | None => True end)).
  - intros i Hi. unfold ppair, pbind. destruct (H i Hi) as ([[i1 a]|] & -> & H1); cbn [bind].
    + destruct H1 as (u & ->). unfold pmap, popt, pbind. destruct (one_of_spec [43; 42]%N i1) as (r & E & Hr). rewrite E.
      destruct r as [[i2 c]|]; cbn [bind pret]; unfold pret.
      * exists (Some (i2, (a, Some c))). destruct Hr as (-> & Hc). split; auto. split; auto. exists (u ++ [c]).
        rewrite <- app_assoc. reflexivity.
      * exists (Some (i1, (a, None))). split; auto. simpl. eauto.
    + exists None. auto.
  - intros [t o] Ho. apply apply_kleene_total; auto.
Qed.

Lemma totalM_combinated n seg : totalM n (combinated_char seg).
Proof. apply totalM_kleene, total_M, total_pmap, total_regex_char. Qed.
Lemma totalM_par_expr n e : totalM n e -> totalM (S n) (par_expr e).
Proof.
  intros H. apply totalM_kleene. unfold delimited, preceded. intros i Hi. unfold pmap, ppair, pbind.
  destruct (tag_spec [40%N] i) as [(k & -> & E)|(E & _)]; rewrite E; cbn [bind]; [|exists None; auto].
  rewrite parens_app in Hi. change (parens [40%N]) with 1 in Hi. destruct (totalM_terminated n _ _ H (total_M n _ (total_tag [41%N])) k) as (r & Er & Hr); [lia|].
  unfold pmap, pbind. rewrite Er. cbn [bind]. destruct r as [[i2 t]|]; cbn [bind pret]; unfold pret; cbn [bind].
  - eexists. split; [reflexivity|]. destruct Hr as (v & ->). exists ([40%N] ++ v). rewrite app_assoc. auto.
  - exists None. auto.
Qed.
Lemma totalM_expression seg : forall n, totalM n (expression seg n).
Proof.
  induction n as [|n IH]; [intros i Hi; lia|]. cbn [expression]. apply totalM_alternation, totalM_palt.
  - apply totalM_par_expr; auto.
  - apply totalM_combinated.
Qed.


(** ** Parsing texts *)
Lemma expression_depth seg gs u t n : divides seg -> tokens seg gs -> trims_to u (concat gs) -> parse_regex seg u = Ret (Some t) -> nested gs n ->
  forall k, expression seg k (concat gs) = if k <=? n then Diverge else Ret (Some ([], t)).
Proof.
  intros Hd Hg Ht H Hn k. apply nested_nest in Hn. subst n. destruct (parse_regex_alts _ _ _ _ Hd Hg Ht H) as (l & Ha & ->).
  assert (K : forall m, nest 0 gs < m -> expression seg m (concat gs) = Ret (Some ([], wrap RAlt l))).
  { intros m Hm. exact (d_expression_complete seg Hd l gs m Ha Hg Hm). }
  destruct (Nat.leb_spec k (nest 0 gs)) as [L|L]; [|apply K; lia].
  pose proof (within_expression seg k (S (nest 0 gs)) ltac:(lia) (concat gs)) as M. rewrite (K (S (nest 0 gs))) in M by lia.
  destruct (expression seg k (concat gs)) as [r| |] eqn:E; auto; specialize (M ltac:(discriminate)); [|discriminate].
  injection M as <-. destruct (d_expression_sound seg Hd k gs [] _ Hg E) as (l' & v & k' & -> & Hk & _ & _ & Hlt).
  assert (k' = []).
  { destruct k' as [|g k']; auto. assert (Hne : g <> []) by (apply (good_nonempty seg Hd _ Hg); apply in_app_iff; right; left; auto).
    simpl in Hk. symmetry in Hk. apply app_eq_nil in Hk as (Hk & _). congruence. }
  subst k'. rewrite app_nil_r in *. lia.
Qed.
Lemma expression_height seg gs u t n : divides seg -> tokens seg gs -> trims_to u (concat gs) -> parse_regex seg u = Ret (Some t) -> nested gs n ->
  height t <= 4 * n + 5.
Proof.
  intros Hd Hg Ht H Hn. apply nested_nest in Hn. subst n. destruct (parse_regex_alts _ _ _ _ Hd Hg Ht H) as (l & Ha & ->).
  pose proof (height_wrap RAlt l (fun _ => eq_refl) (alts_nonempty _ _ Ha)). pose proof (proj2 (proj2 toks_height) l gs Ha). lia.
Qed.

(** ** High trees *)
Fixpoint tall_tree (n : nat) : regex_tree :=
  let x := match n with O => RChar (RGrapheme [97%N]) | S n => tall_tree n end in
  RAlt [RSequence [RSequence [x; RRepeat x]; RChar (RGrapheme [98%N])]; RChar (RGrapheme [99%N])].
Lemma tall_tree_height n : height (tall_tree n) = 4 * n + 5.
Proof. induction n as [|n IH]; [reflexivity|]. cbn [tall_tree height fold_right]. rewrite IH. lia. Qed.
Lemma letter_prim c : ~ syntax_char c -> prim (RChar (RGrapheme [c])) [[c]].
Proof. intros H. constructor. constructor. intros (c' & g & E & Hc). injection E as <- <-. auto. Qed.
Lemma tall_alts n : exists l, alts l (tall n) /\ wrap RAlt l = tall_tree n.
Proof.
  assert (L : forall c, In c [97; 98; 99]%N -> ~ syntax_char c).
  { intros c [<- |[<- |[<- |[]]]] H; unfold syntax_char in H; simpl in H; intuition discriminate. }
  induction n as [|n IH].
  - exists [RSequence [RSequence [RChar (RGrapheme [97%N]); RRepeat (RChar (RGrapheme [97%N]))]; RChar (RGrapheme [98%N])]; RChar (RGrapheme [99%N])].
    split; [|reflexivity].
    apply (alts_more [RSequence [RChar (RGrapheme [97%N]); RRepeat (RChar (RGrapheme [97%N]))]; RChar (RGrapheme [98%N])] [[97%N]; [43%N]; [98%N]]
             [RChar (RGrapheme [99%N])] [[99%N]]).
    + apply (atoms_more (RChar (RGrapheme [97%N])) [[97%N]] KPlus [RChar (RGrapheme [98%N])] [[98%N]]); [apply letter_prim, L; simpl; auto|].
      apply (atoms_one (RChar (RGrapheme [98%N])) [[98%N]] KNone). apply letter_prim, L; simpl; auto.
    + apply (alts_one [RChar (RGrapheme [99%N])]). apply (atoms_one (RChar (RGrapheme [99%N])) [[99%N]] KNone). apply letter_prim, L; simpl; auto.
  - destruct IH as (l & Ha & E).
    exists [RSequence [RSequence [tall_tree n; RRepeat (tall_tree n)]; RChar (RGrapheme [98%N])]; RChar (RGrapheme [99%N])]. split; [|reflexivity].
    assert (Et : tall (S n) = ((([40%N] :: tall n ++ [[41%N]]) ++ ktoks KPlus) ++ [[98%N]]) ++ [124%N] :: [[99%N]]).
    { cbn [tall ktoks]. rewrite <- !app_assoc. reflexivity. }
    rewrite Et.
    apply (alts_more [RSequence [tall_tree n; RRepeat (tall_tree n)]; RChar (RGrapheme [98%N])] _ [RChar (RGrapheme [99%N])] [[99%N]]).
    + apply (atoms_more (tall_tree n) _ KPlus [RChar (RGrapheme [98%N])] [[98%N]]); [rewrite <- E; constructor; exact Ha|].
      apply (atoms_one (RChar (RGrapheme [98%N])) [[98%N]] KNone). apply letter_prim, L; simpl; auto.
    + apply (alts_one [RChar (RGrapheme [99%N])]). apply (atoms_one (RChar (RGrapheme [99%N])) [[99%N]] KNone). apply letter_prim, L; simpl; auto.
Qed.
Lemma tall_nest n : nest 0 (tall n) = n.
Proof.
  induction n as [|n IH]; [reflexivity|]. cbn [tall]. change (nest 0 ([40%N] :: (tall n ++ [[41%N]]) ++ [[43%N]; [98%N]; [124%N]; [99%N]]) = S n).
  rewrite <- app_assoc. cbn [app]. destruct (tall_alts n) as (l & Ha & _). rewrite nest_group by (eapply (proj2 (proj2 toks_closed)); eauto).
  rewrite IH. cbn. lia.
Qed.
Lemma tall_parses seg n u : divides seg -> tokens seg (tall n) -> trims_to u (concat (tall n)) ->
  parse_regex seg u = Ret (Some (tall_tree n)).
Proof. intros Hd Hg Ht. destruct (tall_alts n) as (l & Ha & <-). apply (alts_parse_regex _ _ _ _ Ha); auto. Qed.
Lemma tall_In n g : In g (tall n) -> In g [[97%N]; [98%N]; [99%N]; [40%N]; [41%N]; [43%N]; [124%N]].
Proof.
  induction n as [|n IH]; [simpl; tauto|]. cbn [tall app In]. rewrite !in_app_iff. simpl in *. tauto.
Qed.
Lemma tall_trims n : trims_to (concat (tall n)) (concat (tall n)).
Proof.
  assert (K : forall c, In c (concat (tall n)) -> ~ whitespace c).
  { intros c Hc. apply in_concat in Hc as (g & Hg & Hc). apply tall_In in Hg. simpl in Hg.
    destruct Hg as [<-|[<-|[<-|[<-|[<-|[<-|[<-|[]]]]]]]]; destruct Hc as [<-|[]]; unfold whitespace; lia. }
  exists [], []. rewrite app_nil_r. split; auto. split; [simpl; tauto|]. split; intros c v' E; apply K; rewrite E; [left; auto|].
  apply in_app_iff. right. left. auto.
Qed.
Lemma tall_tokens seg n : (forall c u, exists l, seg (c :: u) = [c] :: l) -> tokens seg (tall n).
Proof.
  intros H. assert (K : forall gs, (forall g, In g gs -> exists c, g = [c] /\ c <> 92%N) -> tokens seg gs).
  { induction gs as [|g gs IH]; intros Hgs; [constructor|]. destruct (Hgs g (or_introl eq_refl)) as (c & -> & Hc).
    assert (tokens seg gs) by (apply IH; intros; apply Hgs; right; auto).
    destruct (syntax_dec c) as [S|S]; [apply tk_reserved; auto|]. destruct (H c (concat gs)) as (l & E).
    apply (tk_symbol seg [c] l); auto. intros (c' & g' & E' & Hc'). injection E' as <- <-. auto. }
  apply K. intros g Hg. apply tall_In in Hg. simpl in Hg. repeat (destruct Hg as [<-|Hg]; [eexists; split; [reflexivity|discriminate]|]). destruct Hg.
Qed.
