(** * PathProofs: what is shown of any path *)
From Coq Require Import Ascii String List NArith Arith Bool Lia.
From Verif Require Import Base BaseLemmas CliModel CliSpec CliProofs PathSpec.
Import ListNotations.
Close Scope string_scope.
Open Scope list_scope.

Definition no_slash (c : str) : Prop := ~ In 47%N c.
Lemma split_pieces : forall cs, Forall no_slash cs -> cs <> [] -> split_slash [] (slashed cs) = cs.
Proof.
  induction cs as [|c cs IH]; intros F H; [congruence|]. inversion F as [|? ? H3 F']; subst.
  destruct cs as [|c' cs].
  - simpl. rewrite <- (app_nil_r c) at 1. rewrite split_slash_app by auto. reflexivity.
  - change (slashed (c :: c' :: cs)) with (c ++ [47%N] ++ slashed (c' :: cs)). rewrite split_slash_app by auto. simpl split_slash at 1.
    cbn [app]. f_equal. apply IH; auto. discriminate.
Qed.
Lemma names_components cs : Forall no_slash cs -> Forall component (names cs).
Proof.
  intros F. apply Forall_forall. intros c Hc. unfold names in Hc. apply filter_In in Hc as (Hc & B). apply andb_prop in B as (B1 & B2).
  apply negb_true_iff in B1, B2. rewrite Forall_forall in F. split; [|split; [|apply F; exact Hc]].
  - intros ->. discriminate.
  - intros ->. discriminate.
Qed.
Lemma components_pieces cs : Forall no_slash cs ->
  (absolute cs -> path_components (slashed cs) = [47%N] :: names cs) /\
  (~ absolute cs -> path_components (slashed cs) = (if eqb (hd [] cs) [46%N] then [[46%N]] else []) ++ names cs).
Proof.
  intros F. split.
  - intros (p & r & ->). unfold path_components. rewrite split_pieces by (auto; discriminate).
    change (slashed ([] :: p :: r)) with (47%N :: slashed (p :: r)). reflexivity.
  - intros NA. destruct cs as [|c cs]; [reflexivity|]. inversion F as [|? ? Hc F']; subst.
    destruct c as [|x c].
    + destruct cs as [|p r]; [reflexivity|]. destruct NA. exists p, r. reflexivity.
    + assert (Hx : x <> 47%N) by (intros ->; apply Hc; left; reflexivity).
      assert (E : exists v, slashed (@cons str (x :: c) cs) = x :: v) by (destruct cs; cbn; eauto). destruct E as (v & E).
      assert (SP : split_slash [] (slashed (@cons str (x :: c) cs)) = @cons str (x :: c) cs) by (apply split_pieces; [exact F|discriminate]).
      rewrite E in SP |- *. unfold path_components. rewrite SP, (not_slash_match x v) by exact Hx. reflexivity.
Qed.
Lemma last_n_same p q n : path_components p = path_components q -> last_n_components p (Some (S n)) = last_n_components q (Some (S n)).
Proof. intros E. unfold last_n_components. rewrite E. reflexivity. Qed.
Lemma not_absolute_components cs : Forall component cs -> ~ absolute cs.
Proof. intros F (p & r & ->). inversion F as [|? ? (H & _) _]. congruence. Qed.

(** a leading "." is dropped *)
Lemma last_n_here cs n : Forall component cs -> cs <> [] -> forall p, path_components p = [46%N] :: cs ->
  last_n_components p (Some (S n)) = Some (slashed (last_n (S n) cs)).
Proof.
  intros F NE p E. unfold last_n_components. rewrite E. cbn [rev].
  assert (FR : Forall component (rev cs)) by (apply Forall_rev'; exact F).
  assert (NR : rev cs <> []) by (intros C; apply NE; rewrite <- (rev_involutive cs), C; reflexivity).
  rewrite firstn_app, rev_length. destruct (S n - length cs) as [|k] eqn:K.
  - rewrite firstn_O, app_nil_r. assert (F1 : Forall component (firstn (S n) (rev cs))) by (apply Forall_firstn'; exact FR).
    rewrite (collect_components (firstn (S n) (rev cs))) by exact F1. rewrite components_relative by exact F1. f_equal.
    rewrite <- firstn_rev_last. apply collect_components. apply Forall_rev'. exact F1.
  - rewrite firstn_all2 by (rewrite rev_length; lia). change (firstn (S k) [[46%N]]) with ([46%N] :: firstn k []). rewrite firstn_nil.
    assert (EC : path_collect (rev cs ++ [[46%N]]) = slashed (rev cs ++ [[46%N]])).
    { unfold path_collect. rewrite fold_left_app. cbn [fold_left]. change (fold_left path_push (rev cs) []) with (path_collect (rev cs)).
      rewrite collect_components by exact FR. rewrite slashed_snoc by exact NR. destruct (last_component _ FR NR) as (L1 & L2).
      unfold path_push. rewrite (neqb_true _ _ L1). destruct (N.eqb_spec (last (slashed (rev cs)) 0%N) 47); [contradiction|reflexivity]. }
    rewrite EC. assert (FN : Forall no_slash (rev cs ++ [[46%N]])).
    { apply Forall_app. split; [eapply Forall_impl; [|exact FR]; intros a (_ & _ & H); exact H|]. constructor; [|constructor]. intros [H|[]]. discriminate. }
    rewrite (proj2 (components_pieces _ FN)).
    + assert (NM : names (rev cs ++ [[46%N]]) = rev cs).
      { unfold names. rewrite filter_app. change (keep (rev cs) ++ [] = rev cs). rewrite keep_components, app_nil_r by exact FR. reflexivity. }
      rewrite NM. destruct (rev cs) as [|c r] eqn:ER; [contradiction|]. inversion FR as [|? ? (_ & H & _) _]; subst. cbn [hd app].
      pose proof (neqb_true c [46%N] H) as HB. unfold str in HB |- *. rewrite HB. cbn [app].
      assert (X : rev (c :: r) = cs) by (rewrite <- ER; apply rev_involutive). etransitivity; [exact (f_equal (fun l => Some (path_collect l)) X)|]. unfold last_n. assert (Z : length cs - S n = 0) by lia. unfold str in Z |- *. rewrite Z.
      change (Some (path_collect cs) = Some (slashed cs)). f_equal. apply collect_components. exact F.
    + intros (q & r & C). destruct (rev cs) as [|c r']; [contradiction|]. injection C as -> _. inversion FR as [|? ? (H & _) _]. congruence.
Qed.

Lemma last_n_any cs n : Forall no_slash cs -> n <> 0 -> exists s, last_n_components (slashed cs) (Some n) = Some s /\ shown n cs s.
Proof.
  intros F Hn. destruct n as [|n]; [congruence|]. clear Hn. pose proof (names_components cs F) as FN.
  assert (D : absolute cs \/ ~ absolute cs).
  { destruct cs as [|[|x c] [|p r]]; try (right; intros (? & ? & C); discriminate C). left. exists p, r. reflexivity. }
  destruct D as [A|NA].
  - assert (E : path_components (slashed cs) = path_components (47%N :: slashed (names cs))).
    { rewrite (proj1 (components_pieces cs F) A), components_absolute by exact FN. reflexivity. }
    rewrite (last_n_same _ _ _ E). destruct (Nat.lt_ge_cases (length (names cs)) (S n)) as [L|L].
    + rewrite last_n_absolute_all by auto. eexists. split; [reflexivity|]. apply shown_root; auto.
    + rewrite last_n_absolute by (auto; lia). eexists. split; [reflexivity|]. apply shown_names; [lia|]. left. destruct (names cs); [cbn in L; lia|discriminate].
  - pose proof (proj2 (components_pieces cs F) NA) as E. destruct (eqb (hd [] cs) [46%N]) eqn:H.
    + assert (HH : hd [] cs = [46%N]) by (destruct (@eqb_spec str _ (hd [] cs) [46%N]) as [Q|Q]; [exact Q|]; apply neqb_true in Q; unfold str in *; congruence).
      destruct (names cs) as [|c r] eqn:EN.
      * exists [46%N]. split; [|apply shown_here; auto]. unfold last_n_components. rewrite E. cbn [app rev firstn]. rewrite firstn_nil. reflexivity.
      * rewrite <- EN in *. assert (NN : names cs <> []) by (rewrite EN; discriminate).
        rewrite (last_n_here (names cs) n FN NN (slashed cs) E). eexists. split; [reflexivity|]. apply shown_names; auto. tauto.
    + assert (HH : hd [] cs <> [46%N]) by (intros C; rewrite C in H; discriminate).
      assert (E' : path_components (slashed cs) = path_components (slashed (names cs))) by (rewrite E, components_relative by exact FN; reflexivity).
      rewrite (last_n_same _ _ _ E'). rewrite last_n_relative by (auto; lia). eexists. split; [reflexivity|]. apply shown_names; auto. tauto.
Qed.

(** every text is a path that can be cut at its slashes *)
Lemma pieces_exist : forall p, exists cs, Forall no_slash cs /\ cs <> [] /\ p = slashed cs.
Proof.
  induction p as [|x p (cs & F & NE & E)].
  - exists [[]]. split; [constructor; [intros []|constructor]|]. split; [discriminate|reflexivity].
  - destruct (N.eq_dec x 47) as [-> |Hx].
    + exists ([] :: cs). split; [constructor; [intros []|exact F]|]. split; [discriminate|]. destruct cs; [contradiction|]. rewrite E. reflexivity.
    + destruct cs as [|c cs]; [contradiction|]. inversion F as [|? ? Hc F']; subst. exists ((x :: c) :: cs). split; [constructor; [|exact F']; intros [C|C]; auto|].
      split; [discriminate|]. destruct cs; reflexivity.
Qed.
Lemma shown_unique n cs s s' : shown n cs s -> shown n cs s' -> s = s'.
Proof.
  intros H H'. inversion H as [A B|A B|A B]; subst; inversion H' as [A' B'|A' B'|A' B']; subst; auto; try tauto.
  - destruct A as (p & r & ->). discriminate.
  - destruct A' as (p & r & ->). discriminate.
Qed.
