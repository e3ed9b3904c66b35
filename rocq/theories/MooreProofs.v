(** * MooreProofs: short words tell the states of deterministic automata apart *)
From Coq Require Import List Arith Bool Lia.
From Verif Require Import Base BaseLemmas Spec DfaBasics.
Import ListNotations.

Section Moore.
Context {Q : Type} (A : list str) (states : list Q) (step : Q -> str -> Q) (acc : Q -> bool).
Hypothesis closed : forall q a, In q states -> In a A -> In (step q a) states.

Definition out (q : Q) (w : word) : bool := acc (fold_left step w q).
Fixpoint alike (k : nat) (p q : Q) : bool :=
  Bool.eqb (acc p) (acc q) && match k with O => true | S k => forallb (fun a => alike k (step p a) (step q a)) A end.

Lemma alike_spec k : forall p q, alike k p q = true <-> forall w, over A w -> length w <= k -> out p w = out q w.
Proof.
  induction k as [|k IH]; intros p q; cbn [alike].
  - rewrite andb_true_r, eqb_true_iff. split; [|intros H; exact (H [] (Forall_nil _) (le_n 0))].
    intros H w _ L. destruct w; [exact H|cbn in L; lia].
  - rewrite andb_true_iff, eqb_true_iff, forallb_forall. split.
    + intros [H H1] [|a w] O L; [exact H|]. inversion O; subst. cbn in L. apply (proj1 (IH _ _) (H1 a ltac:(auto)) w); auto. lia.
    + intros H. split; [apply (H []); [constructor|cbn; lia]|]. intros a Ha. apply IH. intros w O L. apply (H (a :: w)); [constructor; auto|cbn; lia].
Qed.
Lemma alike_le j k p q : j <= k -> alike k p q = true -> alike j p q = true.
Proof. rewrite !alike_spec. intros L H w O Lw. apply H; auto. lia. Qed.
Lemma alike_refl k p : alike k p p = true.
Proof. apply alike_spec. auto. Qed.
Lemma alike_sym k p q : alike k p q = alike k q p.
Proof.
  destruct (alike k p q) eqn:E, (alike k q p) eqn:E'; auto; exfalso.
  - assert (X : alike k q p = true); [|congruence]. rewrite alike_spec in E |- *. intros w O L. symmetry. auto.
  - assert (X : alike k p q = true); [|congruence]. rewrite alike_spec in E' |- *. intros w O L. symmetry. auto.
Qed.
Lemma alike_trans k p q r : alike k p q = true -> alike k q r = true -> alike k p r = true.
Proof. rewrite !alike_spec. intros H H1 w O L. rewrite H; auto. Qed.

Definition settled (k : nat) : Prop := forall p q, In p states -> In q states -> alike k p q = true -> alike (S k) p q = true.
Lemma settled_next k : settled k -> settled (S k).
Proof.
  intros S p q Hp Hq H. cbn [alike] in H |- *. apply andb_true_iff in H as [H H1]. rewrite H. cbn [andb]. rewrite forallb_forall in H1 |- *.
  intros a Ha. apply S; auto.
Qed.
Lemma settled_all k : settled k -> forall p q, In p states -> In q states -> alike k p q = true -> forall j, alike j p q = true.
Proof.
  intros S p q Hp Hq H j. assert (G : forall i, settled (i + k) /\ alike (i + k) p q = true).
  { induction i as [|i [S1 IH]]; [split; auto|]. split; [apply settled_next; auto|]. apply S1; auto. }
  destruct (G j) as [_ H1]. apply (alike_le j (j + k)); auto. lia.
Qed.

(** states that are pairwise told apart by words of at most [k] symbols *)
Fixpoint apart (k : nat) (l : list Q) : Prop :=
  match l with [] => True | q :: l => Forall (fun r => alike k q r = false) l /\ apart k l end.
Lemma apart_NoDup k l : apart k l -> NoDup l.
Proof.
  induction l as [|q l IH]; intros H; [constructor|]. destruct H as [H H1]. constructor; auto. intros I. rewrite Forall_forall in H. apply H in I.
  rewrite alike_refl in I. discriminate.
Qed.
Lemma apart_eq k l p q : apart k l -> In p l -> In q l -> alike k p q = true -> p = q.
Proof.
  induction l as [|r l IH]; intros H Hp Hq E; [destruct Hp|]. destruct H as [H H1]. rewrite Forall_forall in H.
  destruct Hp as [->|Hp], Hq as [->|Hq]; auto.
  - rewrite (H _ Hq) in E. discriminate.
  - rewrite alike_sym, (H _ Hp) in E. discriminate.
Qed.
Lemma complete k l : apart k l -> incl l states ->
  exists l', apart k l' /\ incl l' states /\ length l <= length l' /\ forall q, In q states -> existsb (alike k q) l' = true.
Proof.
  intros H I. assert (G : forall qs, incl qs states -> exists l', apart k l' /\ incl l' states /\ length l <= length l' /\ forall q, In q qs -> existsb (alike k q) l' = true).
  { induction qs as [|q qs IH]; intros Iq; [exists l; repeat split; auto; intros q []|].
    destruct IH as (l' & H1 & I1 & L & C); [intros x Hx; apply Iq; right; auto|].
    destruct (existsb (alike k q) l') eqn:E.
    - exists l'. repeat split; auto. intros x [<-|Hx]; auto.
    - exists (q :: l'). split; [split; auto|].
      { apply Forall_forall. intros r Hr. destruct (alike k q r) eqn:E'; auto. assert (X : existsb (alike k q) l' = true) by (apply existsb_exists; eauto). congruence. }
      split; [intros x [<-|Hx]; auto; apply Iq; left; auto|]. split; [cbn; lia|].
      intros x [<-|Hx]; cbn [existsb]; [rewrite alike_refl; auto|]. rewrite C by auto. apply orb_true_r. }
  apply G. intros x Hx; auto.
Qed.
Lemma apart_mono j k l : j <= k -> apart j l -> apart k l.
Proof.
  intros L. induction l as [|q l IH]; [auto|]. intros [H H1]. split; auto. eapply Forall_impl; [|exact H]. intros r E. cbn beta in *.
  destruct (alike k q r) eqn:E'; auto. apply (alike_le j k) in E'; auto. congruence.
Qed.

Lemma settled_dec k : settled k \/ exists p q, In p states /\ In q states /\ alike k p q = true /\ alike (S k) p q = false.
Proof.
  destruct (existsb (fun p => existsb (fun q => alike k p q && negb (alike (S k) p q)) states) states) eqn:E.
  - right. apply existsb_exists in E as (p & Hp & E). apply existsb_exists in E as (q & Hq & E). apply andb_true_iff in E as [E E1].
    apply negb_true_iff in E1. exists p, q. auto.
  - left. intros p q Hp Hq H. destruct (alike (S k) p q) eqn:E1; auto. exfalso.
    assert (X : existsb (fun p => existsb (fun q => alike k p q && negb (alike (S k) p q)) states) states = true); [|congruence].
    apply existsb_exists. exists p. split; auto. apply existsb_exists. exists q. split; auto. rewrite H, E1. reflexivity.
Qed.
Lemma apart_new k l p : apart k l -> Forall (fun r => alike (S k) p r = false) l -> apart (S k) (p :: l).
Proof. intros H F. split; auto. apply (apart_mono k); auto. Qed.

Lemma rounds k : (forall p q, In p states -> In q states -> alike k p q = true -> forall j, alike j p q = true) \/
  exists l, apart k l /\ incl l states /\ k + 2 <= length l /\ forall q, In q states -> existsb (alike k q) l = true.
Proof.
  induction k as [|k IH].
  - destruct (existsb (fun p => existsb (fun q => negb (alike 0 p q)) states) states) eqn:E.
    + right. apply existsb_exists in E as (p & Hp & E). apply existsb_exists in E as (q & Hq & E). apply negb_true_iff in E.
      destruct (complete 0 [p; q]) as (l & H & I & L & C); [cbn; repeat split; auto|intros x [<-|[<-|[]]]; auto|]. exists l. auto.
    + left. intros p q Hp Hq _. apply (settled_all 0); auto.
      * assert (N : forall p q, In p states -> In q states -> alike 0 p q = true).
        { intros x y Hx Hy. destruct (alike 0 x y) eqn:E1; auto. exfalso.
          assert (X : existsb (fun p => existsb (fun q => negb (alike 0 p q)) states) states = true); [|congruence].
          apply existsb_exists. exists x. split; auto. apply existsb_exists. exists y. split; auto. rewrite E1. reflexivity. }
        intros x y Hx Hy H. cbn [alike] in H |- *. rewrite andb_true_r in H. rewrite H. cbn [andb]. apply forallb_forall. intros a Ha. apply (N (step x a)); auto.
      * destruct (alike 0 p q) eqn:E1; auto. exfalso.
        assert (X : existsb (fun p => existsb (fun q => negb (alike 0 p q)) states) states = true); [|congruence].
        apply existsb_exists. exists p. split; auto. apply existsb_exists. exists q. split; auto. rewrite E1. reflexivity.
  - destruct IH as [IH|(l & H & I & L & C)].
    + left. intros p q Hp Hq H. apply IH; auto. apply (alike_le k (S k)); auto.
    + destruct (settled_dec k) as [S|(p & q & Hp & Hq & E & E1)].
      * left. intros p q Hp Hq Hpq. apply (settled_all k S); auto. apply (alike_le k (Datatypes.S k)); auto.
      * right. assert (R : exists x, In x states /\ Forall (fun r => alike (S k) x r = false) l).
        { pose proof (C p Hp) as X. apply existsb_exists in X as (r & Hr & Er).
          assert (Oth : forall x y, alike k x r = true -> In y l -> y <> r -> alike (S k) x y = false).
          { intros x y Ex Hy Ny. destruct (alike (S k) x y) eqn:Exy; auto. apply (alike_le k) in Exy; auto. exfalso. apply Ny.
            apply (apart_eq k l); auto. rewrite alike_sym in Exy. apply (alike_trans k y x r); auto. }
          destruct (alike (S k) p r) eqn:Epr.
          - exists q. split; auto. apply Forall_forall. intros y Hy. destruct (alike (S k) q y) eqn:Eqy; auto. exfalso.
            assert (alike k y r = true). { apply (alike_trans k y q r); [rewrite alike_sym; apply (alike_le k) in Eqy; auto|]. apply (alike_trans k q p r); auto. rewrite alike_sym; auto. }
            assert (y = r) by (apply (apart_eq k l); auto). subst y. rewrite (alike_trans (S k) p r q) in E1; [discriminate|auto|]. rewrite alike_sym; auto.
          - exists p. split; auto. apply Forall_forall. intros y Hy. destruct (alike (S k) p y) eqn:Epy; auto. exfalso.
            assert (alike k y r = true). { apply (alike_trans k y p r); auto. rewrite alike_sym; apply (alike_le k) in Epy; auto. }
            assert (y = r) by (apply (apart_eq k l); auto). subst y. congruence. }
        destruct R as (x & Hx & F). destruct (complete (S k) (x :: l)) as (l' & H' & I' & L' & C').
        { apply apart_new; auto. }
        { intros y [<-|Hy]; auto. }
        exists l'. repeat split; auto. cbn in L'. lia.
Qed.

(** two of n states that some word tells apart are told apart by a word of at most n - 2 symbols *)
Theorem moore p q : In p states -> In q states ->
  (forall w, over A w -> length w + 2 <= length states -> out p w = out q w) -> forall w, over A w -> out p w = out q w.
Proof.
  intros Hp Hq H. assert (G : forall j, alike j p q = true).
  { destruct (le_lt_dec 2 (length states)) as [L|L].
    - assert (E : alike (length states - 2) p q = true) by (apply alike_spec; intros w O Lw; apply H; auto; lia).
      destruct (rounds (length states - 2)) as [S|(l & Ha & I & Ll & C)]; [auto|].
      assert (p = q) as ->; [|intros; apply alike_refl]. assert (I' : incl states l).
      { apply NoDup_length_incl; auto; [|lia]. apply (apart_NoDup _ _ Ha). }
      apply (apart_eq (length states - 2) l); auto.
    - assert (p = q) as ->; [|intros; apply alike_refl]. destruct states as [|x [|y l]]; [destruct Hp| |cbn in L; lia].
      destruct Hp as [<-|[]]. destruct Hq as [<-|[]]. reflexivity. }
  intros w O. apply (proj1 (alike_spec (length w) p q) (G _)); auto.
Qed.
End Moore.

(** ** DFAs *)
Definition go (d : dfa) (p : nat) (a : str) : nat :=
  match position (eqb a) (dfa_alphabet d), nth_error (dfa_states d) p with
  | Some i, Some s => nth i (ds_transitions s) 0
  | _, _ => 0
  end.
Lemma go_edge d p a : dfa_valid d -> p < length (dfa_states d) -> In a (dfa_alphabet d) -> dfa_edge d p a (go d p a).
Proof.
  intros V Hp Ha. destruct (dfa_edge_total d p a V Hp Ha) as (q & (i & s & E1 & E2 & E3) & _). exists i, s. split; auto. split; auto.
  unfold go. rewrite E2. assert (P : position (eqb a) (dfa_alphabet d) = Some i) by (apply position_eqb_iff; auto; apply V). rewrite P.
  rewrite (nth_error_nth _ _ _ E3). exact E3.
Qed.
Definition yes (d : dfa) (q : nat) : bool := if dfa_accepting_dec d q then true else false.
Lemma go_path d w : dfa_valid d -> over (dfa_alphabet d) w -> forall p, p < length (dfa_states d) -> dfa_path d p w (fold_left (go d) w p).
Proof.
  intros V. induction 1 as [|a w Ha O IH]; intros p Hp; [constructor|]. pose proof (go_edge d p a V Hp Ha) as E. econstructor; [exact E|].
  apply IH. apply (dfa_edge_dst d p a); auto.
Qed.
Lemma go_lang d w p : dfa_valid d -> over (dfa_alphabet d) w -> p < length (dfa_states d) -> (dfa_state_lang d p w <-> yes d (fold_left (go d) w p) = true).
Proof.
  intros V O Hp. pose proof (go_path d w V O p Hp) as P. unfold yes. split.
  - intros (q & P1 & H). rewrite (dfa_path_fun d p w _ q (dv_alphabet d V) P P1). destruct (dfa_accepting_dec d q); [auto|contradiction].
  - intros H. exists (fold_left (go d) w p). split; auto. destruct (dfa_accepting_dec d (fold_left (go d) w p)); [auto|discriminate].
Qed.

Lemma same_yes (a b : bool) : a = b -> (a = true <-> b = true).
Proof. intros ->. reflexivity. Qed.
Lemma states_short d p q : dfa_valid d -> p < length (dfa_states d) -> q < length (dfa_states d) ->
  (forall w, over (dfa_alphabet d) w -> length w + 2 <= length (dfa_states d) -> (dfa_state_lang d p w <-> dfa_state_lang d q w)) -> dfa_indist d p q.
Proof.
  intros V Hp Hq H w. destruct (over_dec (dfa_alphabet d) w) as [O|O]; [|split; intros X; exfalso; apply O; apply (dfa_state_lang_over _ _ _ X)].
  rewrite !go_lang by auto. apply same_yes.
  apply (moore (dfa_alphabet d) (seq 0 (length (dfa_states d))) (go d) (yes d)); auto.
  - intros r a Hr Ha. apply in_seq in Hr. apply in_seq. split; [lia|]. apply (dfa_edge_dst d r a); auto. apply go_edge; auto. lia.
  - apply in_seq. lia.
  - apply in_seq. lia.
  - rewrite seq_length. intros u Ou Lu. specialize (H u Ou Lu). rewrite !go_lang in H by auto. unfold out. apply eq_true_iff_eq. exact H.
Qed.

Lemma fold_inl (d1 d2 : dfa) w : forall p,
  fold_left (fun (x : nat + nat) a => match x with inl p => inl (go d1 p a) | inr q => inr (go d2 q a) end) w (inl p) = inl (fold_left (go d1) w p).
Proof. induction w as [|a w IH]; intros p; cbn; auto. Qed.
Lemma fold_inr (d1 d2 : dfa) w : forall p,
  fold_left (fun (x : nat + nat) a => match x with inl p => inl (go d1 p a) | inr q => inr (go d2 q a) end) w (inr p) = inr (fold_left (go d2) w p).
Proof. induction w as [|a w IH]; intros p; cbn; auto. Qed.

Lemma dfas_short d1 d2 : dfa_valid d1 -> dfa_valid d2 -> same_set (dfa_alphabet d1) (dfa_alphabet d2) ->
  (forall w, over (dfa_alphabet d1) w -> length w + 2 <= length (dfa_states d1) + length (dfa_states d2) -> (dfa_lang d1 w <-> dfa_lang d2 w)) ->
  forall w, dfa_lang d1 w <-> dfa_lang d2 w.
Proof.
  intros V1 V2 SA H w. destruct (over_dec (dfa_alphabet d1) w) as [O|O].
  2: { split; intros X; exfalso; apply O; [apply dfa_lang_over; auto|]. apply dfa_lang_over in X. apply (over_ext (dfa_alphabet d2)); auto.
       intros x. symmetry. apply SA. }
  assert (X : forall u, over (dfa_alphabet d1) u -> over (dfa_alphabet d2) u) by (intros u; apply over_ext; auto).
  pose proof (dv_initial d1 V1) as I1. pose proof (dv_initial d2 V2) as I2. unfold dfa_lang in *. rewrite !go_lang by auto. apply same_yes.
  pose (st := fun (x : nat + nat) a => match x with inl p => inl (go d1 p a) | inr q => inr (go d2 q a) end).
  pose (ac := fun x : nat + nat => match x with inl p => yes d1 p | inr q => yes d2 q end).
  assert (M : out st ac (inl (dfa_initial d1)) w = out st ac (inr (dfa_initial d2)) w).
  { apply (moore (dfa_alphabet d1) (map inl (seq 0 (length (dfa_states d1))) ++ map inr (seq 0 (length (dfa_states d2))))); auto.
    - intros r a Hr Ha. apply in_app_iff in Hr as [Hr|Hr]; apply in_map_iff in Hr as (x & <- & Hr); apply in_seq in Hr; apply in_app_iff; [left|right];
        apply in_map_iff; cbn [st]; (eexists; split; [reflexivity|]); apply in_seq; (split; [lia|]).
      + apply (dfa_edge_dst d1 x a); auto. apply go_edge; auto. lia.
      + apply (dfa_edge_dst d2 x a); auto. apply go_edge; auto; [lia|apply SA; auto].
    - apply in_app_iff. left. apply in_map. apply in_seq. lia.
    - apply in_app_iff. right. apply in_map. apply in_seq. lia.
    - rewrite app_length, !map_length, !seq_length. intros u Ou Lu. specialize (H u Ou Lu). rewrite !go_lang in H by auto.
      unfold out, st, ac. rewrite fold_inl, fold_inr. apply eq_true_iff_eq. exact H. }
  unfold out, st, ac in M. rewrite fold_inl, fold_inr in M. exact M.
Qed.
