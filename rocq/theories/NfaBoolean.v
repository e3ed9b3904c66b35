(** * NfaBoolean: products of NFAs whose combinators look at the accepting flags only *)
From Coq Require Import List NArith Arith Bool Lia.
From Verif Require Import Base BaseLemmas Spec DfaModel NfaModel Histories Examples DfaBasics DfaEquiv NfaBasics NfaProduct Prop_Nfa.
Import ListNotations.

(** the combinator [|s1, s2| f(s1.map_or(false, accepting), s2.map_or(false, accepting))] *)
Definition flag (s : option nfa_state) : bool := match s with Some s => ns_accepting s | None => false end.
Definition by_flags (f : bool -> bool -> bool) (s1 s2 : option nfa_state) : bool := f (flag s1) (flag s2).
Definition monotone (f : bool -> bool -> bool) : Prop :=
  forall x y x' y', (x = true -> x' = true) -> (y = true -> y' = true) -> f x y = true -> f x' y' = true.

Lemma flag_at n q : flag (nfa_at n (Some q)) = true <-> nfa_accepting n q.
Proof.
  simpl. unfold flag, nfa_accepting. split.
  - destruct (nth_error (nfa_states n) q) as [s|]; [|discriminate]. eauto.
  - intros (s & -> & H). exact H.
Qed.
Lemma flags_lang h n1 n2 f n w : nfa_valid n1 -> nfa_valid n2 -> nfa_product_construction h n1 n2 (by_flags f) = Ret (Some n) ->
  nfa_valid n /\ (nfa_lang n w <-> exists s1 s2, nfa_pair_reached n1 n2 w s1 s2 /\ f (flag (nfa_at n1 s1)) (flag (nfa_at n2 s2)) = true).
Proof.
  intros V1 V2 E. destruct (C29_nfa_product h n1 n2 (by_flags f) V1 V2) as (r & Hr & _ & H). rewrite E in Hr. injection Hr as <-.
  destruct (H n eq_refl) as (V & _ & _ & HL). auto.
Qed.
Lemma reached_left n1 n2 w s1 s2 : nfa_pair_reached n1 n2 w s1 s2 -> flag (nfa_at n1 s1) = true -> nfa_lang n1 w.
Proof.
  destruct s1 as [q1|]; [|discriminate]. intros H HF. apply flag_at in HF. exists q1. split; auto. destruct s2; apply H.
Qed.
Lemma reached_right n1 n2 w s1 s2 : nfa_pair_reached n1 n2 w s1 s2 -> flag (nfa_at n2 s2) = true -> nfa_lang n2 w.
Proof.
  destruct s2 as [q2|]; [|discriminate]. intros H HF. apply flag_at in HF. exists q2. split; auto. destruct s1; apply H.
Qed.
Lemma flag_off n q w : ~ nfa_lang n w -> nfa_path n (nfa_initial n) w q -> flag (nfa_at n (Some q)) = false.
Proof. intros H P. destruct (flag _) eqn:E; auto. exfalso. apply H. exists q. split; auto. apply flag_at. auto. Qed.
Lemma reached_pair n1 n2 w b1 b2 : (b1 = true <-> nfa_lang n1 w) -> (b2 = true <-> nfa_lang n2 w) -> b1 || b2 = true ->
  exists s1 s2, nfa_pair_reached n1 n2 w s1 s2 /\ flag (nfa_at n1 s1) = b1 /\ flag (nfa_at n2 s2) = b2.
Proof.
  intros H1 H2 HO. destruct b1, b2; try discriminate.
  - destruct (proj1 H1 eq_refl) as (q1 & P1 & A1). destruct (proj1 H2 eq_refl) as (q2 & P2 & A2). exists (Some q1), (Some q2).
    split; [split; auto|]. split; apply flag_at; auto.
  - destruct (proj1 H1 eq_refl) as (q1 & P1 & A1). assert (N2 : ~ nfa_lang n2 w) by (intros X; apply H2 in X; discriminate).
    destruct (nfa_path_or_stuck n2 w) as [(q2 & P2)|St].
    + exists (Some q1), (Some q2). split; [split; auto|]. split; [apply flag_at; auto|]. eapply flag_off; eauto.
    + exists (Some q1), None. split; [split; auto|]. split; [apply flag_at; auto|reflexivity].
  - destruct (proj1 H2 eq_refl) as (q2 & P2 & A2). assert (N1 : ~ nfa_lang n1 w) by (intros X; apply H1 in X; discriminate).
    destruct (nfa_path_or_stuck n1 w) as [(q1 & P1)|St].
    + exists (Some q1), (Some q2). split; [split; auto|]. split; [|apply flag_at; auto]. eapply flag_off; eauto.
    + exists None, (Some q2). split; [split; auto|]. split; [reflexivity|apply flag_at; auto].
Qed.

Lemma accepts_iff n w b : nfa_valid n -> nfa_accepts n w = Ret b -> (b = true <-> nfa_lang n w).
Proof. intros V E. destruct (nfa_accepts_correct n w V) as (b' & E' & H). rewrite E in E'. injection E' as <-. exact H. Qed.
Lemma accepts_of n w b : nfa_valid n -> (b = true <-> nfa_lang n w) -> nfa_accepts n w = Ret b.
Proof.
  intros V H. destruct (nfa_accepts_correct n w V) as (b' & E' & H'). rewrite E'. f_equal. apply eq_true_iff_eq. tauto.
Qed.

Lemma flags_cover h n1 n2 f n w b1 b2 : nfa_valid n1 -> nfa_valid n2 -> nfa_product_construction h n1 n2 (by_flags f) = Ret (Some n) ->
  f false false = false -> nfa_accepts n1 w = Ret b1 -> nfa_accepts n2 w = Ret b2 -> f b1 b2 = true -> nfa_accepts n w = Ret true.
Proof.
  intros V1 V2 E F0 E1 E2 Hf. destruct (flags_lang h n1 n2 f n w V1 V2 E) as (V & HL). apply accepts_of; auto. split; auto. intros _. apply HL.
  destruct (reached_pair n1 n2 w b1 b2) as (s1 & s2 & HR & X1 & X2); [apply accepts_iff; auto|apply accepts_iff; auto| |].
  - destruct b1, b2; auto. congruence.
  - exists s1, s2. rewrite X1, X2. auto.
Qed.
Lemma flags_exact h n1 n2 f n w b1 b2 : nfa_valid n1 -> nfa_valid n2 -> nfa_product_construction h n1 n2 (by_flags f) = Ret (Some n) ->
  f false false = false -> monotone f -> nfa_accepts n1 w = Ret b1 -> nfa_accepts n2 w = Ret b2 -> nfa_accepts n w = Ret (f b1 b2).
Proof.
  intros V1 V2 E F0 M E1 E2. destruct (flags_lang h n1 n2 f n w V1 V2 E) as (V & HL).
  destruct (f b1 b2) eqn:Ef; [exact (flags_cover h n1 n2 f n w b1 b2 V1 V2 E F0 E1 E2 Ef)|]. apply accepts_of; auto. split; [discriminate|]. intros X. apply HL in X as (s1 & s2 & HR & X).
  rewrite <- Ef. revert X. apply M; intros Y.
  - apply (accepts_iff n1 w b1 V1 E1). eapply reached_left; eauto.
  - apply (accepts_iff n2 w b2 V2 E2). eapply reached_right; eauto.
Qed.

(** ** Witnesses against other combinators *)
Definition ex_one_a : nfa :=
  {| nfa_alphabet := [el_a];
     nfa_states := [ mk_nfa_state [48%N] true false [] [[1]]; mk_nfa_state [49%N] false true [] [[]] ];
     nfa_initial := 0 |}.
Definition ex_two_ways : nfa :=
  {| nfa_alphabet := [el_a];
     nfa_states := [ mk_nfa_state [48%N] true false [] [[1; 2]]; mk_nfa_state [49%N] false true [] [[]]; mk_nfa_state [50%N] false false [] [[]] ];
     nfa_initial := 0 |}.
Definition ex_no_way : nfa :=
  {| nfa_alphabet := [el_a]; nfa_states := [ mk_nfa_state [48%N] true false [] [[]] ]; nfa_initial := 0 |}.
Lemma ex_one_a_valid : nfa_valid ex_one_a. Proof. apply nfa_validb_valid. reflexivity. Qed.
Lemma ex_two_ways_valid : nfa_valid ex_two_ways. Proof. apply nfa_validb_valid. reflexivity. Qed.
Lemma ex_no_way_valid : nfa_valid ex_no_way. Proof. apply nfa_validb_valid. reflexivity. Qed.
Lemma one_edge n (q : nat) s ts t : nfa_alphabet n = [el_a] -> nth_error (nfa_states n) q = Some s -> ns_transitions s = [ts] -> In t ts ->
  nfa_path n q [el_a] t.
Proof.
  intros Ha Hs Ht Hi. apply (nfa_path_cons n q el_a t [] t); [|constructor]. exists 0, s, ts. rewrite Ha, Ht. auto.
Qed.

Definition exact_for_all (f : bool -> bool -> bool) : Prop :=
  forall h n1 n2 n w b1 b2, nfa_valid n1 -> nfa_valid n2 -> nfa_product_construction h n1 n2 (by_flags f) = Ret (Some n) ->
    nfa_accepts n1 w = Ret b1 -> nfa_accepts n2 w = Ret b2 -> nfa_accepts n w = Ret (f b1 b2).
Lemma product_some h n1 n2 c : nfa_valid n1 -> nfa_valid n2 -> nfa_alphabet n1 = nfa_alphabet n2 -> exists n, nfa_product_construction h n1 n2 c = Ret (Some n).
Proof.
  intros V1 V2 E. destruct (C29_nfa_product h n1 n2 c V1 V2) as ([n|] & Hr & HN & _); eauto. exfalso. apply (proj1 HN); auto. intros x. rewrite E. tauto.
Qed.
Lemma exact_false f : exact_for_all f -> f false false = false.
Proof.
  intros H. destruct (f false false) eqn:F; auto. exfalso.
  destruct (product_some id_order ex_no_way ex_no_way (by_flags f) ex_no_way_valid ex_no_way_valid eq_refl) as (n & E).
  assert (A : nfa_accepts n [el_a] = Ret (f false false)) by (apply (H id_order ex_no_way ex_no_way); auto using ex_no_way_valid).
  destruct (flags_lang id_order ex_no_way ex_no_way f n [el_a] ex_no_way_valid ex_no_way_valid E) as (V & HL).
  rewrite F in A. destruct (proj1 HL (proj1 (accepts_iff n _ _ V A) eq_refl)) as (s1 & s2 & HR & _).
  assert (N : forall q, ~ nfa_path ex_no_way 0 [el_a] q).
  { assert (K : forall p w q, nfa_path ex_no_way p w q -> w = []).
    { induction 1 as [|p q w r He Hp IH|p a q w r He Hp IH]; auto. exfalso. destruct He as (i & s & ts & Ha & Hs & Ht & Hi).
      destruct p as [|p]; [|destruct p; discriminate]. injection Hs as <-. destruct i as [|i]; [injection Ht as <-; destruct Hi|destruct i; discriminate]. }
    intros q P. apply K in P. discriminate. }
  destruct s1 as [q1|], s2 as [q2|]; simpl in HR; try tauto; [apply (N q1)|apply (N q1)|apply (N q2)]; apply HR.
Qed.
Lemma exact_left f : exact_for_all f -> f true false = true -> f true true = true.
Proof.
  intros H F. destruct (product_some id_order ex_one_a ex_two_ways (by_flags f) ex_one_a_valid ex_two_ways_valid eq_refl) as (n & E).
  assert (A : nfa_accepts n [el_a] = Ret (f true true)) by (apply (H id_order ex_one_a ex_two_ways); auto using ex_one_a_valid, ex_two_ways_valid).
  destruct (flags_lang id_order ex_one_a ex_two_ways f n [el_a] ex_one_a_valid ex_two_ways_valid E) as (V & HL).
  apply (accepts_iff n _ _ V A). apply HL. exists (Some 1), (Some 2). split; [|exact F].
  split; [eapply (one_edge ex_one_a 0)|eapply (one_edge ex_two_ways 0)]; try reflexivity; simpl; auto.
Qed.
Lemma exact_right f : exact_for_all f -> f false true = true -> f true true = true.
Proof.
  intros H F. destruct (product_some id_order ex_two_ways ex_one_a (by_flags f) ex_two_ways_valid ex_one_a_valid eq_refl) as (n & E).
  assert (A : nfa_accepts n [el_a] = Ret (f true true)) by (apply (H id_order ex_two_ways ex_one_a); auto using ex_one_a_valid, ex_two_ways_valid).
  destruct (flags_lang id_order ex_two_ways ex_one_a f n [el_a] ex_two_ways_valid ex_one_a_valid E) as (V & HL).
  apply (accepts_iff n _ _ V A). apply HL. exists (Some 2), (Some 1). split; [|exact F].
  split; [eapply (one_edge ex_two_ways 0)|eapply (one_edge ex_one_a 0)]; try reflexivity; simpl; auto.
Qed.
Lemma exact_iff f : exact_for_all f <-> f false false = false /\ monotone f.
Proof.
  split.
  - intros H. pose proof (exact_false f H) as F. split; auto. intros x y x' y' Hx Hy Hf. pose proof (exact_left f H) as L. pose proof (exact_right f H) as R.
    destruct x, y; try (rewrite Hx by auto); try (rewrite Hy by auto); auto; try congruence; [destruct y'|destruct x']; auto.
  - intros [F M] h n1 n2 n w b1 b2 V1 V2 E E1 E2. exact (flags_exact h n1 n2 f n w b1 b2 V1 V2 E F M E1 E2).
Qed.

(** ** Automata in which every word leads to exactly one state *)
Lemma complete_exact h n1 n2 f n w b1 b2 : nfa_valid n1 -> nfa_valid n2 -> nfa_product_construction h n1 n2 (by_flags f) = Ret (Some n) ->
  (forall q q', nfa_path n1 (nfa_initial n1) w q -> nfa_path n1 (nfa_initial n1) w q' -> q = q') ->
  (forall q q', nfa_path n2 (nfa_initial n2) w q -> nfa_path n2 (nfa_initial n2) w q' -> q = q') ->
  ~ nfa_stuck n1 w -> ~ nfa_stuck n2 w ->
  nfa_accepts n1 w = Ret b1 -> nfa_accepts n2 w = Ret b2 -> nfa_accepts n w = Ret (f b1 b2).
Proof.
  intros V1 V2 E U1 U2 S1 S2 E1 E2. destruct (flags_lang h n1 n2 f n w V1 V2 E) as (V & HL). apply accepts_of; auto. rewrite HL.
  assert (K : forall m b q, nfa_valid m -> nfa_accepts m w = Ret b -> (forall q q', nfa_path m (nfa_initial m) w q -> nfa_path m (nfa_initial m) w q' -> q = q') ->
              nfa_path m (nfa_initial m) w q -> flag (nfa_at m (Some q)) = b).
  { intros m b q Vm Em Um P. apply eq_true_iff_eq. rewrite flag_at, (accepts_iff m w b Vm Em). split.
    - intros A. exists q. auto.
    - intros (q' & P' & A). rewrite (Um q q'); auto. }
  destruct (nfa_path_or_stuck n1 w) as [(q1 & P1)|X]; [|tauto]. destruct (nfa_path_or_stuck n2 w) as [(q2 & P2)|X]; [|tauto]. split.
  - intros Hf. exists (Some q1), (Some q2). split; [split; auto|]. rewrite (K n1 b1), (K n2 b2); auto.
  - intros (s1 & s2 & HR & Hf). destruct s1 as [p1|], s2 as [p2|]; simpl in HR; try tauto. rewrite (K n1 b1), (K n2 b2) in Hf; try tauto.
Qed.
Lemma dfa_unstuck d w : dfa_valid d -> over (dfa_alphabet d) w -> ~ nfa_stuck (dfa_to_nfa d) w.
Proof.
  intros V HO (u & a & v & q & -> & P & N). apply N. rewrite dfa_to_nfa_path in P.
  unfold over in HO. rewrite Forall_app in HO. destruct HO as [_ HO]. inversion HO as [|? ? Ha _]; subst.
  assert (Hq : q < length (dfa_states d)).
  { change (nfa_initial (dfa_to_nfa d)) with (dfa_initial d) in P. pose proof (dv_initial d V) as HI. clear -P HI V. induction P as [|p x q w r He Hp IH]; auto.
    apply IH. destruct He as (i & s & H1 & H2 & H3). exact (dv_range d V p s q H2 (nth_error_In _ _ H3)). }
  destruct (nth_error (dfa_states d) q) as [s|] eqn:Es; [|apply nth_error_None in Es; lia].
  apply In_nth_error in Ha as (i & Hi). assert (Hl : i < length (ds_transitions s)).
  { rewrite (dv_width d V q s Es). apply nth_error_Some. congruence. }
  destruct (nth_error (ds_transitions s) i) as [t|] eqn:Et; [|apply nth_error_None in Et; lia].
  exists t. apply dfa_to_nfa_edge. exists i, s. auto.
Qed.
