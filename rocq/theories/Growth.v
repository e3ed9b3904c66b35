(** * Growth: automata for which the bounds on the sizes of results are attained *)
From Coq Require Import List NArith Arith Bool Lia.
From Verif Require Import Base BaseLemmas Spec DfaModel NfaModel Examples DfaBasics NfaBasics DfaReach SizeProofs Remarks.
Import ListNotations.

(** ** Words that must lead to different states *)
Lemma told_apart {T} (d : dfa) (l : list T) (f : T -> word) : dfa_valid d -> NoDup l ->
  (forall x, In x l -> over (dfa_alphabet d) (f x)) ->
  (forall x y, In x l -> In y l -> (forall z, dfa_lang d (f x ++ z) <-> dfa_lang d (f y ++ z)) -> x = y) ->
  length l <= length (dfa_states d).
Proof.
  intros V N HO HD. destruct (pick_all (fun x q => dfa_path d (dfa_initial d) (f x) q /\ q < length (dfa_states d)) l) as (qs & HF).
  { intros x Hx. apply dfa_path_total; auto. apply V. }
  rewrite (Forall2_len _ _ _ HF). apply nodup_range.
  - apply (picked_nodup _ _ _ HF N). intros x y q Hx Hy [Px _] [Py _]. apply HD; auto. intros z.
    split; intros (r & P & A); exists r; (split; [|exact A]); apply dfa_path_app_inv in P as (q' & P1 & P2);
      (assert (q' = q) as -> by (eapply dfa_path_fun; eauto using dv_alphabet)); eapply dfa_path_app; eauto.
  - intros q Hq. clear -HF Hq. induction HF as [|x y l ys [_ H] HF IH]; [destruct Hq|]. destruct Hq as [<-|Hq]; auto.
Qed.
Lemma lang_over d w : dfa_lang d w -> over (dfa_alphabet d) w.
Proof.
  intros (q & P & _). revert P. generalize (dfa_initial d). intros p P.
  induction P as [p|p a q w r (i & s & Ha & _) P IH]; constructor; auto. apply nth_error_In in Ha. exact Ha.
Qed.

Lemma pairs_nodup {A B} (l : list A) (l' : list B) : NoDup l -> NoDup l' -> NoDup (list_prod l l').
Proof.
  intros N N'. induction N as [|x l Nx N IH]; [constructor|]. cbn [list_prod]. apply NoDup_app_iff. split; [|split; auto].
  - apply FinFun.Injective_map_NoDup; auto. intros y z. congruence.
  - intros (y & z) H1 H2. apply in_map_iff in H1 as (z' & [= -> ->] & _). apply in_prod_iff in H2 as [H2 _]. contradiction.
Qed.

(** ** Counting one of two symbols *)
Definition count (c : str) (w : word) : nat := count_occ (list_eq_dec N.eq_dec) w c.
Lemma count_app c u v : count c (u ++ v) = count c u + count c v.
Proof. apply count_occ_app. Qed.
Lemma count_cons c x w : count c (x :: w) = (if list_eq_dec N.eq_dec x c then 1 else 0) + count c w.
Proof. unfold count. simpl. destruct (list_eq_dec N.eq_dec x c); reflexivity. Qed.
Lemma count_repeat c n : count c (repeat c n) = n.
Proof. induction n as [|n IH]; auto. cbn [repeat]. rewrite count_cons, IH. destruct (list_eq_dec N.eq_dec c c); [reflexivity|congruence]. Qed.
Lemma count_other c c' n : c <> c' -> count c (repeat c' n) = 0.
Proof. intros H. induction n as [|n IH]; auto. cbn [repeat]. rewrite count_cons, IH. destruct (list_eq_dec N.eq_dec c' c); [congruence|reflexivity]. Qed.

(** The number of [c] modulo [n]; the state 0 accepts *)
Definition counter_state (n : nat) (c : str) (i : nat) : dfa_state :=
  mk_dfa_state (dec i) (i =? 0) (i =? 0) (map (fun x : str => if list_eq_dec N.eq_dec x c then S i mod n else i) ([el_a; el_b] : list str)).
Definition counter (n : nat) (c : str) : dfa :=
  {| dfa_alphabet := [el_a; el_b]; dfa_states := map (counter_state n c) (seq 0 n); dfa_initial := 0 |}.

Lemma counter_at n c q s : nth_error (dfa_states (counter n c)) q = Some s <-> q < n /\ s = counter_state n c q.
Proof.
  cbn [dfa_states counter]. rewrite nth_error_map. split.
  - destruct (nth_error (seq 0 n) q) as [x|] eqn:E; [|discriminate]. intros [= <-]. pose proof (nth_error_length _ _ _ E) as L. rewrite seq_length in L.
    split; [lia|]. rewrite seq_at in E by lia. injection E as <-. reflexivity.
  - intros [L ->]. rewrite seq_at by lia. reflexivity.
Qed.
Lemma counter_size n c : length (dfa_states (counter n c)) = n.
Proof. cbn [dfa_states counter]. rewrite map_length, seq_length. reflexivity. Qed.
Lemma counter_valid n c : 1 <= n -> dfa_valid (counter n c).
Proof.
  intros Hn. constructor.
  - repeat constructor; simpl; intuition discriminate.
  - cbn [dfa_states counter]. rewrite map_map. apply FinFun.Injective_map_NoDup; [|apply seq_NoDup]. intros x y. apply dec_inj.
  - rewrite counter_size. cbn. lia.
  - intros q s H. apply counter_at in H as [_ ->]. cbn [ds_initial counter_state dfa_initial counter]. apply Nat.eqb_eq.
  - intros q s H. apply counter_at in H as [_ ->]. reflexivity.
  - intros q s t H H1. rewrite counter_size. apply counter_at in H as [L ->]. cbn [ds_transitions counter_state] in H1. apply in_map_iff in H1 as (x & <- & _).
    destruct (list_eq_dec N.eq_dec x c); auto. apply Nat.mod_upper_bound. lia.
Qed.
Lemma counter_edge n c p x q : dfa_edge (counter n c) p x q <->
  p < n /\ In x [el_a; el_b] /\ q = if list_eq_dec N.eq_dec x c then S p mod n else p.
Proof.
  split.
  - intros (i & s & Ha & Hs & Ht). apply counter_at in Hs as [L ->]. cbn [ds_transitions counter_state] in Ht. rewrite nth_error_map in Ht.
    cbn [dfa_alphabet counter] in Ha. rewrite Ha in Ht. injection Ht as <-. apply nth_error_In in Ha. auto.
  - intros (L & Hx & ->). apply In_nth_error in Hx as (i & Hi). exists i, (counter_state n c p). split; [exact Hi|]. split; [apply counter_at; auto|].
    cbn [ds_transitions counter_state]. rewrite nth_error_map, Hi. reflexivity.
Qed.
Lemma counter_path n c w : 1 <= n -> forall p q, p < n -> (dfa_path (counter n c) p w q <-> over [el_a; el_b] w /\ q = (p + count c w) mod n).
Proof.
  intros Hn. induction w as [|x w IH]; intros p q L.
  - change (count c []) with 0. rewrite Nat.add_0_r, Nat.mod_small by auto. split; [|intros [_ ->]; constructor].
    intros H. inversion H. split; auto. constructor.
  - rewrite count_cons. split.
    + intros H. inversion H as [|? ? q' ? ? He Hp]; subst. apply counter_edge in He as (_ & Hx & ->). destruct (list_eq_dec N.eq_dec x c) as [->|Nx].
      * apply IH in Hp as [O ->]; [|apply Nat.mod_upper_bound; lia]. split; [constructor; auto|]. rewrite Nat.add_mod_idemp_l by lia. f_equal. lia.
      * apply IH in Hp as [O ->]; auto. split; [constructor; auto|]. reflexivity.
    + intros [O ->]. inversion O as [|? ? Hx O']; subst. econstructor; [apply counter_edge; split; [exact L|]; split; [exact Hx|reflexivity]|].
      destruct (list_eq_dec N.eq_dec x c) as [->|Nx].
      * apply IH; [apply Nat.mod_upper_bound; lia|]. split; auto. rewrite Nat.add_mod_idemp_l by lia. f_equal. lia.
      * apply IH; auto.
Qed.
Lemma counters_lang n m (g : bool -> bool -> bool) w : 1 <= n -> 1 <= m ->
  ((exists q1 q2 s1 s2, dfa_path (counter n el_a) (dfa_initial (counter n el_a)) w q1 /\ dfa_path (counter m el_b) (dfa_initial (counter m el_b)) w q2 /\
     nth_error (dfa_states (counter n el_a)) q1 = Some s1 /\ nth_error (dfa_states (counter m el_b)) q2 = Some s2 /\
     g (ds_accepting s1) (ds_accepting s2) = true) <->
   over [el_a; el_b] w /\ g (count el_a w mod n =? 0) (count el_b w mod m =? 0) = true).
Proof.
  intros Hn Hm. change (dfa_initial (counter n el_a)) with 0. change (dfa_initial (counter m el_b)) with 0. split.
  - intros (q1 & q2 & s1 & s2 & P1 & P2 & H1 & H2 & G). apply counter_path in P1 as [O ->]; [|lia|lia]. apply counter_path in P2 as [_ ->]; [|lia|lia].
    apply counter_at in H1 as [_ ->]. apply counter_at in H2 as [_ ->]. auto.
  - intros [O G]. exists (count el_a w mod n), (count el_b w mod m), (counter_state n el_a (count el_a w mod n)), (counter_state m el_b (count el_b w mod m)).
    split; [apply counter_path; auto; lia|]. split; [apply counter_path; auto; lia|].
    split; [apply counter_at; split; auto; apply Nat.mod_upper_bound; lia|]. split; [apply counter_at; split; auto; apply Nat.mod_upper_bound; lia|]. exact G.
Qed.

(** ** Two counters: every pair of counts has to be remembered *)
Section Counters.
Variables (n m : nat) (g : bool -> bool -> bool).
Hypotheses (Hn : 3 <= n) (Hm : 3 <= m).
Definition counted (w : word) : Prop :=
  over [el_a; el_b] w /\ g (count el_a w mod n =? 0) (count el_b w mod m =? 0) = true.
Definition depends : Prop := (exists b, g true b <> g false b) /\ (exists a, g a true <> g a false).

Definition ab_word (i j : nat) : word := repeat el_a i ++ repeat el_b j.
Lemma ab_word_over al i j : In el_a al -> In el_b al -> over al (ab_word i j).
Proof.
  intros Ha Hb. apply Forall_app. split; apply Forall_forall; intros y Hy; apply repeat_spec in Hy; subst; auto.
Qed.
Lemma ab_word_count i j : count el_a (ab_word i j) = i /\ count el_b (ab_word i j) = j.
Proof.
  unfold ab_word. rewrite !count_app, !count_repeat, !count_other by discriminate. lia.
Qed.
Lemma shifted k x i : x < k -> i < k -> ((i + (k - x)) mod k =? 0) = (i =? x).
Proof.
  intros Lx Li. destruct (i =? x) eqn:E.
  - apply Nat.eqb_eq in E. subst. replace (x + (k - x)) with k by lia. rewrite Nat.mod_same by lia. reflexivity.
  - apply Nat.eqb_neq in E. apply Nat.eqb_neq. destruct (le_lt_dec i x) as [L|L].
    + rewrite Nat.mod_small by lia. lia.
    + replace (i + (k - x)) with ((i - x) + 1 * k) by lia. rewrite Nat.mod_add, Nat.mod_small by lia. lia.
Qed.
Lemma counted_shift i j x y : i < n -> j < m -> x < n -> y < m ->
  (counted (ab_word i j ++ ab_word (n - x) (m - y)) <-> g (i =? x) (j =? y) = true).
Proof.
  intros Li Lj Lx Ly. unfold counted. rewrite !count_app. destruct (ab_word_count i j) as [-> ->], (ab_word_count (n - x) (m - y)) as [-> ->].
  rewrite !shifted by auto. split; [tauto|]. intros H. split; auto. apply Forall_app. split; apply ab_word_over; simpl; auto.
Qed.
Lemma third k i i' : 3 <= k -> exists x, x < k /\ (i =? x) = false /\ (i' =? x) = false.
Proof.
  intros Hk. assert (K : forall x, x < k -> i <> x -> i' <> x -> exists x, x < k /\ (i =? x) = false /\ (i' =? x) = false).
  { intros x L N N'. exists x. rewrite !Nat.eqb_neq. auto. }
  destruct (Nat.eq_dec i 0), (Nat.eq_dec i' 0), (Nat.eq_dec i 1), (Nat.eq_dec i' 1);
    first [apply (K 0); lia|apply (K 1); lia|apply (K 2); lia].
Qed.
Lemma counted_apart i j i' j' : depends -> i < n -> j < m -> i' < n -> j' < m ->
  (forall z, counted (ab_word i j ++ z) <-> counted (ab_word i' j' ++ z)) -> (i, j) = (i', j').
Proof.
  intros [[b Hb] [a Ha]] Li Lj Li' Lj' H.
  assert (K : forall x y, x < n -> y < m -> g (i =? x) (j =? y) = g (i' =? x) (j' =? y)).
  { intros x y Lx Ly. specialize (H (ab_word (n - x) (m - y))). rewrite !counted_shift in H by auto. apply eq_true_iff_eq. exact H. }
  clear H. destruct (third n i i' Hn) as (x0 & Lx & X1 & X2), (third m j j' Hm) as (y0 & Ly & Y1 & Y2).
  destruct (Nat.eq_dec i i') as [<-|Ni], (Nat.eq_dec j j') as [<-|Nj]; auto; exfalso.
  - pose proof (K i j Li Lj) as K1. pose proof (K x0 j Lx Lj) as K2. rewrite X1, !Nat.eqb_refl in *.
    replace (j' =? j) with false in * by (symmetry; apply Nat.eqb_neq; auto). destruct a; congruence.
  - pose proof (K i j Li Lj) as K1. pose proof (K i y0 Li Ly) as K2. rewrite Y1, !Nat.eqb_refl in *.
    replace (i' =? i) with false in * by (symmetry; apply Nat.eqb_neq; auto). destruct b; congruence.
  - pose proof (K i j Li Lj) as K1. pose proof (K i y0 Li Ly) as K2. pose proof (K x0 j Lx Lj) as K3. rewrite Y1, Y2, X1, X2, !Nat.eqb_refl in *.
    replace (i' =? i) with false in * by (symmetry; apply Nat.eqb_neq; auto). replace (j' =? j) with false in * by (symmetry; apply Nat.eqb_neq; auto).
    destruct b; congruence.
Qed.
Lemma counted_alphabet d : depends -> (forall w, dfa_lang d w <-> counted w) -> In el_a (dfa_alphabet d) /\ In el_b (dfa_alphabet d).
Proof.
  intros [[b Hb] _] HL. assert (exists a b, g a b = true) as (a1 & b1 & E).
  { destruct (g true b) eqn:E1; [eauto|]. destruct (g false b) eqn:E2; [eauto|congruence]. }
  assert (exists x, x < n /\ (0 =? x) = a1) as (x & Lx & Ex) by (destruct a1; [exists 0|exists 1]; split; auto; lia).
  assert (exists y, y < m /\ (0 =? y) = b1) as (y & Ly & Ey) by (destruct b1; [exists 0|exists 1]; split; auto; lia).
  subst a1 b1. apply counted_shift in E; try lia. apply HL, lang_over in E. change (ab_word 0 0) with (@nil str) in E. cbn [app] in E.
  unfold over in E. rewrite Forall_forall in E. split; apply E; apply in_or_app.
  - left. destruct (n - x) eqn:D; [lia|]. left. reflexivity.
  - right. destruct (m - y) eqn:D; [lia|]. left. reflexivity.
Qed.
Lemma counted_states d : depends -> dfa_valid d -> (forall w, dfa_lang d w <-> counted w) -> n * m <= length (dfa_states d).
Proof.
  intros HD V HL. rewrite <- (seq_length n 0) at 1. rewrite <- (seq_length m 0) at 1. rewrite <- prod_length.
  destruct (counted_alphabet d HD HL) as [Aa Ab].
  apply (told_apart d _ (fun '(i, j) => ab_word i j)); auto.
  - apply pairs_nodup; apply seq_NoDup.
  - intros (i & j) _. apply ab_word_over; auto.
  - intros (i & j) (i' & j') H1 H2 HE. apply in_prod_iff in H1 as [H1 H1'], H2 as [H2 H2']. rewrite in_seq in *.
    apply counted_apart; auto; try lia. intros z. rewrite <- !HL. apply HE.
Qed.
End Counters.

(** ** An NFA all of whose sets of states are reached and different *)
Definition el_c : str := [99%N].
Section Subsets.
Variable k : nat.
Let n := S (S k).
Definition before_ (i : nat) : nat := match i with O => S k | S i => i end.
(** a steps back, b adds the state after the first, c removes the first *)
Definition subsets_row (i : nat) : list (list nat) := [[before_ i]; if i =? 0 then [0; 1] else [i]; if i =? 0 then [] else [i]].
Definition subsets_state (i : nat) : nfa_state := mk_nfa_state (dec i) (i =? 0) (i =? 0) [] (subsets_row i).
Definition subsets_nfa : nfa :=
  {| nfa_alphabet := [el_a; el_b; el_c]; nfa_states := map subsets_state (seq 0 n); nfa_initial := 0 |}.

Lemma subsets_at q s : nth_error (nfa_states subsets_nfa) q = Some s <-> q < n /\ s = subsets_state q.
Proof.
  cbn [nfa_states subsets_nfa]. rewrite nth_error_map. split.
  - destruct (nth_error (seq 0 n) q) as [x|] eqn:E; [|discriminate]. intros [= <-]. pose proof (nth_error_length _ _ _ E) as L. rewrite seq_length in L.
    split; [lia|]. rewrite seq_at in E by lia. injection E as <-. reflexivity.
  - intros [L ->]. rewrite seq_at by lia. reflexivity.
Qed.
Lemma subsets_size : length (nfa_states subsets_nfa) = n.
Proof. cbn [nfa_states subsets_nfa]. rewrite map_length, seq_length. reflexivity. Qed.
Lemma subsets_valid : nfa_valid subsets_nfa.
Proof.
  constructor.
  - repeat constructor; simpl; intuition discriminate.
  - cbn [nfa_states subsets_nfa]. rewrite map_map. apply FinFun.Injective_map_NoDup; [|apply seq_NoDup]. intros x y. apply dec_inj.
  - rewrite subsets_size. cbn. unfold n. lia.
  - intros q s H. apply subsets_at in H as [_ ->]. cbn. apply Nat.eqb_eq.
  - intros q s H. apply subsets_at in H as [_ ->]. reflexivity.
  - intros q s ts t H H1 H2. rewrite subsets_size. apply subsets_at in H as [L ->]. cbn [ns_transitions subsets_state subsets_row] in H1. unfold n in *.
    destruct H1 as [<-|[<-|[<-|[]]]].
    + destruct H2 as [<-|[]]. destruct q; cbn; lia.
    + destruct (q =? 0); cbn in H2; intuition lia.
    + destruct (q =? 0); cbn in H2; intuition lia.
  - intros q s t H H1. apply subsets_at in H as [_ ->]. destruct H1.
Qed.
Lemma subsets_eps p q : ~ nfa_eps_edge subsets_nfa p q.
Proof. intros (s & H & H1). apply subsets_at in H as [_ ->]. destruct H1. Qed.
Lemma subsets_edge p x q : nfa_edge subsets_nfa p x q <-> p < n /\
  ((x = el_a /\ q = before_ p) \/ (x = el_b /\ (q = p \/ p = 0 /\ q = 1)) \/ (x = el_c /\ p <> 0 /\ q = p)).
Proof.
  split.
  - intros (i & s & ts & Ha & Hs & Ht & Hq). apply subsets_at in Hs as [L ->]. split; auto. cbn [ns_transitions subsets_state] in Ht.
    destruct i as [|[|[|i]]]; cbn in Ha, Ht; try (destruct i; discriminate); injection Ha as <-; injection Ht as <-.
    + destruct Hq as [<-|[]]. auto.
    + right. left. split; auto. destruct p; cbn in Hq; intuition.
    + right. right. split; auto. destruct p; cbn in Hq; intuition.
  - intros (L & H). assert (K : forall i ts, nth_error (nfa_alphabet subsets_nfa) i = Some x -> nth_error (subsets_row p) i = Some ts -> In q ts -> nfa_edge subsets_nfa p x q).
    { intros i ts H1 H2 H3. exists i, (subsets_state p), ts. split; [exact H1|]. split; [apply subsets_at; auto|]. auto. }
    destruct H as [(-> & ->)|[(-> & H)|(-> & Np & ->)]].
    + apply (K 0 [before_ p]); simpl; auto.
    + apply (K 1 (if p =? 0 then [0; 1] else [p])); [reflexivity|reflexivity|]. destruct p; cbn; intuition.
    + apply (K 2 (if p =? 0 then [] else [p])); [reflexivity|reflexivity|]. destruct p; cbn; [lia|auto].
Qed.
Lemma subsets_nil p q : nfa_path subsets_nfa p [] q <-> q = p.
Proof.
  split; [|intros ->; constructor]. intros H. inversion H as [|? ? ? ? He|]; subst; auto. destruct (subsets_eps _ _ He).
Qed.
Lemma subsets_cons p x w q : nfa_path subsets_nfa p (x :: w) q <-> exists r, nfa_edge subsets_nfa p x r /\ nfa_path subsets_nfa r w q.
Proof.
  split.
  - intros H. inversion H as [|? ? ? ? He|? ? r ? ? He Hp]; subst; [destruct (subsets_eps _ _ He)|]. eauto.
  - intros (r & He & Hp). exact (nfa_path_cons _ _ _ _ _ _ He Hp).
Qed.
Lemma before_range p : p < n -> before_ p < n.
Proof. unfold n. destruct p; cbn; lia. Qed.
Lemma subsets_a p w q : p < n -> (nfa_path subsets_nfa p (el_a :: w) q <-> nfa_path subsets_nfa (before_ p) w q).
Proof.
  intros L. rewrite subsets_cons. split.
  - intros (r & He & Hp). apply subsets_edge in He as (_ & [(_ & ->)|[(E & _)|(E & _)]]); auto; discriminate.
  - intros H. exists (before_ p). split; auto. apply subsets_edge. auto.
Qed.
Lemma subsets_c p w q : p < n -> (nfa_path subsets_nfa p (el_c :: w) q <-> p <> 0 /\ nfa_path subsets_nfa p w q).
Proof.
  intros L. rewrite subsets_cons. split.
  - intros (r & He & Hp). apply subsets_edge in He as (_ & [(E & _)|[(E & _)|(_ & Np & ->)]]); auto; discriminate.
  - intros [Np H]. exists p. split; auto. apply subsets_edge. split; [exact L|]. right. right. auto.
Qed.

(** growing to all states *)
Fixpoint grow (j : nat) : word := match j with O => [] | S j => grow j ++ [el_b; el_a] end.
Lemma grow_all j q : q < n -> q = 0 \/ n - j <= q -> nfa_path subsets_nfa 0 (grow j) q.
Proof.
  revert q. induction j as [|j IH]; intros q L H; cbn [grow].
  - apply subsets_nil. lia.
  - assert (S q < n \/ q = S k) as [L'| ->] by (unfold n in *; lia).
    + destruct (Nat.eq_dec q 0) as [->|Nq].
      * apply (nfa_path_app _ _ _ 0); [apply IH; auto|]. apply subsets_cons. exists 1. split; [apply subsets_edge; split; [unfold n; lia|right; left; auto]|].
        apply subsets_a; [unfold n; lia|]. apply subsets_nil. reflexivity.
      * apply (nfa_path_app _ _ _ (S q)); [apply IH; [auto|right; lia]|]. apply subsets_cons. exists (S q).
        split; [apply subsets_edge; split; [unfold n in *; lia|right; left; auto]|]. apply subsets_a; auto. apply subsets_nil. reflexivity.
    + apply (nfa_path_app _ _ _ 0); [apply IH; [unfold n; lia|auto]|]. apply subsets_cons. exists 0.
      split; [apply subsets_edge; split; [unfold n; lia|right; left; auto]|]. apply subsets_a; [unfold n; lia|]. apply subsets_nil. reflexivity.
Qed.
(** keeping a set of states *)
Definition keep (s : nat -> bool) (i r : nat) : word := flat_map (fun j => (if s j then [] else [el_c]) ++ [el_a]) (seq i r).
Lemma keep_path s r : forall i p q, i + r = n -> p < n ->
  let e := if p + i <? n then p + i else p + i - n in
  (nfa_path subsets_nfa p (keep s i r) q <-> q = e /\ (i <= e -> s e = true)).
Proof.
  induction r as [|r IH]; intros i p q H L; cbn zeta.
  - unfold keep. cbn [seq flat_map]. rewrite subsets_nil. replace (p + i <? n) with false by (symmetry; apply Nat.ltb_ge; lia).
    replace (p + i - n) with p by lia. split; [intros ->; split; auto; lia|tauto].
  - unfold keep. cbn [seq flat_map]. fold (keep s (S i) r).
    assert (K : nfa_path subsets_nfa p ([el_a] ++ keep s (S i) r) q <->
                q = (if p + i <? n then p + i else p + i - n) /\ (S i <= (if p + i <? n then p + i else p + i - n) -> s (if p + i <? n then p + i else p + i - n) = true)).
    { cbn [app]. rewrite subsets_a by auto. specialize (IH (S i) (before_ p) q). cbn zeta in IH. rewrite IH; [|lia|apply before_range; auto].
      replace (if before_ p + S i <? n then before_ p + S i else before_ p + S i - n) with (if p + i <? n then p + i else p + i - n); [tauto|].
      unfold n in *. destruct p; cbn [before_].
      - replace (0 + i <? S (S k)) with true by (symmetry; apply Nat.ltb_lt; lia). replace (S k + S i <? S (S k)) with false by (symmetry; apply Nat.ltb_ge; lia). lia.
      - replace (p + S i) with (S p + i) by lia. reflexivity. }
    rewrite <- app_assoc.
    assert (D : p = 0 \/ p <> 0) by lia.
    destruct (s i) eqn:Si.
    + change ([] ++ [el_a] ++ keep s (S i) r) with ([el_a] ++ keep s (S i) r). rewrite K. clear K IH.
      split; intros [-> X]; (split; [reflexivity|]); [|intros Y; apply X; lia].
      intros Y. apply le_lt_eq_dec in Y as [Y|Y]; [apply X; lia|]. rewrite <- Y. exact Si.
    + change ([el_c] ++ [el_a] ++ keep s (S i) r) with (el_c :: [el_a] ++ keep s (S i) r). rewrite subsets_c by auto. rewrite K. clear K IH.
      split.
      * intros (Np & -> & X). split; auto. intros Y. apply X. destruct (p + i <? n) eqn:E; [apply Nat.ltb_lt in E|apply Nat.ltb_ge in E]; lia.
      * intros (-> & X). split; [|split; auto; intros Y; apply X; lia]. intros ->. cbn [Nat.add] in X.
        replace (i <? n) with true in X by (symmetry; apply Nat.ltb_lt; lia). rewrite X in Si; [discriminate|lia].
Qed.
Definition subset_word (s : nat -> bool) : word := grow n ++ keep s 0 n.
Lemma subsets_range p w q : nfa_path subsets_nfa p w q -> p < n -> q < n.
Proof.
  induction 1 as [p|p q w r He Hp IH|p a q w r He Hp IH]; intros L; auto; apply IH; [destruct (subsets_eps _ _ He)|].
  apply subsets_edge in He as (_ & [(_ & ->)|[(_ & [->|[_ ->]])|(_ & _ & ->)]]); auto; [apply before_range; auto|unfold n; lia].
Qed.
Lemma subset_reached s q : nfa_path subsets_nfa 0 (subset_word s) q <-> q < n /\ s q = true.
Proof.
  unfold subset_word. split.
  - intros H. apply nfa_path_app_inv in H as (p & H1 & H2). pose proof (subsets_range _ _ _ H1 ltac:(unfold n; lia)) as L.
    apply keep_path in H2 as [-> X]; [|auto|auto]. rewrite Nat.add_0_r in *. replace (p <? n) with true in * by (symmetry; apply Nat.ltb_lt; auto).
    split; auto. apply X. lia.
  - intros [L E]. apply (nfa_path_app _ _ _ q); [apply grow_all; auto; lia|]. apply keep_path; auto. rewrite Nat.add_0_r.
    replace (q <? n) with true by (symmetry; apply Nat.ltb_lt; auto). auto.
Qed.
Lemma back_path i : forall p q, p < n -> i <= n -> (nfa_path subsets_nfa p (repeat el_a i) q <-> q = if i <=? p then p - i else p + n - i).
Proof.
  induction i as [|i IH]; intros p q L Li; cbn [repeat].
  - rewrite subsets_nil. cbn. rewrite Nat.sub_0_r. reflexivity.
  - rewrite subsets_a by auto. rewrite IH by (try apply before_range; auto; lia). unfold n in *. destruct p as [|p]; cbn [before_].
    + change (S i <=? 0) with false. replace (i <=? S k) with true by (symmetry; apply Nat.leb_le; lia). replace (0 + S (S k) - S i) with (S k - i) by lia. reflexivity.
    + change (S i <=? S p) with (i <=? p). destruct (i <=? p); [reflexivity|]. replace (S p + S (S k) - S i) with (p + S (S k) - i) by lia. reflexivity.
Qed.
Lemma subset_probe s i : i < n -> (nfa_lang subsets_nfa (subset_word s ++ repeat el_a i) <-> s i = true).
Proof.
  intros Li. split.
  - intros (r & P & (st & Hs & A)). apply subsets_at in Hs as [_ ->]. cbn [ns_accepting subsets_state] in A. apply Nat.eqb_eq in A. subst r.
    apply nfa_path_app_inv in P as (q & P1 & P2). apply subset_reached in P1 as [L E]. apply back_path in P2; [|auto|lia].
    destruct (i <=? q) eqn:D; [apply Nat.leb_le in D|apply Nat.leb_gt in D]; [|lia]. replace i with q by lia. exact E.
  - intros E. exists 0. split.
    + apply (nfa_path_app _ _ _ i); [apply subset_reached; auto|]. apply back_path; auto; [lia|]. rewrite Nat.leb_refl. lia.
    + exists (subsets_state 0). split; [apply subsets_at; split; auto; unfold n; lia|reflexivity].
Qed.
Fixpoint bit_lists (j : nat) : list (list bool) :=
  match j with O => [[]] | S j => map (cons true) (bit_lists j) ++ map (cons false) (bit_lists j) end.
Lemma bit_lists_length j : length (bit_lists j) = 2 ^ j.
Proof. induction j as [|j IH]; auto. simpl. rewrite app_length, !map_length, IH. lia. Qed.
Lemma bit_lists_in j l : In l (bit_lists j) -> length l = j.
Proof.
  revert l. induction j as [|j IH]; intros l H; simpl in H; [destruct H as [<-|[]]; auto|].
  apply in_app_or in H as [H|H]; apply in_map_iff in H as (x & <- & Hx); simpl; auto.
Qed.
Lemma bit_lists_nodup j : NoDup (bit_lists j).
Proof.
  induction j as [|j IH]; simpl; [repeat constructor; auto|]. apply NoDup_app_iff. split; [|split].
  - apply FinFun.Injective_map_NoDup; auto. intros x y. congruence.
  - apply FinFun.Injective_map_NoDup; auto. intros x y. congruence.
  - intros x H1 H2. apply in_map_iff in H1 as (y & <- & _). apply in_map_iff in H2 as (z & H2 & _). discriminate.
Qed.
Lemma subset_over al s : In el_a al -> In el_b al -> In el_c al -> over al (subset_word s).
Proof.
  intros A B C. apply Forall_app. split.
  - generalize n as j. induction j as [|j IH]; [constructor|]. cbn [grow]. apply Forall_app. split; auto.
  - apply Forall_forall. intros x Hx. apply in_flat_map in Hx as (j & _ & Hx). apply in_app_or in Hx as [Hx|[<-|[]]]; auto.
    destruct (s j); [destruct Hx|destruct Hx as [<-|[]]; auto].
Qed.
Lemma subsets_states d : dfa_valid d -> (forall w, dfa_lang d w <-> nfa_lang subsets_nfa w) -> 2 ^ n <= length (dfa_states d).
Proof.
  intros V HL. rewrite <- bit_lists_length.
  assert (A : over (dfa_alphabet d) ([el_b; el_a; el_c] ++ repeat el_a (S k))).
  { apply lang_over, HL. exists 0. split; [|exists (subsets_state 0); split; [apply subsets_at; split; auto; unfold n; lia|reflexivity]].
    cbn [app]. change (nfa_initial subsets_nfa) with 0. apply subsets_cons. exists 0. split; [apply subsets_edge; split; [unfold n; lia|right; left; auto]|]. apply subsets_a; [unfold n; lia|].
    apply subsets_c; [cbn; unfold n; lia|]. split; [cbn; lia|]. cbn [before_]. apply back_path; [unfold n; lia|unfold n; lia|]. rewrite Nat.leb_refl. lia. }
  inversion A as [|? ? Ab A1]; subst. inversion A1 as [|? ? Aa A2]; subst. inversion A2 as [|? ? Ac _]; subst.
  apply (told_apart d _ (fun l => subset_word (fun i => nth i l false))); auto; [apply bit_lists_nodup| |].
  - intros l _. apply subset_over; auto.
  - intros x y Hx Hy H. apply bit_lists_in in Hx, Hy. apply (nth_ext _ _ false false); [congruence|]. intros i Li.
    specialize (H (repeat el_a i)). rewrite !HL, !subset_probe in H by (unfold n in *; lia). apply eq_true_iff_eq. exact H.
Qed.
End Subsets.

(** ** NFAs whose product has a state for every pair of runs, ended ones included *)
Definition el_d : str := [100%N].
Definition four : list str := [el_a; el_b; el_c; el_d].
Definition walker_state (n : nat) (go stop : str) (i : nat) : nfa_state :=
  mk_nfa_state (dec i) (i =? 0) (i =? 0) []
    (map (fun x : str => if list_eq_dec N.eq_dec x go then [S i mod n] else if list_eq_dec N.eq_dec x stop then [] else [i]) four).
Definition walker (n : nat) (go stop : str) : nfa :=
  {| nfa_alphabet := four; nfa_states := map (walker_state n go stop) (seq 0 n); nfa_initial := 0 |}.

Lemma walker_at n go stop q s : nth_error (nfa_states (walker n go stop)) q = Some s <-> q < n /\ s = walker_state n go stop q.
Proof.
  cbn [nfa_states walker]. rewrite nth_error_map. split.
  - destruct (nth_error (seq 0 n) q) as [x|] eqn:E; [|discriminate]. intros [= <-]. pose proof (nth_error_length _ _ _ E) as L. rewrite seq_length in L.
    split; [lia|]. rewrite seq_at in E by lia. injection E as <-. reflexivity.
  - intros [L ->]. rewrite seq_at by lia. reflexivity.
Qed.
Lemma walker_size n go stop : length (nfa_states (walker n go stop)) = n.
Proof. cbn [nfa_states walker]. rewrite map_length, seq_length. reflexivity. Qed.
Lemma walker_valid n go stop : 1 <= n -> nfa_valid (walker n go stop).
Proof.
  intros Hn. constructor.
  - repeat constructor; simpl; intuition discriminate.
  - cbn [nfa_states walker]. rewrite map_map. apply FinFun.Injective_map_NoDup; [|apply seq_NoDup]. intros x y. apply dec_inj.
  - rewrite walker_size. cbn. lia.
  - intros q s H. apply walker_at in H as [_ ->]. cbn [ns_initial walker_state nfa_initial walker]. apply Nat.eqb_eq.
  - intros q s H. apply walker_at in H as [_ ->]. cbn [ns_transitions walker_state nfa_alphabet walker]. apply map_length.
  - intros q s ts t H H1 H2. rewrite walker_size. apply walker_at in H as [L ->]. cbn [ns_transitions walker_state] in H1. apply in_map_iff in H1 as (x & <- & _).
    destruct (list_eq_dec N.eq_dec x go); [|destruct (list_eq_dec N.eq_dec x stop); [destruct H2|]]; destruct H2 as [<-|[]]; auto. apply Nat.mod_upper_bound. lia.
  - intros q s t H H1. apply walker_at in H as [_ ->]. destruct H1.
Qed.
Lemma walker_edge n go stop p x q : nfa_edge (walker n go stop) p x q <-> p < n /\ In x four /\
  In q (if list_eq_dec N.eq_dec x go then [S p mod n] else if list_eq_dec N.eq_dec x stop then [] else [p]).
Proof.
  split.
  - intros (i & s & ts & Ha & Hs & Ht & Hq). apply walker_at in Hs as [L ->]. cbn [ns_transitions walker_state] in Ht. rewrite nth_error_map in Ht.
    cbn [nfa_alphabet walker] in Ha. rewrite Ha in Ht. injection Ht as <-. apply nth_error_In in Ha. auto.
  - intros (L & Hx & Hq). apply In_nth_error in Hx as (i & Hi). exists i, (walker_state n go stop p). eexists. split; [exact Hi|].
    split; [apply walker_at; auto|]. cbn [ns_transitions walker_state]. rewrite nth_error_map, Hi. split; [reflexivity|exact Hq].
Qed.
Lemma walker_go n go stop i : In go four -> i < n -> forall p, p + i < n -> nfa_path (walker n go stop) p (repeat go i) (p + i).
Proof.
  intros Hg. induction i as [|i IH]; intros Li p L; cbn [repeat].
  - rewrite Nat.add_0_r. constructor.
  - replace (p + S i) with (S p + i) by lia. apply (nfa_path_cons _ p go (S p)); [|apply IH; lia]. apply walker_edge. split; [lia|]. split; auto.
    destruct (list_eq_dec N.eq_dec go go); [|congruence]. left. apply Nat.mod_small. lia.
Qed.
Lemma walker_stay n go stop x i : In x four -> x <> go -> x <> stop -> forall p, p < n -> nfa_path (walker n go stop) p (repeat x i) p.
Proof.
  intros Hx N1 N2 p L. induction i as [|i IH]; cbn [repeat]; [constructor|]. apply (nfa_path_cons _ p x p); auto. apply walker_edge. split; auto. split; auto.
  destruct (list_eq_dec N.eq_dec x go); [congruence|]. destruct (list_eq_dec N.eq_dec x stop); [congruence|]. left. reflexivity.
Qed.
Lemma walker_stuck n go stop w p : go <> stop -> nfa_path (walker n go stop) 0 w p -> nfa_stuck (walker n go stop) (w ++ [stop]).
Proof.
  intros Hg H. exists w, stop, [], p. split; [reflexivity|]. split; [exact H|]. intros (t & He). apply walker_edge in He as (_ & _ & He).
  destruct (list_eq_dec N.eq_dec stop go); [congruence|]. destruct (list_eq_dec N.eq_dec stop stop); [destruct He|congruence].
Qed.
Definition left_nfa (n : nat) : nfa := walker n el_a el_d.
Definition right_nfa (m : nat) : nfa := walker m el_b el_c.
Lemma pair_both n m i j : i < n -> j < m -> exists w, nfa_pair_reached (left_nfa n) (right_nfa m) w (Some i) (Some j).
Proof.
  intros Li Lj. exists (repeat el_a i ++ repeat el_b j). split.
  - apply (nfa_path_app _ _ _ i); [apply (walker_go n el_a el_d i ltac:(simpl; auto) Li 0); lia|].
    apply walker_stay; [simpl; auto|discriminate|discriminate|auto].
  - apply (nfa_path_app _ _ _ 0); [apply walker_stay; [simpl; auto|discriminate|discriminate|cbn; lia]|].
    apply (walker_go m el_b el_c j ltac:(simpl; auto) Lj 0); lia.
Qed.
Lemma pair_left n m i : 1 <= m -> i < n -> exists w, nfa_pair_reached (left_nfa n) (right_nfa m) w (Some i) None.
Proof.
  intros Hm Li. exists (repeat el_a i ++ [el_c]). split.
  - apply (nfa_path_app _ _ _ i); [apply (walker_go n el_a el_d i ltac:(simpl; auto) Li 0); lia|].
    apply (walker_stay n el_a el_d el_c 1); [simpl; auto|discriminate|discriminate|auto].
  - apply (walker_stuck m el_b el_c _ 0); [discriminate|]. apply walker_stay; [simpl; auto|discriminate|discriminate|lia].
Qed.
Lemma pair_right n m j : 1 <= n -> j < m -> exists w, nfa_pair_reached (left_nfa n) (right_nfa m) w None (Some j).
Proof.
  intros Hn Lj. exists (repeat el_b j ++ [el_d]). split.
  - apply (walker_stuck n el_a el_d _ 0); [discriminate|]. apply walker_stay; [simpl; auto|discriminate|discriminate|lia].
  - apply (nfa_path_app _ _ _ j); [apply (walker_go m el_b el_c j ltac:(simpl; auto) Lj 0); lia|].
    apply (walker_stay m el_b el_c el_d 1); [simpl; auto|discriminate|discriminate|auto].
Qed.
Lemma all_pairs n m (ks : list (option nat * option nat)) : 1 <= n -> 1 <= m ->
  (forall s1 s2, In (s1, s2) ks <-> exists w, nfa_pair_reached (left_nfa n) (right_nfa m) w s1 s2) ->
  S n * S m <= S (length ks).
Proof.
  intros Hn Hm HK. set (o := fun k => None :: map Some (seq 0 k)).
  assert (I : incl (list_prod (o n) (o m)) ((None, None) :: ks)).
  { intros (s1 & s2) H. apply in_prod_iff in H as [H1 H2]. destruct H1 as [<-|H1], H2 as [<-|H2]; [left; reflexivity| | |]; right; apply HK.
    - apply in_map_iff in H2 as (j & <- & Hj). apply in_seq in Hj. apply pair_right; lia.
    - apply in_map_iff in H1 as (i & <- & Hi). apply in_seq in Hi. apply pair_left; lia.
    - apply in_map_iff in H1 as (i & <- & Hi), H2 as (j & <- & Hj). apply in_seq in Hi, Hj. apply pair_both; lia. }
  apply NoDup_incl_length in I.
  - rewrite prod_length in I. cbn [length] in I. unfold o in I. cbn [length] in I. rewrite !map_length, !seq_length in I. exact I.
  - assert (N : forall k, NoDup (o k)).
    { intros k. constructor; [intros H; apply in_map_iff in H as (x & H & _); discriminate|]. apply FinFun.Injective_map_NoDup; [|apply seq_NoDup]. intros x y. congruence. }
    apply pairs_nodup; apply N.
Qed.
