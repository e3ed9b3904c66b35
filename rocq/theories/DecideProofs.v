(** * DecideProofs: runs with repeated states can be cut and pumped *)
From Coq Require Import List Arith Bool Lia.
From Verif Require Import Base BaseLemmas Spec DfaModel NfaModel NfaBasics DfaBasics Examples WordsModel WordsProofs Prop_Words AlgebraSpec AlgebraProofs Remarks Growth DecideSpec.
Import ListNotations.

Lemma pigeon (f : nat -> nat) N : (forall i, i <= N -> f i < N) -> exists i j, i < j <= N /\ f i = f j.
Proof.
  intros H. assert (At : forall i, i < S N -> nth_error (map f (seq 0 (S N))) i = Some (f i)).
  { intros i Hi. rewrite nth_error_map. assert (E : nth_error (seq 0 (S N)) i = Some i); [|rewrite E; auto].
    rewrite (nth_error_nth' _ 0) by (rewrite seq_length; auto). rewrite seq_nth by auto. reflexivity. }
  destruct (NoDup_or_repeat (map f (seq 0 (S N)))) as [ND|(i & j & r & Hij & Hi & Hj)].
  - exfalso. assert (I : incl (map f (seq 0 (S N))) (seq 0 N)).
    { intros x Hx. apply in_map_iff in Hx as (i & <- & Hi). apply in_seq in Hi. apply in_seq. split; [lia|]. apply H. lia. }
    pose proof (NoDup_incl_length ND I) as L. rewrite map_length, !seq_length in L. lia.
  - pose proof (nth_error_length _ _ _ Hj) as Lj. rewrite map_length, seq_length in Lj. rewrite At in Hi by lia. rewrite At in Hj by lia.
    exists i, j. split; [lia|congruence].
Qed.

Section Walks.
Context (n : nfa).
(** runs, as lists of labelled steps *)
Fixpoint walk (p : nat) (l : list (option str * nat)) : Prop :=
  match l with
  | [] => True
  | (None, q) :: l => nfa_eps_edge n p q /\ walk q l
  | (Some a, q) :: l => nfa_edge n p a q /\ walk q l
  end.
Definition final (p : nat) (l : list (option str * nat)) : nat := fold_left (fun _ s => snd s) l p.
Definition spelled (l : list (option str * nat)) : word := flat_map (fun s => match fst s with Some a => [a] | None => [] end) l.

Lemma walk_path l : forall p, walk p l -> nfa_path n p (spelled l) (final p l).
Proof.
  induction l as [|[[a|] q] l IH]; intros p W; [constructor| |]; destruct W as [E W]; cbn.
  - apply nfa_path_cons with q; auto. apply (IH q W).
  - apply nfa_path_eps with q; auto. apply (IH q W).
Qed.
Lemma path_walk p w q : nfa_path n p w q -> exists l, walk p l /\ spelled l = w /\ final p l = q.
Proof.
  induction 1 as [p|p q w r E P (l & W & S & F)|p a q w r E P (l & W & S & F)].
  - exists []. repeat split.
  - exists ((None, q) :: l). repeat split; auto.
  - exists ((Some a, q) :: l). repeat split; auto. cbn. f_equal. exact S.
Qed.
Lemma walk_app l1 l2 : forall p, walk p (l1 ++ l2) <-> walk p l1 /\ walk (final p l1) l2.
Proof.
  induction l1 as [|[[a|] q] l1 IH]; intros p; cbn [app walk]; [cbn; tauto| |]; rewrite IH; cbn [final fold_left snd]; unfold final; tauto.
Qed.
Lemma final_app p l1 l2 : final p (l1 ++ l2) = final (final p l1) l2.
Proof. apply fold_left_app. Qed.
Lemma spelled_app l1 l2 : spelled (l1 ++ l2) = spelled l1 ++ spelled l2.
Proof. apply flat_map_app. Qed.
Lemma spelled_length l : length (spelled l) <= length l.
Proof. induction l as [|[[a|] q] l IH]; unfold spelled in *; cbn [flat_map fst app length]; lia. Qed.
Lemma spelled_full l : eps_free n -> forall p, walk p l -> length (spelled l) = length l.
Proof.
  intros F. induction l as [|[[a|] q] l IH]; intros p W; auto; destruct W as [E W]; cbn.
  - f_equal. apply (IH q W).
  - destruct E as (s & Es & I). rewrite (F _ _ Es) in I. destruct I.
Qed.

Hypothesis V : nfa_valid n.
Let N := length (nfa_states n).

Lemma final_range p l : p < N -> walk p l -> final p l < N.
Proof. intros H W. apply (nfa_path_range n p (spelled l)); auto. apply walk_path; auto. Qed.
Lemma pump p l : p < N -> walk p l -> N <= length l ->
  exists l1 l2 l3, l = l1 ++ l2 ++ l3 /\ l2 <> [] /\ length (l1 ++ l2) <= N /\ final p (l1 ++ l2) = final p l1.
Proof.
  intros Hp W L. destruct (pigeon (fun i => final p (firstn i l)) N) as (i & j & Hij & E).
  { intros i Hi. apply final_range; auto. rewrite <- (firstn_skipn i l) in W. apply walk_app in W. apply W. }
  exists (firstn i l), (firstn (j - i) (skipn i l)), (skipn j l). assert (E1 : firstn i l ++ firstn (j - i) (skipn i l) = firstn j l).
  { rewrite <- (firstn_skipn i (firstn j l)). f_equal; [rewrite firstn_firstn, Nat.min_l by lia; auto|].
    rewrite skipn_firstn_comm. reflexivity. }
  split; [rewrite app_assoc, E1; symmetry; apply firstn_skipn|]. split.
  { intros X. apply (f_equal (@length _)) in X. rewrite firstn_length, skipn_length in X. cbn in X. lia. }
  rewrite E1. split; [rewrite firstn_length; lia|]. symmetry. exact E.
Qed.
Lemma cut p l1 l2 l3 : walk p (l1 ++ l2 ++ l3) -> final p (l1 ++ l2) = final p l1 -> walk p (l1 ++ l3) /\ final p (l1 ++ l3) = final p (l1 ++ l2 ++ l3).
Proof.
  intros W E. rewrite app_assoc in W. apply walk_app in W as [W W3]. apply walk_app in W as [W1 W2]. split.
  - apply walk_app. rewrite E in W3. auto.
  - rewrite final_app, app_assoc, final_app, E. reflexivity.
Qed.
Lemma simple p l : p < N -> walk p l -> exists l', walk p l' /\ final p l' = final p l /\ length l' < N.
Proof.
  intros Hp. remember (length l) as k eqn:K. revert l K. induction k as [k IH] using lt_wf_ind. intros l -> W.
  destruct (le_lt_dec N (length l)) as [L|L]; [|exists l; auto].
  destruct (pump p l Hp W L) as (l1 & l2 & l3 & -> & N2 & _ & E). destruct (cut p l1 l2 l3 W E) as [W' E'].
  destruct (IH (length (l1 ++ l3))) with (l := l1 ++ l3) as (l' & W1 & E1 & L1); auto.
  { rewrite !app_length. destruct l2; [congruence|cbn; lia]. }
  exists l'. split; auto. split; auto. congruence.
Qed.
Lemma short_word w : nfa_lang n w -> exists w', nfa_lang n w' /\ length w' < N.
Proof.
  intros (q & P & A). apply path_walk in P as (l & W & _ & F). destruct (simple (nfa_initial n) l (nv_initial n V) W) as (l' & W' & E & L).
  exists (spelled l'). split; [exists q; split; auto; rewrite <- F, <- E; apply walk_path; auto|]. pose proof (spelled_length l'). lia.
Qed.

Hypothesis F : eps_free n.
Lemma middle_word w : nfa_lang n w -> N <= length w -> exists w', nfa_lang n w' /\ N <= length w' < 2 * N.
Proof.
  remember (length w) as k eqn:K. revert w K. induction k as [k IH] using lt_wf_ind. intros w -> Lw L.
  destruct (le_lt_dec (2 * N) (length w)) as [L2|L2]; [|exists w; auto].
  destruct Lw as (q & P & A). apply path_walk in P as (l & W & Sp & Fi). pose proof (spelled_full l F _ W) as LL. rewrite Sp in LL.
  destruct (pump (nfa_initial n) l (nv_initial n V) W) as (l1 & l2 & l3 & -> & N2 & L12 & E); [lia|]. destruct (cut _ l1 l2 l3 W E) as [W' E'].
  pose proof (spelled_full _ F _ W') as LL'.
  apply (IH (length (spelled (l1 ++ l3)))) with (w := spelled (l1 ++ l3)); auto.
  - rewrite LL', LL. rewrite !app_length. destruct l2; [congruence|cbn; lia].
  - exists q. split; auto. rewrite <- Fi, <- E'. apply walk_path; auto.
  - rewrite LL'. rewrite !app_length in *. lia.
Qed.
Lemma loops p l2 k : walk p l2 -> final p l2 = p -> walk p (concat (repeat l2 k)) /\ final p (concat (repeat l2 k)) = p.
Proof.
  intros W E. induction k as [|k [W1 E1]]; [split; cbn; auto|]. cbn [repeat concat]. split.
  - apply walk_app. rewrite E. auto.
  - rewrite final_app, E. exact E1.
Qed.
Lemma long_words w : nfa_lang n w -> N <= length w -> forall k, exists w', nfa_lang n w' /\ k <= length w'.
Proof.
  intros (q & P & A) L k. apply path_walk in P as (l & W & Sp & Fi). pose proof (spelled_full l F _ W) as LL. rewrite Sp in LL.
  destruct (pump (nfa_initial n) l (nv_initial n V) W) as (l1 & l2 & l3 & -> & N2 & L12 & E); [lia|].
  apply walk_app in W as [W1 W]. apply walk_app in W as [W2 W3]. rewrite final_app in E.
  destruct (loops _ l2 k W2 E) as [Wk Ek].
  assert (Wn : walk (nfa_initial n) (l1 ++ concat (repeat l2 k) ++ l3)).
  { apply walk_app. split; auto. apply walk_app. rewrite Ek. split; auto. rewrite E in W3. exact W3. }
  exists (spelled (l1 ++ concat (repeat l2 k) ++ l3)). split.
  - exists q. split; auto. replace q with (final (nfa_initial n) (l1 ++ concat (repeat l2 k) ++ l3)); [apply walk_path; auto|].
    rewrite <- Fi, !final_app, Ek, E. reflexivity.
  - rewrite (spelled_full _ F _ Wn), !app_length. assert (G : k <= length (concat (repeat l2 k))); [|lia].
    clear - N2. induction k as [|k IH]; [cbn; lia|]. cbn [repeat concat]. rewrite app_length. destruct l2; [congruence|cbn [length]; lia].
Qed.
Lemma bounded_not_long ws : (forall w, nfa_lang n w -> In w ws) -> forall w, nfa_lang n w -> length w < N.
Proof.
  intros H w Lw. destruct (le_lt_dec N (length w)) as [L|L]; auto. exfalso.
  destruct (long_words w Lw L (S (list_max (map (@length str) ws)))) as (w' & L' & G). apply H in L'.
  assert (B : Forall (fun k => k <= list_max (map (@length str) ws)) (map (@length str) ws)) by (apply list_max_le; auto).
  rewrite Forall_forall in B. specialize (B (length w') (in_map _ _ _ L')). lia.
Qed.
End Walks.

(** ** The language is finite exactly if the iterator has ended after all words with fewer symbols than states *)
Lemma finite_iff n : nfa_valid n -> eps_free n -> (finite_lang (nfa_lang n) <-> forall w, nfa_lang n w -> length w < length (nfa_states n)).
Proof.
  intros V F. split; [intros (ws & H); apply (bounded_not_long n V F ws H)|]. intros H.
  destruct (finitely_many (length (nfa_alphabet n)) (length (nfa_states n))) as (E & HE). exists (map (map (elem_at n)) E). intros w L.
  destruct (spells_ex (nfa_alphabet n) w (nfa_lang_over n w L)) as (idx & S). destruct (AlgebraProofs.spells_range _ _ _ S) as [R Le].
  apply in_map_iff. exists idx. split.
  - apply (WordsProofs.spells_fun (nfa_alphabet n) idx); auto. apply acc_spells; auto. apply acc_lang; auto. exists w. auto.
  - apply HE; auto. apply H in L. lia.
Qed.
Lemma finite_middle n : nfa_valid n -> eps_free n ->
  (finite_lang (nfa_lang n) <-> ~ exists w, nfa_lang n w /\ length (nfa_states n) <= length w < 2 * length (nfa_states n)).
Proof.
  intros V F. rewrite finite_iff by auto. split.
  - intros H (w & L & B & _). apply H in L. lia.
  - intros H w L. destruct (le_lt_dec (length (nfa_states n)) (length w)) as [B|B]; auto. exfalso. apply H. apply (middle_word n V F w L B).
Qed.
Lemma finite_calls n : nfa_valid n -> eps_free n ->
  let k := words_up_to (length (nfa_alphabet n)) (length (nfa_states n) - 1) in
  exists outs, word_components_calls n (S k) = Ret outs /\ (finite_lang (nfa_lang n) <-> nth_error outs k = Some None).
Proof.
  intros V F k. destruct (C34_components n (S k) V F) as (l & ws & E & Ll & St & Sp & Sound & Comp).
  eexists. split; [exact E|]. assert (LL : length ws = length l) by (clear - Sp; induction Sp; cbn; auto).
  assert (ND : NoDup l) by (apply shortlex_sorted_NoDup; auto). split.
  - intros Fin0. pose proof (proj1 (finite_iff n V F) Fin0) as Fin. assert (B : length l <= k).
    { unfold k. rewrite <- index_words_up_to_length. apply NoDup_incl_length; auto. intros idx Hi.
      destruct (Forall2_In_l _ _ _ idx Sp Hi) as (w & Hw & Sw). destruct (AlgebraProofs.spells_range _ _ _ Sw) as [R Le].
      apply index_words_up_to_in; auto. apply Sound, Fin in Hw. lia. }
    rewrite nth_error_app2; rewrite map_length; [|lia]. assert (G : forall j i, i < j -> nth_error (repeat (@None word) j) i = Some None).
    { clear. induction j as [|j IH]; intros i Hi; [lia|]. destruct i; cbn; auto. apply IH. lia. }
    apply G. lia.
  - intros H. exists ws. intros w Lw. destruct (spells_ex _ _ (nfa_lang_over n w Lw)) as (idx & Sw).
    destruct (Comp idx w Sw Lw) as [I|[Le _]]; auto. exfalso. rewrite Le, Nat.sub_diag in H. cbn [repeat] in H. rewrite app_nil_r in H.
    rewrite nth_error_map in H. destruct (nth_error ws k); discriminate.
Qed.

(** ** The bounds are attained: a chain of m states, the last accepting *)
Definition chain_state (m i : nat) : dfa_state := mk_dfa_state (dec i) (i =? 0) (i =? m - 1) [Nat.min (S i) (m - 1)].
Definition chain (m : nat) : dfa := {| dfa_alphabet := [el_a]; dfa_states := map (chain_state m) (seq 0 m); dfa_initial := 0 |}.
Lemma chain_at m q s : nth_error (dfa_states (chain m)) q = Some s <-> q < m /\ s = chain_state m q.
Proof.
  cbn [dfa_states chain]. rewrite nth_error_map. split.
  - destruct (nth_error (seq 0 m) q) as [x|] eqn:E; [|discriminate]. intros [= <-]. pose proof (nth_error_length _ _ _ E) as L. rewrite seq_length in L.
    split; [lia|]. rewrite seq_at in E by lia. injection E as <-. reflexivity.
  - intros [L ->]. rewrite seq_at by lia. reflexivity.
Qed.
Lemma chain_size m : length (dfa_states (chain m)) = m.
Proof. cbn [dfa_states chain]. rewrite map_length, seq_length. reflexivity. Qed.
Lemma chain_valid m : 1 <= m -> dfa_valid (chain m).
Proof.
  intros Hm. constructor.
  - repeat constructor; simpl; intuition discriminate.
  - cbn [dfa_states chain]. rewrite map_map. apply FinFun.Injective_map_NoDup; [|apply seq_NoDup]. intros x y. apply dec_inj.
  - rewrite chain_size. cbn. lia.
  - intros q s H. apply chain_at in H as [_ ->]. cbn [ds_initial chain_state dfa_initial chain]. apply Nat.eqb_eq.
  - intros q s H. apply chain_at in H as [_ ->]. reflexivity.
  - intros q s t H H1. rewrite chain_size. apply chain_at in H as [L ->]. destruct H1 as [<-|[]]. lia.
Qed.
Lemma chain_edge m p x q : dfa_edge (chain m) p x q <-> p < m /\ x = el_a /\ q = Nat.min (S p) (m - 1).
Proof.
  split.
  - intros (i & s & Ha & Hs & Ht). apply chain_at in Hs as [L ->]. destruct i as [|[|i]]; try discriminate. injection Ha as <-. injection Ht as <-. auto.
  - intros (L & -> & ->). exists 0, (chain_state m p). split; [reflexivity|]. split; [apply chain_at; auto|reflexivity].
Qed.
Lemma chain_path m w : 1 <= m -> forall p q, p < m -> (dfa_path (chain m) p w q <-> over [el_a] w /\ q = Nat.min (p + length w) (m - 1)).
Proof.
  intros Hm. induction w as [|x w IH]; intros p q L.
  - split; [|intros [_ ->]; replace (Nat.min (p + length []) (m - 1)) with p by (cbn; lia); constructor].
    intros H. inversion H. split; [constructor|cbn; lia].
  - split.
    + intros H. inversion H as [|? ? q' ? ? He Hp]; subst. apply chain_edge in He as (_ & -> & ->). apply IH in Hp as [O ->]; [|lia].
      split; [constructor; cbn; auto|]. cbn [length]. lia.
    + intros [O ->]. inversion O as [|? ? Hx O']; subst. destruct Hx as [<-|[]]. econstructor; [apply chain_edge; auto|].
      apply IH; [lia|]. split; auto. cbn [length]. lia.
Qed.
Lemma chain_lang m p w : 1 <= m -> p < m -> (dfa_state_lang (chain m) p w <-> over [el_a] w /\ m - 1 <= p + length w).
Proof.
  intros Hm Hp. split.
  - intros (q & P & s & Es & A). apply chain_path in P as [O ->]; auto. apply chain_at in Es as [_ ->]. cbn in A. apply Nat.eqb_eq in A. split; auto. lia.
  - intros [O L]. exists (m - 1). split; [apply chain_path; auto; split; auto; lia|]. exists (chain_state m (m - 1)).
    split; [apply chain_at; split; auto; lia|]. cbn. apply Nat.eqb_eq. lia.
Qed.
Definition nothing : dfa := {| dfa_alphabet := [el_a]; dfa_states := [mk_dfa_state (dec 0) true false [0]]; dfa_initial := 0 |}.
Lemma nothing_valid : dfa_valid nothing.
Proof.
  assert (At : forall q s, nth_error (dfa_states nothing) q = Some s -> q = 0 /\ s = mk_dfa_state (dec 0) true false [0]).
  { intros [|[|q]] s H; try discriminate. injection H as <-. auto. }
  constructor.
  - repeat constructor; simpl; intuition discriminate.
  - repeat constructor; simpl; intuition discriminate.
  - cbn. lia.
  - intros q s H. apply At in H as [-> ->]. cbn. intuition.
  - intros q s H. apply At in H as [-> ->]. reflexivity.
  - intros q s t H H1. apply At in H as [-> ->]. destruct H1 as [<-|[]]. cbn. lia.
Qed.
Lemma nothing_lang w : ~ dfa_lang nothing w.
Proof. intros (q & _ & s & Es & A). destruct q as [|[|q]]; try discriminate. injection Es as <-. discriminate. Qed.
