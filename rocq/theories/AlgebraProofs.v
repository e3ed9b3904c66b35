(** * AlgebraProofs: propositional laws hold for automata *)
From Coq Require Import List NArith Arith Bool Lia.
From Verif Require Import Base Spec DfaModel NfaModel ApiModel AlgebraSpec.
From Verif Require Import DfaBasics NfaBasics Prop_Dfa Prop_Nfa WordsModel WordsProofs Prop_Words.
Import ListNotations.

Scheme dfa_law_mut := Induction for dfa_law Sort Prop with nfa_law_mut := Induction for nfa_law Sort Prop.
Combined Scheme law_ind from dfa_law_mut, nfa_law_mut.

(** The truth values of one word *)
Definition accepted_bit (r : R bool) : bool := match r with Ret b => b | _ => false end.
Definition dfa_bits (dv : nat -> dfa) (w : word) (i : nat) : bool := accepted_bit (dfa_accepts (dv i) w).
Definition nfa_bits (nv : nat -> nfa) (w : word) (i : nat) : bool := accepted_bit (nfa_accepts (nv i) w).

Lemma dfa_bits_spec dv w i : dfa_valid (dv i) -> (dfa_bits dv w i = true <-> dfa_lang (dv i) w).
Proof. intros V. unfold dfa_bits. destruct (C01_dfa_accepts _ w V) as (b & -> & H). exact H. Qed.
Lemma nfa_bits_spec nv w i : nfa_valid (nv i) -> (nfa_bits nv w i = true <-> nfa_lang (nv i) w).
Proof. intros V. unfold nfa_bits. destruct (C03_nfa_accepts _ w V) as (b & -> & H). exact H. Qed.


Lemma same_set_over (al al' : list str) w : same_set al al' -> over al w -> over al' w.
Proof. intros H. apply Forall_impl. intros a. apply H. Qed.

Lemma same_set_eq_l (al al' l : list str) : al' = al -> same_set al l -> same_set al' l.
Proof. intros ->. auto. Qed.

(** one call on a value *)
Lemma obind_some {A B} (m : R (option A)) (f : A -> R (option B)) a : m = Ret (Some a) -> obind m f = f a.
Proof. intros ->. reflexivity. Qed.

Section Meaning.
  Variables (al : list str) (dv : nat -> dfa) (nv : nat -> nfa).
  Hypothesis HV : over_one_alphabet al dv nv.

  Definition dfa_means (l : dfa_law) (d : dfa) : Prop :=
    dfa_valid d /\ same_set (dfa_alphabet d) al /\
    forall w, over al w -> (dfa_lang d w <-> dfa_truth (dfa_bits dv w) (nfa_bits nv w) l = true).
  Definition nfa_means (m : nfa_law) (n : nfa) : Prop :=
    nfa_valid n /\ same_set (nfa_alphabet n) al /\
    forall w, over al w -> (nfa_lang n w <-> nfa_truth (dfa_bits dv w) (nfa_bits nv w) m = true).

  Lemma dfa_set_op_correct o h d1 d2 : dfa_valid d1 -> dfa_valid d2 -> same_set (dfa_alphabet d1) (dfa_alphabet d2) ->
    exists d, dfa_set_op o h d1 d2 = Ret (Some d) /\ dfa_valid d /\ dfa_alphabet d = dfa_alphabet d1 /\
      forall w b1 b2, (dfa_lang d1 w <-> b1 = true) -> (dfa_lang d2 w <-> b2 = true) -> (dfa_lang d w <-> connective o b1 b2 = true).
  Proof.
    intros V1 V2 Hs. destruct o; cbn [dfa_set_op connective].
    - destruct (C25_union h d1 d2 V1 V2) as ([d|] & E & Hn & H); [|tauto]. exists d. destruct (H d eq_refl) as (V & A & L).
      split; [exact E|]. split; [auto|]. split; [auto|]. intros w b1 b2 H1 H2. rewrite (L w), H1, H2, orb_true_iff. tauto.
    - destruct (C25_intersection h d1 d2 V1 V2) as ([d|] & E & Hn & H); [|tauto]. exists d. destruct (H d eq_refl) as (V & A & L).
      split; [exact E|]. split; [auto|]. split; [auto|]. intros w b1 b2 H1 H2. rewrite (L w), H1, H2, andb_true_iff. tauto.
    - destruct (C25_difference h d1 d2 V1 V2) as ([d|] & E & Hn & H); [|tauto]. exists d. destruct (H d eq_refl) as (V & A & L).
      split; [exact E|]. split; [auto|]. split; [auto|]. intros w b1 b2 H1 H2. rewrite (L w), H1, H2. destruct b1, b2; simpl; intuition congruence.
    - destruct (C25_symmetric_difference h d1 d2 V1 V2) as ([d|] & E & Hn & H); [|tauto]. exists d. destruct (H d eq_refl) as (V & A & L).
      split; [exact E|]. split; [auto|]. split; [auto|]. intros w b1 b2 H1 H2. rewrite (L w), H1, H2. destruct b1, b2; simpl; intuition congruence.
  Qed.

  Lemma same_set_two (l1 l2 : list str) : same_set l1 al -> same_set l2 al -> same_set l1 l2.
  Proof. intros H1 H2 a. rewrite (H1 a). symmetry. apply H2. Qed.

  Lemma law_meaning :
    (forall l, exists d, run_dfa_law dv nv l = Ret (Some d) /\ dfa_means l d) /\
    (forall m, exists n, run_nfa_law dv nv m = Ret (Some n) /\ nfa_means m n).
  Proof.
    destruct HV as [HD HN]. apply law_ind.
    - intros i. exists (dv i). split; [reflexivity|]. destruct (HD i) as [V A]. split; [auto|]. split; [auto|]. intros w _. cbn.
      symmetry. apply dfa_bits_spec; auto.
    - intros h m (n & E & V & A & L). cbn [run_dfa_law]. rewrite (obind_some _ _ _ E).
      destruct (C15_nfa_to_dfa h n V) as (d & -> & Vd & Ad & _ & _ & _ & Ld). exists d. split; [reflexivity|]. split; [auto|].
      split; [rewrite Ad; auto|]. intros w Hw. rewrite (Ld w). apply L; auto.
    - intros l (d & E & V & A & L). cbn [run_dfa_law]. rewrite (obind_some _ _ _ E). exists (dfa_invert d).
      destruct (C23_invert d V) as (Vi & Ai & _ & _ & _ & _ & Li). split; [reflexivity|]. split; [auto|]. split; [rewrite Ai; auto|].
      intros w Hw. rewrite (Li w), (L w Hw). cbn [dfa_truth]. rewrite negb_true_iff, not_true_iff_false.
      split; [intros [_ H]; exact H|]. intros H. split; [|exact H]. apply (same_set_over al); auto. intros a. symmetry. apply A.
    - intros h dbg l (d & E & V & A & L). cbn [run_dfa_law]. rewrite (obind_some _ _ _ E).
      destruct (C17_dfa_remove_unreachable h dbg d V) as (d' & -> & V' & (k & _ & _ & R) & L'). exists d'. split; [reflexivity|].
      split; [auto|]. split; [apply (same_set_eq_l (dfa_alphabet d)); [apply R|auto]|]. intros w Hw. rewrite (L' w). apply L; auto.
    - intros h dbg l (d & E & V & A & L). cbn [run_dfa_law]. rewrite (obind_some _ _ _ E).
      destruct (C20_merge h dbg d V) as (d' & k & -> & V' & A' & L' & _). exists d'. split; [reflexivity|].
      split; [auto|]. split; [rewrite A'; auto|]. intros w Hw. rewrite (L' w). apply L; auto.
    - intros h dbg l (d & E & V & A & L). cbn [run_dfa_law]. rewrite (obind_some _ _ _ E).
      destruct (C21_minimize h dbg d V) as (d' & -> & V' & A' & L' & _). exists d'. split; [reflexivity|].
      split; [auto|]. split; [rewrite A'; auto|]. intros w Hw. rewrite (L' w). apply L; auto.
    - intros o h l1 (d1 & E1 & V1 & A1 & L1) l2 (d2 & E2 & V2 & A2 & L2). cbn [run_dfa_law].
      rewrite (obind_some _ _ _ E1), (obind_some _ _ _ E2).
      destruct (dfa_set_op_correct o h d1 d2 V1 V2 (same_set_two _ _ A1 A2)) as (d & E & V & A & L). exists d. split; [exact E|].
      split; [auto|]. split; [rewrite A; auto|]. intros w Hw. cbn [dfa_truth]. apply L; auto.
    - intros i. exists (nv i). split; [reflexivity|]. destruct (HN i) as [V A]. split; [auto|]. split; [auto|]. intros w _. cbn.
      symmetry. apply nfa_bits_spec; auto.
    - intros l (d & E & V & A & L). cbn [run_nfa_law]. rewrite (obind_some _ _ _ E). exists (dfa_to_nfa d).
      destruct (C14_dfa_to_nfa d V) as (Vn & _ & An & _ & _ & _ & _ & _ & Ln). split; [reflexivity|]. split; [auto|]. split; [rewrite An; auto|].
      intros w Hw. rewrite (Ln w). apply L; auto.
    - intros h dbg l (d & E & V & A & L). cbn [run_nfa_law]. rewrite (obind_some _ _ _ E).
      destruct (C17_nfa_remove_unreachable h dbg d V) as (d' & -> & V' & (k & _ & _ & R) & L'). exists d'. split; [reflexivity|].
      split; [auto|]. split; [apply (same_set_eq_l (nfa_alphabet d)); [apply R|auto]|]. intros w Hw. rewrite (L' w). apply L; auto.
    - intros h dbg l (d & E & V & A & L). cbn [run_nfa_law]. rewrite (obind_some _ _ _ E).
      destruct (C30_remove_epsilon_moves h dbg d V) as (d' & -> & V' & _ & _ & A' & L' & _). exists d'. split; [reflexivity|].
      split; [auto|]. split; [rewrite A'; auto|]. intros w Hw. rewrite (L' w). apply L; auto.
    - intros h dbg l (d & E & V & A & L). cbn [run_nfa_law]. rewrite (obind_some _ _ _ E).
      destruct (C31_optimize h dbg d V) as (d' & -> & V' & _ & A' & L'). exists d'. split; [reflexivity|].
      split; [auto|]. split; [rewrite A'; auto|]. intros w Hw. rewrite (L' w). apply L; auto.
    - intros m1 (n1 & E1 & V1 & A1 & L1) m2 (n2 & E2 & V2 & A2 & L2). cbn [run_nfa_law].
      rewrite (obind_some _ _ _ E1), (obind_some _ _ _ E2).
      destruct (C27_nfa_union n1 n2 V1 V2) as (r & -> & _ & H). destruct (H (same_set_two _ _ A1 A2)) as (n & -> & V & A & L).
      exists n. split; [reflexivity|]. split; [auto|]. split; [rewrite A; auto|]. intros w Hw. cbn [nfa_truth].
      rewrite (L w), (L1 w Hw), (L2 w Hw), orb_true_iff. tauto.
    - intros h m1 (n1 & E1 & V1 & A1 & L1) m2 (n2 & E2 & V2 & A2 & L2). cbn [run_nfa_law].
      rewrite (obind_some _ _ _ E1), (obind_some _ _ _ E2).
      destruct (C28_nfa_intersection h n1 n2 V1 V2) as ([n|] & -> & Hn & H); [|exfalso; apply Hn; [reflexivity|exact (same_set_two _ _ A1 A2)]].
      destruct (H n eq_refl) as (V & A & L).
      exists n. split; [reflexivity|]. split; [auto|]. split; [rewrite A; auto|]. intros w Hw. cbn [nfa_truth].
      rewrite (L w), (L1 w Hw), (L2 w Hw), andb_true_iff. tauto.
  Qed.

  (** results of the same truth value have the same language *)
  Lemma dfa_means_eq l1 l2 d1 d2 : dfa_means l1 d1 -> dfa_means l2 d2 ->
    (forall dt nt, dfa_truth dt nt l1 = dfa_truth dt nt l2) -> forall w, dfa_lang d1 w <-> dfa_lang d2 w.
  Proof.
    intros (V1 & A1 & L1) (V2 & A2 & L2) H w.
    split; intros L.
    - assert (Hw : over al w) by (apply (same_set_over (dfa_alphabet d1)); auto; apply dfa_lang_over; auto).
      apply (L2 w Hw). rewrite <- H. apply L1; auto.
    - assert (Hw : over al w) by (apply (same_set_over (dfa_alphabet d2)); auto; apply dfa_lang_over; auto).
      apply (L1 w Hw). rewrite H. apply L2; auto.
  Qed.
  Lemma nfa_means_eq l1 l2 d1 d2 : nfa_means l1 d1 -> nfa_means l2 d2 ->
    (forall dt nt, nfa_truth dt nt l1 = nfa_truth dt nt l2) -> forall w, nfa_lang d1 w <-> nfa_lang d2 w.
  Proof.
    intros (V1 & A1 & L1) (V2 & A2 & L2) H w.
    split; intros L.
    - assert (Hw : over al w) by (apply (same_set_over (nfa_alphabet d1)); auto; apply nfa_lang_over; auto).
      apply (L2 w Hw). rewrite <- H. apply L1; auto.
    - assert (Hw : over al w) by (apply (same_set_over (nfa_alphabet d2)); auto; apply nfa_lang_over; auto).
      apply (L1 w Hw). rewrite H. apply L2; auto.
  Qed.
End Meaning.

(** ** truth depends on the truth values only *)
Lemma truth_ext dt dt' nt nt' : (forall i, dt i = dt' i) -> (forall i, nt i = nt' i) ->
  (forall l, dfa_truth dt nt l = dfa_truth dt' nt' l) /\ (forall m, nfa_truth dt nt m = nfa_truth dt' nt' m).
Proof. intros Hd Hn. apply law_ind; intros; cbn [dfa_truth nfa_truth]; first [apply Hd | apply Hn | assumption | congruence]. Qed.

(** ** automata that accept everything or nothing *)
Definition const_dfa (al : list str) (b : bool) : dfa :=
  {| dfa_alphabet := al; dfa_initial := 0;
     dfa_states := [ {| ds_name := []; ds_initial := true; ds_accepting := b; ds_transitions := repeat 0 (length al) |} ] |}.
Lemma const_dfa_valid al b : NoDup al -> dfa_valid (const_dfa al b).
Proof.
  intros H. constructor; cbn; auto.
  - repeat constructor. intros [].
  - intros [|[|q]] s E; try discriminate. injection E as <-. cbn. tauto.
  - intros [|[|q]] s E; try discriminate. injection E as <-. cbn. apply repeat_length.
  - intros [|[|q]] s t E Hi; try discriminate. injection E as <-. cbn in Hi. apply repeat_spec in Hi. lia.
Qed.
Lemma const_dfa_empty al b : dfa_lang (const_dfa al b) [] <-> b = true.
Proof.
  split.
  - intros (q & P & s & Hs & Ha). inversion P; subst. cbn in Hs. injection Hs as <-. exact Ha.
  - intros ->. exists 0. split; [constructor|]. eexists. split; reflexivity.
Qed.

(** ** how many words there are *)
Fixpoint index_words (a len : nat) : list (list nat) :=
  match len with
  | O => [[]]
  | S len' => flat_map (fun w => map (fun i => i :: w) (seq 0 a)) (index_words a len')
  end.
Lemma index_words_length a len : length (index_words a len) = a ^ len.
Proof.
  induction len as [|len IH]; [reflexivity|]. cbn [index_words Nat.pow]. rewrite <- IH. generalize (index_words a len). intros l.
  induction l as [|w l IHl]; cbn [flat_map length]; [lia|]. rewrite app_length, map_length, seq_length, IHl. lia.
Qed.
Lemma index_words_in a w : Forall (fun i => i < a) w -> In w (index_words a (length w)).
Proof.
  induction 1 as [|i w Hi Hw IH]; [left; reflexivity|]. cbn [index_words length]. apply in_flat_map. exists w. split; [exact IH|].
  apply in_map_iff. exists i. split; auto. apply in_seq. lia.
Qed.
Fixpoint index_words_up_to (a len : nat) : list (list nat) :=
  match len with
  | O => index_words a 0
  | S len' => index_words a len ++ index_words_up_to a len'
  end.
Lemma index_words_up_to_length a len : length (index_words_up_to a len) = words_up_to a len.
Proof.
  induction len as [|len IH]; [reflexivity|]. cbn [index_words_up_to words_up_to]. rewrite app_length, index_words_length, IH. reflexivity.
Qed.
Lemma index_words_up_to_in a len w : Forall (fun i => i < a) w -> length w <= len -> In w (index_words_up_to a len).
Proof.
  intros H. induction len as [|len IH]; intros Hl; cbn [index_words_up_to].
  - replace 0 with (length w) by lia. apply index_words_in; auto.
  - apply in_or_app. destruct (le_lt_eq_dec _ _ Hl) as [Hlt|<-]; [right; apply IH; lia|left; apply index_words_in; auto].
Qed.
Lemma spells_range al idx w : spells al idx w -> Forall (fun i => i < length al) idx /\ length idx = length w.
Proof.
  induction 1 as [|i a idx w Hi Hs [IH1 IH2]]; [split; [constructor|reflexivity]|]. split; [|simpl; congruence].
  constructor; auto. apply nth_error_Some. congruence.
Qed.
Lemma spells_ex al w : over al w -> exists idx, spells al idx w.
Proof.
  induction 1 as [|a w Ha Hw [idx IH]]; [exists []; constructor|]. apply In_nth_error in Ha as [i Hi]. exists (i :: idx). constructor; auto.
Qed.

(** every accepted word is among the first results *)
Lemma listed_within n w len k : nfa_valid n -> eps_free n -> nfa_lang n w -> length w <= len ->
  words_up_to (length (nfa_alphabet n)) len <= k ->
  exists ws, word_components_calls n k = Ret (map Some ws ++ repeat None (k - length ws)) /\ In w ws.
Proof.
  intros V F L Hlen Hk. destruct (C34_components n k V F) as (l & ws & E & Hl & Hs & HF & _ & Hc). exists ws. split; [exact E|].
  destruct (spells_ex _ w (nfa_lang_over n w L)) as [idx Hi]. destruct (Hc idx w Hi L) as [H|[Hn Hlt]]; [exact H|exfalso].
  assert (Hll : length l = length ws) by (clear -HF; induction HF; simpl; auto).
  destruct (spells_range _ _ _ Hi) as [Hr Hil].
  assert (ND : NoDup (idx :: l)).
  { constructor; [|apply shortlex_sorted_NoDup; auto]. intros Hin. apply Hlt in Hin. exact (shortlex_lt_irrefl idx Hin). }
  assert (HI : incl (idx :: l) (index_words_up_to (length (nfa_alphabet n)) len)).
  { intros x [<- |Hx]; [apply index_words_up_to_in; auto; lia|]. apply index_words_up_to_in.
    - clear -HF Hx. induction HF as [|i u l ws Hs HF IH]; [destruct Hx|]. destruct Hx as [<- |Hx]; auto. exact (proj1 (spells_range _ _ _ Hs)).
    - pose proof (Hlt x Hx) as Hsl. unfold shortlex_lt in Hsl. lia. }
  pose proof (NoDup_incl_length ND HI) as HL. rewrite index_words_up_to_length in HL. simpl in HL. unfold word in *. lia.
Qed.

Lemma spells_fun al idx idx' w : NoDup al -> spells al idx w -> spells al idx' w -> idx = idx'.
Proof.
  intros ND H. revert idx'. induction H as [|i a idx w Hi Hs IH]; intros idx' H'; inversion H'; subst; auto.
  f_equal; [|apply IH; auto]. apply (proj1 (NoDup_nth_error al) ND); [apply nth_error_Some; congruence|congruence].
Qed.
Lemma components_nodup n k : nfa_valid n -> eps_free n ->
  exists ws, word_components_calls n k = Ret (map Some ws ++ repeat None (k - length ws)) /\ NoDup ws.
Proof.
  intros V F. destruct (C34_components n k V F) as (l & ws & E & _ & Hs & HF & _). exists ws. split; [exact E|].
  apply shortlex_sorted_NoDup in Hs. clear E. induction HF as [|idx w l ws Hi HF IH]; [constructor|]. inversion Hs; subst.
  constructor; [|auto]. intros Hin. match goal with H : ~ In idx l |- _ => apply H end. clear -HF Hin Hi V.
  induction HF as [|j u l ws Hj HF IH]; [destruct Hin|]. destruct Hin as [-> |Hin]; [left|right; auto].
  eapply spells_fun; eauto. apply V.
Qed.
