(** * ApiNames: the state names of everything a client program builds are legal tokens, whatever symbols it uses *)
From Coq Require Import List NArith Arith Bool Lia.
From Verif Require Import Base BaseLemmas Spec TableSpec LayoutSpec DfaModel NfaModel RegexModel ValidateModel ParserModel RegexParserModel
  ApiModel FaParserProofs ApiProofs Prop_Validate Prop_Dfa Prop_Nfa.
Import ListNotations.

Lemma obind_inv {A B} (m : R (option A)) (f : A -> R (option B)) b : obind m f = Ret (Some b) ->
  exists a, m = Ret (Some a) /\ f a = Ret (Some b).
Proof. destruct m as [[a|]| |]; simpl; intros H; try discriminate. eauto. Qed.
Lemma ret_some_inv {A} (m : R A) b : (d' <- m ;; Ret (Some d')) = Ret (Some b) -> m = Ret b.
Proof. destruct m; simpl; congruence. Qed.

Lemma run_dfa_valid p d : run_dfa p = Ret (Some d) -> dfa_valid d.
Proof. intros E. destruct (proj1 prog_ok p) as [(_ & d' & E' & O)|(_ & E')]; rewrite E in E'; [injection E' as <-; apply O|discriminate]. Qed.
Lemma run_nfa_valid p n : run_nfa p = Ret (Some n) -> nfa_valid n.
Proof. intros E. destruct (proj2 prog_ok p) as [(_ & d' & E' & O)|(_ & E')]; rewrite E in E'; [injection E' as <-; apply O|discriminate]. Qed.

Lemma prog_names : (forall p d, run_dfa p = Ret (Some d) -> dnames_legal d) /\ (forall p n, run_nfa p = Ret (Some n) -> nnames_legal n).
Proof.
  apply prog_ind; cbn [run_dfa run_nfa].
  - intros u d E. apply obind_inv in E as (t & Et & Ed). apply parse_dfa_iff in Et.
    destruct (dfa_try_from t) as [d'|] eqn:Ef; [|discriminate]. injection Ed as <-.
    apply (dfa_text_legal t u d' Et). apply C06_dfa_faithful; auto. apply C06_dfa_accepted_iff_well_formed. eauto.
  - intros h p IH d E. apply obind_inv in E as (n & En & Ed). apply ret_some_inv in Ed.
    apply (nfa_to_dfa_legal h n d); auto. eapply run_nfa_valid; eauto.
  - intros p IH d E. apply obind_inv in E as (d' & Ed' & Ed). injection Ed as <-.
    destruct (C23_invert d' (run_dfa_valid _ _ Ed')) as (_ & _ & _ & N & _). apply dnames_legal_map. rewrite N. apply dnames_legal_map, IH. auto.
  - intros h dbg p IH d E. apply obind_inv in E as (d' & Ed' & Ed). apply ret_some_inv in Ed.
    eapply dfa_remove_legal; eauto. eapply run_dfa_valid; eauto.
  - intros h dbg p IH d E. apply obind_inv in E as (d' & Ed' & Ed). apply ret_some_inv in Ed.
    eapply dfa_merge_legal; eauto. eapply run_dfa_valid; eauto.
  - intros h dbg p IH d E. apply obind_inv in E as (d' & Ed' & Ed). apply ret_some_inv in Ed.
    eapply dfa_minimize_legal; eauto. eapply run_dfa_valid; eauto.
  - intros o h p1 IH1 p2 IH2 d E. apply obind_inv in E as (d1 & E1 & E). apply obind_inv in E as (d2 & E2 & E).
    destruct (set_op_correct o h d1 d2 (run_dfa_valid _ _ E1) (run_dfa_valid _ _ E2)) as (r & Er & _ & Hr).
    rewrite E in Er. injection Er as <-. destruct (Hr d eq_refl) as (_ & _ & _ & N). apply N; auto.
  - intros h comb p1 IH1 p2 IH2 d E. apply obind_inv in E as (d1 & E1 & E). apply obind_inv in E as (d2 & E2 & E).
    apply (dfa_product_legal h d1 d2 comb d (run_dfa_valid _ _ E1) (run_dfa_valid _ _ E2) E); auto.
  - intros u n E. apply obind_inv in E as (t & Et & Ed). apply parse_nfa_iff in Et.
    destruct (nfa_try_from t) as [d'|] eqn:Ef; [|discriminate]. injection Ed as <-.
    apply (nfa_text_legal t u d' Et). apply C07_nfa_faithful; auto. apply C07_nfa_accepted_iff_well_formed. eauto.
  - intros seg h u n E. apply obind_inv in E as (t & _ & E). injection E as <-. apply regex_to_nfa_legal.
  - intros h t n [= <-]. apply regex_to_nfa_legal.
  - intros p IH n E. apply obind_inv in E as (d & Ed & E). injection E as <-.
    destruct (C14_dfa_to_nfa d (run_dfa_valid _ _ Ed)) as (_ & _ & _ & N & _). apply nnames_legal_map. rewrite N. apply dnames_legal_map; auto.
  - intros h dbg p IH d E. apply obind_inv in E as (d' & Ed' & Ed). apply ret_some_inv in Ed.
    eapply nfa_remove_legal; eauto. eapply run_nfa_valid; eauto.
  - intros h dbg p IH d E. apply obind_inv in E as (d' & Ed' & Ed). apply ret_some_inv in Ed.
    eapply nfa_eps_legal; eauto. eapply run_nfa_valid; eauto.
  - intros h dbg p IH d E. apply obind_inv in E as (d' & Ed' & Ed). apply ret_some_inv in Ed.
    eapply nfa_optimize_legal; eauto. eapply run_nfa_valid; eauto.
  - intros p1 IH1 p2 IH2 d E. apply obind_inv in E as (d1 & E1 & E). apply obind_inv in E as (d2 & E2 & E).
    destruct (nfa_union d1 d2) as [[n|]| |] eqn:Eu; simpl in E; try discriminate. injection E as <-.
    apply (nfa_union_legal d1 d2 n (run_nfa_valid _ _ E1) (run_nfa_valid _ _ E2) Eu); auto.
  - intros h p1 IH1 p2 IH2 d E. apply obind_inv in E as (d1 & E1 & E). apply obind_inv in E as (d2 & E2 & E).
    eapply (nfa_product_legal h d1 d2 _ d (run_nfa_valid _ _ E1) (run_nfa_valid _ _ E2) E); auto.
  - intros h comb p1 IH1 p2 IH2 d E. apply obind_inv in E as (d1 & E1 & E). apply obind_inv in E as (d2 & E2 & E).
    apply (nfa_product_legal h d1 d2 comb d (run_nfa_valid _ _ E1) (run_nfa_valid _ _ E2) E); auto.
Qed.

(** A text that parses to a given automaton: its names and symbols are tokens *)
Lemma dfa_reparsed u t d : parse_dfa u = Ret (Some t) -> dfa_try_from t = Ok d ->
  dfa_alphabet d <> [] /\ Forall legal_token (dfa_alphabet d) /\ Forall (fun s => legal_token (ds_name s)) (dfa_states d).
Proof.
  intros E Ef. apply parse_dfa_iff in E.
  assert (D : dfa_denotes t d) by (apply C06_dfa_faithful; auto; apply C06_dfa_accepted_iff_well_formed; eauto).
  split; [|exact (dfa_text_legal t u d E D)].
  destruct E as (j0 & hd & j1 & body & j2 & tr & _ & _ & (b & ts & _ & _ & Hts) & _). rewrite (proj1 D).
  intros En. rewrite En in Hts. inversion Hts.
Qed.
Lemma nfa_reparsed u t n : parse_nfa u = Ret (Some t) -> nfa_try_from t = Ok n ->
  Forall legal_token (nfa_alphabet n) /\ Forall (fun s => legal_token (ns_name s)) (nfa_states n).
Proof.
  intros E Ef. apply parse_nfa_iff in E.
  assert (D : nfa_denotes t n) by (apply C07_nfa_faithful; auto; apply C07_nfa_accepted_iff_well_formed; eauto).
  exact (nfa_text_legal t u n E D).
Qed.
