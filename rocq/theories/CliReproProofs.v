(** * CliReproProofs: two runs of dandy-cli with the same arguments and files *)
From Coq Require Import Ascii String List NArith Arith Bool Lia.
From Verif Require Import Base BaseLemmas Spec ReproSpec TableSpec LayoutSpec DfaModel NfaModel RegexModel ValidateModel ParserModel
  TableModel RegexParserModel ApiModel Messages MessageSpec WasmModel WasmSpec CliModel CliSpec CliProofs FileModel FileSpec FileProofs
  ArgsModel ArgsSpec ReproProofs ApiProofs CliReproSpec.
From Verif Require Import Prop_Dfa Prop_Nfa Prop_Conv Prop_Regex ArgsProofs DfaBasics DfaEquiv StableProofs.
Import ListNotations.
Close Scope string_scope.
Open Scope list_scope.

(** ** Conversions *)
Lemma into_nfa_order hs hs' a : into_nfa hs a = into_nfa hs' a.
Proof. destruct a as [d|n|t]; simpl; auto. rewrite (regex_to_nfa_order (hs [0]) (hs' [0])). reflexivity. Qed.
Lemma into_dfa_order hs hs' a : a_valid a -> into_dfa hs a = into_dfa hs' a.
Proof.
  destruct a as [d|n|t]; simpl; intros V; auto.
  - rewrite (nfa_to_dfa_order (hs [0]) (hs' [0])); auto.
  - rewrite (regex_to_nfa_order (hs [1]) (hs' [1])). rewrite (nfa_to_dfa_order (hs [0]) (hs' [0])); auto. apply C36_valid.
Qed.

(** ** Enumerations *)
Section Builds.
Context (env : cli_env) (b b' : bool) (ms ms' : nat).
Notation E := (rebuilt env b ms).
Notation E' := (rebuilt env b' ms').

Lemma take_words_same n n' k : nfa_valid n -> nfa_valid n' -> eps_free n -> eps_free n' -> nfa_alphabet n = nfa_alphabet n' ->
  (forall w, nfa_lang n w <-> nfa_lang n' w) -> nfa_take_words n k = nfa_take_words n' k.
Proof.
  intros V V' F F' A L. destruct (nfa_take_words_spec n k V F) as (ws & -> & H). destruct (nfa_take_words_spec n' k V' F') as (ws' & -> & H').
  do 2 f_equal. apply (first_words_unique (nfa_alphabet n) (nfa_lang n) k); auto; [apply V|].
  rewrite A. eapply first_words_ext; [|exact H']. intros w. symmetry. apply L.
Qed.

Lemma enumerate_nfa_order hs hs' n k : nfa_valid n -> enumerate_nfa E hs n k = enumerate_nfa E' hs' n k.
Proof.
  intros V. unfold enumerate_nfa.
  destruct (C30_remove_epsilon_moves (hs [0]) (ce_dbg E) n V) as (n1 & -> & V1 & F1 & _ & A1 & L1 & _).
  destruct (C30_remove_epsilon_moves (hs' [0]) (ce_dbg E') n V) as (n2 & -> & V2 & F2 & _ & A2 & L2 & _).
  rewrite !lift_Ret, !cbind_Ok. rewrite (take_words_same n1 n2 k); auto; [congruence|]. intros w. rewrite L1, L2. reflexivity.
Qed.
Lemma load_file_build p ty : load_file E p ty = load_file E' p ty. Proof. reflexivity. Qed.
Lemma enumerate_regex_order hs hs' u k : enumerate_regex E hs u k = enumerate_regex E' hs' u k.
Proof.
  unfold enumerate_regex. change (ce_seg E) with (ce_seg E'). apply cbind_ext. intros [t|]; [|reflexivity].
  rewrite (regex_to_nfa_order (hs [1]) (hs' [1])). apply enumerate_nfa_order. apply C36_valid.
Qed.
Lemma enumerate_file_order hs hs' ty f k : enumerate_file E hs ty f k = enumerate_file E' hs' ty f k.
Proof.
  unfold enumerate_file. rewrite load_file_build. destruct (load_file_spec E' f ty) as [(a & -> & H)|(m & -> & H)]; cmd; [|reflexivity].
  f_equal. rewrite (into_nfa_order (fork hs 1) (fork hs' 1)). apply enumerate_nfa_order.
  destruct (into_nfa_spec (fork hs' 1) a (loads_valid _ _ _ _ H)) as (n & c & -> & V & _). exact V.
Qed.

(** ** test-file *)
Lemma test_load_order hs hs' ty a : test_load E hs ty a = test_load E' hs' ty a.
Proof. unfold test_load. rewrite load_file_build. apply cbind_ext. intros x. rewrite (into_nfa_order (fork hs 0) (fork hs' 0)). reflexivity. Qed.
Lemma test_each_build nf t fs : test_each E nf t fs = test_each E' nf t fs. Proof. reflexivity. Qed.
Lemma test_files_order hs hs' ty t a fs : test_files E hs ty t a fs = test_files E' hs' ty t a fs.
Proof. unfold test_files. rewrite (test_load_order hs hs'). apply cbind_ext. intros nf. apply test_each_build. Qed.

(** ** Comparing *)
Lemma test_dfa_order hs hs' d d' a m : dfa_valid d -> dfa_valid d' -> a_valid a -> (m = true -> exists x, a = ADfa x) ->
  same_meaning (ADfa d) (ADfa d') -> (m = true -> length (dfa_states d) = length (dfa_states d')) ->
  test_equivalence hs (ADfa d) a m = test_equivalence hs' (ADfa d') a m.
Proof.
  intros V V' Va Hm S Hl. destruct (test_dfa_spec hs d a m V Va Hm) as (v & -> & Hv). destruct (test_dfa_spec hs' d' a m V' Va Hm) as (v' & -> & Hv').
  do 2 f_equal. pose proof (same_meaning_sym _ _ S) as S'.
  destruct v, v'; try contradiction; auto; exfalso.
  - destruct Hv' as (_ & H & _). apply Hv. eapply same_meaning_trans; eauto.
  - destruct Hv' as (H & _). apply Hv. eapply same_meaning_trans; eauto.
  - destruct Hv as (_ & H & _). apply Hv'. eapply same_meaning_trans; eauto.
  - destruct Hv as (Em & H & x & -> & N). destruct Hv' as (H' & Q). destruct (Q Em) as (y & [= <-] & N'). apply N. rewrite Hl; auto.
  - destruct Hv as (H & _). apply Hv'. eapply same_meaning_trans; eauto.
  - destruct Hv' as (Em & H & x & -> & N). destruct Hv as (H' & Q). destruct (Q Em) as (y & [= <-] & N'). apply N. rewrite <- Hl; auto.
Qed.
Lemma test_nfa_order hs hs' n a : nfa_valid n -> a_valid a -> test_equivalence hs (ANfa n) a false = test_equivalence hs' (ANfa n) a false.
Proof.
  intros V Va. destruct (test_nfa_spec hs n a V Va) as (x & -> & Hx). destruct (test_nfa_spec hs' n a V Va) as (y & -> & Hy).
  destruct x, y; auto; exfalso; [assert (false = true) by (apply Hy, Hx; auto)|assert (false = true) by (apply Hx, Hy; auto)]; discriminate.
Qed.

(** two testers that judge alike *)
Definition alike (args : equivalence_args) (t t' : dandy_tester) : Prop :=
  dt_minimized t = ea_minimized args /\ dt_test_type t = ea_type args /\ dt_minimized t' = ea_minimized args /\ dt_test_type t' = ea_type args /\
  match dt_input t, dt_input t' with
  | ADfa d, ADfa d' => ea_type args = TDfa /\ dfa_valid d /\ dfa_valid d' /\ dfa_alphabet d = dfa_alphabet d' /\ (forall w, dfa_lang d w <-> dfa_lang d' w) /\
      (ea_minimized args = false -> d = d') /\ (ea_minimized args = true -> length (dfa_states d) = length (dfa_states d') /\ exists f, dfa_iso d d' f)
  | ANfa n, ANfa n' => nfa_valid n /\ n = n' /\ ea_minimized args = false
  | _, _ => False
  end.
Lemma load_test_order hs hs' u ty : load_test E hs u ty = load_test E' hs' u ty.
Proof.
  destruct ty; cbn [load_test]; try reflexivity. change (ce_seg E) with (ce_seg E'). destruct (parse_regex (ce_seg E') u) as [[t|]| |]; try reflexivity.
  cbn [bind]. rewrite (regex_to_nfa_order (hs [0]) (hs' [0])). reflexivity.
Qed.
Lemma tester_test_order hs hs' args t t' f : alike args t t' -> tester_test E hs t f = tester_test E' hs' t' f.
Proof.
  intros (M & T & M' & T' & H). unfold tester_test. change (ce_read E f) with (ce_read E' f). destruct (ce_read E' f) as [u|e]; [|reflexivity].
  rewrite T, T', M, M', (load_test_order (fork hs 0) (fork hs' 0)).
  destruct (load_test_spec E' (fork hs' 0) u (ea_type args)) as [(b0 & x & -> & Rd & V & S & Hd & Hn)|[[_ ->]|(e & _ & ->)]]; cbn [bind]; try reflexivity.
  destruct (dt_input t) as [d|n|r], (dt_input t') as [d'|n'|r']; try contradiction.
  - destruct H as (Et & Vd & Vd' & A & L & Eq & Hm). apply test_dfa_order; auto.
    + intros _. apply Hd; auto.
    + apply same_meaning_eq; auto.
    + intros Em. apply Hm; auto.
  - destruct H as (Vn & <- & ->). apply test_nfa_order; auto.
Qed.
Lemma test_all_order args t t' : alike args t t' -> forall fs hs hs', test_all E hs t fs = test_all E' hs' t' fs.
Proof.
  intros H. induction fs as [|f fs IH]; intros hs hs'; [reflexivity|]. cbn [test_all].
  rewrite (tester_test_order (fork hs 0) (fork hs' 0) args t t' f H), (IH (fork hs 1) (fork hs' 1)). reflexivity.
Qed.

Lemma tester_load_order hs hs' u ty : tester_load E hs u ty = tester_load E' hs' u ty.
Proof.
  destruct ty; cbn [tester_load]; try reflexivity. change (ce_seg E) with (ce_seg E'). destruct (parse_regex (ce_seg E') u) as [[t|]| |]; try reflexivity.
  cbn [bind]. rewrite (regex_to_nfa_order (hs [1]) (hs' [1])), (nfa_to_dfa_order (hs [0]) (hs' [0])); [reflexivity|]. apply C36_valid.
Qed.
Lemma tester_new_order hs hs' u args :
  (exists m, tester_new E hs u args = Ret ([], Err m) /\ tester_new E' hs' u args = Ret ([], Err m)) \/
  (exists t t', tester_new E hs u args = Ret ([], Ok t) /\ tester_new E' hs' u args = Ret ([], Ok t') /\ alike args t t').
Proof.
  unfold tester_new. fold (in_type args). rewrite (tester_load_order (fork hs 0) (fork hs' 0)).
  destruct (tester_load_spec E' (fork hs' 0) u (in_type args)) as [(a & a0 & Ea & V & Rd & S)|(m & Ea & H)]; rewrite Ea.
  2: { left. exists m. split; reflexivity. }
  rewrite lift_result_Ret, !cbind_Ok.
  destruct (ea_minimized args) eqn:Em.
  - destruct (ea_type args) eqn:Et; cbn [type_eqb]; [|left; eexists; split; reflexivity|left; eexists; split; reflexivity].
    right. unfold into_minimized_dfa_automata, into_minimized_dfa. rewrite (into_dfa_order (fork (fork hs 1) 0) (fork (fork hs' 1) 0) a V).
    destruct (into_dfa_spec (fork (fork hs' 1) 0) a V) as (d & c & -> & Vd & A & L & _). cbn [bind].
    destruct (minimize_spec (fork hs 1 [1]) (ce_dbg E) d Vd) as (d1 & E1 & V1 & A1 & L1 & M1 & _).
    destruct (minimize_spec (fork hs' 1 [1]) (ce_dbg E') d Vd) as (d2 & E2 & V2 & A2 & L2 & M2 & _).
    rewrite E1, E2. cbn [bind lift cret cbind prepare_to_compare_with into_dfa_automata into_dfa app].
    do 2 eexists. split; [reflexivity|]. split; [reflexivity|]. unfold alike. rewrite Em, Et. cbn [dt_minimized dt_test_type dt_input].
    do 4 (split; [reflexivity|]). split; auto. split; auto. split; auto. split; [congruence|]. split; [intros w; rewrite L1, L2; reflexivity|].
    split; [discriminate|]. intros _. refine (C22_minimal_unique _ _ _ _ d d d1 d2 Vd Vd _ _ E1 E2); [intros x; reflexivity|reflexivity].
  - right. cbn [cret cbind bind app]. destruct (ea_type args) eqn:Et; unfold prepare_to_compare_with.
    + unfold into_dfa_automata. rewrite (into_dfa_order (fork hs 2) (fork hs' 2) a V).
      destruct (into_dfa_spec (fork hs' 2) a V) as (d & c & -> & Vd & A & L & _). cbn [bind lift cbind cret app].
      do 2 eexists. split; [reflexivity|]. split; [reflexivity|]. unfold alike. rewrite Em, Et. cbn [dt_minimized dt_test_type dt_input].
      do 4 (split; [reflexivity|]). split; auto. split; auto. split; auto. split; auto. split; [reflexivity|]. split; auto. discriminate.
    + unfold into_to_nfa_automata. rewrite (into_nfa_order (fork hs 2) (fork hs' 2) a).
      destruct (into_nfa_spec (fork hs' 2) a V) as (n & c & -> & Vn & A & L). cbn [bind lift cbind cret app].
      do 2 eexists. split; [reflexivity|]. split; [reflexivity|]. unfold alike. rewrite Em, Et. cbn [dt_minimized dt_test_type dt_input]. auto 8.
    + unfold into_to_nfa_automata. rewrite (into_nfa_order (fork hs 2) (fork hs' 2) a).
      destruct (into_nfa_spec (fork hs' 2) a V) as (n & c & -> & Vn & A & L). cbn [bind lift cbind cret app].
      do 2 eexists. split; [reflexivity|]. split; [reflexivity|]. unfold alike. rewrite Em, Et. cbn [dt_minimized dt_test_type dt_input]. auto 8.
Qed.

(** the events of two runs that differ in the table and the time only *)
Definition timing (args : equivalence_args) (k : nat) : str :=
  of_string "Testing of " ++ dec (length (ea_files args)) ++ of_string " files done in " ++ dec k ++ of_string "ms. Results:".
Lemma equivalence_order hs hs' args : exists r,
  (exists ev, equivalence E hs args = Ret (ev, r) /\ equivalence E' hs' args = Ret (ev, r)) \/
  (exists table table' mid after, (table = table' \/ (ea_minimized args = true /\ tables_of_equals table table')) /\
     equivalence E hs args = Ret (logs env (of_string "Input loaded:") ++ logs env table ++ mid ++ logs env (timing args ms) ++ after, r) /\
     equivalence E' hs' args = Ret (logs env (of_string "Input loaded:") ++ logs env table' ++ mid ++ logs env (timing args ms') ++ after, r)).
Proof.
  unfold equivalence. change (ce_read E) with (ce_read E'). destruct (ce_read E' (ea_automata args)) as [u|e].
  2: { eexists. left. eexists. split; reflexivity. }
  rewrite cret_eq, !cbind_Ok.
  destruct (tester_new_order (fork hs 0) (fork hs' 0) u args) as [(m & -> & ->)|(t & t' & -> & -> & AL)].
  { eexists. left. eexists. split; reflexivity. }
  rewrite !cbind_Ok. rewrite (test_all_order args t t' AL (ea_files args) (fork hs 1) (fork hs' 1)).
  assert (T : exists ev rs, test_all E' (fork hs' 1) t' (ea_files args) = Ret (ev, rs)).
  { assert (X : exists x, test_all E' (fork hs' 1) t' (ea_files args) = Ret x); [|destruct X as ([ev rs] & X); eauto].
    assert (G : forall f h, exists x, tester_test E' h t' f = Ret x).
    { intros f h. destruct AL as (M & T & M' & T' & H). unfold tester_test. destruct (ce_read E' f) as [v|e]; [|eauto].
      rewrite T', M'.
      destruct (load_test_spec E' (fork h 0) v (ea_type args)) as [(b0 & x & -> & Rd & V & S & Hd & Hn)|[[_ ->]|(e & _ & ->)]]; cbn [bind]; eauto.
      destruct (dt_input t) as [d|n|r], (dt_input t') as [d'|n'|r']; try contradiction.
      - destruct H as (Et & Vd & Vd' & A & L & Eq & Hm). destruct (test_dfa_spec (fork h 1) d' x (ea_minimized args)) as (v' & -> & _); auto; [|eauto].
        intros _. apply Hd; auto.
      - destruct H as (Vn & <- & ->). destruct (test_nfa_spec (fork h 1) n x Vn V) as (y & -> & _). eauto. }
    generalize (fork hs' 1) as h. induction (ea_files args) as [|f fs IH]; intros h; cbn [test_all]; [eauto|].
    destruct (G f (fork h 0)) as ([e1 x1] & ->). destruct (IH (fork h 1)) as ([e2 x2] & ->). cbn [bind]. eauto. }
  destruct T as (evt & rs & ->). cbn [bind].
  destruct AL as (M & T & M' & T' & H). destruct (ea_minimized args) eqn:Em.
  - destruct (dt_input t) as [d|n|r], (dt_input t') as [d'|n'|r']; try contradiction; [|destruct H as (_ & _ & ?); discriminate].
    destruct H as (Et & Vd & Vd' & A & L & Eq & Hm).
    cbn [automata_table]. destruct (table_total d Vd) as (tb & Tb). destruct (table_total d' Vd') as (tb' & Tb'). rewrite Tb, Tb'.
    rewrite !lift_Ret, !cbind_Ok, !tell_eq, !cbind_Ok, !prep_Ret. cbn [app].
    eexists. right. exists tb, tb', evt. eexists. split; [right; split; [reflexivity|]|].
    + exists d, d'. do 6 (split; [assumption|]). exact (Hm eq_refl).
    + split; rewrite <- !app_assoc; reflexivity.
  - assert (Ei : dt_input t = dt_input t').
    { destruct (dt_input t) as [d|n|r], (dt_input t') as [d'|n'|r']; try contradiction.
      - f_equal. apply H; auto.
      - f_equal. apply H. }
    assert (Va : a_valid (dt_input t')).
    { destruct (dt_input t) as [d|n|r], (dt_input t') as [d'|n'|r']; try contradiction; [apply H|destruct H as (Vn & <- & _); exact Vn]. }
    rewrite Ei. destruct (automata_table_total _ Va) as (tb & ->).
    rewrite !lift_Ret, !cbind_Ok, !tell_eq, !cbind_Ok, !prep_Ret. eexists. right. exists tb, tb, evt. eexists. split; [left; reflexivity|].
    split; rewrite <- !app_assoc; reflexivity.
Qed.

(** ** The set operations *)
(** two words lead to the same state of the one if and only if they do of the other *)
Definition words_agree (d d' : dfa) : Prop := forall u v i j i' j', dfa_path d (dfa_initial d) u i -> dfa_path d (dfa_initial d) v j ->
  dfa_path d' (dfa_initial d') u i' -> dfa_path d' (dfa_initial d') v j' -> (i = j <-> i' = j').
Lemma words_agree_refl d : dfa_valid d -> words_agree d d.
Proof. intros V u v i j i' j' A B A' B'. rewrite (dfa_path_fun d _ u i i' (dv_alphabet _ V) A A'), (dfa_path_fun d _ v j j' (dv_alphabet _ V) B B'). reflexivity. Qed.
Lemma iso_path d d' f : dfa_iso d d' f -> dfa_valid d -> forall p w q, dfa_path d p w q -> p < length (dfa_states d) -> dfa_path d' (f p) w (f q).
Proof.
  intros I V p w q P. induction P as [|p a q w r He P IH]; intros Hp; [constructor|].
  assert (Hq : q < length (dfa_states d)). { eapply dfa_path_range; [exact V|exact Hp|]. econstructor; [exact He|constructor]. }
  econstructor; [apply (iso_edge _ _ _ I); eauto|auto].
Qed.
Lemma iso_words d d' f : dfa_iso d d' f -> dfa_valid d -> dfa_valid d' -> words_agree d d'.
Proof.
  intros I V V' u v i j i' j' A B A' B'. pose proof (iso_path _ _ _ I V _ _ _ A (dv_initial _ V)) as X. pose proof (iso_path _ _ _ I V _ _ _ B (dv_initial _ V)) as Y.
  rewrite (iso_initial _ _ _ I) in X, Y. rewrite (dfa_path_fun d' _ u i' (f i) (dv_alphabet _ V') A' X), (dfa_path_fun d' _ v j' (f j) (dv_alphabet _ V') B' Y).
  split; [congruence|]. apply (iso_inj _ _ _ I); eapply dfa_path_range; eauto; apply V.
Qed.
Lemma product_words d1 d1' d2 d2' c c' h h' d d' : dfa_valid d1 -> dfa_valid d1' -> dfa_valid d2 -> dfa_valid d2' ->
  words_agree d1 d1' -> words_agree d2 d2' -> dfa_product_construction h d1 d2 c = Ret (Some d) -> dfa_product_construction h' d1' d2' c' = Ret (Some d') ->
  words_agree d d'.
Proof.
  intros V1 V1' V2 V2' W1 W2 Ed Ed'.
  assert (K : forall h d1 d2 c d, dfa_valid d1 -> dfa_valid d2 -> dfa_product_construction h d1 d2 c = Ret (Some d) ->
    exists ks, NoDup ks /\ forall w i, dfa_path d (dfa_initial d) w i -> exists q1 q2, nth_error ks i = Some (q1, q2) /\
      dfa_path d1 (dfa_initial d1) w q1 /\ dfa_path d2 (dfa_initial d2) w q2).
  { clear. intros h d1 d2 c d V1 V2 Hd. destruct (alphabet_equal_spec _ _ (dv_alphabet _ V1) (dv_alphabet _ V2)) as [Hs|Hs].
    2:{ rewrite dfa_product_none in Hd by auto. discriminate. }
    destruct (dfa_product_construction_correct h d1 d2 c V1 V2 Hs) as (d' & ks & Hd' & V & HP). rewrite Hd in Hd'. injection Hd' as <-.
    exists ks. split; [apply HP|]. intros w i P. exact (dfa_product_path c d1 d2 d ks _ _ _ w i HP (dp_initial _ _ _ _ _ HP) P). }
  destruct (K _ _ _ _ _ V1 V2 Ed) as (ks & N & P). destruct (K _ _ _ _ _ V1' V2' Ed') as (ks' & N' & P').
  intros u v i j i' j' A B A' B'.
  destruct (P u i A) as (a1 & a2 & Ka & Pa1 & Pa2). destruct (P v j B) as (b1 & b2 & Kb & Pb1 & Pb2).
  destruct (P' u i' A') as (x1 & x2 & Kx & Px1 & Px2). destruct (P' v j' B') as (y1 & y2 & Ky & Py1 & Py2).
  pose proof (W1 u v a1 b1 x1 y1 Pa1 Pb1 Px1 Py1) as E1. pose proof (W2 u v a2 b2 x2 y2 Pa2 Pb2 Px2 Py2) as E2. split.
  - intros <-. rewrite Ka in Kb. injection Kb as <- <-. apply (NoDup_nth_error_inj ks' i' j' (x1, x2) N' Kx).
    rewrite (proj1 E1 eq_refl), (proj1 E2 eq_refl). exact Ky.
  - intros <-. rewrite Kx in Ky. injection Ky as <- <-. apply (NoDup_nth_error_inj ks i j (a1, a2) N Ka).
    rewrite (proj2 E1 eq_refl), (proj2 E2 eq_refl). exact Kb.
Qed.
Lemma iso_refl d : dfa_iso d d (fun q => q).
Proof. constructor; auto; try reflexivity. intros q Hq. exists q. auto. Qed.
Lemma words_iso d d' : dfa_valid d -> dfa_valid d' -> dfa_alphabet d = dfa_alphabet d' -> (forall w, dfa_lang d w <-> dfa_lang d' w) ->
  (forall q, q < length (dfa_states d) -> dfa_reachable d q) -> (forall q, q < length (dfa_states d') -> dfa_reachable d' q) ->
  words_agree d d' -> length (dfa_states d) = length (dfa_states d') /\ exists f, dfa_iso d d' f.
Proof.
  intros V V' A L R R' W. assert (X : exists f, dfa_iso d d' f).
  { apply corresponds_iso; auto.
    - intros x. rewrite A. reflexivity.
    - intros p q r (u & P1 & P2) (v & Q1 & Q2). apply (W u v p q r r); auto.
    - intros p r r' (u & P1 & P2) (v & Q1 & Q2). apply (W u v p p r r'); auto. }
  split; auto. destruct X as (f & I). exact (iso_length _ _ _ I).
Qed.

Definition equals (d d' : dfa) : Prop := dfa_valid d /\ dfa_valid d' /\ dfa_alphabet d = dfa_alphabet d' /\ (forall w, dfa_lang d w <-> dfa_lang d' w) /\
  words_agree d d'.
Lemma equals_refl d : dfa_valid d -> equals d d.
Proof. intros V. split; auto. split; auto. split; auto. split; [reflexivity|]. apply words_agree_refl; auto. Qed.
Lemma minimize_order h h' d d' : equals d d' -> exists m m', dfa_minimize h (ce_dbg E) d = Ret m /\ dfa_minimize h' (ce_dbg E') d' = Ret m' /\
  equals m m' /\ dfa_alphabet m = dfa_alphabet d /\ length (dfa_states m) = length (dfa_states m') /\ exists f, dfa_iso m m' f.
Proof.
  intros (V & V' & A & L & W). destruct (minimize_spec h (ce_dbg E) d V) as (d1 & E1 & V1 & A1 & L1 & _).
  destruct (minimize_spec h' (ce_dbg E') d' V') as (d2 & E2 & V2 & A2 & L2 & _). exists d1, d2. split; auto. split; auto.
  assert (S : same_set (dfa_alphabet d) (dfa_alphabet d')) by (intros x; rewrite A; reflexivity).
  destruct (C22_minimal_unique h (ce_dbg E) h' (ce_dbg E') d d' d1 d2 V V' S L E1 E2) as (Ln & f & I).
  split; [|split; eauto]. split; auto. split; auto. split; [congruence|]. split; [intros w; rewrite L1, L2; apply L|]. eapply iso_words; eauto.
Qed.
Lemma into_minimized_order hs hs' a : a_valid a -> exists d d' c, into_minimized_dfa_if_not_dfa E hs a = Ret (d, c) /\
  into_minimized_dfa_if_not_dfa E' hs' a = Ret (d', c) /\ equals d d' /\ (forall x, a = ADfa x -> d = x /\ d' = x /\ c = false).
Proof.
  intros V. unfold into_minimized_dfa_if_not_dfa. rewrite (into_dfa_order (fork hs 0) (fork hs' 0) a V).
  destruct (into_dfa_spec (fork hs' 0) a V) as (d & c & Ed & Vd & A & L & C & _). rewrite Ed. cbn [bind].
  destruct c; cbn [negb].
  - destruct (minimize_order (hs [1]) (hs' [1]) d d (equals_refl d Vd)) as (d1 & d2 & -> & -> & Q & _). cbn [bind].
    exists d1, d2, true. split; auto. split; auto. split; auto. intros x ->. cbn in Ed. discriminate.
  - exists d, d, false. split; auto. split; auto. split; [apply equals_refl; auto|].
    intros x ->. cbn in Ed. injection Ed as ->. auto.
Qed.
Lemma prepare_order h h' args k c d d' : equals d d' -> exists ev x x', prepare_input E h args k d c = Ret (ev, Ok x) /\
  prepare_input E' h' args k d' c = Ret (ev, Ok x') /\ equals x x' /\ (ba_minimized args = false -> x = d /\ x' = d').
Proof.
  intros Q. unfold prepare_input. destruct c; [|destruct (ba_minimized args)].
  - cmd. do 3 eexists. split; [reflexivity|]. split; [reflexivity|]. split; auto.
  - destruct (minimize_order h h' d d' Q) as (d1 & d2 & -> & -> & Q1 & _). cmd.
    do 3 eexists. split; [reflexivity|]. split; [reflexivity|]. split; [auto|discriminate].
  - cmd. do 3 eexists. split; [reflexivity|]. split; [reflexivity|]. split; auto.
Qed.
Lemma print_order h h' args o d d' : equals d d' -> length (dfa_states d) = length (dfa_states d') /\ (exists f, dfa_iso d d' f) ->
  exists before table table' x x', tables_of_equals table table' /\
  print_combined E h args o d = Ret (before ++ [Out table], Ok x) /\ print_combined E' h' args o d' = Ret (before ++ [Out table'], Ok x') /\ equals x x' /\
  (ba_minimized args = false -> d = d' -> table = table' /\ x = x').
Proof.
  intros Q I. unfold print_combined. destruct (ba_minimized args).
  - destruct (minimize_order h h' d d' Q) as (d1 & d2 & -> & -> & Q1 & A1 & I1). cmd. pose proof Q1 as (V1 & V2 & QA & QL & _).
    destruct (table_total d1 V1) as (tb & Tb). destruct (table_total d2 V2) as (tb' & Tb'). rewrite Tb, Tb'. cmd.
    eexists. exists tb, tb', d1, d2. split; [|split; [reflexivity|]; split; [reflexivity|]; split; [auto|discriminate]].
    exists d1, d2. do 6 (split; [auto|]). auto.
  - cmd. pose proof Q as (V & V' & A & L & _). destruct (table_total d V) as (tb & Tb). destruct (table_total d' V') as (tb' & Tb'). rewrite Tb, Tb'. cmd.
    eexists. exists tb, tb', d, d'. split; [|split; [reflexivity|]; split; [reflexivity|]; split; [auto|]].
    + exists d, d'. do 6 (split; [auto|]). auto.
    + intros _ <-. split; congruence.
Qed.
Lemma enumerate_combined_order args o d d' : equals d d' -> enumerate_combined args o d = enumerate_combined args o d'.
Proof.
  intros (V & V' & A & L & _). unfold enumerate_combined. destruct (ba_enumerate args) as [k|]; [|reflexivity].
  destruct (C14_dfa_to_nfa d V) as (V1 & F1 & A1 & _ & _ & _ & _ & _ & L1). destruct (C14_dfa_to_nfa d' V') as (V2 & F2 & A2 & _ & _ & _ & _ & _ & L2).
  rewrite (take_words_same (dfa_to_nfa d) (dfa_to_nfa d') k); try assumption; [reflexivity|]. intros w. rewrite L1, L2. apply L.
Qed.
Lemma compare_order hs hs' args o d d' : equals d d' -> compare_combined E hs args o d = compare_combined E' hs' args o d'.
Proof.
  intros (V & V' & A & L & _). unfold compare_combined. destruct (ba_compare_against args) as [p|]; [|reflexivity]. rewrite load_file_build.
  destruct (load_file_spec E' p (ba_compared_type args)) as [(a & -> & H)|(m & -> & H)]; [|reflexivity]. rewrite map_err_Ok, lift_result_Ret, !cbind_Ok.
  rewrite (test_dfa_order hs hs' d d' a false); auto; try discriminate; [eapply loads_valid; eauto|]. apply same_meaning_eq; auto.
Qed.
Lemma set_op_order o h h' d1 d1' d2 d2' : equals d1 d1' -> equals d2 d2' ->
  (dfa_set_op o h d1 d2 = Ret None /\ dfa_set_op o h' d1' d2' = Ret None) \/
  (exists d d', dfa_set_op o h d1 d2 = Ret (Some d) /\ dfa_set_op o h' d1' d2' = Ret (Some d') /\ equals d d' /\
     length (dfa_states d) = length (dfa_states d') /\ exists f, dfa_iso d d' f).
Proof.
  intros (V1 & V1' & A1 & L1 & W1) (V2 & V2' & A2 & L2 & W2).
  destruct (set_op_correct o h d1 d2 V1 V2) as (r & Er & Hn & Hr). destruct (set_op_correct o h' d1' d2' V1' V2') as (r' & Er' & Hn' & Hr'). rewrite Er, Er'.
  rewrite <- A1, <- A2, <- Hn in Hn'. destruct r as [d|], r' as [d'|]; [right|exfalso|exfalso|left; auto].
  - destruct (Hr d eq_refl) as (V & A & L & _). destruct (Hr' d' eq_refl) as (V' & A' & L' & _). exists d, d'. split; auto. split; auto.
    assert (P : forall h d1 d2 d, dfa_set_op o h d1 d2 = Ret (Some d) -> exists c, dfa_product_construction h d1 d2 c = Ret (Some d))
      by (clear; intros h d1 d2 d H; destruct o; eexists; exact H).
    destruct (P _ _ _ _ Er) as (c & Ec). destruct (P _ _ _ _ Er') as (c' & Ec').
    assert (QA : dfa_alphabet d = dfa_alphabet d') by congruence.
    assert (QL : forall w, dfa_lang d w <-> dfa_lang d' w) by (intros w; rewrite L, L'; apply set_op_spec_iff; auto).
    assert (QW : words_agree d d') by exact (product_words d1 d1' d2 d2' c c' h h' d d' V1 V1' V2 V2' W1 W2 Ec Ec').
    split; [split; auto|]. apply words_iso; auto.
    + destruct (C24_dfa_product h d1 d2 c V1 V2) as (x & Ex & _ & Hx). rewrite Ec in Ex. injection Ex as <-. apply (Hx d eq_refl).
    + destruct (C24_dfa_product h' d1' d2' c' V1' V2') as (x & Ex & _ & Hx). rewrite Ec' in Ex. injection Ex as <-. apply (Hx d' eq_refl).
  - assert (Some d = None) by (apply Hn'; auto). discriminate.
  - assert (Some d' = None) by (apply Hn'; auto). discriminate.
Qed.

Lemma binary_order hs hs' args o : exists r,
  (exists ev, binary_op E hs args o = Ret (ev, r) /\ binary_op E' hs' args o = Ret (ev, r)) \/
  (exists before table table' after, tables_of_equals table table' /\
     binary_op E hs args o = Ret (before ++ [Out table] ++ after, r) /\ binary_op E' hs' args o = Ret (before ++ [Out table'] ++ after, r)).
Proof.
  rewrite !binary_op_flat. rewrite !load_file_build.
  destruct (load_file_spec E' (ba_first args) (ba_type args)) as [(a1 & -> & H1)|(m & -> & H1)]; cmd.
  2: { eexists. left. eexists. split; reflexivity. }
  destruct (into_minimized_order (fork hs 0) (fork hs' 0) a1 (loads_valid _ _ _ _ H1)) as (d1 & d1' & c1 & -> & -> & Q1 & _). cmd.
  destruct (load_file_spec E' (ba_second args) (match ba_second_type args with Some t => t | None => ba_type args end))
    as [(a2 & -> & H2)|(m & -> & H2)]; cmd.
  2: { eexists. left. eexists. split; reflexivity. }
  destruct (into_minimized_order (fork hs 1) (fork hs' 1) a2 (loads_valid _ _ _ _ H2)) as (d2 & d2' & c2 & -> & -> & Q2 & _). cmd.
  destruct (prepare_order (hs [2]) (hs' [2]) args (of_string "1") c1 d1 d1' Q1) as (ev1 & x1 & x1' & -> & -> & R1 & _). cmd.
  destruct (prepare_order (hs [3]) (hs' [3]) args (of_string "2") c2 d2 d2' Q2) as (ev2 & x2 & x2' & -> & -> & R2 & _). cmd.
  destruct (set_op_order o (hs [4]) (hs' [4]) _ _ _ _ R1 R2) as [[-> ->]|(d & d' & -> & -> & Q & I)]; cmd.
  { eexists. left. eexists. split; reflexivity. }
  destruct (print_order (hs [5]) (hs' [5]) args o d d' Q I) as (before & tb & tb' & x & x' & T & -> & -> & Qx & _). cmd.
  rewrite (enumerate_combined_order args o x x' Qx), (compare_order (fork hs 6) (fork hs' 6) args o x x' Qx).
  pose proof Qx as (_ & Vx & _).
  destruct (enumeration_spec args o x' Vx) as (ev4 & -> & _). cmd.
  destruct (comparison_spec E' (fork hs' 6) args o x' Vx) as (ev5 & r & -> & _). cmd.
  exists r. right. exists (ev1 ++ ev2 ++ before), tb, tb', (ev4 ++ ev5). split; auto. rewrite <- !app_assoc. cbn [app]. split; reflexivity.
Qed.

(** DFAs without commas in names, not minimized: nothing differs *)
Lemma binary_order_plain hs hs' args o :
  ba_type args = TDfa -> (ba_second_type args = None \/ ba_second_type args = Some TDfa) -> ba_minimized args = false ->
  (forall d, loads env (ba_first args) TDfa (ADfa d) -> no_comma (map ds_name (dfa_states d))) \/
  (forall d, loads env (ba_second args) TDfa (ADfa d) -> no_comma (map ds_name (dfa_states d))) ->
  binary_op E hs args o = binary_op E' hs' args o.
Proof.
  intros T1 T2 Em HC. rewrite !binary_op_flat. rewrite !load_file_build. rewrite T1.
  assert (ET : match ba_second_type args with Some t => t | None => TDfa end = TDfa) by (destruct T2 as [H|H]; rewrite H; reflexivity). rewrite ET.
  destruct (load_file_spec E' (ba_first args) TDfa) as [(a1 & -> & H1)|(m & -> & H1)]; cmd; [|reflexivity].
  destruct (into_minimized_order (fork hs 0) (fork hs' 0) a1 (loads_valid _ _ _ _ H1)) as (d1 & d1' & c1 & -> & -> & Q1 & S1). cmd.
  destruct (load_file_spec E' (ba_second args) TDfa) as [(a2 & -> & H2)|(m & -> & H2)]; cmd; [|reflexivity].
  destruct (into_minimized_order (fork hs 1) (fork hs' 1) a2 (loads_valid _ _ _ _ H2)) as (d2 & d2' & c2 & -> & -> & Q2 & S2). cmd.
  assert (X1 : exists x, a1 = ADfa x). { destruct H1 as (u & _ & H1). destruct a1; cbn in H1; try contradiction. eauto. }
  assert (X2 : exists x, a2 = ADfa x). { destruct H2 as (u & _ & H2). destruct a2; cbn in H2; try contradiction. eauto. }
  destruct X1 as (z1 & ->). destruct X2 as (z2 & ->). destruct (S1 _ eq_refl) as (-> & -> & ->). destruct (S2 _ eq_refl) as (-> & -> & ->).
  assert (NC : no_comma (map ds_name (dfa_states z1)) \/ no_comma (map ds_name (dfa_states z2))).
  { destruct HC as [HC|HC]; [left|right]; apply HC; [exact H1|exact H2]. }
  destruct (prepare_order (hs [2]) (hs' [2]) args (of_string "1") false z1 z1 Q1) as (ev1 & x1 & x1' & -> & -> & R1 & P1). cmd.
  destruct (prepare_order (hs [3]) (hs' [3]) args (of_string "2") false z2 z2 Q2) as (ev2 & x2 & x2' & -> & -> & R2 & P2). cmd.
  destruct (P1 Em) as (-> & ->). destruct (P2 Em) as (-> & ->).
  assert (ES : dfa_set_op o (hs [4]) z1 z2 = dfa_set_op o (hs' [4]) z1 z2).
  { destruct R1 as (Z1 & _), R2 as (Z2 & _). destruct o; cbn [dfa_set_op]; unfold dfa_union, dfa_intersection, dfa_difference, dfa_symmetric_difference;
      apply dfa_product_order_comma; auto. }
  rewrite ES. destruct R1 as (Z1 & _), R2 as (Z2 & _). destruct (set_op_correct o (hs' [4]) z1 z2 Z1 Z2) as (r & -> & _ & Hr). cmd.
  destruct r as [d|]; cmd; [|reflexivity]. destruct (Hr d eq_refl) as (Vd & _).
  assert (Q : equals d d) by (apply equals_refl; exact Vd).
  destruct (print_order (hs [5]) (hs' [5]) args o d d Q (conj eq_refl (ex_intro _ (fun q => q) (iso_refl d)))) as (before & tb & tb' & x & x' & T & -> & -> & Qx & Px). cmd.
  destruct (Px Em eq_refl) as (-> & ->).
  rewrite (compare_order (fork hs 6) (fork hs' 6) args o x' x' Qx). reflexivity.
Qed.
End Builds.

(** ** Whole runs *)
Section Runs.
Variable env : cli_env.
Variables b b' : bool.
Variables ms ms' : nat.
Local Notation E := (rebuilt env b ms).
Local Notation E' := (rebuilt env b' ms').

Lemma test_each_files_build m out nf t : forall fs w,
  test_each_files (fun w => with_read E (reading m out w)) nf t fs w = test_each_files (fun w => with_read E' (reading m out w)) nf t fs w.
Proof.
  induction fs as [|f fs IH]; intros w; [reflexivity|]. cbn [test_each_files].
  change (with_read E (reading m out w)) with (rebuilt (with_read env (reading m out w)) b ms).
  change (with_read E' (reading m out w)) with (rebuilt (with_read env (reading m out w)) b' ms').
  rewrite (test_each_build (with_read env (reading m out w)) b b' ms ms').
  destruct (test_each (rebuilt (with_read env (reading m out w)) b' ms') nf t [f]) as [[ev [x|e]]| |]; try reflexivity. cbn [bind]. rewrite IH. reflexivity.
Qed.
Lemma file_operation_order m hs hs' out op :
  match op with OpEquivalence _ => ce_log env = false | OpBinary _ _ => False | _ => True end ->
  file_operation E m hs out op = file_operation E' m hs' out op.
Proof.
  destruct op as [args|o args|n u|ty n f|ty t a fs]; intros H; try contradiction; cbn [file_operation run_operation]; cbv zeta.
  - f_equal. change (with_read E (reading m out [])) with (rebuilt (with_read env (reading m out [])) b ms).
    change (with_read E' (reading m out [])) with (rebuilt (with_read env (reading m out [])) b' ms').
    destruct (equivalence_order (with_read env (reading m out [])) b b' ms ms' hs hs' args) as (r & [(ev & -> & ->)|(tb & tb' & mid & after & _ & -> & ->)]); [reflexivity|].
    unfold logs. cbn [ce_log with_read]. rewrite H. reflexivity.
  - f_equal. exact (enumerate_regex_order (with_read env (reading m out [])) b b' ms ms' hs hs' u n).
  - f_equal. exact (enumerate_file_order (with_read env (reading m out [])) b b' ms ms' hs hs' ty f n).
  - f_equal. pose proof (test_load_order (with_read env (reading m out [])) b b' ms ms' hs hs' ty a) as X.
    change (rebuilt (with_read env (reading m out [])) b ms) with (with_read E (reading m out [])) in X.
    change (rebuilt (with_read env (reading m out [])) b' ms') with (with_read E' (reading m out [])) in X. rewrite X.
    destruct (test_load (with_read E' (reading m out [])) hs' ty a) as [[ev [nf|e]]| |]; try reflexivity. cbn [bind].
    rewrite test_each_files_build. reflexivity.
Qed.
Lemma with_error_Ret {A} p (ev : list event) (r : result A str) : with_error p (Ret (ev, r)) = Ret (ev, match r with Ok a => Ok a | Err e => Err (p ++ e) end).
Proof. reflexivity. Qed.
Lemma stdout_app l l' : stdout_of (l ++ l') = stdout_of l ++ stdout_of l'.
Proof. apply flat_map_app. Qed.
Lemma stderr_app l l' : stderr_of (l ++ l') = stderr_of l ++ stderr_of l'.
Proof. apply flat_map_app. Qed.
Lemma sink_app l l' : sink_of (l ++ l') = sink_of l ++ sink_of l'.
Proof. apply flat_map_app. Qed.

Lemma equivalence_runs m hs hs' out args : exists res res' m',
  file_main E m hs out (OpEquivalence args) = Ret (res, m') /\ file_main E' m hs' out (OpEquivalence args) = Ret (res', m') /\
  (res = res' \/ (ce_log env = true /\ mr_stderr res = mr_stderr res' /\ mr_file res = mr_file res' /\
    exists table table' mid after, (table = table' \/ (ea_minimized args = true /\ tables_of_equals table table')) /\
      mr_stdout res = of_string "Input loaded:" ++ [10%N] ++ table ++ [10%N] ++ mid ++ timing args ms ++ [10%N] ++ after /\
      mr_stdout res' = of_string "Input loaded:" ++ [10%N] ++ table' ++ [10%N] ++ mid ++ timing args ms' ++ [10%N] ++ after)).
Proof.
  unfold file_main. cbn [file_operation run_operation]. cbv zeta.
  change (with_read E (reading m out [])) with (rebuilt (with_read env (reading m out [])) b ms).
  change (with_read E' (reading m out [])) with (rebuilt (with_read env (reading m out [])) b' ms').
  destruct (equivalence_order (with_read env (reading m out [])) b b' ms ms' hs hs' args) as (r & [(ev & -> & ->)|(tb & tb' & mid & after & T & -> & ->)]);
    rewrite !with_error_Ret; cbn [bind].
  { do 3 eexists. split; [reflexivity|]. split; [reflexivity|]. left. reflexivity. }
  unfold logs. cbn [ce_log with_read]. destruct (ce_log env).
  - set (l := [Log (of_string "Input loaded:")] ++ [Log tb] ++ mid ++ [Log (timing args ms)] ++ after).
    set (l' := [Log (of_string "Input loaded:")] ++ [Log tb'] ++ mid ++ [Log (timing args ms')] ++ after).
    assert (Sk : sink_of l = sink_of l') by (unfold l, l'; rewrite !sink_app; reflexivity).
    assert (Se : stderr_of l = stderr_of l') by (unfold l, l'; rewrite !stderr_app; reflexivity).
    do 3 eexists. split; [reflexivity|]. split; [rewrite <- Sk; reflexivity|]. right. split; [reflexivity|].
    unfold finish. cbn [mr_stderr mr_file mr_stdout]. rewrite <- Sk, <- Se. split; [reflexivity|]. split; [reflexivity|].
    exists tb, tb', (stdout_of mid), (stdout_of after). split; [exact T|]. unfold l, l'. rewrite !stdout_app. cbn [stdout_of flat_map]. unfold println.
    rewrite !app_nil_r, <- !app_assoc. split; reflexivity.
  - do 3 eexists. split; [reflexivity|]. split; [reflexivity|]. left. reflexivity.
Qed.

Lemma binary_runs m hs hs' out o args : apart m out (OpBinary o args) -> exists res res' m1 m1',
  file_main E m hs out (OpBinary o args) = Ret (res, m1) /\ file_main E' m hs' out (OpBinary o args) = Ret (res', m1') /\
  ((res = res' /\ m1 = m1') \/ differ_in_table res res').
Proof.
  intros AP. unfold file_main. rewrite !(operation_apart _ _ _ _ _ AP). cbn [run_operation].
  change (with_read E (m_text m)) with (rebuilt (with_read env (m_text m)) b ms).
  change (with_read E' (m_text m)) with (rebuilt (with_read env (m_text m)) b' ms').
  destruct (binary_order (with_read env (m_text m)) b b' ms ms' hs hs' args o) as (r & [(ev & -> & ->)|(bf & tb & tb' & af & T & -> & ->)]);
    rewrite !with_error_Ret; cbn [bind].
  { do 4 eexists. split; [reflexivity|]. split; [reflexivity|]. left. split; reflexivity. }
  do 4 eexists. split; [reflexivity|]. split; [reflexivity|]. right. unfold differ_in_table, finish. cbn [mr_stdout mr_stderr mr_file].
  split; [rewrite !stderr_app; reflexivity|]. exists tb, tb', (stdout_of bf), (stdout_of af). split; auto. rewrite !stdout_app, !sink_app.
  split; [|split].
  - cbn [stdout_of flat_map]. unfold println. rewrite app_nil_r, <- app_assoc. reflexivity.
  - cbn [stdout_of flat_map]. unfold println. rewrite app_nil_r, <- app_assoc. reflexivity.
  - destruct out as [p|]; [|left; split; reflexivity]. destruct (m_create m p) as [u|e]; [|left; split; reflexivity].
    right. exists (sink_of bf), (sink_of af). cbn [sink_of flat_map]. rewrite !app_nil_r. split; reflexivity.
Qed.
Lemma binary_runs_plain m hs hs' out o args : apart m out (OpBinary o args) ->
  ba_type args = TDfa -> (ba_second_type args = None \/ ba_second_type args = Some TDfa) -> ba_minimized args = false ->
  (forall d, loads (with_read env (m_text m)) (ba_first args) TDfa (ADfa d) -> no_comma (map ds_name (dfa_states d))) \/
  (forall d, loads (with_read env (m_text m)) (ba_second args) TDfa (ADfa d) -> no_comma (map ds_name (dfa_states d))) ->
  file_main E m hs out (OpBinary o args) = file_main E' m hs' out (OpBinary o args).
Proof.
  intros AP T1 T2 Em HC. unfold file_main. rewrite !(operation_apart _ _ _ _ _ AP). cbn [run_operation].
  change (with_read E (m_text m)) with (rebuilt (with_read env (m_text m)) b ms).
  change (with_read E' (m_text m)) with (rebuilt (with_read env (m_text m)) b' ms').
  rewrite (binary_order_plain (with_read env (m_text m)) b b' ms ms' hs hs' args o T1 T2 Em HC). reflexivity.
Qed.
End Runs.

Lemma dandy_same env b b' ms ms' m hs hs' argv : (forall a, asks_for argv a -> without_tables_and_times a) ->
  dandy (rebuilt env b ms) m hs argv = dandy (rebuilt env b' ms') m hs' argv.
Proof.
  intros H. unfold dandy. destruct (parse_args argv) as [a|] eqn:Ea; [|reflexivity]. apply parse_args_spec in Ea. specialize (H a Ea).
  cbn [obind]. f_equal. change (with_log (rebuilt env b ms) (negb (da_no_log a))) with (rebuilt (with_log env (negb (da_no_log a))) b ms).
  change (with_log (rebuilt env b' ms') (negb (da_no_log a))) with (rebuilt (with_log env (negb (da_no_log a))) b' ms').
  unfold file_main. rewrite (file_operation_order (with_log env (negb (da_no_log a))) b b' ms ms' m hs hs'); [reflexivity|].
  unfold without_tables_and_times in H. destruct (da_command a); auto. cbn. rewrite H. reflexivity.
Qed.
Lemma dandy_asked env b ms m hs argv a : asks_for argv a ->
  dandy (rebuilt env b ms) m hs argv = Some (file_main (rebuilt (with_log env (negb (da_no_log a))) b ms) m hs (da_out a) (da_command a)).
Proof. intros H. apply parse_args_spec in H. unfold dandy. rewrite H. reflexivity. Qed.
