(** Proofs about the logs of the command line tool. *)
From Coq Require Import Ascii String List NArith Arith Bool Lia.
From Verif Require Import Base BaseLemmas Spec TableSpec DfaModel NfaModel WordsModel RegexModel ValidateModel ParserModel
  TableModel RegexParserModel ApiModel Messages MessageSpec WasmModel WasmSpec CliModel CliSpec CliProofs ApiProofs CliLogSpec.
Import ListNotations.
Close Scope string_scope.
Open Scope list_scope.

Lemma cbind_inv {A B} (m : Cmd A) (f : A -> Cmd B) ev r : cbind m f = Ret (ev, r) ->
  (exists e, m = Ret (ev, Err e) /\ r = Err e) \/
  (exists ev1 a ev2, m = Ret (ev1, Ok a) /\ f a = Ret (ev2, r) /\ ev = ev1 ++ ev2).
Proof.
  unfold cbind. destruct m as [[ev1 [a|e]]| |]; cbn [bind]; try discriminate.
  - destruct (f a) as [[ev2 r2]| |] eqn:E; cbn [bind]; try discriminate. intros [= <- <-]. right. exists ev1, a, ev2. auto.
  - intros [= <- <-]. left. exists e. auto.
Qed.
Lemma prep_inv {A} ev (m : Cmd A) ev' r : prep ev m = Ret (ev', r) -> exists ev2, m = Ret (ev2, r) /\ ev' = ev ++ ev2.
Proof. destruct m as [[e x]| |]; cbn; try discriminate. intros [= <- <-]. eauto. Qed.
Lemma lift_inv {A} (m : R A) ev r : lift m = Ret (ev, r) -> exists a, m = Ret a /\ ev = [] /\ r = Ok a.
Proof. unfold lift, cret. destruct m; cbn [bind]; try discriminate. intros [= <- <-]. eauto. Qed.
Lemma lift_result_inv {A} (m : R (result A str)) ev r : lift_result m = Ret (ev, r) -> m = Ret r /\ ev = [].
Proof. unfold lift_result. destruct m; cbn [bind]; try discriminate. intros [= <- <-]. auto. Qed.
Lemma map_err_inv {A} f (m : R (result A str)) r : map_err f m = Ret r ->
  exists r', m = Ret r' /\ r = match r' with Ok a => Ok a | Err e => Err (f e) end.
Proof. unfold map_err. destruct m; cbn [bind]; try discriminate. intros [= <-]. eauto. Qed.

Section Logs.
Context (env : cli_env).
(** the log events of these lines *)
Definition noted (l : list str) : list event := if ce_log env then map Log l else [].
Lemma logs_noted s : logs env s = noted [s]. Proof. unfold logs, noted. destruct (ce_log env); reflexivity. Qed.
Lemma noted_app a b : noted (a ++ b) = noted a ++ noted b.
Proof. unfold noted. destruct (ce_log env); [apply map_app|reflexivity]. Qed.
Lemma noted_nil : noted [] = []. Proof. unfold noted. destruct (ce_log env); reflexivity. Qed.
Lemma outs_noted l : outs (noted l) = []. Proof. unfold noted. destruct (ce_log env); auto. induction l; auto. Qed.
Lemma outs_Out l : outs (map Out l) = l. Proof. induction l; simpl; congruence. Qed.
Lemma log_lines_Out l : log_lines (map Out l) = []. Proof. induction l; simpl; auto. Qed.
Lemma log_lines_noted l : log_lines (noted l) = if ce_log env then l else [].
Proof. unfold noted. destruct (ce_log env); auto. induction l; simpl; congruence. Qed.
Lemma words_Out ws : map word_line ws = map Out (outs (map word_line ws)).
Proof. induction ws as [|w ws IH]; [auto|]. cbn. f_equal. exact IH. Qed.
Lemma length_words ws : length (outs (map word_line ws)) = length ws.
Proof. induction ws; simpl; congruence. Qed.

(** commands that log nothing *)
Definition plain {A} (m : Cmd A) : Prop := forall ev r, m = Ret (ev, r) -> warns ev = [] -> ev = map Out (outs ev).
Lemma plain_bind {A B} (m : Cmd A) (f : A -> Cmd B) : plain m -> (forall a, plain (f a)) -> plain (cbind m f).
Proof.
  intros Hm Hf ev r H W. apply cbind_inv in H as [(e & H & ->)|(e1 & a & e2 & H1 & H2 & ->)].
  - eapply Hm; eauto.
  - rewrite warns_app in W. apply app_eq_nil in W as (W1 & W2). rewrite outs_app, map_app. f_equal; [eapply Hm|eapply Hf]; eauto.
Qed.
Lemma plain_ret {A} (a : A) : plain (cret a). Proof. intros ev r [= <- <-]. auto. Qed.
Lemma plain_fail {A} e : plain (@cfail A e). Proof. intros ev r [= <- <-]. auto. Qed.
Lemma plain_lift {A} (m : R A) : plain (lift m). Proof. intros ev r H _. apply lift_inv in H as (a & _ & -> & _). auto. Qed.
Lemma plain_lift_result {A} (m : R (result A str)) : plain (lift_result m).
Proof. intros ev r H _. apply lift_result_inv in H as (_ & ->). auto. Qed.
Lemma plain_tell l : plain (tell (map Out l)). Proof. intros ev r [= <- <-] _. rewrite outs_Out. auto. Qed.
Lemma plain_out s : plain (tell [Out s]). Proof. apply (plain_tell [s]). Qed.
Lemma plain_words ws : plain (tell (map word_line ws)). Proof. rewrite words_Out. apply plain_tell. Qed.
Lemma plain_warns {A} (m : R (list event * A)) : (forall ev a, m = Ret (ev, a) -> forall e, In e ev -> exists s, e = Warn s) ->
  plain ('(ev, r) <- m ;; Ret (ev, @Ok A str r)).
Proof.
  intros Hm ev r H W. destruct m as [[ev' a]| |]; try discriminate. cbn [bind] in H. injection H as -> <-.
  destruct ev as [|e ev]; auto. destruct (Hm _ _ eq_refl e (or_introl eq_refl)) as (s & ->). discriminate.
Qed.
Lemma test_equivalence_warns hs a b m ev v : test_equivalence hs a b m = Ret (ev, v) -> forall e, In e ev -> exists s, e = Warn s.
Proof.
  assert (Wm : forall m e, In e (warn_minimized m) -> exists s, e = Warn s).
  { intros [|] e; unfold warn_minimized; [intros [<- |[]]; eexists; reflexivity|intros []]. }
  assert (Wc : forall m a e, In e (warn_minimized_check_type m a) -> exists s, e = Warn s).
  { intros m' a' e. unfold warn_minimized_check_type. destruct (type_eqb _ _ && _); [|apply Wm]. intros [<- |[<- |[]]]; eexists; reflexivity. }
  unfold test_equivalence. intros H e.
  destruct (get_type a), (get_type b);
    repeat match type of H with
           | bind ?x _ = _ => destruct x; cbn [bind] in H; try discriminate
           | (let '(_, _) := ?x in _) = _ => destruct x
           | match ?x with pair _ _ => _ end = _ => destruct x
           end; injection H as <- <-; cbn [app]; first [apply Wm | apply Wc | intros []; fail |
      intros [<- |[<- |H]]; [eexists; reflexivity|eexists; reflexivity|eapply Wm; exact H]].
Qed.
Lemma plain_enumerate args o d : plain (enumerate_combined args o d).
Proof.
  unfold enumerate_combined. destruct (ba_enumerate args); [|apply plain_ret]. apply plain_bind; [apply plain_out|intros _].
  apply plain_bind; [apply plain_lift|intros ws]. apply plain_bind; [apply plain_words|intros _].
  destruct (length ws =? n); [apply plain_ret|apply plain_out].
Qed.
Lemma plain_compare hs args o d : plain (compare_combined env hs args o d).
Proof.
  unfold compare_combined. destruct (ba_compare_against args); [|apply plain_ret]. apply plain_bind; [apply plain_lift_result|intros c].
  apply plain_bind; [|intros v; apply plain_out]. apply plain_warns. intros ev a H. eapply test_equivalence_warns; eauto.
Qed.
Lemma plain_test_lines nf : forall lines n k, plain ('(ev, r) <- test_lines env nf n k lines ;; Ret (ev, @Ok _ str r)).
Proof.
  induction lines as [|l ls IH]; intros n k ev r H W.
  - injection H as <- <-. auto.
  - cbn [test_lines] in H. destruct (nfa_accepts_graphemes (ce_seg env) nf l) as [b| |]; try discriminate. cbn [bind] in H.
    specialize (IH (S n) (if b then S k else k)). destruct (test_lines env nf (S n) (if b then S k else k) ls) as [[ev' r']| |]; try discriminate.
    cbn [bind] in *. injection H as <- <-. cbn in W |- *. f_equal. exact (IH ev' _ eq_refl W).
Qed.
Lemma plain_test_each nf t : forall files, plain (test_each env nf t files).
Proof.
  induction files as [|f fs IH]; [apply plain_ret|]. cbn [test_each].
  apply plain_bind; [destruct (ce_read env f); [apply plain_ret|apply plain_fail]|intros u]. apply plain_bind; [|intros _; exact IH].
  destruct t.
  - apply plain_bind; [apply plain_out|intros _]. apply plain_bind; [apply plain_test_lines|]. intros [n a]. apply plain_out.
  - apply plain_bind; [apply plain_lift|intros c]. apply plain_out.
Qed.

(** all logs are before or after all results *)
Definition framed (ev : list event) (before after : list str) : Prop := ev = noted before ++ map Out (outs ev) ++ noted after.

Lemma enumerate_nfa_logs hs n k ev r : enumerate_nfa env hs n k = Ret (ev, r) ->
  exists before after, framed ev before after /\ r = Ok tt /\ enumeration_logs k (outs ev) before after.
Proof.
  unfold enumerate_nfa. intros H. apply cbind_inv in H as [(e & H & ->)|(e1 & n' & e2 & H1 & H & ->)].
  { apply lift_inv in H as (a & _ & _ & H). discriminate. }
  apply lift_inv in H1 as (a & _ & -> & _). cbn [app].
  apply cbind_inv in H as [(e & H & ->)|(e1 & [] & e3 & H1 & H & ->)]; [discriminate|]. injection H1 as <-.
  apply cbind_inv in H as [(e & H & ->)|(e1 & ws & e4 & H1 & H & ->)].
  { apply lift_inv in H as (a' & _ & _ & H). discriminate. }
  apply lift_inv in H1 as (a' & _ & -> & _). cbn [app].
  apply cbind_inv in H as [(e & H & ->)|(e1 & [] & e5 & H1 & H & ->)]; [discriminate|]. injection H1 as <-. unfold framed.
  rewrite logs_noted, outs_app, outs_noted. change ([] ++ outs (map word_line ws ++ e5)) with (outs (map word_line ws ++ e5)). rewrite outs_app.
  destruct (Nat.eqb_spec (length ws) k) as [E|E]; rewrite !dec_decimal in *; injection H as <- <-.
  - exists [of_string "First " ++ decimal k ++ of_string " words of the language of the regex:"], []. split; [|split; [auto|split; [reflexivity|]]].
    + change (outs []) with (@nil str). rewrite noted_nil, !app_nil_r, <- words_Out. reflexivity.
    + change (outs []) with (@nil str). rewrite app_nil_r, length_words. replace (length ws =? k) with true by (symmetry; apply Nat.eqb_eq; auto). reflexivity.
  - eexists _, _. rewrite logs_noted, outs_noted, app_nil_r. split; [|split; [auto|split; [reflexivity|]]].
    + rewrite <- words_Out. reflexivity.
    + rewrite length_words. replace (length ws =? k) with false by (symmetry; apply Nat.eqb_neq; auto). reflexivity.
Qed.
Lemma enumerate_regex_logs hs u k ev r : enumerate_regex env hs u k = Ret (ev, r) ->
  exists before after, framed ev before after /\ op_logs env (OpEnumerateRegex k u) (outs ev) r before after.
Proof.
  unfold enumerate_regex. intros H. apply cbind_inv in H as [(e & H & ->)|(e1 & o & e2 & H1 & H & ->)].
  { apply lift_inv in H as (a & _ & _ & H). discriminate. }
  apply lift_inv in H1 as (a & _ & -> & _). cbn [app]. destruct o as [t|].
  - apply enumerate_nfa_logs in H as (b & f & F & -> & L). exists b, f. split; auto. right. auto.
  - injection H as <- <-. exists [], []. split; [unfold framed; rewrite noted_nil; auto|]. left. eauto.
Qed.
Lemma enumerate_file_logs hs ty f k ev r : enumerate_file env hs ty f k = Ret (ev, r) ->
  exists before after, framed ev before after /\ op_logs env (OpEnumerateFile ty k f) (outs ev) r before after.
Proof.
  unfold enumerate_file. intros H. apply cbind_inv in H as [(e & H & ->)|(e1 & o & e2 & H1 & H & ->)].
  - apply lift_result_inv in H as (_ & ->). exists [], []. split; [unfold framed; rewrite noted_nil; auto|]. left. eauto.
  - apply lift_result_inv in H1 as (_ & ->). cbn [app].
    apply enumerate_nfa_logs in H as (b & a & F & -> & L). exists b, a. split; auto. right. auto.
Qed.

Lemma into_nfa_exact hs a : (forall n', a = ANfa n' -> fst (into_nfa hs a) = n') /\ (forall d, a = ADfa d -> fst (into_nfa hs a) = dfa_to_nfa d).
Proof. split; intros x ->; reflexivity. Qed.
Lemma test_files_logs hs ty t a files ev r : test_files env hs ty t a files = Ret (ev, r) -> warns ev = [] ->
  exists before after, framed ev before after /\ op_logs env (OpTestFile ty t a files) (outs ev) r before after.
Proof.
  rewrite test_files_flat. intros H W. apply cbind_inv in H as [(e & H & ->)|(e1 & o & e2 & H1 & H & ->)].
  - apply lift_result_inv in H as (H & ->). exists [], []. split; [unfold framed; rewrite noted_nil; auto|]. split; auto. left.
    destruct (load_file_spec env a ty) as [(a' & E & _)|(m & E & Hm)]; rewrite E in H; [discriminate|]. injection H as <-. eauto.
  - apply lift_result_inv in H1 as (H1 & ->). cbn [app] in *.
    destruct (load_file_spec env a ty) as [(a' & E & Ha)|(m & E & Hm)]; rewrite E in H1; [|discriminate]. injection H1 as ->.
    destruct (into_nfa_spec (fork hs 0) o (loads_valid _ _ _ _ Ha)) as (n & c & En & V & A & L).
    pose proof (into_nfa_exact (fork hs 0) o) as (X1 & X2). rewrite En in H, X1, X2. cbn [fst] in *.
    apply cbind_inv in H as [(e & H & ->)|(e1 & tb & e3 & H1 & H & ->)].
    { apply lift_inv in H as (a1 & _ & _ & H). discriminate. }
    apply lift_inv in H1 as (tb' & Et & -> & [= <-]). cbn [app] in *.
    apply cbind_inv in H as [(e & H & ->)|(e1 & [] & e4 & H1 & H & ->)]; [discriminate|]. injection H1 as <-.
    rewrite warns_app, warns_logs in W. cbn [app] in W. pose proof (plain_test_each n t files _ _ H W) as P.
    rewrite logs_noted. exists [of_string "Loaded NFA:" ++ [10%N] ++ tb], []. split.
    + unfold framed. rewrite outs_app, outs_noted, noted_nil, app_nil_r. f_equal. exact P.
    + split; auto. right. exists o, n, tb. auto 9.
Qed.

(** set operations *)
Lemma into_minimized_flag hs a d c : into_minimized_dfa_if_not_dfa env hs a = Ret (d, c) -> c = match a with ADfa _ => false | _ => true end.
Proof.
  unfold into_minimized_dfa_if_not_dfa, into_dfa. destruct a as [x|n|t]; cbn [bind negb].
  - intros [= _ <-]. auto.
  - destruct (nfa_to_dfa (fork hs 0 [0]) n); cbn [bind negb]; try discriminate. destruct (dfa_minimize _ _ _); cbn [bind]; try discriminate. intros [= _ <-]. auto.
  - destruct (nfa_to_dfa (fork hs 0 [0]) _); cbn [bind negb]; try discriminate. destruct (dfa_minimize _ _ _); cbn [bind]; try discriminate. intros [= _ <-]. auto.
Qed.
Lemma prepare_logs h args k a d ev r : prepare_input env h args k d (match a with ADfa _ => false | _ => true end) = Ret (ev, r) ->
  (exists d', r = Ok d') /\ ev = noted (input_notes args k a).
Proof.
  unfold prepare_input, input_notes. intros H.
  assert (C : forall s, cbind (tell (logs env s)) (fun _ => cret d) = Ret (ev, r) -> (exists d', r = Ok d') /\ ev = noted [s]).
  { intros s E. cbn in E. injection E as <- <-. rewrite app_nil_r. rewrite logs_noted. eauto. }
  destruct a; auto. destruct (ba_minimized args).
  - apply cbind_inv in H as [(e & H & ->)|(e1 & d2 & e3 & H1 & H & ->)].
    { apply lift_inv in H as (a1 & _ & _ & H). discriminate. }
    apply lift_inv in H1 as (d3 & _ & -> & _). cbn in H. injection H as <- <-. rewrite app_nil_r, logs_noted. cbn [app]. eauto.
  - cbn in H. injection H as <- <-. rewrite noted_nil. eauto.
Qed.
Lemma print_logs h args o d ev r : print_combined env h args o d = Ret (ev, r) ->
  exists d' table, r = Ok d' /\ ev = noted [result_title args o] ++ [Out table].
Proof.
  unfold print_combined, result_title. rewrite op_text_eq, !(proj1 (type_text_eq _)). intros H.
  assert (K : forall s d1 ev r, cbind (tell (logs env s)) (fun _ => cbind (lift (dfa_to_table d1)) (fun table => cbind (tell [Out table]) (fun _ => cret d1))) =
      Ret (ev, r) -> exists d' table, r = Ok d' /\ ev = noted [s] ++ [Out table]).
  { clear. intros s d1 ev r H. apply cbind_inv in H as [(e & H & ->)|(e1 & [] & e4 & H1 & H & ->)]; [discriminate|]. injection H1 as <-.
    apply cbind_inv in H as [(e & H & ->)|(e1 & tb & e3 & H1 & H & ->)].
    { apply lift_inv in H as (a1 & _ & _ & H). discriminate. }
    apply lift_inv in H1 as (tb' & _ & -> & _). cbn in H. injection H as <- <-. rewrite logs_noted. cbn [app]. eauto. }
  destruct (ba_minimized args).
  - apply cbind_inv in H as [(e & H & ->)|(e1 & d2 & e3 & H1 & H & ->)].
    { apply lift_inv in H as (a1 & _ & _ & H). discriminate. }
    apply lift_inv in H1 as (d3 & _ & -> & _). cbn [app]. eapply K; eauto.
  - eapply K; eauto.
Qed.
Lemma binary_logs hs args o ev r : binary_op env hs args o = Ret (ev, r) -> warns ev = [] ->
  exists before after, framed ev before after /\ op_logs env (OpBinary o args) (outs ev) r before after.
Proof.
  assert (F0 : framed [] [] []) by (unfold framed; rewrite noted_nil; auto).
  rewrite binary_op_flat. intros H W.
  apply cbind_inv in H as [(e & H & ->)|(e1 & a1 & e2 & H1 & H & ->)].
  { apply lift_result_inv in H as (H & ->). exists [], []. split; auto. split; auto. left. split; auto.
    destruct (load_file_spec env (ba_first args) (ba_type args)) as [(a' & E & _)|(m & E & Hm)]; rewrite E in H; [discriminate|eauto]. }
  apply lift_result_inv in H1 as (H1 & ->). cbn [app] in *.
  destruct (load_file_spec env (ba_first args) (ba_type args)) as [(a' & E & Ha)|(m & E & Hm)]; rewrite E in H1; [|discriminate]. cbn in H1. injection H1 as ->.
  apply cbind_inv in H as [(e & H & ->)|(e1 & [d1 c1] & e3 & H1 & H & ->)].
  { apply lift_inv in H as (x & _ & _ & H). discriminate. }
  apply lift_inv in H1 as (x & H1 & -> & [= <-]). cbn [app] in *.
  destruct (into_minimized_spec env (fork hs 0) a1 (loads_valid _ _ _ _ Ha)) as (d1' & c1' & E1 & V1 & A1 & L1 & _).
  rewrite E1 in H1. injection H1 as -> ->. pose proof (into_minimized_flag _ _ _ _ E1) as C1.
  apply cbind_inv in H as [(e & H & ->)|(e1 & a2 & e4 & H1 & H & ->)].
  { apply lift_result_inv in H as (H & ->). exists [], []. split; auto. split; auto. left. split; auto.
    destruct (load_file_spec env (ba_second args) (match ba_second_type args with Some t => t | None => ba_type args end))
      as [(a' & E' & _)|(m & E' & Hm)]; rewrite E' in H; [discriminate|eauto]. }
  apply lift_result_inv in H1 as (H1 & ->). cbn [app] in *.
  destruct (load_file_spec env (ba_second args) (match ba_second_type args with Some t => t | None => ba_type args end))
    as [(a' & E' & Ha2)|(m & E' & Hm)]; rewrite E' in H1; [|discriminate]. cbn in H1. injection H1 as ->.
  apply cbind_inv in H as [(e & H & ->)|(e1 & [d2 c2] & e5 & H1 & H & ->)].
  { apply lift_inv in H as (x & _ & _ & H). discriminate. }
  apply lift_inv in H1 as (x & H1 & -> & [= <-]). cbn [app] in *.
  destruct (into_minimized_spec env (fork hs 1) a2 (loads_valid _ _ _ _ Ha2)) as (d2' & c2' & E2 & V2 & A2 & L2 & _).
  rewrite E2 in H1. injection H1 as -> ->. pose proof (into_minimized_flag _ _ _ _ E2) as C2. subst c1 c2.
  destruct (prepare_spec env (hs [2]) args (of_string "1") (match a1 with ADfa _ => false | _ => true end) d1 V1) as (p1 & ev1 & P1 & Vp1 & Ap1 & _).
  destruct (prepare_spec env (hs [3]) args (of_string "2") (match a2 with ADfa _ => false | _ => true end) d2 V2) as (p2 & ev2 & P2 & Vp2 & Ap2 & _).
  rewrite P1, cbind_Ok in H. apply prep_inv in H as (e6 & H & ->). rewrite P2, cbind_Ok in H. apply prep_inv in H as (e7 & H & ->).
  apply prepare_logs in P1 as (_ & ->). apply prepare_logs in P2 as (_ & ->).
  destruct (set_op_correct o (hs [4]) p1 p2 Vp1 Vp2) as (res & Er & Hn & Hr). rewrite Er, lift_Ret, cbind_Ok in H. apply prep_inv in H as (e8 & H & ->).
  rewrite Ap1, Ap2, A1, A2 in Hn. destruct res as [d|].
  2: { rewrite cfail_eq, cbind_Err in H. injection H as <- <-. exists (input_notes args (of_string "1") a1 ++ input_notes args (of_string "2") a2), [].
       split; [|split; auto; right; exists a1, a2; split; auto; split; auto; left; split; auto; apply Hn; auto].
       unfold framed. rewrite !outs_app, !outs_noted, noted_app, noted_nil. cbn. rewrite !app_nil_r. auto. }
  assert (HA : same_set (a_alphabet a1) (a_alphabet a2)).
  { destruct (same_set_dec (a_alphabet a1) (a_alphabet a2)) as [X|X]; auto. apply Hn in X. discriminate. }
  rewrite cret_eq, cbind_Ok in H. apply prep_inv in H as (e9 & Ec & ->). cbn [app] in *.
  apply cbind_inv in Ec as [(e & Ec & ->)|(e1 & d' & e10 & H1 & Ec & ->)].
  { apply print_logs in Ec as (d' & tb & H & _). discriminate. }
  apply print_logs in H1 as (d'' & tb & [= <-] & ->).
  pose proof (plain_bind _ _ (plain_enumerate args o d') (fun _ => plain_compare (fork hs 6) args o d') _ _ Ec) as P.
  rewrite !warns_app in W. apply app_eq_nil in W as (_ & W). apply app_eq_nil in W as (_ & W). apply app_eq_nil in W as (_ & W).
  specialize (P W). exists ((input_notes args (of_string "1") a1 ++ input_notes args (of_string "2") a2) ++ [result_title args o]), [].
  split; [|split; auto; right; exists a1, a2; split; auto; split; auto; right; split; auto].
  unfold framed. rewrite !outs_app, !outs_noted, !noted_app, noted_nil. cbn [app outs flat_map]. rewrite app_nil_r.
  rewrite <- !app_assoc. cbn [app map]. do 4 f_equal. exact P.
Qed.

(** equivalence *)
Lemma tester_load_exact hs u ty a a0 : tester_load env hs u ty = Ret (Ok a) -> reads (ce_seg env) ty u a0 ->
  a_valid a /\ a_alphabet a = a_alphabet a0 /\ (forall w, a_lang a w <-> a_lang a0 w) /\ (ty <> TRegex -> a = a0) /\ (ty = TRegex -> exists t, a0 = ARegex t).
Proof.
  intros E Rd. destruct ty; cbn [tester_load] in E.
  - destruct (dfa_cases (ce_seg env) u) as [[E1 _]|[(t & e & E1 & E2 & _)|(t & d & E1 & E2 & H)]]; rewrite E1 in E; cbn [bind] in E; try discriminate;
      rewrite E2 in E; try discriminate. injection E as <-. pose proof (reads_unique _ _ _ _ _ H Rd) as <-.
    split; [eapply reads_valid; eauto|]. split; auto. split; [reflexivity|]. split; auto. discriminate.
  - destruct (nfa_cases (ce_seg env) u) as [[E1 _]|[(t & e & E1 & E2 & _)|(t & d & E1 & E2 & H)]]; rewrite E1 in E; cbn [bind] in E; try discriminate;
      rewrite E2 in E; try discriminate. injection E as <-. pose proof (reads_unique _ _ _ _ _ H Rd) as <-.
    split; [eapply reads_valid; eauto|]. split; auto. split; [reflexivity|]. split; auto. discriminate.
  - destruct (regex_cases (ce_seg env) u) as [[E1 _]|(t & E1 & H)]; rewrite E1 in E; cbn [bind] in E; try discriminate.
    destruct (into_dfa_spec hs (ARegex t) I) as (d & c & Ed & V & A & L & _). cbn [into_dfa] in Ed.
    destruct (nfa_to_dfa (hs [0]) (regex_to_nfa (hs [1]) t)) as [d'| |]; try discriminate. cbn [bind] in *. injection Ed as -> _. injection E as <-.
    pose proof (reads_unique _ _ _ _ _ H Rd) as <-. split; auto. split; auto. split; auto. split; [congruence|eauto].
Qed.
Lemma tester_new_shown hs u args a0 t table : reads (ce_seg env) (in_type args) u a0 -> tester_new env hs u args = Ret ([], Ok t) ->
  automata_table (dt_input t) = Ret table -> reference_table args a0 table.
Proof.
  intros Rd H Tb. unfold tester_new in H. fold (in_type args) in H.
  apply cbind_inv in H as [(e & _ & H)|(e1 & a & e2 & H1 & H & E)]; [discriminate|].
  apply lift_result_inv in H1 as (H1 & ->). destruct (tester_load_exact _ _ _ _ _ H1 Rd) as (V & A & L & X & Y). clear H1.
  assert (XD : forall d0, a0 = ADfa d0 -> a = ADfa d0).
  { intros d0 ->. apply X. intros Et. destruct (Y Et) as (? & ?). discriminate. }
  assert (XN : forall n0, a0 = ANfa n0 -> a = ANfa n0).
  { intros n0 ->. apply X. intros Et. destruct (Y Et) as (? & ?). discriminate. }
  unfold reference_table. destruct (ea_minimized args).
  - destruct (ea_type args); cbn [type_eqb] in H; [|discriminate|discriminate].
    unfold into_minimized_dfa_automata, into_minimized_dfa in H.
    destruct (into_dfa_spec (fork (fork hs 1) 0) a V) as (d & c & Ed & Vd & Ad & Ld & _). rewrite Ed in H. cbn [bind] in H.
    destruct (minimize_spec (fork hs 1 [1]) (ce_dbg env) d Vd) as (d' & E' & V' & A' & L' & M & _). rewrite E' in H. cbn in H.
    injection H as _ <-. cbn in Tb. exists d'. split; auto. split; auto. split; [congruence|]. split; [|split; [auto|discriminate]].
    intros w. rewrite L', Ld. apply L.
  - cbn [cret cbind bind] in H. assert (NF : forall n c, into_nfa (fork hs 2) a = (n, c) -> (forall n', a0 = ANfa n' -> n = n') /\ (forall d, a0 = ADfa d -> n = dfa_to_nfa d)).
    { intros n c En. split; intros x Hx; [apply XN in Hx|apply XD in Hx]; subst a; cbn in En; congruence. }
    destruct (ea_type args); unfold prepare_to_compare_with in H.
    + unfold into_dfa_automata in H. destruct (into_dfa_spec (fork hs 2) a V) as (d & c & Ed & Vd & Ad & Ld & _). rewrite Ed in H.
      cbn in H. injection H as _ <-. cbn in Tb. exists d. split; auto. split; auto. split; [congruence|]. split; [intros w; rewrite Ld; apply L|].
      split; [discriminate|]. intros _ d0 Hd0. apply XD in Hd0. subst a. cbn in Ed. congruence.
    + unfold into_to_nfa_automata in H. destruct (into_nfa_spec (fork hs 2) a V) as (n & c & En & Vn & An & Ln). rewrite En in H.
      cbn in H. injection H as _ <-. cbn in Tb. exists n. split; auto. split; auto. split; [congruence|]. split; [intros w; rewrite Ln; apply L|].
      eapply NF; eauto.
    + unfold into_to_nfa_automata in H. destruct (into_nfa_spec (fork hs 2) a V) as (n & c & En & Vn & An & Ln). rewrite En in H.
      cbn in H. injection H as _ <-. cbn in Tb. exists n. split; auto. split; auto. split; [congruence|]. split; [intros w; rewrite Ln; apply L|].
      eapply NF; eauto.
Qed.
Lemma equivalence_logs hs args ev r : equivalence env hs args = Ret (ev, r) ->
  exists before after, framed ev before after /\ op_logs env (OpEquivalence args) (outs ev) r before after.
Proof.
  assert (F0 : framed [] [] []) by (unfold framed; rewrite noted_nil; auto).
  intros H. unfold equivalence in H. destruct (ce_read env (ea_automata args)) as [u|e] eqn:Er.
  2: { cbn in H. injection H as <- <-. exists [], []. split; auto. left. eauto. }
  rewrite cret_eq, cbind_Ok in H. apply prep_inv in H as (e0 & H & ->). change ([] ++ e0) with e0.
  destruct (tester_new_spec env (fork hs 0) u args) as [(m & E & _)|[(a0 & _ & _ & _ & E)|(a0 & t & Rd & Hm & E & T)]]; rewrite E in H.
  - rewrite cbind_Err in H. injection H as <- <-. exists [], []. split; auto. left. eauto.
  - rewrite cbind_Err in H. injection H as <- <-. exists [], []. split; auto. left. eauto.
  - rewrite cbind_Ok in H. apply prep_inv in H as (e1 & H & ->). change ([] ++ e1) with e1.
    destruct (automata_table_total _ (to_valid _ _ _ T)) as (tb & Etb). rewrite Etb, lift_Ret, cbind_Ok in H.
    apply prep_inv in H as (e2 & H & ->). change ([] ++ e2) with e2.
    rewrite tell_eq, cbind_Ok in H. apply prep_inv in H as (e3 & H & ->).
    destruct (test_all_spec env args a0 t Hm T (ea_files args) (fork hs 1)) as (vs & Ev & Hvs). rewrite Ev in H. cbn [bind] in H.
    rewrite cbind_Ok in H. apply prep_inv in H as (e4 & H & ->). change ([] ++ e4) with e4.
    rewrite tell_eq, cbind_Ok in H. apply prep_inv in H as (e5 & H & ->).
    rewrite tell_eq, cbind_Ok in H. apply prep_inv in H as (e6 & H & ->). injection H as <- <-.
    replace (map (fun '(path, r) => Out (equivalence_line args path r)) (combine (ea_files args) vs))
      with (map Out (map (fun '(p, v) => equivalence_line args p v) (combine (ea_files args) vs))).
    2: { rewrite map_map. apply map_ext. intros [p v]. reflexivity. }
    match goal with |- context [logs env (of_string "Testing of " ++ ?x)] => set (t2 := of_string "Testing of " ++ x) end.
    match goal with |- context [logs env (dec ?n ++ ?x)] => set (k := n); set (t3 := dec k ++ x) end.
    rewrite !logs_noted. exists [of_string "Input loaded:"; tb; t2], [t3]. split.
    + unfold framed. rewrite !outs_app, !outs_noted, outs_Out, !app_nil_l, app_nil_r.
      change [of_string "Input loaded:"; tb; t2] with ([of_string "Input loaded:"] ++ [tb] ++ [t2]). rewrite !noted_app, <- !app_assoc. reflexivity.
    + right. split; auto. exists a0, tb, vs, k. split; [exists u; auto|]. split; [eapply tester_new_shown; eauto|]. split; [exact Hvs|].
      split; [apply (passes_count (ea_files args)); apply (Forall2_len _ _ _ Hvs)|]. rewrite <- !dec_decimal. split; reflexivity.
Qed.

Lemma op_logged hs op : exists ev r before after,
  run_operation env hs op = Ret (ev, match r with Ok a => Ok a | Err e => Err (error_prefix op ++ e) end) /\
  op_outcome env op (outs ev) (log_lines ev) r /\ warns ev = [] /\ framed ev before after /\ op_logs env op (outs ev) r before after.
Proof.
  destruct op as [args|o args|n u|ty n f|ty t a fs]; cbn [run_operation error_prefix].
  - destruct (equivalence_spec env hs args) as (ev & r & E & H & W). destruct (equivalence_logs hs args ev r E) as (b & f & F & L).
    exists ev, r, b, f. rewrite E. auto.
  - destruct (binary_op_spec env hs args o) as (ev & r & E & H & W). destruct (binary_logs hs args o ev r E W) as (b & f & F & L).
    exists ev, r, b, f. rewrite E, op_text_eq. auto.
  - destruct (enumerate_regex_spec env hs u n) as [(t & ev & ws & E & E2 & Fw & O & W)|(H & E2)];
      destruct (enumerate_regex_logs hs u n _ _ E2) as (b & f & F & L); rewrite E2; do 4 eexists.
    + instantiate (1 := f). instantiate (1 := b). instantiate (1 := Ok tt). split; [reflexivity|]. split; [right; exists (ARegex t), ws; auto|]. auto.
    + instantiate (1 := f). instantiate (1 := b). instantiate (1 := Err _). split; [reflexivity|]. split; [left; auto|]. auto.
  - destruct (enumerate_file_spec env hs ty f n) as [(a & ev & ws & H & E2 & Fw & O & W)|(m & H & E2)];
      destruct (enumerate_file_logs hs ty f n _ _ E2) as (b & f' & F & L); rewrite E2; do 4 eexists.
    + instantiate (1 := f'). instantiate (1 := b). instantiate (1 := Ok tt). split; [reflexivity|]. split; [right; exists a, ws; auto|]. auto.
    + instantiate (1 := f'). instantiate (1 := b). instantiate (1 := Err _). split; [reflexivity|]. split; [left; exists m; auto|]. auto.
  - destruct (test_files_spec env hs ty t a fs) as [(a0 & ev & r & H & E2 & R & W)|(m & H & E2)].
    + destruct (test_files_logs hs ty t a fs _ _ E2 W) as (b & f' & F & L). rewrite E2. exists ev, r, b, f'. split; auto. split; [right; exists a0; auto|]. auto.
    + destruct (test_files_logs hs ty t a fs _ _ E2 eq_refl) as (b & f' & F & L). rewrite E2. exists [], (Err m), b, f'. split; auto.
      split; [left; exists m; auto|]. auto.
Qed.
Lemma stdout_noted l : stdout_of (noted l) = if ce_log env then with_lf l else [].
Proof. unfold noted. destruct (ce_log env); auto. unfold with_lf. induction l; simpl; [auto|]. rewrite IHl. reflexivity. Qed.
Lemma stdout_Out l : stdout_of (map Out l) = with_lf l.
Proof. unfold with_lf. induction l; simpl; [auto|]. rewrite IHl. reflexivity. Qed.
Lemma with_lf_app a b : with_lf (a ++ b) = with_lf a ++ with_lf b.
Proof. unfold with_lf. rewrite map_app, concat_app. auto. Qed.
Theorem cli_main_logs hs create op :
  exists m before out after r, cli_main env hs create op = Ret m /\
    op_outcome env op out (if ce_log env then before ++ after else []) r /\ op_logs env op out r before after /\
    mr_stdout m = with_lf (if ce_log env then before ++ out ++ after else out).
Proof.
  destruct (op_logged hs op) as (ev & r & b & f & E & H & W & F & L). unfold cli_main. rewrite E. cbn [bind].
  assert (F1 : log_lines ev = if ce_log env then b ++ f else []).
  { rewrite (F : ev = _), !log_lines_app, !log_lines_noted, log_lines_Out. destruct (ce_log env); auto. }
  assert (F2 : stdout_of ev = with_lf (if ce_log env then b ++ outs ev ++ f else outs ev)).
  { rewrite (F : ev = _) at 1. unfold stdout_of at 1. rewrite !flat_map_app. fold (stdout_of (noted b)). fold (stdout_of (noted f)).
    fold (stdout_of (map Out (outs ev))). rewrite !stdout_noted, stdout_Out. destruct (ce_log env); [rewrite !with_lf_app; auto|]. apply app_nil_r. }
  eexists. exists b, (outs ev), f, r. split; [reflexivity|]. cbn [mr_stdout]. rewrite <- F1. auto.
Qed.
End Logs.

(** ** Logging changes nothing but stdout *)
Definition quietly {A} (m : Cmd A) : Cmd A :=
  '(ev, r) <- m ;; Ret (filter (fun e => match e with Log _ => false | _ => true end) ev, r).
Lemma quietly_bind {A B} (m m' : Cmd A) (f f' : A -> Cmd B) : quietly m = quietly m' -> (forall a, quietly (f a) = quietly (f' a)) ->
  quietly (cbind m f) = quietly (cbind m' f').
Proof.
  unfold quietly, cbind. intros H K. destruct m as [[e [a|x]]| |], m' as [[e' [a'|x']]| |]; cbn [bind] in *; try discriminate; try congruence.
  injection H as H <-. specialize (K a). destruct (f a) as [[e2 r2]| |], (f' a) as [[e2' r2']| |]; cbn [bind] in *; try discriminate; auto.
  injection K as K <-. rewrite !filter_app. congruence.
Qed.
Lemma quietly_logs env b b' s : quietly (tell (logs (with_log env b) s)) = quietly (tell (logs (with_log env b') s)).
Proof. destruct b, b'; reflexivity. Qed.
Lemma quietly_logs2 env b b' s s' : quietly (tell (logs (with_log env b) s ++ logs (with_log env b) s')) =
  quietly (tell (logs (with_log env b') s ++ logs (with_log env b') s')).
Proof. destruct b, b'; reflexivity. Qed.
Ltac qly := repeat first [reflexivity | apply quietly_logs | apply quietly_logs2 | apply quietly_bind; [|intros ?]
  | match goal with |- quietly (match ?x with pair _ _ => _ end) = _ => destruct x | |- quietly (if ?x then _ else _) = _ => destruct x
    | |- quietly (match ?x with Some _ => _ | None => _ end) = _ => destruct x | |- quietly (match ?x with Ok _ => _ | Err _ => _ end) = _ => destruct x
    | |- quietly (match ?x with TLines => _ | TFiles => _ end) = _ => destruct x end].
Section Quietly.
Context (env : cli_env) (b b' : bool).
Lemma quietly_enumerate hs n k : quietly (enumerate_nfa (with_log env b) hs n k) = quietly (enumerate_nfa (with_log env b') hs n k).
Proof. unfold enumerate_nfa. qly. Qed.
Lemma quietly_prepare h args k d c : quietly (prepare_input (with_log env b) h args k d c) = quietly (prepare_input (with_log env b') h args k d c).
Proof. unfold prepare_input. qly. Qed.
Lemma quietly_print h args o d : quietly (print_combined (with_log env b) h args o d) = quietly (print_combined (with_log env b') h args o d).
Proof. unfold print_combined. qly. Qed.
Lemma quietly_error {A} p (m m' : Cmd A) : quietly m = quietly m' -> quietly (with_error p m) = quietly (with_error p m').
Proof.
  unfold quietly, with_error. destruct m as [[e r]| |], m' as [[e' r']| |]; cbn [bind]; try discriminate; auto. intros [= -> ->]. auto.
Qed.
Lemma quietly_run hs op : quietly (run_operation (with_log env b) hs op) = quietly (run_operation (with_log env b') hs op).
Proof.
  destruct op; cbn [run_operation]; apply quietly_error.
  - unfold equivalence. qly.
  - rewrite !binary_op_flat. do 4 (apply quietly_bind; [reflexivity|intros ?]; try match goal with |- quietly (match ?x with pair _ _ => _ end) = _ => destruct x end).
    apply quietly_bind; [apply quietly_prepare|intros ?]. apply quietly_bind; [apply quietly_prepare|intros ?].
    apply quietly_bind; [reflexivity|intros ?]. apply quietly_bind; [reflexivity|intros ?]. apply quietly_bind; [apply quietly_print|intros ?]. reflexivity.
  - unfold enumerate_regex. apply quietly_bind; [reflexivity|intros [t|]]; [apply quietly_enumerate|reflexivity].
  - unfold enumerate_file. apply quietly_bind; [reflexivity|intros a]. apply quietly_enumerate.
  - rewrite !test_files_flat. qly.
Qed.
End Quietly.
Lemma stderr_quietly ev : stderr_of (filter (fun e => match e with Log _ => false | _ => true end) ev) = stderr_of ev.
Proof. induction ev as [|[s|s|s] ev IH]; simpl; auto. rewrite IH. auto. Qed.
Lemma sink_quietly ev : sink_of (filter (fun e => match e with Log _ => false | _ => true end) ev) = sink_of ev.
Proof. induction ev as [|[s|s|s] ev IH]; simpl; auto. rewrite IH. auto. Qed.
Theorem log_flag env b hs create op : exists m m',
  cli_main env hs create op = Ret m /\ cli_main (with_log env b) hs create op = Ret m' /\ mr_stderr m = mr_stderr m' /\ mr_file m = mr_file m'.
Proof.
  destruct (op_logged env hs op) as (ev & r & _ & _ & E & _). destruct (op_logged (with_log env b) hs op) as (ev' & r' & _ & _ & E' & _).
  pose proof (quietly_run env (ce_log env) b hs op) as Q. replace (with_log env (ce_log env)) with env in Q by (destruct env; reflexivity).
  unfold cli_main, finish. rewrite E, E' in *. cbn [quietly bind] in *. injection Q as Q1 Q2. do 2 eexists. split; [reflexivity|]. split; [reflexivity|].
  cbn [mr_stderr mr_file]. rewrite <- (stderr_quietly ev), <- (stderr_quietly ev'), <- (sink_quietly ev), <- (sink_quietly ev'), Q1, Q2. auto.
Qed.
