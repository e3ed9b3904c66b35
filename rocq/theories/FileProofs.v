(** * FileProofs: commands, the files they read and the file they write *)
From Coq Require Import Ascii String List NArith Arith Bool Lia Sorted.
From Verif Require Import Base BaseLemmas Spec TableSpec LayoutSpec DfaModel NfaModel RegexModel ValidateModel ParserModel
  TableModel RegexParserModel ApiModel Messages MessageSpec WasmModel WasmSpec CliModel CliSpec CliProofs FileModel FileSpec Prop_Table ApiProofs.
Import ListNotations.
Close Scope string_scope.
Open Scope list_scope.

(** ** Commands depend on the files they read only *)
Section Reads.
Context (env : cli_env) (rd rd' : str -> result str str).
Notation E := (with_read env rd).
Notation E' := (with_read env rd').
Lemma load_file_reads q ty : rd q = rd' q -> load_file E q ty = load_file E' q ty.
Proof. intros H. unfold load_file. cbn [ce_read with_read]. rewrite H. reflexivity. Qed.
Lemma binary_combined_reads hs args o : rd (ba_first args) = rd' (ba_first args) -> rd (ba_second args) = rd' (ba_second args) ->
  binary_combined E hs args o = binary_combined E' hs args o.
Proof. intros H1 H2. unfold binary_combined. rewrite (load_file_reads _ _ H1), (load_file_reads _ _ H2). reflexivity. Qed.
Lemma compare_reads hs args o d : (forall q, ba_compare_against args = Some q -> rd q = rd' q) ->
  compare_combined E hs args o d = compare_combined E' hs args o d.
Proof.
  intros H. unfold compare_combined. destruct (ba_compare_against args) as [q|]; [|reflexivity].
  rewrite (load_file_reads _ _ (H q eq_refl)). reflexivity.
Qed.
Lemma test_load_reads hs ty a : rd a = rd' a -> test_load E hs ty a = test_load E' hs ty a.
Proof. intros H. unfold test_load. rewrite (load_file_reads _ _ H). reflexivity. Qed.
Lemma test_each_reads nf t files : (forall q, In q files -> rd q = rd' q) -> test_each E nf t files = test_each E' nf t files.
Proof.
  induction files as [|f fs IH]; intros H; [reflexivity|]. rewrite !test_each_cons. cbn [ce_read with_read].
  rewrite (H f (or_introl eq_refl)). apply cbind_ext. intros u. change (test_one E nf t f u) with (test_one E' nf t f u).
  apply cbind_ext. intros _. apply IH. intros q Hq. apply H. right; auto.
Qed.
Lemma test_all_reads t files : forall hs, (forall q, In q files -> rd q = rd' q) -> test_all E hs t files = test_all E' hs t files.
Proof.
  induction files as [|f fs IH]; intros hs H; [reflexivity|]. cbn [test_all].
  assert (X : tester_test E (fork hs 0) t f = tester_test E' (fork hs 0) t f).
  { unfold tester_test. cbn [ce_read with_read]. rewrite (H f (or_introl eq_refl)). reflexivity. }
  rewrite X. destruct (tester_test E' (fork hs 0) t f) as [[ev r]| |]; cbn [bind]; auto.
  rewrite IH; [reflexivity|]. intros q Hq. apply H. right; auto.
Qed.
Lemma equivalence_reads hs args : rd (ea_automata args) = rd' (ea_automata args) -> (forall q, In q (ea_files args) -> rd q = rd' q) ->
  equivalence E hs args = equivalence E' hs args.
Proof.
  intros H1 H2. unfold equivalence. cbn [ce_read with_read]. rewrite H1. apply cbind_ext. intros u.
  change (tester_new E (fork hs 0) u args) with (tester_new E' (fork hs 0) u args). apply cbind_ext. intros t. apply cbind_ext. intros table.
  apply cbind_ext. intros _. rewrite (test_all_reads _ _ _ H2). reflexivity.
Qed.
Lemma enumerate_file_reads hs ty f n : rd f = rd' f -> enumerate_file E hs ty f n = enumerate_file E' hs ty f n.
Proof. intros H. unfold enumerate_file. rewrite (load_file_reads _ _ H). reflexivity. Qed.
End Reads.

(** ** Set operations, up to the comparison *)
Definition combined_outcome (env : cli_env) (args : binary_op_args) (o : set_op) (out : list str) (r : result dfa str) : Prop :=
  let ty2 := match ba_second_type args with Some t => t | None => ba_type args end in
  (exists m, load_error env (ba_first args) (ba_type args) m /\ out = [] /\ r = Err (of_string "Error reading 1: " ++ m)) \/
  (exists a1 m, loads env (ba_first args) (ba_type args) a1 /\ load_error env (ba_second args) ty2 m /\
     out = [] /\ r = Err (of_string "Error reading 2: " ++ m)) \/
  (exists a1 a2, loads env (ba_first args) (ba_type args) a1 /\ loads env (ba_second args) ty2 a2 /\
     ~ same_set (a_alphabet a1) (a_alphabet a2) /\
     out = [] /\ r = Err (of_string "Different alphabets in input DFAs, can't do product construction")) \/
  (exists a1 a2 d table ls1, loads env (ba_first args) (ba_type args) a1 /\ loads env (ba_second args) ty2 a2 /\
     same_set (a_alphabet a1) (a_alphabet a2) /\
     dfa_valid d /\ dfa_alphabet d = a_alphabet a1 /\
     (forall w, dfa_lang d w <-> set_op_spec o (a_lang a1 w) (a_lang a2 w)) /\
     (ba_minimized args = true -> minimal d) /\
     dfa_to_table d = Ret table /\ (a_alphabet a1 <> [] -> Forall legal_token (a_alphabet a1) -> loads_dfa table d) /\
     out = [table] ++ ls1 /\ enumeration o d (ba_enumerate args) ls1 /\ r = Ok d).
Lemma combined_spec env hs args o :
  exists ev r, binary_combined env hs args o = Ret (ev, r) /\ combined_outcome env args o (outs ev) r /\ warns ev = [].
Proof.
  unfold binary_combined, combined_outcome.
  destruct (load_file_spec env (ba_first args) (ba_type args)) as [(a1 & -> & H1)|(m & -> & H1)]; cmd.
  2: { do 2 eexists. split; [reflexivity|]. split; auto. left. exists m. auto. }
  destruct (into_minimized_spec env (fork hs 0) a1 (loads_valid _ _ _ _ H1)) as (d1 & c1 & -> & V1 & A1 & L1 & _ & N1). cmd.
  destruct (load_file_spec env (ba_second args) (match ba_second_type args with Some t => t | None => ba_type args end))
    as [(a2 & -> & H2)|(m & -> & H2)]; cmd.
  2: { do 2 eexists. split; [reflexivity|]. split; auto. right. left. exists a1, m. auto. }
  destruct (into_minimized_spec env (fork hs 1) a2 (loads_valid _ _ _ _ H2)) as (d2 & c2 & -> & V2 & A2 & L2 & _ & N2). cmd.
  destruct (prepare_spec env (hs [2]) args (of_string "1") c1 d1 V1) as (d1' & ev1 & E1 & V1' & A1' & L1' & N1' & O1 & W1).
  rewrite E1. clear E1. cmd.
  destruct (prepare_spec env (hs [3]) args (of_string "2") c2 d2 V2) as (d2' & ev2 & E2 & V2' & A2' & L2' & N2' & O2 & W2).
  rewrite E2. clear E2. cmd.
  destruct (set_op_correct o (hs [4]) d1' d2' V1' V2') as (r & -> & Hn & Hr). cmd.
  rewrite A1', A2', A1, A2 in Hn. destruct r as [d|]; cmd.
  2: { do 2 eexists. split; [reflexivity|]. split.
       - right. right. left. exists a1, a2. split; auto. split; auto. split; [apply Hn; auto|]. split; auto. rewrite !outs_app, O1, O2. reflexivity.
       - rewrite !warns_app, W1, W2. reflexivity. }
  destruct (Hr d eq_refl) as (V & A & L & N).
  assert (HA : same_set (a_alphabet a1) (a_alphabet a2)).
  { destruct (same_set_dec (a_alphabet a1) (a_alphabet a2)) as [X|X]; auto. apply Hn in X. discriminate. }
  destruct (print_spec env (hs [5]) args o d V) as (d' & ev3 & table & E3 & V' & A' & L' & M & Et & N' & O3 & W3). rewrite E3. clear E3. cmd.
  destruct (enumeration_spec args o d' V') as (ev4 & E4 & H4 & W4). rewrite E4. clear E4. cmd.
  do 2 eexists. split; [reflexivity|]. split.
  - right. right. right. exists a1, a2, d', table, (outs ev4). split; auto. split; auto. split; auto. split; auto.
    split; [congruence|]. split.
    + intros w. rewrite L', L. apply set_op_spec_iff; [rewrite L1'|rewrite L2']; auto.
    + split; auto. split; auto. split; [|split; auto; repeat rewrite ?outs_app; rewrite O1, O2, O3, app_nil_r; reflexivity].
      intros Hne Hl. apply table_loads; auto.
      * apply N', N; [apply N1', N1|apply N2', N2]; eapply loads_names; eauto.
      * congruence.
      * rewrite A', A, A1', A1. auto.
  - repeat rewrite ?warns_app. rewrite W1, W2, W3, W4. reflexivity.
Qed.

(** ** Every run *)
Lemma report_one env a t f o r : test_report env a t [f] o r ->
  (exists e, ce_read env f = Err e /\ o = [] /\ r = Err e) \/
  (exists u lines, ce_read env f = Ok u /\ text_lines u lines /\ file_report (ce_seg env) a t f lines o /\ r = Ok tt).
Proof.
  intros H. inversion H as [|f0 fs0 e He|f0 fs0 u lines out1 out2 r0 Hu Hl Hr H0]; subst; [left; eauto|right].
  inversion H0; subst. rewrite app_nil_r. eauto 7.
Qed.
Section Every.
Context (env : cli_env) (m : machine) (out : option str).
Let at_ w := with_read env (reading m out w).
Let af := after_writing env m out.
Lemma test_each_at nf a t : nfa_valid nf -> (forall w, nfa_lang nf w <-> a_lang a w) -> forall files w,
  exists ev r, test_each_files at_ nf t files w = Ret (ev, r) /\ test_report_files af a t w files (outs ev) r /\ warns ev = [] /\
               (ce_log env = false -> log_lines ev = []).
Proof.
  intros V L. induction files as [|f fs IH]; intros w.
  - do 2 eexists. split; [reflexivity|]. split; [constructor|auto].
  - cbn [test_each_files]. destruct (test_each_spec (at_ w) nf a t V L [f]) as (ev & r & E & H & W). rewrite E. cbn [bind].
    assert (Q : ce_log env = false -> log_lines ev = []) by (intros Hl; exact (quiet_test_each (at_ w) nf t [f] _ _ E)).
    destruct (report_one _ _ _ _ _ _ H) as [(e & He & O & ->)|(u & lines & Hu & Hl & Hr & ->)].
    + exists ev, (Err e). split; auto. rewrite O. split; [|auto]. apply trf_unreadable. exact He.
    + destruct (IH (w ++ sink_of ev)) as (ev' & r' & -> & H' & W' & Q'). cbn [bind].
      do 2 eexists. split; [reflexivity|]. rewrite outs_app, warns_app, log_lines_app, W, W'. split; [|split; auto].
      * eapply trf_file; [exact Hu|exact Hl|exact Hr|]. rewrite sink_outs in H'. exact H'.
      * intros Hlog. rewrite Q, Q'; auto.
Qed.
Lemma test_load_spec e hs ty automata :
  (exists a nf ev, loads e automata ty a /\ test_load e hs ty automata = Ret (ev, Ok nf) /\ nfa_valid nf /\ (forall w, nfa_lang nf w <-> a_lang a w) /\
     outs ev = [] /\ warns ev = []) \/
  (exists x, load_error e automata ty x /\ test_load e hs ty automata = Ret ([], Err x)).
Proof.
  unfold test_load. destruct (load_file_spec e automata ty) as [(a & -> & H)|(x & -> & H)]; cmd.
  - left. destruct (into_nfa_spec (fork hs 0) a (loads_valid _ _ _ _ H)) as (n & c & -> & V & A & L). cbn [fst].
    destruct (C49_nfa_tables_aligned n V) as ((u & _ & -> & _) & _). cmd. exists a, n. eexists. split; auto. split; [reflexivity|].
    repeat rewrite ?outs_app, ?outs_logs, ?warns_app, ?warns_logs. auto.
  - right. eauto.
Qed.
Lemma file_operation_spec hs op : exists ev r,
  file_operation env m hs out op = Ret (ev, match r with Ok a => Ok a | Err e => Err (error_prefix op ++ e) end) /\
  file_outcome env m out op (outs ev) (log_lines ev) r /\ warns ev = [] /\ (ce_log env = false -> log_lines ev = []).
Proof.
  assert (G : forall op, exists ev r,
    run_operation (at_ []) hs op = Ret (ev, match r with Ok a => Ok a | Err e => Err (error_prefix op ++ e) end) /\
    op_outcome (af []) op (outs ev) (log_lines ev) r /\ warns ev = [] /\ (ce_log env = false -> log_lines ev = [])).
  { intros op'. destruct (op_spec (at_ []) hs op') as (ev & r & E & H & W). exists ev, r. split; auto. split; [exact H|]. split; auto.
    intros Hl. exact (quiet_run (at_ []) Hl hs op' _ _ E). }
  destruct op as [args|o args|n u|ty n f|ty t a fs]; try apply G; clear G; cbn [file_outcome error_prefix]; unfold file_operation; cbv zeta; unfold with_error.
  - destruct (combined_spec (with_read env (reading m out [])) hs args o) as (ev & r & E & H & W). rewrite E. cbn [bind].
    assert (Q : ce_log env = false -> log_lines ev = []) by (intros Hl; exact (quiet_combined (with_read env (reading m out [])) Hl hs args o _ _ E)).
    destruct H as [(x & H & O & ->)|[(a1 & x & H1 & H & O & ->)|[(a1 & a2 & H1 & H2 & H & O & ->)|
      (a1 & a2 & d & table & ls1 & H1 & H2 & A & V & Ad & L & M & T & R & O & N & ->)]]]; cbn [bind].
    + exists ev, (Err (of_string "Error reading 1: " ++ x)). rewrite op_text_eq. split; auto. split; [|auto]. left. exists x. auto.
    + exists ev, (Err (of_string "Error reading 2: " ++ x)). rewrite op_text_eq. split; auto. split; [|auto]. right. left. exists a1, x. auto.
    + exists ev, (Err (of_string "Different alphabets in input DFAs, can't do product construction")). rewrite op_text_eq. split; auto. split; [|auto].
      right. right. left. exists a1, a2. auto.
    + destruct (comparison_spec (with_read env (reading m out (sink_of ev))) (fork hs 6) args o d V) as (ev' & r & E' & H' & W'). rewrite E'. cbn [bind].
      exists (ev ++ ev'), r. rewrite op_text_eq. split; auto. rewrite outs_app, warns_app, log_lines_app, W, W'. split; [|split; auto].
      * right. right. right. exists a1, a2, d, table, ls1, (outs ev'). rewrite sink_outs, O in H'. rewrite O. repeat (split; [solve [auto]|]). exact H'.
      * intros Hl. rewrite (Q Hl), (quiet_compare (with_read env (reading m out (sink_of ev))) _ _ _ _ _ _ E'). reflexivity.
  - destruct (test_load_spec (with_read env (reading m out [])) hs ty a) as [(a0 & nf & ev & H & E & V & L & O & W)|(x & H & E)]; rewrite E; cbn [bind].
    + destruct (test_each_at nf a0 t V L fs (sink_of ev)) as (ev' & r & E' & H' & W' & Q'). unfold at_ in E'. rewrite E'. cbn [bind].
      exists (ev ++ ev'), r. split; auto. rewrite outs_app, warns_app, log_lines_app, O, W, W'. split; [|split; auto].
      * right. exists a0. split; auto. rewrite sink_outs, O in H'. exact H'.
      * intros Hl. rewrite (Q' Hl), (quiet_test_load (with_read env (reading m out [])) Hl _ _ _ _ _ E). reflexivity.
    + exists [], (Err x). split; auto. split; [|auto]. left. exists x. auto.
Qed.
End Every.
Theorem file_main_spec env m hs file op : exists res m' out lg r,
  file_main env m hs file op = Ret (res, m') /\ file_outcome env m file op out lg r /\
  (exists lines, interleaved out lg lines /\ mr_stdout res = with_lf lines) /\
  (ce_log env = false -> lg = []) /\
  mr_stderr res = with_lf (match file with
                           | Some p => match m_create m p with
                                       | Err e => [of_string "Error creating output file " ++ e;
                                                   of_string "Execution will continue but no data will be written to file"]
                                       | Ok _ => []
                                       end
                           | None => []
                           end ++ match r with Err e => [error_prefix op ++ e] | Ok _ => [] end) /\
  mr_file res = match file with
                | Some p => match m_create m p with Ok _ => Some (concat out) | Err _ => None end
                | None => None
                end /\
  only_written m m' file (mr_file res).
Proof.
  destruct (file_operation_spec env m file hs op) as (ev & r & E & H & W & Q). unfold file_main. rewrite E. cbn [bind].
  do 2 eexists. exists (outs ev), (log_lines ev), r. split; [reflexivity|]. split; auto. unfold finish. cbn [mr_stdout mr_stderr mr_file].
  split; [apply stdout_interleaved; auto|]. split; auto. rewrite stderr_nil, sink_outs by auto.
  split; [unfold with_lf, println; destruct file as [p|]; [destruct (m_create m p)|]; destruct r as [[]|er]; simpl; rewrite ?app_nil_r, <- ?app_assoc; auto|].
  split; [destruct file as [p|]; [destruct (m_create m p)|]; reflexivity|].
  unfold only_written, reading. cbn. split; auto. split; auto. split.
  - intros p u -> Hc. rewrite Hc. eexists. split; [reflexivity|]. intros q ->. reflexivity.
  - intros q Hq. destruct file as [p|]; auto. destruct (m_create m p) as [u|] eqn:Hc; auto. rewrite (Hq p u eq_refl Hc). reflexivity.
Qed.

(** ** Runs that do not read the file they write *)
Lemma loads_no_error env q ty a e : loads env q ty a -> load_error env q ty e -> False.
Proof.
  intros (u & E & R). unfold load_error. rewrite E. intros [(H & _)|(x & y & H & _)]; [apply H; eapply reads_parses; eauto|eapply reads_no_defect; eauto].
Qed.
Lemma loads_unique env q ty a a' : loads env q ty a -> loads env q ty a' -> a = a'.
Proof. intros (u & E & R) (u' & E' & R'). rewrite E in E'. injection E' as <-. eapply reads_unique; eauto. Qed.
Lemma reading_apart m out op w q : apart m out op -> In q (inputs op ++ others op) -> reading m out w q = m_text m q.
Proof.
  intros A H. unfold reading. destruct out as [p|]; auto. rewrite (A p q eq_refl H). destruct (m_create m p); auto.
Qed.
Lemma test_each_apart env m out nf t : forall files w, (forall w q, In q files -> reading m out w q = m_text m q) ->
  test_each_files (fun w => with_read env (reading m out w)) nf t files w = test_each (with_read env (m_text m)) nf t files.
Proof.
  induction files as [|f fs IH]; intros w H; [reflexivity|]. cbn [test_each_files].
  rewrite (test_each_reads env (reading m out w) (m_text m)) by (intros q [<-|[]]; apply H; left; auto).
  rewrite !test_each_cons. cbn [ce_read with_read]. destruct (m_text m f) as [u|e]; [|reflexivity].
  rewrite !cret_bind. destruct (test_one (with_read env (m_text m)) nf t f u) as [[ev [[]|e]]| |]; cbn [cbind bind]; try reflexivity.
  cbn [test_each cret bind]. rewrite app_nil_r, IH; [reflexivity|]. intros w' q Hq. apply H. right; auto.
Qed.
Lemma operation_apart env m hs out op : apart m out op -> file_operation env m hs out op = run_operation (with_read env (m_text m)) hs op.
Proof.
  intros A. destruct op as [args|o args|n u|ty n f|ty t a fs]; cbn [run_operation]; unfold file_operation; cbv zeta; cbn [run_operation].
  - rewrite (equivalence_reads env (reading m out []) (m_text m)); [reflexivity| |].
    + eapply reading_apart; [exact A|]. simpl. auto.
    + intros q Hq. eapply reading_apart; [exact A|]. simpl. auto.
  - unfold binary_op, cbind. f_equal.
    rewrite (binary_combined_reads env (reading m out []) (m_text m)) by (eapply reading_apart; [exact A|]; simpl; auto).
    destruct (binary_combined _ hs args o) as [[ev [d|e]]| |]; cbn [bind]; try reflexivity.
    rewrite (compare_reads env (reading m out (sink_of ev)) (m_text m)); [reflexivity|]. intros q Hq. eapply reading_apart; [exact A|].
    cbn [inputs others]. rewrite Hq. simpl. auto.
  - reflexivity.
  - rewrite (enumerate_file_reads env (reading m out []) (m_text m)); [reflexivity|]. eapply reading_apart; [exact A|]. simpl. auto.
  - unfold test_files, cbind. f_equal.
    rewrite (test_load_reads env (reading m out []) (m_text m)) by (eapply reading_apart; [exact A|]; simpl; auto).
    destruct (test_load _ hs ty a) as [[ev [d|e]]| |]; cbn [bind]; try reflexivity.
    rewrite test_each_apart; [reflexivity|]. intros w q Hq. eapply reading_apart; [exact A|]. simpl. auto.
Qed.
Theorem main_apart env m hs out op : apart m out op -> exists res m',
  file_main env m hs out op = Ret (res, m') /\
  cli_main (on env m) hs (match out with None => None | Some p => Some (m_create m p) end) op = Ret res /\
  only_written m m' out (mr_file res).
Proof.
  intros A. destruct (file_main_spec env m hs out op) as (res & m' & o & lg & r & E & _ & _ & _ & _ & _ & W).
  exists res, m'. split; auto. split; auto. unfold file_main in E. rewrite (operation_apart _ _ _ _ _ A) in E. unfold cli_main.
  change (on env m) with (with_read env (m_text m)). destruct (run_operation (with_read env (m_text m)) hs op) as [[ev r0]| |]; try discriminate.
  cbn [bind] in *. congruence.
Qed.

(** ** The result of a set operation, read again *)
Theorem main_chain env m hs p u o args a1 a2 :
  m_create m p = Ok u -> apart m (Some p) (OpBinary o args) -> ba_enumerate args = None -> ba_compare_against args = None ->
  loads (on env m) (ba_first args) (ba_type args) a1 ->
  loads (on env m) (ba_second args) (match ba_second_type args with Some t => t | None => ba_type args end) a2 ->
  same_set (a_alphabet a1) (a_alphabet a2) -> a_alphabet a1 <> [] -> Forall legal_token (a_alphabet a1) ->
  exists res m' d, file_main env m hs (Some p) (OpBinary o args) = Ret (res, m') /\ mr_stderr res = [] /\
    (forall q, m_same m p q = true -> loads (on env m') q TDfa (ADfa d)) /\
    dfa_valid d /\ dfa_alphabet d = a_alphabet a1 /\
    (forall w, dfa_lang d w <-> set_op_spec o (a_lang a1 w) (a_lang a2 w)) /\
    (ba_minimized args = true -> minimal d).
Proof.
  intros C A Ne Nc L1 L2 S Na T. destruct (file_main_spec env m hs (Some p) (OpBinary o args)) as (res & m' & out & lg & r & E & H & _ & _ & Er & F & W).
  assert (R1 : forall q ty a, In q [ba_first args; ba_second args] -> loads (on env m) q ty a -> loads (after_writing env m (Some p) []) q ty a).
  { intros q ty a Hq (v & Ev & Rv). exists v. split; auto.
    change (reading m (Some p) [] q = Ok v). rewrite (reading_apart _ _ _ _ _ A); auto. apply in_or_app. left. exact Hq. }
  pose proof (R1 _ _ _ (or_introl eq_refl) L1) as L1'. pose proof (R1 _ _ _ (or_intror (or_introl eq_refl)) L2) as L2'.
  cbn [file_outcome] in H. destruct H as [(x & H & _)|[(b1 & x & _ & H & _)|[(b1 & b2 & H1 & H2 & H & _)|
      (b1 & b2 & d & table & ls1 & ls2 & H1 & H2 & Ab & V & Ad & L & M & Tb & R & O & N & Cm)]]].
  - exfalso. exact (loads_no_error _ _ _ _ _ L1' H).
  - exfalso. exact (loads_no_error _ _ _ _ _ L2' H).
  - exfalso. apply H. rewrite (loads_unique _ _ _ _ _ H1 L1'), (loads_unique _ _ _ _ _ H2 L2'). auto.
  - rewrite (loads_unique _ _ _ _ _ H1 L1') in *. rewrite (loads_unique _ _ _ _ _ H2 L2') in *. rewrite Ne in N. cbn [enumeration] in N. subst ls1.
    unfold comparison in Cm. rewrite Nc in Cm. destruct Cm as (-> & ->). exists res, m', d. split; auto. rewrite C in *.
    split; [rewrite Er; reflexivity|]. split; [|auto]. intros q Hq. destruct W as (_ & _ & W & _).
    destruct (W p u eq_refl C) as (v & Ev & Rv). rewrite F in Ev. injection Ev as <-. rewrite O in Rv. cbn [concat app] in Rv. rewrite app_nil_r in Rv.
    exists table. split; [exact (Rv q Hq)|]. exact (R Na T).
Qed.

(** ** Losing an input *)
Lemma empty_regex seg : seg [] = [] -> parse_regex seg [] = Ret None.
Proof. intros S. vm_compute. rewrite S. reflexivity. Qed.
Lemma empty_dfa : parse_dfa [] = Ret None. Proof. vm_compute. reflexivity. Qed.
Lemma empty_nfa : parse_nfa [] = Ret None. Proof. vm_compute. reflexivity. Qed.
Lemma empty_load env q ty : ce_read env q = Ok [] -> ce_seg env [] = [] -> exists e, load_file env q ty = Ret (Err e).
Proof.
  intros E S. unfold load_file. rewrite E. unfold cli_load. destruct ty; rewrite ?empty_dfa, ?empty_nfa, ?empty_regex by exact S; eexists; reflexivity.
Qed.
Lemma empty_tester env hs ty : ce_seg env [] = [] -> exists e, tester_load env hs [] ty = Ret (Err e).
Proof.
  intros S. unfold tester_load. destruct ty; rewrite ?empty_dfa, ?empty_nfa, ?empty_regex by exact S; eexists; reflexivity.
Qed.

Theorem main_input_lost env m hs p u op q : ce_seg env [] = [] -> m_create m p = Ok u -> In q (inputs op) -> m_same m p q = true ->
  exists res m' e, file_main env m hs (Some p) op = Ret (res, m') /\
    mr_stdout res = [] /\ mr_stderr res = error_prefix op ++ e ++ [10%N] /\ mr_file res = Some [] /\ m_text m' q = Ok [].
Proof.
  intros S C Hq Sm.
  assert (X : forall w, reading m (Some p) w q = Ok w) by (intros w; unfold reading; rewrite C, Sm; reflexivity).
  assert (K : exists e, file_operation env m hs (Some p) op = Ret ([], Err (error_prefix op ++ e))).
  { pose (E := with_read env (reading m (Some p) [])).
    assert (Y : forall ty, exists e, load_file E q ty = Ret (Err e)) by (intros ty; apply empty_load; [exact (X [])|exact S]).
    destruct op as [args|o args|n v|ty n f|ty t a fs]; cbn [inputs] in Hq; unfold file_operation; cbv zeta; cbn [run_operation error_prefix]; fold E.
    - destruct Hq as [<-|[]]. unfold equivalence. change (ce_read E (ea_automata args)) with (reading m (Some p) [] (ea_automata args)).
      rewrite X, cret_bind. unfold tester_new.
      destruct (empty_tester E (fork (fork hs 0) 0) (match ea_in_type args with Some t => t | None => ea_type args end) S) as (e & Ee). rewrite Ee.
      exists e. reflexivity.
    - rewrite op_text_eq. unfold binary_combined. destruct (load_file_spec E (ba_first args) (ba_type args)) as [(a1 & E1 & H1)|(e & E1 & H1)]; rewrite E1; cmd.
      2: { eexists. reflexivity. }
      destruct (into_minimized_spec E (fork hs 0) a1 (loads_valid _ _ _ _ H1)) as (d1 & c1 & -> & _). cmd.
      destruct Hq as [<-|[<-|[]]].
      { destruct (Y (ba_type args)) as (e & Ee). rewrite Ee in E1. discriminate. }
      destruct (Y (match ba_second_type args with Some t => t | None => ba_type args end)) as (e & ->). cmd. eexists. reflexivity.
    - destruct Hq.
    - destruct Hq as [<-|[]]. unfold enumerate_file. destruct (Y ty) as (e & ->). exists e. reflexivity.
    - destruct Hq as [<-|[]]. unfold test_load. destruct (Y ty) as (e & ->). exists e. reflexivity. }
  destruct K as (e & K). unfold file_main. rewrite K. cbn [bind]. do 2 eexists. exists e. split; [reflexivity|]. unfold finish. rewrite C.
  cbn. split; auto. split; [unfold println; rewrite <- app_assoc; reflexivity|]. split; auto.
  unfold reading. rewrite C, Sm. reflexivity.
Qed.

(** ** Comparing with the file being written *)
Theorem main_compare_self env m hs p u o args a1 a2 q :
  m_create m p = Ok u -> m_same m p (ba_first args) = false -> m_same m p (ba_second args) = false ->
  ba_enumerate args = None -> ba_compare_against args = Some q -> ba_compared_type args = TDfa -> m_same m p q = true ->
  loads (on env m) (ba_first args) (ba_type args) a1 ->
  loads (on env m) (ba_second args) (match ba_second_type args with Some t => t | None => ba_type args end) a2 ->
  same_set (a_alphabet a1) (a_alphabet a2) -> a_alphabet a1 <> [] -> Forall legal_token (a_alphabet a1) ->
  exists res m' table, file_main env m hs (Some p) (OpBinary o args) = Ret (res, m') /\ mr_stderr res = [] /\
    mr_file res = Some (table ++ op_name o ++ of_string " of the two provided " ++ type_names (ba_type args) ++
                        of_string " is EQUIVALENT to the third DFA").
Proof.
  intros C A1 A2 Ne Nc Ty Sq L1 L2 S Na T. destruct (file_main_spec env m hs (Some p) (OpBinary o args)) as (res & m' & out & lg & r & E & H & _ & _ & Er & F & W).
  assert (R1 : forall q ty a, m_same m p q = false -> loads (on env m) q ty a -> loads (after_writing env m (Some p) []) q ty a).
  { intros q' ty a Hq (v & Ev & Rv). exists v. split; auto. change (reading m (Some p) [] q' = Ok v). unfold reading. rewrite C, Hq. exact Ev. }
  pose proof (R1 _ _ _ A1 L1) as L1'. pose proof (R1 _ _ _ A2 L2) as L2'.
  cbn [file_outcome] in H. destruct H as [(x & H & _)|[(b1 & x & _ & H & _)|[(b1 & b2 & H1 & H2 & H & _)|
      (b1 & b2 & d & table & ls1 & ls2 & H1 & H2 & Ab & V & Ad & L & M & Tb & R & O & N & Cm)]]].
  - exfalso. exact (loads_no_error _ _ _ _ _ L1' H).
  - exfalso. exact (loads_no_error _ _ _ _ _ L2' H).
  - exfalso. apply H. rewrite (loads_unique _ _ _ _ _ H1 L1'), (loads_unique _ _ _ _ _ H2 L2'). auto.
  - rewrite (loads_unique _ _ _ _ _ H1 L1') in *. rewrite Ne in N. cbn [enumeration] in N. subst ls1.
    assert (X : loads (after_writing env m (Some p) (concat ([table] ++ []))) q TDfa (ADfa d)).
    { exists table. split; [|exact (R Na T)]. change (reading m (Some p) (concat ([table] ++ [])) q = Ok table). unfold reading. rewrite C, Sq.
      cbn [concat app]. rewrite app_nil_r. reflexivity. }
    unfold comparison in Cm. rewrite Nc, Ty in Cm. destruct Cm as [(x & Hx & _)|(a & b & Ha & Hb & -> & ->)].
    + exfalso. exact (loads_no_error _ _ _ _ _ X Hx).
    + rewrite (loads_unique _ _ _ _ _ Ha X) in Hb. destruct b.
      2: { exfalso. assert (false = true) by (apply Hb; split; [intros s; reflexivity|intros w; reflexivity]). discriminate. }
      exists res, m', table. split; auto. rewrite C in *. split; [rewrite Er; reflexivity|]. rewrite F, O. f_equal. cbn [app concat]. rewrite app_nil_r. reflexivity.
Qed.

(** ** Listed words, tested again *)
Lemma lines_with_lf ls : Forall (fun l => ~ In 10%N l /\ forall l', l <> l' ++ [13%N]) ls -> text_lines (with_lf ls) ls.
Proof.
  induction 1 as [|l ls (H1 & H2) _ IH]; [constructor|]. unfold with_lf in *. cbn [map concat]. rewrite <- app_assoc. apply tl_lf; auto.
Qed.
Lemma interleaved_none {A} (a c : list A) : interleaved a [] c -> c = a.
Proof. intros H. remember [] as b eqn:E. induction H; auto; [rewrite IHinterleaved; auto|discriminate]. Qed.
Lemma oks_true seg a ls oks : Forall2 (fun line (ok : bool) => ok = true <-> a_lang a (seg line)) ls oks -> (forall l, In l ls -> a_lang a (seg l)) ->
  map (fun '(line, ok) => of_string (if ok : bool then "[ OK ] " else "[FAIL] ") ++ line) (combine ls oks) =
    map (fun line => of_string "[ OK ] " ++ line) ls /\ count_occ Bool.bool_dec oks true = length ls.
Proof.
  induction 1 as [|l ok ls oks H F IH]; intros K; [auto|].
  assert (ok = true) as -> by (apply H, K; left; auto). cbn [combine map count_occ length]. destruct (Bool.bool_dec true true) as [_|N]; [|congruence].
  destruct IH as [-> ->]; auto. intros l' Hl. apply K. right; auto.
Qed.
Theorem words_pass env m hs ty n f a : ce_log env = false -> loads (on env m) f ty a ->
  (forall w, a_lang a w -> concat w <> [] /\ ce_seg env (concat w) = w /\ ~ In 10%N (concat w) /\ forall l, concat w <> l ++ [13%N]) ->
  exists res m1 k, file_main env m hs None (OpEnumerateFile ty n f) = Ret (res, m1) /\ k <= n /\ mr_stderr res = [] /\
    forall m2 hs' q, m_text m2 f = m_text m f -> m_text m2 q = Ok (mr_stdout res) ->
      exists res' m3 ls, file_main env m2 hs' None (OpTestFile ty TLines f [q]) = Ret (res', m3) /\ length ls = k /\
        mr_stdout res = with_lf ls /\
        mr_stdout res' = with_lf ([of_string "Testing file " ++ q ++ of_string ":"] ++ map (fun l => of_string "[ OK ] " ++ l) ls ++
                                  [decimal k ++ of_string "/" ++ decimal k ++ of_string " lines passed in file " ++ q ++ of_string ":"]).
Proof.
  intros Hl L K. destruct (file_main_spec env m hs None (OpEnumerateFile ty n f)) as (res & m1 & out & lg & r & E & H & (lines & I & So) & Q & Er & _).
  change (after_writing env m None []) with (on env m) in *.
  cbn [file_outcome op_outcome] in H. destruct H as [(x & H & _)|(a' & ws & Ha & F & O & ->)].
  { exfalso. exact (loads_no_error _ _ _ _ _ L H). }
  rewrite (loads_unique _ _ _ _ _ Ha L) in *. rewrite (Q Hl) in I. apply interleaved_none in I. subst lines.
  destruct F as (Hn & Hw & _).
  assert (Eo : out = map (fun w => concat w) ws).
  { rewrite O. apply map_ext_in. intros w Hi. unfold word_text. destruct (K w (Hw w Hi)) as (Kn & _). destruct (concat w); congruence. }
  exists res, m1, (length ws). split; auto. split; auto. split; [rewrite Er; reflexivity|]. intros m2 hs' q Rf Rq.
  destruct (file_main_spec env m2 hs' None (OpTestFile ty TLines f [q])) as (res' & m3 & out' & lg' & r' & E' & H' & (lines' & I' & So') & Q' & _).
  cbn [file_outcome] in H'. destruct H' as [(x & H' & _)|(a2 & Ha2 & R)].
  { exfalso. refine (loads_no_error _ _ _ _ _ _ H'). destruct L as (v & Ev & Rv). exists v. split; [|exact Rv].
    change (m_text m2 f = Ok v). rewrite Rf. exact Ev. }
  assert (a2 = a) as ->.
  { refine (loads_unique _ _ _ _ _ Ha2 _). destruct L as (v & Ev & Rv). exists v. split; [|exact Rv]. change (m_text m2 f = Ok v). rewrite Rf. exact Ev. }
  rewrite (Q' Hl) in I'. apply interleaved_none in I'. subst lines'.
  exists res', m3, out. split; auto. split; [rewrite Eo, map_length; reflexivity|]. split; auto. rewrite So'. f_equal.
  inversion R as [|w0 f0 fs0 e He|w0 f0 fs0 u lines0 out1 out2 r0 Hu Ht Hr R0]; subst.
  { change (m_text m2 q = Err e) in He. congruence. }
  change (m_text m2 q = Ok u) in Hu. rewrite Rq in Hu. injection Hu as Hu.
  inversion R0; subst. rewrite app_nil_r.
  assert (El : lines0 = map word_text ws).
  { eapply text_lines_unique; [exact Ht|]. rewrite So. apply lines_with_lf. apply Forall_forall. rewrite Eo. intros l Hi.
    apply in_map_iff in Hi as (w & <- & Hi). destruct (K w (Hw w Hi)) as (_ & _ & K1 & K2). auto. }
  cbn [file_report] in Hr. destruct Hr as (oks & Ho & ->).
  destruct (oks_true _ _ _ _ Ho) as [X1 X2].
  { rewrite El, Eo. intros l Hi. apply in_map_iff in Hi as (w & <- & Hi). destruct (K w (Hw w Hi)) as (_ & K1 & _). cbn [after_writing on ce_seg].
    rewrite K1. apply Hw; auto. }
  apply (f_equal (cons _)). refine (f_equal2 (@app _) (eq_trans X1 _) _); [rewrite El; reflexivity|].
  rewrite X2, El. repeat (rewrite map_length). reflexivity.
Qed.
