(** * ShareProofs: runs while others change the files *)
From Coq Require Import Ascii String List NArith Arith Bool Lia Sorted.
From Verif Require Import Base BaseLemmas Spec TableSpec LayoutSpec DfaModel NfaModel RegexModel ValidateModel ParserModel
  TableModel RegexParserModel ApiModel Messages MessageSpec WasmModel WasmSpec CliModel CliSpec CliProofs FileModel FileSpec FileProofs
  ShareModel ShareSpec Prop_Table ApiProofs.
Import ListNotations.
Close Scope string_scope.
Open Scope list_scope.

(** ** Numbers of reads *)
Lemma verdicts_later env seen args a0 fs vs k : verdicts env (later seen) args a0 k fs vs -> verdicts env seen args a0 (S k) fs vs.
Proof. induction 1; constructor; auto. Qed.
Lemma reports_later env seen a t k fs out r : reports env (later seen) a t k fs out r -> reports env seen a t (S k) fs out r.
Proof. induction 1; [constructor|apply rs_unreadable; auto|eapply rs_file; eauto]. Qed.
Lemma verdicts_length env seen args a0 k fs vs : verdicts env seen args a0 k fs vs -> length fs = length vs.
Proof. induction 1; simpl; auto. Qed.

(** ** Every run *)
Lemma shared_all_spec env args a0 t : (ea_minimized args = true -> ea_type args = TDfa) -> tester_ok args a0 t ->
  forall files seen hs, exists vs, test_all_shared env seen hs t files = Ret ([], combine files vs) /\ verdicts env seen args a0 0 files vs.
Proof.
  intros Hm T. induction files as [|f fs IH]; intros seen hs; cbn [test_all_shared].
  - exists []. split; [reflexivity|constructor].
  - destruct (tester_test_spec (with_read env (seen 0)) (fork hs 0) args a0 t f Hm T) as (v & -> & Hv). cbn [bind].
    destruct (IH (later seen) (fork hs 1)) as (vs & -> & Hvs). cbn [bind]. exists (v :: vs). split; auto.
    constructor; [exact Hv|]. apply verdicts_later; auto.
Qed.
Lemma shared_equivalence env seen hs args : exists ev r, equivalence_shared env seen hs args = Ret (ev, r) /\
  shared_outcome env seen (OpEquivalence args) (outs ev) (log_lines ev) r /\ warns ev = [] /\ (ce_log env = false -> log_lines ev = []).
Proof.
  unfold equivalence_shared, shared_outcome. fold (in_type args). destruct (seen 0 (ea_automata args)) as [u|e] eqn:Er.
  2: { cbn. do 2 eexists. split; [reflexivity|]. split; auto. left. exists e. auto. }
  cmd. destruct (tester_new_spec env (fork hs 0) u args) as [(m & E & H)|[(a0 & Rd & Em & Et & E)|(a0 & t & Rd & Hm & E & T)]];
    rewrite E; cmd.
  - do 2 eexists. split; [reflexivity|]. split; auto. right. left. exists u, m. auto.
  - do 2 eexists. split; [reflexivity|]. split; auto. right. right. left. exists a0. split; [exists u; auto|]. auto.
  - destruct (automata_table_total _ (to_valid _ _ _ T)) as (tb & Etb). rewrite Etb. cmd.
    destruct (shared_all_spec env args a0 t Hm T (ea_files args) (later seen) (fork hs 1)) as (vs & -> & Hvs). cbn [bind]. cmd.
    do 2 eexists. split; [reflexivity|]. split; [|split].
    + right. right. right. pose proof (verdicts_length _ _ _ _ _ _ _ Hvs) as HL.
      exists a0, vs. eexists. split; [exists u; auto|]. split; [auto|]. split; [apply verdicts_later; exact Hvs|].
      split; [apply (passes_count (ea_files args)); exact HL|]. split; [|split; [reflexivity|]].
      * repeat rewrite ?outs_app, ?outs_logs. cbn [app]. rewrite app_nil_r.
        induction (combine (ea_files args) vs) as [|[f v] l IH]; simpl; [auto|]. rewrite verdict_line_eq. f_equal. auto.
      * intros El. unfold logs. rewrite El. repeat rewrite ?log_lines_app. cbn [log_lines flat_map app].
        repeat (rewrite ?app_comm_cons, ?app_assoc, ?app_nil_r). rewrite <- !dec_decimal. eexists. reflexivity.
    + repeat rewrite ?warns_app, ?warns_logs. cbn [app warns]. rewrite app_nil_r.
      induction (combine (ea_files args) vs) as [|[f v] l IH]; simpl; auto.
    + intros El. unfold logs. rewrite El. repeat rewrite ?log_lines_app. cbn [log_lines flat_map app]. rewrite app_nil_r.
      induction (combine (ea_files args) vs) as [|[f v] l IH]; simpl; auto.
Qed.

Lemma quiet_combined_shared env seen hs args o : ce_log env = false -> quiet (combined_shared env seen hs args o).
Proof.
  intros Hl. unfold combined_shared, prepare_input, print_combined, enumerate_combined.
  repeat first
    [ apply quiet_bind; [|intros ?] | apply quiet_ret | apply quiet_fail | apply quiet_lift | apply quiet_lift_result
    | apply quiet_logs; exact Hl | apply quiet_out | apply quiet_words
    | match goal with |- quiet (match ?x with _ => _ end) => destruct x end ].
Qed.
Definition shared_combined_outcome (env : cli_env) (seen : sights) (args : binary_op_args) (o : set_op) (out : list str) (r : result dfa str) : Prop :=
  let ty2 := match ba_second_type args with Some t => t | None => ba_type args end in
  (exists m, load_error (sight env seen 0) (ba_first args) (ba_type args) m /\ out = [] /\ r = Err (of_string "Error reading 1: " ++ m)) \/
  (exists a1 m, loads (sight env seen 0) (ba_first args) (ba_type args) a1 /\ load_error (sight env seen 1) (ba_second args) ty2 m /\
     out = [] /\ r = Err (of_string "Error reading 2: " ++ m)) \/
  (exists a1 a2, loads (sight env seen 0) (ba_first args) (ba_type args) a1 /\ loads (sight env seen 1) (ba_second args) ty2 a2 /\
     ~ same_set (a_alphabet a1) (a_alphabet a2) /\
     out = [] /\ r = Err (of_string "Different alphabets in input DFAs, can't do product construction")) \/
  (exists a1 a2 d table ls1, loads (sight env seen 0) (ba_first args) (ba_type args) a1 /\ loads (sight env seen 1) (ba_second args) ty2 a2 /\
     same_set (a_alphabet a1) (a_alphabet a2) /\
     dfa_valid d /\ dfa_alphabet d = a_alphabet a1 /\
     (forall w, dfa_lang d w <-> set_op_spec o (a_lang a1 w) (a_lang a2 w)) /\
     (ba_minimized args = true -> minimal d) /\
     dfa_to_table d = Ret table /\ (a_alphabet a1 <> [] -> Forall legal_token (a_alphabet a1) -> loads_dfa table d) /\
     out = [table] ++ ls1 /\ enumeration o d (ba_enumerate args) ls1 /\ r = Ok d).
Lemma shared_combined env seen hs args o :
  exists ev r, combined_shared env seen hs args o = Ret (ev, r) /\ shared_combined_outcome env seen args o (outs ev) r /\ warns ev = [].
Proof.
  unfold combined_shared, shared_combined_outcome.
  destruct (load_file_spec (with_read env (seen 0)) (ba_first args) (ba_type args)) as [(a1 & -> & H1)|(m & -> & H1)]; cmd.
  2: { do 2 eexists. split; [reflexivity|]. split; auto. left. exists m. auto. }
  destruct (into_minimized_spec env (fork hs 0) a1 (loads_valid _ _ _ _ H1)) as (d1 & c1 & -> & V1 & A1 & L1 & _ & N1). cmd.
  destruct (load_file_spec (with_read env (seen 1)) (ba_second args) (match ba_second_type args with Some t => t | None => ba_type args end))
    as [(a2 & -> & H2)|(m & -> & H2)]; cmd.
  2: { do 2 eexists. split; [reflexivity|]. split; auto. right. left. exists a1, m. auto. }
  destruct (into_minimized_spec env (fork hs 1) a2 (loads_valid _ _ _ _ H2)) as (d2 & c2 & -> & V2 & A2 & L2 & _ & N2). cmd.
  destruct (prepare_spec env (hs [2]) args (of_string "1") c1 d1 V1) as (d1' & ev1 & E1 & V1' & A1' & L1' & N1' & O1 & W1).
  rewrite E1. clear E1. cmd.
  destruct (prepare_spec env (hs [3]) args (of_string "2") c2 d2 V2) as (d2' & ev2 & E2 & V2' & A2' & L2' & N2' & O2 & W2).
  rewrite E2. clear E2. cmd.
  destruct (set_op_correct o (hs [4]) d1' d2' V1' V2') as (r & -> & Hn & Hr). cmd.
  rewrite A1', A2', A1, A2 in Hn. destruct r as [d|]; cmd.
  2: { do 2 eexists. split; [reflexivity|]. split.
       - right. right. left. exists a1, a2. split; auto. split; auto. split; [apply Hn; auto|]. split; auto. rewrite !outs_app, O1, O2. reflexivity.
       - rewrite !warns_app, W1, W2. reflexivity. }
  destruct (Hr d eq_refl) as (V & A & L & N).
  assert (HA : same_set (a_alphabet a1) (a_alphabet a2)).
  { destruct (same_set_dec (a_alphabet a1) (a_alphabet a2)) as [X|X]; auto. apply Hn in X. discriminate. }
  destruct (print_spec env (hs [5]) args o d V) as (d' & ev3 & table & E3 & V' & A' & L' & M & Et & N' & O3 & W3). rewrite E3. clear E3. cmd.
  destruct (enumeration_spec args o d' V') as (ev4 & E4 & H4 & W4). rewrite E4. clear E4. cmd.
  do 2 eexists. split; [reflexivity|]. split.
  - right. right. right. exists a1, a2, d', table, (outs ev4). split; auto. split; auto. split; auto. split; auto.
    split; [congruence|]. split.
    + intros w. rewrite L', L. apply set_op_spec_iff; [rewrite L1'|rewrite L2']; auto.
    + split; auto. split; auto. split; [|split; auto; repeat rewrite ?outs_app; rewrite O1, O2, O3, app_nil_r; reflexivity].
      intros Hne Hl. apply table_loads; auto.
      * apply N', N; [apply N1', N1|apply N2', N2]; eapply loads_names; eauto.
      * congruence.
      * rewrite A', A, A1', A1. auto.
  - repeat rewrite ?warns_app. rewrite W1, W2, W3, W4. reflexivity.
Qed.
Lemma shared_binary env seen hs args o : exists ev r, binary_shared env seen hs args o = Ret (ev, r) /\
  shared_outcome env seen (OpBinary o args) (outs ev) (log_lines ev) r /\ warns ev = [] /\ (ce_log env = false -> log_lines ev = []).
Proof.
  unfold binary_shared. cbn [shared_outcome].
  destruct (shared_combined env seen hs args o) as (ev & r & E & H & W). rewrite E.
  assert (Q : ce_log env = false -> log_lines ev = []) by (intros Hl; exact (quiet_combined_shared env seen hs args o Hl _ _ E)).
  destruct H as [(x & H & O & ->)|[(a1 & x & H1 & H & O & ->)|[(a1 & a2 & H1 & H2 & H & O & ->)|
    (a1 & a2 & d & table & ls1 & H1 & H2 & A & V & Ad & L & M & T & R & O & N & ->)]]]; cmd.
  - exists ev, (Err (of_string "Error reading 1: " ++ x)). split; auto. split; [|auto]. left. exists x. auto.
  - exists ev, (Err (of_string "Error reading 2: " ++ x)). split; auto. split; [|auto]. right. left. exists a1, x. auto.
  - exists ev, (Err (of_string "Different alphabets in input DFAs, can't do product construction")). split; auto. split; [|auto].
    right. right. left. exists a1, a2. auto.
  - destruct (comparison_spec (with_read env (seen 2)) (fork hs 6) args o d V) as (ev' & r & E' & H' & W'). rewrite E'. cmd.
    exists (ev ++ ev'), r. split; auto. rewrite outs_app, warns_app, log_lines_app, W, W'. split; [|split; auto].
    + right. right. right. exists a1, a2, d, table, ls1, (outs ev'). rewrite O, <- app_assoc. repeat (split; [solve [auto]|]). exact H'.
    + intros Hl. rewrite (Q Hl), (quiet_compare (with_read env (seen 2)) _ _ _ _ _ _ E'). reflexivity.
Qed.

Lemma shared_each env nf a t : nfa_valid nf -> (forall w, nfa_lang nf w <-> a_lang a w) -> forall files seen,
  exists ev r, test_each_shared env seen nf t files = Ret (ev, r) /\ reports env seen a t 0 files (outs ev) r /\ warns ev = [] /\
               (ce_log env = false -> log_lines ev = []).
Proof.
  intros V L. induction files as [|f fs IH]; intros seen.
  - do 2 eexists. split; [reflexivity|]. split; [constructor|auto].
  - cbn [test_each_shared]. destruct (test_each_spec (with_read env (seen 0)) nf a t V L [f]) as (ev & r & E & H & W). rewrite E.
    assert (Q : ce_log env = false -> log_lines ev = []) by (intros Hl; exact (quiet_test_each (with_read env (seen 0)) nf t [f] _ _ E)).
    destruct (report_one _ _ _ _ _ _ H) as [(e & He & O & ->)|(u & lines & Hu & Hl & Hr & ->)]; cmd.
    + exists ev, (Err e). split; auto. rewrite O. split; [|auto]. apply rs_unreadable. exact He.
    + destruct (IH (later seen)) as (ev' & r' & -> & H' & W' & Q'). cmd.
      do 2 eexists. split; [reflexivity|]. rewrite outs_app, warns_app, log_lines_app, W, W'. split; [|split; auto].
      * eapply rs_file; [exact Hu|exact Hl|exact Hr|]. apply reports_later. exact H'.
      * intros Hlog. rewrite Q, Q'; auto.
Qed.
Lemma shared_test env seen hs ty t a fs : exists ev r, test_files_shared env seen hs ty t a fs = Ret (ev, r) /\
  shared_outcome env seen (OpTestFile ty t a fs) (outs ev) (log_lines ev) r /\ warns ev = [] /\ (ce_log env = false -> log_lines ev = []).
Proof.
  unfold test_files_shared. cbn [shared_outcome].
  destruct (test_load_spec (with_read env (seen 0)) hs ty a) as [(a0 & nf & ev & H & E & V & L & O & W)|(x & H & E)]; rewrite E; cmd.
  - destruct (shared_each env nf a0 t V L fs (later seen)) as (ev' & r & E' & H' & W' & Q'). rewrite E'. cmd.
    exists (ev ++ ev'), r. split; auto. rewrite outs_app, warns_app, log_lines_app, O, W, W'. split; [|split; auto].
    + right. exists a0. split; auto. apply reports_later. exact H'.
    + intros Hl. rewrite (Q' Hl), (quiet_test_load (with_read env (seen 0)) Hl _ _ _ _ _ E). reflexivity.
  - exists [], (Err x). split; auto. split; [|auto]. left. exists x. auto.
Qed.
Lemma shared_spec env seen hs op : exists ev r,
  shared_operation env seen hs op = Ret (ev, match r with Ok a => Ok a | Err e => Err (error_prefix op ++ e) end) /\
  shared_outcome env seen op (outs ev) (log_lines ev) r /\ warns ev = [] /\ (ce_log env = false -> log_lines ev = []).
Proof.
  destruct op as [args|o args|n u|ty n f|ty t a fs]; cbn [shared_operation error_prefix].
  - destruct (shared_equivalence env seen hs args) as (ev & r & -> & H & W). exists ev, r. auto.
  - destruct (shared_binary env seen hs args o) as (ev & r & -> & H & W). exists ev, r. rewrite op_text_eq. auto.
  - destruct (op_spec (with_read env (seen 0)) hs (OpEnumerateRegex n u)) as (ev & r & E & H & W). exists ev, r. split; [exact E|].
    split; [exact H|]. split; auto. intros Hl. exact (quiet_run (with_read env (seen 0)) Hl hs _ _ _ E).
  - destruct (op_spec (with_read env (seen 0)) hs (OpEnumerateFile ty n f)) as (ev & r & E & H & W). exists ev, r. split; [exact E|].
    split; [exact H|]. split; auto. intros Hl. exact (quiet_run (with_read env (seen 0)) Hl hs _ _ _ E).
  - destruct (shared_test env seen hs ty t a fs) as (ev & r & -> & H & W). exists ev, r. auto.
Qed.
Theorem shared_run env seen hs create op : exists res out lg r,
  shared_main env seen hs create op = Ret res /\ shared_outcome env seen op out lg r /\
  (exists lines, interleaved out lg lines /\ mr_stdout res = with_lf lines) /\
  (ce_log env = false -> lg = []) /\
  mr_stderr res = with_lf (match create with
                           | Some (Err e) => [of_string "Error creating output file " ++ e;
                                              of_string "Execution will continue but no data will be written to file"]
                           | _ => []
                           end ++ match r with Err e => [error_prefix op ++ e] | Ok _ => [] end) /\
  mr_file res = match create with Some (Ok _) => Some (concat out) | _ => None end.
Proof.
  destruct (shared_spec env seen hs op) as (ev & r & E & H & W & Q). unfold shared_main. rewrite E. cbn [bind].
  eexists. exists (outs ev), (log_lines ev), r. split; [reflexivity|]. split; auto. unfold finish. cbn [mr_stdout mr_stderr mr_file].
  split; [apply stdout_interleaved; auto|]. split; auto. rewrite stderr_nil, sink_outs by auto.
  split; [unfold with_lf, println; destruct create as [[[]|e]|]; destruct r as [[]|er]; simpl; rewrite ?app_nil_r, <- ?app_assoc; auto|].
  destruct create as [[[]|e]|]; reflexivity.
Qed.

(** ** Runs that could have been undisturbed *)
Lemma test_all_snapshot env files t : forall fs seen hs, (forall k p, nth_error fs k = Some p -> seen k p = files p) ->
  test_all_shared env seen hs t fs = test_all (with_read env files) hs t fs.
Proof.
  induction fs as [|f fs IH]; intros seen hs H; [reflexivity|]. cbn [test_all_shared test_all].
  assert (X : tester_test (with_read env (seen 0)) (fork hs 0) t f = tester_test (with_read env files) (fork hs 0) t f).
  { unfold tester_test. cbn [ce_read with_read]. rewrite (H 0 f eq_refl). reflexivity. }
  rewrite X. destruct (tester_test (with_read env files) (fork hs 0) t f) as [[ev r]| |]; cbn [bind]; auto.
  rewrite (IH (later seen)); [reflexivity|]. intros k p Hk. exact (H (S k) p Hk).
Qed.
Lemma test_each_snapshot env files nf t : forall fs seen, (forall k p, nth_error fs k = Some p -> seen k p = files p) ->
  test_each_shared env seen nf t fs = test_each (with_read env files) nf t fs.
Proof.
  induction fs as [|f fs IH]; intros seen H; [reflexivity|]. cbn [test_each_shared].
  rewrite (IH (later seen)) by (intros k p Hk; exact (H (S k) p Hk)).
  rewrite (test_each_reads env (seen 0) files) by (intros q [<-|[]]; exact (H 0 f eq_refl)).
  rewrite !test_each_cons. cbn [ce_read with_read]. destruct (files f) as [u|e]; [|reflexivity].
  rewrite !cret_bind. destruct (test_one (with_read env files) nf t f u) as [[ev [[]|e]]| |]; cbn [cbind bind]; try reflexivity.
  cbn [test_each cret bind cbind]. rewrite app_nil_r. reflexivity.
Qed.
Lemma operation_snapshot env seen hs op files : snapshot seen op files ->
  shared_operation env seen hs op = run_operation (with_read env files) hs op.
Proof.
  unfold snapshot, to_read. intros H. destruct op as [args|o args|n u|ty n f|ty t a fs]; cbn [shared_operation run_operation inputs others app] in *.
  - f_equal. unfold equivalence_shared, equivalence. cbn [ce_read with_read]. rewrite (H 0 _ eq_refl). apply cbind_ext. intros u.
    change (tester_new (with_read env files) (fork hs 0) u args) with (tester_new env (fork hs 0) u args).
    apply cbind_ext. intros t. apply cbind_ext. intros table. apply cbind_ext. intros _.
    rewrite (test_all_snapshot env files); [reflexivity|]. intros k p Hk. exact (H (S k) p Hk).
  - f_equal. unfold binary_shared, binary_op.
    assert (X : combined_shared env seen hs args o = binary_combined (with_read env files) hs args o).
    { unfold combined_shared, binary_combined. rewrite (load_file_reads env (seen 0) files) by exact (H 0 _ eq_refl).
      rewrite (load_file_reads env (seen 1) files) by exact (H 1 _ eq_refl). reflexivity. }
    rewrite X. apply cbind_ext. intros d. apply compare_reads. intros q Hq. rewrite Hq in H. exact (H 2 _ eq_refl).
  - reflexivity.
  - f_equal. apply enumerate_file_reads. exact (H 0 _ eq_refl).
  - f_equal. unfold test_files_shared, test_files. rewrite (test_load_reads env (seen 0) files) by exact (H 0 _ eq_refl).
    apply cbind_ext. intros nf. apply test_each_snapshot. intros k p Hk. exact (H (S k) p Hk).
Qed.
Theorem main_snapshot env seen hs create op files : snapshot seen op files ->
  shared_main env seen hs create op = cli_main (holding env files) hs create op.
Proof. intros H. unfold shared_main, cli_main. rewrite (operation_snapshot env seen hs op files H). reflexivity. Qed.

Lemma distinct_snapshot seen op : NoDup (to_read op) -> exists files, snapshot seen op files.
Proof.
  unfold snapshot. generalize (to_read op). intros l. revert seen. induction l as [|q l IH]; intros seen D.
  - exists (seen 0). intros [|k] p; discriminate.
  - apply NoDup_cons_iff in D as [Hn D]. destruct (IH (later seen) D) as (files & H).
    exists (fun p => if eqb p q then seen 0 p else files p). intros [|k] p Hk; cbn [nth_error] in Hk.
    + injection Hk as ->. destruct (eqb_spec p p); congruence.
    + destruct (eqb_spec p q) as [->|_]; [|exact (H k p Hk)]. exfalso. apply Hn. eapply nth_error_In; eauto.
Qed.
Theorem main_distinct env seen hs create op : NoDup (to_read op) -> exists files, snapshot seen op files /\
  shared_main env seen hs create op = cli_main (holding env files) hs create op.
Proof. intros D. destruct (distinct_snapshot seen op D) as (files & H). exists files. split; auto. apply main_snapshot; auto. Qed.

(** ** Runs that write what they read are among these *)
Lemma each_written env m out nf t : forall fs w, exists ws : nat -> str,
  test_each_shared env (fun k => reading m out (ws k)) nf t fs = test_each_files (fun w => with_read env (reading m out w)) nf t fs w.
Proof.
  induction fs as [|f fs IH]; intros w; [exists (fun _ => w); reflexivity|]. cbn [test_each_files].
  destruct (test_each (with_read env (reading m out w)) nf t [f]) as [[ev [[]|e]]| |] eqn:E.
  - destruct (IH (w ++ sink_of ev)) as (ws & Hws). exists (fun k => match k with 0 => w | S j => ws j end).
    cbn [test_each_shared]. rewrite E. cbn [cbind bind]. rewrite <- Hws. reflexivity.
  - exists (fun _ => w). cbn [test_each_shared]. rewrite E. reflexivity.
  - exists (fun _ => w). cbn [test_each_shared]. rewrite E. reflexivity.
  - exists (fun _ => w). cbn [test_each_shared]. rewrite E. reflexivity.
Qed.
Theorem main_written env m hs file op : exists ws : nat -> str, forall res m', file_main env m hs file op = Ret (res, m') ->
  shared_main env (fun k p => reading m file (ws k) p) hs (match file with None => None | Some p => Some (m_create m p) end) op = Ret res.
Proof.
  assert (S : exists ws : nat -> str, shared_operation env (fun k p => reading m file (ws k) p) hs op = file_operation env m hs file op).
  { destruct op as [args|o args|n u|ty n f|ty t a fs];
      try (exists (fun _ => []); unfold file_operation; cbv zeta; apply operation_snapshot; intros k p _; reflexivity).
    - unfold file_operation; cbv zeta. cbn [shared_operation].
      destruct (binary_combined (with_read env (reading m file [])) hs args o) as [[ev [d|e]]| |] eqn:E.
      + exists (fun k => match k with 0 | 1 => [] | _ => sink_of ev end). f_equal. unfold binary_shared.
        change (combined_shared env _ hs args o) with (binary_combined (with_read env (reading m file [])) hs args o). rewrite E. reflexivity.
      + exists (fun _ => []). f_equal. unfold binary_shared.
        change (combined_shared env _ hs args o) with (binary_combined (with_read env (reading m file [])) hs args o). rewrite E. reflexivity.
      + exists (fun _ => []). f_equal. unfold binary_shared.
        change (combined_shared env _ hs args o) with (binary_combined (with_read env (reading m file [])) hs args o). rewrite E. reflexivity.
      + exists (fun _ => []). f_equal. unfold binary_shared.
        change (combined_shared env _ hs args o) with (binary_combined (with_read env (reading m file [])) hs args o). rewrite E. reflexivity.
    - unfold file_operation; cbv zeta. cbn [shared_operation]. destruct (test_load (with_read env (reading m file [])) hs ty a) as [[ev [nf|e]]| |] eqn:E.
      + destruct (each_written env m file nf t fs (sink_of ev)) as (ws & H).
        exists (fun k => match k with 0 => [] | S j => ws j end). f_equal. unfold test_files_shared. cbv beta iota.
        change (fun p : str => reading m file [] p) with (reading m file []). rewrite E. cbn [cbind bind].
        unfold later. change (fun (k : nat) (p : str) => reading m file (ws k) p) with (fun k : nat => reading m file (ws k)). rewrite H. reflexivity.
      + exists (fun _ => []). f_equal. unfold test_files_shared. change (fun p : str => reading m file [] p) with (reading m file []). rewrite E. reflexivity.
      + exists (fun _ => []). f_equal. unfold test_files_shared. change (fun p : str => reading m file [] p) with (reading m file []). rewrite E. reflexivity.
      + exists (fun _ => []). f_equal. unfold test_files_shared. change (fun p : str => reading m file [] p) with (reading m file []). rewrite E. reflexivity. }
  destruct S as (ws & S). exists ws. intros res m' H. unfold shared_main. rewrite S. unfold file_main in H.
  destruct (file_operation env m hs file op) as [[ev r]| |]; try discriminate. cbn [bind] in *. congruence.
Qed.

(** ** Nothing else is looked at *)
Lemma test_all_same env t : forall fs seen seen' hs, (forall k p, nth_error fs k = Some p -> seen k p = seen' k p) ->
  test_all_shared env seen hs t fs = test_all_shared env seen' hs t fs.
Proof.
  induction fs as [|f fs IH]; intros seen seen' hs H; [reflexivity|]. cbn [test_all_shared].
  assert (X : tester_test (with_read env (seen 0)) (fork hs 0) t f = tester_test (with_read env (seen' 0)) (fork hs 0) t f).
  { unfold tester_test. cbn [ce_read with_read]. rewrite (H 0 f eq_refl). reflexivity. }
  rewrite X. destruct (tester_test (with_read env (seen' 0)) (fork hs 0) t f) as [[ev r]| |]; cbn [bind]; auto.
  rewrite (IH (later seen) (later seen')); [reflexivity|]. intros k p Hk. exact (H (S k) p Hk).
Qed.
Lemma test_each_same env nf t : forall fs seen seen', (forall k p, nth_error fs k = Some p -> seen k p = seen' k p) ->
  test_each_shared env seen nf t fs = test_each_shared env seen' nf t fs.
Proof.
  induction fs as [|f fs IH]; intros seen seen' H; [reflexivity|]. cbn [test_each_shared].
  rewrite (IH (later seen) (later seen')) by (intros k p Hk; exact (H (S k) p Hk)).
  rewrite (test_each_reads env (seen 0) (seen' 0)) by (intros q [<-|[]]; exact (H 0 f eq_refl)). reflexivity.
Qed.
Theorem main_same env seen seen' hs create op : (forall k p, nth_error (to_read op) k = Some p -> seen k p = seen' k p) ->
  shared_main env seen hs create op = shared_main env seen' hs create op.
Proof.
  unfold to_read, shared_main. intros H. assert (X : shared_operation env seen hs op = shared_operation env seen' hs op); [|rewrite X; reflexivity].
  destruct op as [args|o args|n u|ty n f|ty t a fs]; cbn [shared_operation inputs others app] in *.
  - f_equal. unfold equivalence_shared. rewrite (H 0 _ eq_refl). apply cbind_ext. intros u.
    apply cbind_ext. intros t. apply cbind_ext. intros table. apply cbind_ext. intros _.
    rewrite (test_all_same env t _ (later seen) (later seen')); [reflexivity|]. intros k p Hk. exact (H (S k) p Hk).
  - f_equal. unfold binary_shared.
    assert (X : combined_shared env seen hs args o = combined_shared env seen' hs args o).
    { unfold combined_shared. rewrite (load_file_reads env (seen 0) (seen' 0)) by exact (H 0 _ eq_refl).
      rewrite (load_file_reads env (seen 1) (seen' 1)) by exact (H 1 _ eq_refl). reflexivity. }
    rewrite X. apply cbind_ext. intros d. apply compare_reads. intros q Hq. rewrite Hq in H. exact (H 2 _ eq_refl).
  - reflexivity.
  - f_equal. apply enumerate_file_reads. exact (H 0 _ eq_refl).
  - f_equal. unfold test_files_shared. rewrite (test_load_reads env (seen 0) (seen' 0)) by exact (H 0 _ eq_refl).
    apply cbind_ext. intros nf. apply test_each_same. intros k p Hk. exact (H (S k) p Hk).
Qed.

(** ** A file compared with itself *)
Lemma itself env hs args f res : ce_log env = false -> ea_bool args = false -> ea_automata args = f -> ea_files args = [f] -> ea_in_type args = None ->
  cli_main env hs None (OpEquivalence args) = Ret res -> mr_stdout res <> with_lf [verdict_line args f NotEquivalent].
Proof.
  intros Hl Hb Ha Hf Ht E. destruct (cli_main_spec env hs None (OpEquivalence args)) as (m & out & lg & r & E' & H & (lines & I & So) & Q & _).
  rewrite E in E'. injection E' as <-. rewrite (Q Hl) in I. apply interleaved_none in I. subst lines. rewrite So.
  assert (N : forall l, with_lf [] <> with_lf [l]).
  { intros l X. apply (f_equal (@length _)) in X. unfold with_lf in X. cbn in X. rewrite app_nil_r, app_length in X. cbn in X. lia. }
  assert (N2 : forall v, v = Equivalent \/ v = NotMinimized -> with_lf [verdict_line args f v] <> with_lf [verdict_line args f NotEquivalent]).
  { intros v Hv X. unfold with_lf, verdict_line in X. cbn [map concat] in X. rewrite !app_nil_r in X. apply app_inj_tail in X as [X _].
    apply app_inv_head in X. rewrite Hb in X. destruct Hv as [->| ->]; discriminate. }
  cbn [op_outcome] in H. destruct H as [(e & _ & -> & _)|[(u & x & _ & _ & -> & _)|[(a0 & _ & _ & _ & -> & _)|(a0 & vs & k & L & _ & V & _ & -> & _)]]];
    try apply N.
  rewrite Hf in *. inversion V as [|f0 v fs0 vs0 Hv V0]; subst. inversion V0; subst. cbn [combine map].
  destruct L as (u & Eu & Ru). rewrite Ht in Ru. unfold verdict in Hv. rewrite Eu in Hv.
  destruct v; try (apply N2; auto).
  - contradiction.
  - exfalso. apply Hv. eapply reads_parses; eauto.
  - destruct Hv as (e & Hd & _). exfalso. eapply reads_no_defect; eauto.
  - destruct Hv as (a & Ra & S). exfalso. apply S. rewrite (reads_unique _ _ _ _ _ Ra Ru). apply same_meaning_refl.
Qed.
