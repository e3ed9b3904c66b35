(** * The command line tool: C43, C44, C50, C51, C52, C53 *)
From Coq Require Import Ascii String List NArith Arith Bool Lia.
From Verif Require Import Base BaseLemmas Spec TableSpec LayoutSpec DfaModel NfaModel RegexModel ValidateModel ParserModel TableModel
  RegexParserModel ApiModel Messages MessageSpec WasmModel WasmSpec CliModel CliSpec CliProofs Examples Prop_Dfa Prop_Nfa Prop_Regex
  Prop_RegexParser Prop_Api.
Import ListNotations.
Close Scope string_scope.
Open Scope list_scope.

(** ** C43: dandy equivalence *)
Theorem C43_equivalence : forall env hs args,
  exists ev r, equivalence env hs args = Ret (ev, r) /\ equivalence_outcome env args (outs ev) (log_lines ev) r /\ warns ev = [].
Proof. exact equivalence_spec. Qed.
Print Assumptions C43_equivalence.

(** What the verdict [Equivalent] means *)
Theorem C43_equivalent_iff : forall env args a0 file v, verdict env args a0 file v ->
  (v = Equivalent <->
   exists a, loads env file (ea_type args) a /\ same_meaning a0 a /\
             (ea_minimized args = true -> exists d, a = ADfa d /\ minimal d)).
Proof.
  intros env args a0 file v V. unfold verdict in V. unfold loads. destruct (ce_read env file) as [u|e].
  2: { subst v. split; [discriminate|]. intros (a & (u & E & _) & _). discriminate. }
  split.
  - intros ->. destruct V as (a & R & S & M). exists a. split; eauto.
  - intros (a & (u' & [= <-] & R) & S & M). destruct v; try contradiction; auto; exfalso.
    + destruct V as (V & _). apply V. eapply reads_parses; eauto.
    + destruct V as (e & V & _). eapply reads_no_defect; eauto.
    + destruct V as (a' & R' & V). rewrite (reads_unique _ _ _ _ _ R R') in *. auto.
    + destruct V as (Em & d & R' & _ & V). destruct (M Em) as (d' & -> & M').
      pose proof (reads_unique _ _ _ _ _ R R') as [= <-]. auto.
Qed.
Print Assumptions C43_equivalent_iff.

(** The other verdicts *)
Theorem C43_other_verdicts : forall env args a0 file v, verdict env args a0 file v ->
  (forall m, v = FailedToRead m -> ce_read env file = Err m) /\
  ((exists m, v = FailedToParse m) <-> exists u, ce_read env file = Ok u /\ ~ text_parses (ce_seg env) (ea_type args) u) /\
  ((exists m, v = FailedToValidate m) <-> exists u e, ce_read env file = Ok u /\ text_defect (ea_type args) u e) /\
  (forall m, v = FailedToValidate m -> exists u e, ce_read env file = Ok u /\ text_defect (ea_type args) u e /\ describes e m) /\
  (v = NotEquivalent <-> exists a, loads env file (ea_type args) a /\ ~ same_meaning a0 a).
Proof.
  intros env args a0 file v V. unfold verdict in V. unfold loads. destruct (ce_read env file) as [u|e].
  2: { subst v. split; [congruence|]. split; [|split; [|split; [discriminate|]]]; (split; [try discriminate; intros (? & ?); discriminate|]).
       - intros (? & ? & _). discriminate.
       - intros (? & ? & ? & _). discriminate.
       - intros (? & (? & ? & _) & _). discriminate. }
  assert (X : forall P : Prop, (exists u', Ok (E := str) u = Ok u' /\ ~ text_parses (ce_seg env) (ea_type args) u') ->
              (exists a, reads (ce_seg env) (ea_type args) u a) -> P).
  { intros P (u' & [= <-] & H) (a & R). exfalso. apply H. eapply reads_parses; eauto. }
  assert (Y : forall P : Prop, (exists u' e, Ok (E := str) u = Ok u' /\ text_defect (ea_type args) u' e) ->
              (exists a, reads (ce_seg env) (ea_type args) u a) -> P).
  { intros P (u' & e & [= <-] & H) (a & R). exfalso. eapply reads_no_defect; eauto. }
  assert (Z : forall e, text_defect (ea_type args) u e -> text_parses (ce_seg env) (ea_type args) u).
  { intros e He. destruct (ea_type args); simpl in *; [destruct He as (t & T & _); eauto|destruct He as (t & T & _); eauto|contradiction]. }
  destruct v; try contradiction; (split; [discriminate|]).
  - destruct V as (V & ->). split; [|split; [|split; [discriminate|]]].
    + split; eauto.
    + split; [intros (? & [=])|]. intros (u' & e & [= <-] & D). exfalso. eauto.
    + split; [discriminate|]. intros (a & (u' & [= <-] & R) & _). exfalso. apply V. eapply reads_parses; eauto.
  - destruct V as (e & V & V'). split; [|split; [|split; [intros m [= <-]; eauto|]]].
    + split; [intros (? & [=])|]. intros (u' & [= <-] & D). exfalso. eauto.
    + split; [intros _|]; eauto.
    + split; [discriminate|]. intros (a & (u' & [= <-] & R) & _). exfalso. eapply reads_no_defect; eauto.
  - destruct V as (a & R & V). split; [|split; [|split; [discriminate|]]].
    + split; [intros (? & [=])|]. intros H. apply X; eauto.
    + split; [intros (? & [=])|]. intros H. apply Y; eauto.
    + split; auto. intros _. exists a. split; eauto.
  - destruct V as (_ & d & R & S & _). split; [|split; [|split; [discriminate|]]].
    + split; [intros (? & [=])|]. intros H. apply X; eauto.
    + split; [intros (? & [=])|]. intros H. apply Y; eauto.
    + split; [discriminate|]. intros (a & (u' & [= <-] & R') & N). rewrite (reads_unique _ _ _ _ _ R R') in *. contradiction.
  - destruct V as (a & R & S & _). split; [|split; [|split; [discriminate|]]].
    + split; [intros (? & [=])|]. intros H. apply X; eauto.
    + split; [intros (? & [=])|]. intros H. apply Y; eauto.
    + split; [discriminate|]. intros (a' & (u' & [= <-] & R') & N). rewrite (reads_unique _ _ _ _ _ R R') in *. contradiction.
Qed.
Print Assumptions C43_other_verdicts.

(** ** C44: the set operations *)
Theorem C44_binary_op : forall env hs args o,
  exists ev r, binary_op env hs args o = Ret (ev, r) /\ binary_outcome env args o (outs ev) r /\ warns ev = [].
Proof. exact binary_op_spec. Qed.
Print Assumptions C44_binary_op.

(** The alphabets of tables can be printed in tables, so the printed table is always readable if the inputs are tables with an
    element *)
Theorem C44_tables_are_legal : forall env path ty a, loads env path ty a -> ty <> TRegex -> Forall legal_token (a_alphabet a).
Proof. exact loads_alphabet_legal. Qed.
Print Assumptions C44_tables_are_legal.

(** Otherwise it need not be *)
Definition ex_env (files : list (str * str)) (log : bool) : cli_env :=
  {| ce_read := fun p => match find (fun '(q, _) => eqb p q) files with Some (_, u) => Ok u | None => Err (of_string "not found") end;
     ce_nom_display := fun _ _ => of_string "nom"; ce_nom_debug := fun _ _ => of_string "Nom"; ce_seg := singles;
     ce_dbg := true; ce_log := log; ce_millis := 5 |}.
Definition ex_orders : orders := fun l => if Nat.even (list_sum l) then id_order else rev_order.
Theorem C44_readable_table_refuted : exists env args table ev,
  binary_op env ex_orders args OUnion = Ret (ev, Ok tt) /\ outs ev = [table] /\ parse_dfa table = Ret None.
Proof.
  exists (ex_env [(of_string "r", of_string "#")] false).
  exists (mk_binary_op_args TRegex None TDfa false None (of_string "r") (of_string "r") None).
  eexists. eexists. split; [vm_compute; reflexivity|]. split; vm_compute; reflexivity.
Qed.
Print Assumptions C44_readable_table_refuted.

(** ** C50: dandy enumerate-regex and dandy enumerate *)
Theorem C50_enumerate_regex : forall env hs u n,
  exists ev r, enumerate_regex env hs u n = Ret (ev, r) /\ op_outcome env (OpEnumerateRegex n u) (outs ev) (log_lines ev) r /\ warns ev = [].
Proof.
  intros env hs u n. destruct (enumerate_regex_spec env hs u n) as [(t & ev & ws & E & -> & F & O & W)|(H & ->)]; do 2 eexists.
  - split; [reflexivity|]. split; auto. right. exists (ARegex t), ws. auto.
  - split; [reflexivity|]. split; auto. left. auto.
Qed.
Print Assumptions C50_enumerate_regex.
Theorem C50_enumerate_file : forall env hs ty file n,
  exists ev r, enumerate_file env hs ty file n = Ret (ev, r) /\ op_outcome env (OpEnumerateFile ty n file) (outs ev) (log_lines ev) r /\
               warns ev = [].
Proof.
  intros env hs ty file n. destruct (enumerate_file_spec env hs ty file n) as [(a & ev & ws & H & -> & F & O & W)|(m & H & ->)]; do 2 eexists.
  - split; [reflexivity|]. split; auto. right. exists a, ws. auto.
  - split; [reflexivity|]. split; auto. left. exists m. auto.
Qed.
Print Assumptions C50_enumerate_file.
(** "The first [n] words in shortlex order" determines the list. *)
Theorem C50_first_words_unique : forall al L n ws ws', NoDup al -> first_words al L n ws -> first_words al L n ws' -> ws = ws'.
Proof. exact first_words_unique. Qed.
Print Assumptions C50_first_words_unique.
Theorem C50_alphabet_distinct : forall env path ty a, loads env path ty a -> NoDup (a_alphabet a).
Proof.
  intros env path ty a H. pose proof (loads_valid _ _ _ _ H) as V. destruct a as [d|n|t]; simpl in *; [apply V|apply V|].
  rewrite <- (C36_alphabet id_order t). apply (C36_valid id_order t).
Qed.
Print Assumptions C50_alphabet_distinct.

(** ** C51: dandy test-file *)
Theorem C51_test_files : forall env hs ty t automata files,
  exists ev r, test_files env hs ty t automata files = Ret (ev, r) /\
    op_outcome env (OpTestFile ty t automata files) (outs ev) (log_lines ev) r /\ warns ev = [].
Proof.
  intros env hs ty t a fs. destruct (test_files_spec env hs ty t a fs) as [(a0 & ev & r & H & -> & R & W)|(m & H & ->)]; do 2 eexists.
  - split; [reflexivity|]. split; auto. right. exists a0. auto.
  - split; [reflexivity|]. split; auto. left. exists m. auto.
Qed.
Print Assumptions C51_test_files.
(** A text has only one list of lines. *)
Theorem C51_lines_unique : forall u ls ls', text_lines u ls -> text_lines u ls' -> ls = ls'.
Proof. exact text_lines_unique. Qed.
Print Assumptions C51_lines_unique.

(** ** C52: the shown parts of paths *)
Theorem C52_relative_partial : forall cs n, Forall component cs -> n <> 0 ->
  last_n_components (slashed cs) (Some n) = Some (slashed (last_n n cs)).
Proof. exact last_n_relative. Qed.
Print Assumptions C52_relative_partial.
Theorem C52_absolute_partial : forall cs n, Forall component cs -> n <> 0 -> n <= length cs ->
  last_n_components ([47%N] ++ slashed cs) (Some n) = Some (slashed (last_n n cs)).
Proof. exact last_n_absolute. Qed.
Print Assumptions C52_absolute_partial.
Theorem C52_all_and_none : forall path, last_n_components path None = Some path /\ last_n_components path (Some 0) = None.
Proof. split; reflexivity. Qed.
Print Assumptions C52_all_and_none.
(** For an absolute path with fewer components than asked for, only the root directory is shown, and nothing of the path. *)
Theorem C52_long_refuted : forall cs n, Forall component cs -> length cs < n -> last_n_components ([47%N] ++ slashed cs) (Some n) = Some [47%N].
Proof. exact last_n_absolute_all. Qed.
Print Assumptions C52_long_refuted.
(** Such components exist *)
Example C52_example : last_n_components (of_string "/home/user/a.dfa") (Some 2) = Some (of_string "user/a.dfa") /\
  last_n_components (of_string "x/y.d/z") (Some 5) = Some (of_string "x/y.d/z") /\
  last_n_components (of_string "/home/user/a.dfa") (Some 4) = Some (of_string "/").
Proof. repeat split; vm_compute; reflexivity. Qed.
Example C52_hypotheses : of_string "/home/user/a.dfa" = [47%N] ++ slashed [of_string "home"; of_string "user"; of_string "a.dfa"] /\
  Forall component [of_string "home"; of_string "user"; of_string "a.dfa"].
Proof.
  split; [reflexivity|]. repeat constructor; try discriminate; cbn; intros H; repeat destruct H as [H|H]; try discriminate; auto.
Qed.

(** ** C53: what reaches the terminal and the file of --out *)
Theorem C53_main_partial : forall env hs create op,
  exists m out lg r, cli_main env hs create op = Ret m /\ op_outcome env op out lg r /\
    (exists lines, interleaved out lg lines /\ mr_stdout m = with_lf lines) /\
    (ce_log env = false -> lg = []) /\
    mr_stderr m = with_lf (match create with
                           | Some (Err e) => [of_string "Error creating output file " ++ e;
                                              of_string "Execution will continue but no data will be written to file"]
                           | _ => []
                           end ++ match r with Err e => [error_prefix op ++ e] | Ok _ => [] end) /\
    mr_file m = match create with Some (Ok _) => Some (concat out) | _ => None end.
Proof. exact cli_main_spec. Qed.
Print Assumptions C53_main_partial.
(** The file does not contain the lines of the terminal: they are written without their line feeds. *)
Theorem C53_same_lines_refuted : exists env op m f, ce_log env = false /\ cli_main env ex_orders (Some (Ok tt)) op = Ret m /\
  mr_file m = Some f /\ mr_stdout m = of_string "(empty word)" ++ [10%N] ++ of_string "a" ++ [10%N] /\ f = of_string "(empty word)a".
Proof.
  exists (ex_env [] false), (OpEnumerateRegex 2 (of_string "a*")). eexists. eexists. split; [reflexivity|].
  split; [vm_compute; reflexivity|]. split; [vm_compute; reflexivity|]. split; vm_compute; reflexivity.
Qed.
Print Assumptions C53_same_lines_refuted.

(** The file and the terminal agree exactly when nothing is printed. *)
Theorem C53_same_only_if_empty : forall env hs op m f, cli_main env hs (Some (Ok tt)) op = Ret m -> mr_file m = Some f ->
  (f = mr_stdout m <-> mr_stdout m = []).
Proof.
  intros env hs op m f E F. destruct (cli_main_spec env hs (Some (Ok tt)) op) as (m' & out & lg & r & E' & _ & (lines & I & So) & _ & _ & Sf).
  rewrite E in E'. injection E' as <-. rewrite F in Sf. injection Sf as ->. rewrite So. split.
  - intros C. destruct lines as [|x lines]; [reflexivity|exfalso]. apply (f_equal (@length N)) in C. revert C.
    pose proof (interleaved_length _ _ _ I) as L. rewrite with_lf_length. cbn [length] in *. lia.
  - intros C. destruct lines as [|x lines]; [inversion I; reflexivity|destruct x; discriminate C].
Qed.
Print Assumptions C53_same_only_if_empty.

(** ** Examples *)
Definition ex_files : list (str * str) :=
  [(of_string "re", of_string "((a|b)(a|b))*"); (of_string "even", ex_text_even); (of_string "ab", of_string "(a|b)*ab");
   (of_string "big", of_string " a b" ++ [10%N] ++ of_string "-> * e o o" ++ [10%N] ++ of_string "o f f" ++ [10%N] ++ of_string "* f o o");
   (of_string "bad", of_string " a b" ++ [10%N] ++ of_string "-> * e o x"); (of_string "junk", of_string "{");
   (of_string "tests", of_string "ab" ++ [10%N] ++ of_string "aba" ++ [13; 10]%N ++ of_string "bb")].
Example C43_example : exists ev,
  equivalence (ex_env ex_files false) ex_orders
    (mk_equivalence_args (Some TRegex) TDfa true false (Some 1) (of_string "re")
       [of_string "even"; of_string "big"; of_string "bad"; of_string "junk"; of_string "none"]) = Ret (ev, Ok tt) /\
  outs ev = [of_string "even: Equivalent"; of_string "big: Equivalent but not minimized";
             of_string "bad: Failed to validate (State 'o' does not exist (in transition from state 'e'))";
             of_string "junk: Failed to parse (nom)"; of_string "none: Failed to read (not found)"].
Proof. eexists. split; vm_compute; reflexivity. Qed.
Example C43_example_not : exists ev,
  equivalence (ex_env ex_files true) ex_orders
    (mk_equivalence_args None TRegex false true (Some 0) (of_string "re") [of_string "re"; of_string "ab"]) = Ret (ev, Ok tt) /\
  outs ev = [of_string "true"; of_string "false"].
Proof. eexists. split; vm_compute; reflexivity. Qed.
Example C44_example : exists ev table,
  binary_op (ex_env ex_files false) ex_orders
    (mk_binary_op_args TDfa (Some TRegex) TRegex true (Some 2) (of_string "even") (of_string "ab") (Some (of_string "ab"))) OIntersection
  = Ret (ev, Ok tt) /\
  outs ev = [table; of_string "First 2 words in the language of the intersection:"; of_string "ab"; of_string "aaab";
             of_string "Intersection of the two provided DFAs is NOT EQUIVALENT to the third Regex"].
Proof. do 2 eexists. split; vm_compute; reflexivity. Qed.
Example C50_example : exists ev,
  enumerate_file (ex_env ex_files false) ex_orders TDfa (of_string "even") 4 = Ret (ev, Ok tt) /\
  outs ev = [of_string "(empty word)"; of_string "aa"; of_string "ab"; of_string "ba"].
Proof. eexists. split; vm_compute; reflexivity. Qed.
Example C51_example : exists ev ev',
  test_files (ex_env ex_files false) ex_orders TRegex TLines (of_string "ab") [of_string "tests"] = Ret (ev, Ok tt) /\
  outs ev = [of_string "Testing file tests:"; of_string "[ OK ] ab"; of_string "[FAIL] aba"; of_string "[FAIL] bb";
             of_string "1/3 lines passed in file tests:"] /\
  test_files (ex_env ex_files false) ex_orders TRegex TFiles (of_string "ab") [of_string "tests"; of_string "none"] =
    Ret (ev', Err (of_string "not found")) /\
  outs ev' = [of_string "[FAIL] tests failed on aba"].
Proof. do 2 eexists. split; [vm_compute; reflexivity|]. split; [vm_compute; reflexivity|]. split; vm_compute; reflexivity. Qed.
