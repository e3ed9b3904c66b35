(** * Prop_Args: the command line of dandy-cli (C85) *)
From Coq Require Import Ascii String List NArith Arith Bool Permutation.
From Verif Require Import Base Spec TableSpec TableModel Messages MessageSpec ApiModel CliModel CliSpec FileModel ArgsModel ArgsSpec ArgsProofs ArgsUses.
Import ListNotations.
Close Scope string_scope.
Open Scope list_scope.

(** A command line is accepted if and only if it asks for a run, and then this run is made. *)
Theorem C85_exact : forall argv a, parse_args argv = Some a <-> asks_for argv a.
Proof. exact parse_args_spec. Qed.
Print Assumptions C85_exact.

(** It asks for at most one run. *)
Theorem C85_unambiguous : forall argv a b, asks_for argv a -> asks_for argv b -> a = b.
Proof. intros argv a b Ha Hb. apply parse_args_spec in Ha, Hb. congruence. Qed.
Print Assumptions C85_unambiguous.

(** Every run with numbers below 2^64 and without empty paths can be asked for, and no other. *)
Theorem C85_every_run : forall a, possible a <-> exists argv, parse_args argv = Some a.
Proof.
  intros a. split.
  - intros P. exists (arguments a). apply parse_args_spec, every_run, P.
  - intros (argv & E). apply parse_args_spec in E. eapply asked_possible; eauto.
Qed.
Print Assumptions C85_every_run.
Theorem C85_written : forall a, possible a -> parse_args (arguments a) = Some a.
Proof. intros a P. apply parse_args_spec, every_run, P. Qed.
Print Assumptions C85_written.

(** The order of options, and how each of them is written, does not matter. *)
Theorem C85_order : forall op argv argv' rest rest' gs gs' cgs cgs' ps,
  writes_program program_options gs (command_name op) rest argv -> writes_program program_options gs' (command_name op) rest' argv' ->
  Permutation gs gs' ->
  writes_command (command_options op) cgs ps rest -> writes_command (command_options op) cgs' ps rest' ->
  Permutation cgs cgs' -> parse_args argv = parse_args argv'.
Proof.
  intros op argv argv' rest rest' gs gs' cgs cgs' ps W W' P Wc Wc' Pc.
  destruct (parse_args argv) as [a|] eqn:E.
  - apply parse_args_spec in E. symmetry. apply parse_args_spec. eapply (order_irrelevant op argv argv'); eauto.
  - destruct (parse_args argv') as [a|] eqn:E'; auto. apply parse_args_spec in E'.
    assert (H : parse_args argv = Some a); [|congruence]. apply parse_args_spec.
    eapply (order_irrelevant op argv' argv); eauto using Permutation_sym.
Qed.
Print Assumptions C85_order.

(** Without options, the defaults: DFAs, 20 words of an expression and 30 of a file, all lines, the whole path. *)
Theorem C85_defaults : forall f f2 f3 fs o r,
  (forall p, In p (f :: f2 :: f3 :: fs) -> plain_argument p /\ p <> []) -> plain_argument r ->
  let run op := Some (mk_dandy_args None false op) in
  let set_op c := OpBinary o (mk_binary_op_args TDfa None TDfa false None f f2 c) in
  parse_args (of_string "equivalence" :: f :: fs) = run (OpEquivalence (mk_equivalence_args None TDfa false false None f fs)) /\
  parse_args [command_name (set_op None); f; f2] = run (set_op None) /\
  parse_args [command_name (set_op None); f; f2; f3] = run (set_op (Some f3)) /\
  parse_args [of_string "enumerate-regex"; r] = run (OpEnumerateRegex 20 r) /\
  parse_args [of_string "enumerate"; f] = run (OpEnumerateFile TDfa 30 f) /\
  parse_args (of_string "test-file" :: f :: fs) = run (OpTestFile TDfa TLines f fs).
Proof.
  intros f f2 f3 fs o r H Hr run set_op.
  assert (D : @value_or automata_type reads_type TDfa [] "type" TDfa) by (right; split; [intros v []|reflexivity]).
  assert (F : forall l, flag_is [] l false) by (intros l; split; [discriminate|intros []]).
  split; [|split; [|split; [|split; [|split]]]].
  - apply (no_options (OpEquivalence (mk_equivalence_args None TDfa false false None f fs)) (f :: fs)).
    + intros p [<- | Hp]; apply H; simpl; auto.
    + split; [intros v []|]. split; [exact D|]. split; [apply F|]. split; [apply F|]. split; [intros v []|]. split; [reflexivity|].
      intros p [<- | Hp]; apply H; simpl; auto.
  - apply (no_options (set_op None) [f; f2]).
    + intros p [<- | [<- | []]]; apply H; simpl; auto.
    + split; [exact D|]. split; [intros v []|]. split; [right; split; [intros v []|reflexivity]|]. split; [apply F|].
      split; [intros v []|]. split; [reflexivity|].
      intros p [<- | [<- | []]]; apply H; simpl; auto.
  - apply (no_options (set_op (Some f3)) [f; f2; f3]).
    + intros p [<- | [<- | [<- | []]]]; apply H; simpl; auto.
    + split; [exact D|]. split; [intros v []|]. split; [right; split; [intros v []|reflexivity]|]. split; [apply F|].
      split; [intros v []|]. split; [reflexivity|].
      intros p [<- | [<- | [<- | []]]]; apply H; simpl; auto.
  - apply (no_options (OpEnumerateRegex 20 r) [r]); [intros p [<- | []]; exact Hr|].
    split; [right; split; [intros v []|reflexivity]|reflexivity].
  - apply (no_options (OpEnumerateFile TDfa 30 f) [f]); [intros p [<- | []]; apply H; simpl; auto|].
    split; [exact D|]. split; [right; split; [intros v []|reflexivity]|]. split; [reflexivity|]. apply H. simpl; auto.
  - apply (no_options (OpTestFile TDfa TLines f fs) (f :: fs)).
    + intros p [<- | Hp]; apply H; simpl; auto.
    + split; [exact D|]. split; [right; split; [intros v []|reflexivity]|]. split; [reflexivity|]. intros p [<- | Hp]; apply H; simpl; auto.
Qed.
Print Assumptions C85_defaults.

(** Before two hyphens, an option that the command does not know is never taken for something else. *)
Theorem C85_unknown_option : forall op gs argv before l after,
  writes_program program_options gs (command_name op) (before ++ (hyphen :: hyphen :: l) :: after) argv ->
  ~ In [hyphen; hyphen] before -> l <> [] ->
  (forall n c b, command_options op n c b -> l <> n /\ forall v, l <> n ++ equals :: v) ->
  parse_args argv = None.
Proof.
  intros op gs argv before l after W Nb Nl U. destruct (parse_args argv) as [a|] eqn:E; auto. exfalso.
  apply parse_args_spec in E. eapply (unknown_option op); eauto.
Qed.
Print Assumptions C85_unknown_option.

(** The whole program: a command line that asks for no run does nothing; any other makes the run, with or without log lines. *)
Theorem C85_program : forall env m hs argv,
  (forall a, asks_for argv a -> exists env',
     dandy env m hs argv = Some (file_main env' m hs (da_out a) (da_command a)) /\
     ce_log env' = negb (da_no_log a) /\ ce_read env' = ce_read env /\ ce_nom_display env' = ce_nom_display env /\
     ce_nom_debug env' = ce_nom_debug env /\ ce_seg env' = ce_seg env /\ ce_dbg env' = ce_dbg env /\ ce_millis env' = ce_millis env) /\
  ((forall a, ~ asks_for argv a) -> dandy env m hs argv = None).
Proof.
  intros env m hs argv. split.
  - intros a H. apply parse_args_spec in H. eexists. unfold dandy. rewrite H. simpl. split; [reflexivity|]. auto 8.
  - intros H. unfold dandy. destruct (parse_args argv) as [a|] eqn:E; auto. apply parse_args_spec in E. exfalso. eapply H; eauto.
Qed.
Print Assumptions C85_program.

(** ** Examples *)
Definition line (s : list string) : list str := map of_string s.
(** dandy-cli/src/main.rs:20 *)
Example C85_documented :
  parse_args (line ["equivalence"; "--in-type"; "nfa"; "--minimized"; "tests/nfa1.nfa"; "a.dfa"; "b.dfa"]%string) =
  Some (mk_dandy_args None false (OpEquivalence (mk_equivalence_args (Some TNfa) TDfa true false None (of_string "tests/nfa1.nfa")
    (line ["a.dfa"; "b.dfa"]%string)))).
Proof. vm_compute. reflexivity. Qed.
(** the same run, written in another way *)
Example C85_another_way :
  parse_args (line ["equivalence"; "tests/nfa1.nfa"; "-minfa"; "a.dfa"; "--"; "b.dfa"]%string) =
  parse_args (line ["equivalence"; "--in-type"; "nfa"; "--minimized"; "tests/nfa1.nfa"; "a.dfa"; "b.dfa"]%string).
Proof. vm_compute. reflexivity. Qed.
(** [--out] belongs before the command; options are not repeated; numbers are not negative; [-t] of test-file is the type of the test *)
Example C85_refused :
  map parse_args (map line
    [["union"; "--out=x"; "a"; "b"]; ["union"; "-m"; "a"; "b"; "-m"]; ["enumerate"; "-a"; "-1"; "f"]; ["test-file"; "-t"; "dfa"; "f"];
     ["union"; "a"]; ["union"; "--type=DFA"; "a"; "b"]; ["--out"; "union"; "a"; "b"]; ["union"; "--minimized=true"; "a"; "b"];
     ["enumerate"; "-a"; "18446744073709551616"; "f"]; ["enumerate"; ""]; ["--"; "union"; "a"; "b"]; []; ["help"]; ["union"; "-h"]]%string) =
  repeat None 14.
Proof. vm_compute. reflexivity. Qed.
Example C85_accepted :
  map parse_args (map line
    [["-o"; "union"; "union"; "-"; "b"]; ["--less-logs"; "-ox"; "enumerate-regex"; "-n=+007"; ""]; ["test-file"; "-tfiles"; "--"; "-x"; "--type"]]%string) =
  [Some (mk_dandy_args (Some (of_string "union")) false (OpBinary OUnion (mk_binary_op_args TDfa None TDfa false None (of_string "-") (of_string "b") None)));
   Some (mk_dandy_args (Some (of_string "x")) true (OpEnumerateRegex 7 []));
   Some (mk_dandy_args None false (OpTestFile TDfa TFiles (of_string "-x") [of_string "--type"]))].
Proof. vm_compute. reflexivity. Qed.
(** the hypotheses of the theorems *)
Example C85_possible_example :
  possible (mk_dandy_args (Some (of_string "x")) true (OpEnumerateFile TNfa 7 (of_string "--f"))) /\
  arguments (mk_dandy_args (Some (of_string "x")) true (OpEnumerateFile TNfa 7 (of_string "--f"))) =
  line ["--out=x"; "--less-logs"; "enumerate"; "--type=nfa"; "--amount=7"; "--"; "--f"]%string.
Proof. split; [|reflexivity]. split; [discriminate|]. split; [reflexivity|discriminate]. Qed.
Example C85_order_example :
  writes_command (command_options (OpBinary OUnion (mk_binary_op_args TDfa None TDfa true (Some 3) (of_string "a") (of_string "b") None)))
    [(of_string "minimized", None); (of_string "enumerate", Some (of_string "3"))] (line ["a"; "b"]%string) (line ["a"; "-me3"; "b"]%string) /\
  writes_command (command_options (OpBinary OUnion (mk_binary_op_args TDfa None TDfa true (Some 3) (of_string "a") (of_string "b") None)))
    [(of_string "enumerate", Some (of_string "3")); (of_string "minimized", None)] (line ["a"; "b"]%string)
    (line ["--enumerate"; "3"; "a"; "b"; "--minimized"]%string).
Proof.
  split; apply (command_sound _ _ binary_op_agrees _ None); vm_compute; reflexivity.
Qed.
