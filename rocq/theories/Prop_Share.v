(** * Runs while others change the files: C99 *)
From Coq Require Import Ascii String List NArith Arith Bool Lia.
From Verif Require Import Base Spec TableSpec LayoutSpec DfaModel NfaModel ValidateModel TableModel ApiModel Messages MessageSpec
  WasmModel WasmSpec CliModel CliSpec FileModel FileSpec ShareModel ShareSpec ShareProofs Examples Prop_RegexParser Prop_Dfa Prop_Cli.
Import ListNotations.
Close Scope string_scope.
Open Scope list_scope.

(** Every run, whatever each read finds: it ends, and what is printed and reported about a file is about what its own read found. *)
Theorem C99_every_run : forall env seen hs create op, exists res out lg r,
  shared_main env seen hs create op = Ret res /\ shared_outcome env seen op out lg r /\
  (exists lines, interleaved out lg lines /\ mr_stdout res = with_lf lines) /\
  (ce_log env = false -> lg = []) /\
  mr_stderr res = with_lf (match create with
                           | Some (Err e) => [of_string "Error creating output file " ++ e;
                                              of_string "Execution will continue but no data will be written to file"]
                           | _ => []
                           end ++ match r with Err e => [error_prefix op ++ e] | Ok _ => [] end) /\
  mr_file res = match create with Some (Ok _) => Some (concat out) | _ => None end.
Proof. exact shared_run. Qed.
Print Assumptions C99_every_run.

(** Each path of the command line is read once, in order; what other files contain, and what these files contain at other times, is irrelevant. *)
Theorem C99_reads : forall env seen seen' hs create op, (forall k p, nth_error (to_read op) k = Some p -> seen k p = seen' k p) ->
  shared_main env seen hs create op = shared_main env seen' hs create op.
Proof. exact main_same. Qed.
Print Assumptions C99_reads.

(** If all reads agree with one content of the files, the run is a run on these files (C43, C44, C50, C51, C53, C76). *)
Theorem C99_snapshot : forall env seen hs create op files, snapshot seen op files ->
  shared_main env seen hs create op = cli_main (holding env files) hs create op.
Proof. exact main_snapshot. Qed.
Print Assumptions C99_snapshot.

(** That is so if the command line does not name a path twice: each file then has the content it had when it was read. *)
Theorem C99_distinct : forall env seen hs create op, NoDup (to_read op) -> exists files, snapshot seen op files /\
  shared_main env seen hs create op = cli_main (holding env files) hs create op.
Proof. exact main_distinct. Qed.
Print Assumptions C99_distinct.

(** The runs of C84, where the run itself is the one that writes, are among these runs. *)
Theorem C99_written : forall env m hs file op, exists ws : nat -> str, forall res m', file_main env m hs file op = Ret (res, m') ->
  shared_main env (fun k p => reading m file (ws k) p) hs (match file with None => None | Some p => Some (m_create m p) end) op = Ret res.
Proof. exact main_written. Qed.
Print Assumptions C99_written.

(** ** Examples, and what does not hold *)
Definition ex_all : str := of_string " a" ++ [10%N] ++ of_string "-> * x x".
Definition ex_none : str := of_string " a" ++ [10%N] ++ of_string "-> x x".
(** Somebody edits the files after the first read. *)
Definition ex_edited (before after : list (str * str)) : sights :=
  fun k p => ce_read (ex_env (match k with 0 => before | _ => after end) false) p.
Definition ex_compare (f g : str) : operation := OpEquivalence (mk_equivalence_args None TDfa false false None f [g]).
Example C99_example : exists res,
  shared_main (ex_env [] false) (ex_edited [(of_string "x", ex_all); (of_string "y", ex_all)] [(of_string "x", ex_none); (of_string "y", ex_none)])
    ex_orders None (ex_compare (of_string "x") (of_string "y")) = Ret res /\ mr_stdout res = of_string "y: Not Equivalent" ++ [10%N] /\ mr_stderr res = [].
Proof. eexists. split; [vm_compute; reflexivity|]. split; vm_compute; reflexivity. Qed.
Example C99_example_distinct : NoDup (to_read (ex_compare (of_string "x") (of_string "y"))).
Proof. constructor; [intros [H|[]]; discriminate|constructor; [intros []|constructor]]. Qed.
Example C99_example_test : exists res,
  shared_main (ex_env [] false) (ex_edited [(of_string "x", of_string "a|bb")] [(of_string "t", of_string "bb")]) ex_orders (Some (Ok tt))
    (OpTestFile TRegex TFiles (of_string "x") [of_string "t"; of_string "x"; of_string "t"]) = Ret res /\
  mr_stdout res = of_string "[ OK ] t" ++ [10%N] /\ mr_stderr res = of_string "Error in testing file: not found" ++ [10%N] /\
  mr_file res = Some (of_string "[ OK ] t").
Proof. eexists. split; [vm_compute; reflexivity|]. repeat split; vm_compute; reflexivity. Qed.
Example C99_example_union : exists res,
  shared_main (ex_env [] false) (ex_edited [(of_string "x", ex_none)] [(of_string "x", ex_all)]) ex_orders None
    (OpBinary OUnion (mk_binary_op_args TDfa None TDfa true None (of_string "x") (of_string "x") (Some (of_string "x")))) = Ret res /\
  mr_stderr res = [] /\ exists table, mr_stdout res = table ++ of_string "Union of the two provided DFAs is EQUIVALENT to the third DFA" ++ [10%N].
Proof.
  eexists. split; [vm_compute; reflexivity|]. split; [vm_compute; reflexivity|]. cbn [mr_stdout].
  match goal with |- exists table, ?l = _ => exists (firstn (length l - 62) l) end. vm_compute. reflexivity.
Qed.

(** The state of C99_distinct need never have existed: here the two files are the same text at all times. *)
Theorem C99_moment_refuted : exists seen op res, NoDup (to_read op) /\
  (forall k p q, In p (to_read op) -> In q (to_read op) -> seen k p = seen k q) /\
  shared_main (ex_env [] false) seen ex_orders None op = Ret res /\
  mr_stdout res = of_string "y: Not Equivalent" ++ [10%N] /\
  forall k, exists res', cli_main (holding (ex_env [] false) (seen k)) ex_orders None op = Ret res' /\
                         mr_stdout res' = of_string "y: Equivalent" ++ [10%N].
Proof.
  exists (ex_edited [(of_string "x", ex_all); (of_string "y", ex_all)] [(of_string "x", ex_none); (of_string "y", ex_none)]),
    (ex_compare (of_string "x") (of_string "y")). eexists. split; [exact C99_example_distinct|].
  split; [intros k p q [<-|[<-|[]]] [<-|[<-|[]]]; destruct k; reflexivity|]. split; [vm_compute; reflexivity|]. split; [vm_compute; reflexivity|].
  intros [|k]; eexists; (split; [vm_compute; reflexivity|vm_compute; reflexivity]).
Qed.
Print Assumptions C99_moment_refuted.
(** A command line that names a file twice may print what it prints for no files at all: here a file is not equivalent to itself. *)
Theorem C99_twice_refuted : exists seen op res, shared_main (ex_env [] false) seen ex_orders None op = Ret res /\
  forall files hs, cli_main (holding (ex_env [] false) files) hs None op <> Ret res.
Proof.
  exists (ex_edited [(of_string "x", ex_all)] [(of_string "x", ex_none)]), (ex_compare (of_string "x") (of_string "x")). eexists.
  split; [vm_compute; reflexivity|]. intros files hs E.
  refine (itself (holding (ex_env [] false) files) hs
    (mk_equivalence_args None TDfa false false None (of_string "x") [of_string "x"]) (of_string "x") _ eq_refl eq_refl eq_refl eq_refl eq_refl E _). vm_compute. reflexivity.
Qed.
Print Assumptions C99_twice_refuted.
