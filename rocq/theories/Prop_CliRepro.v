(** * Prop_CliRepro: the output of dandy-cli from run to run and from build to build (C86)

    Between two runs of the same program the iteration order of hash sets and the time taken differ, between two builds debug assertions may
    be switched on. *)
From Coq Require Import Ascii String List NArith Arith Bool.
From Verif Require Import Base Spec ReproSpec TableSpec DfaModel TableModel ApiModel Messages MessageSpec CliModel CliSpec FileModel FileSpec ArgsModel ArgsSpec
  CliProofs CliReproSpec CliReproProofs Examples.
From Verif Require Import Prop_Cli Prop_File Prop_Args.
Import ListNotations.
Close Scope string_scope.
Open Scope list_scope.

(** Enumerations, tests of files, and comparisons under --less-logs always print and write the same. *)
Theorem C86_same_output : forall env b b' ms ms' m hs hs' argv, (forall a, asks_for argv a -> without_tables_and_times a) ->
  dandy (rebuilt env b ms) m hs argv = dandy (rebuilt env b' ms') m hs' argv.
Proof. exact dandy_same. Qed.
Print Assumptions C86_same_output.

(** With logs, a comparison differs at most in the time taken and, with --minimized, in the table of the first automaton. *)
Theorem C86_equivalence : forall env b b' ms ms' m hs hs' argv a args, asks_for argv a -> da_command a = OpEquivalence args ->
  exists res res' m', dandy (rebuilt env b ms) m hs argv = Some (Ret (res, m')) /\ dandy (rebuilt env b' ms') m hs' argv = Some (Ret (res', m')) /\
    (res = res' \/
     (da_no_log a = false /\ mr_stderr res = mr_stderr res' /\ mr_file res = mr_file res' /\
      exists table table' before after, (table = table' \/ (ea_minimized args = true /\ tables_of_equals table table')) /\
        mr_stdout res = of_string "Input loaded:" ++ [10%N] ++ table ++ [10%N] ++
          before ++ of_string " files done in " ++ decimal ms ++ of_string "ms. Results:" ++ [10%N] ++ after /\
        mr_stdout res' = of_string "Input loaded:" ++ [10%N] ++ table' ++ [10%N] ++
          before ++ of_string " files done in " ++ decimal ms' ++ of_string "ms. Results:" ++ [10%N] ++ after)).
Proof.
  intros env b b' ms ms' m hs hs' argv a args H C. rewrite !(dandy_asked _ _ _ _ _ _ _ H), C.
  destruct (equivalence_runs (with_log env (negb (da_no_log a))) b b' ms ms' m hs hs' (da_out a) args) as (res & res' & m' & -> & -> & HR).
  exists res, res', m'. split; auto. split; auto. destruct HR as [->|(L & Se & Sf & tb & tb' & mid & after & T & So & So')]; [auto|right].
  split; [apply negb_true_iff; exact L|]. split; auto. split; auto.
  exists tb, tb', (mid ++ of_string "Testing of " ++ decimal (length (ea_files args))), after. split; auto.
  rewrite So, So'. unfold timing. rewrite <- !dec_decimal, <- !app_assoc. split; reflexivity.
Qed.
Print Assumptions C86_equivalence.

(** A set operation differs at most in the table of the result, and that only in the names and the order of the states.  (The file of --out must be none of those it reads, see C84.) *)
Theorem C86_set_operations : forall env b b' ms ms' m hs hs' argv a o args, asks_for argv a -> da_command a = OpBinary o args ->
  apart m (da_out a) (da_command a) ->
  exists res res' m1 m1', dandy (rebuilt env b ms) m hs argv = Some (Ret (res, m1)) /\ dandy (rebuilt env b' ms') m hs' argv = Some (Ret (res', m1')) /\
    ((res = res' /\ m1 = m1') \/ differ_in_table res res').
Proof.
  intros env b b' ms ms' m hs hs' argv a o args H C AP. rewrite !(dandy_asked _ _ _ _ _ _ _ H). rewrite C in *.
  destruct (binary_runs (with_log env (negb (da_no_log a))) b b' ms ms' m hs hs' (da_out a) o args AP) as (res & res' & m1 & m1' & -> & -> & HR).
  exists res, res', m1, m1'. auto.
Qed.
Print Assumptions C86_set_operations.

(** Nothing differs for two DFAs of which one has no commas in the names of its states, without --minimized. *)
Theorem C86_set_operations_of_dfas : forall env b b' ms ms' m hs hs' argv a o args, asks_for argv a -> da_command a = OpBinary o args ->
  apart m (da_out a) (da_command a) ->
  ba_type args = TDfa -> (ba_second_type args = None \/ ba_second_type args = Some TDfa) -> ba_minimized args = false ->
  (forall d, loads (on env m) (ba_first args) TDfa (ADfa d) -> no_comma (map ds_name (dfa_states d))) \/
  (forall d, loads (on env m) (ba_second args) TDfa (ADfa d) -> no_comma (map ds_name (dfa_states d))) ->
  dandy (rebuilt env b ms) m hs argv = dandy (rebuilt env b' ms') m hs' argv.
Proof.
  intros env b b' ms ms' m hs hs' argv a o args H C AP T1 T2 M HC. rewrite !(dandy_asked _ _ _ _ _ _ _ H). rewrite C in *. f_equal.
  apply binary_runs_plain; assumption.
Qed.
Print Assumptions C86_set_operations_of_dfas.

(** ** Examples, and what does not hold *)
Definition ex_five : str := of_string " a b" ++ [10%N] ++ of_string "-> * 0 1 3" ++ [10%N] ++ of_string "1 0 2" ++ [10%N] ++
  of_string "2 3 1" ++ [10%N] ++ of_string "* 3 2 0" ++ [10%N] ++ of_string "* 4 0 4".
Definition ex_commas_1 : str := of_string " a" ++ [10%N] ++ of_string "-> a a,b" ++ [10%N] ++ of_string "* a,b a".
Definition ex_commas_2 : str := of_string " a" ++ [10%N] ++ of_string "-> b,c c" ++ [10%N] ++ of_string "* c b,c".
Definition ex_files : list (str * str) :=
  [(of_string "five", ex_five); (of_string "r", of_string "a|bb"); (of_string "s", of_string "a*b"); (of_string "c1", ex_commas_1); (of_string "c2", ex_commas_2)].
Definition forwards : orders := fun _ => id_order.
Definition backwards : orders := fun _ => rev_order.
Definition stdout_run (hs : orders) (argv : list string) : option str :=
  match dandy (ex_env [] false) (ex_machine ex_files) hs (line argv) with Some (Ret (res, _)) => Some (mr_stdout res) | _ => None end.

(** The exceptions are necessary: the table of a comparison with --minimized and logs, operations with --minimized, of regular expressions, and of DFAs
    with commas in the names of their states. *)
Theorem C86_tables_refuted : forall argv, In argv
  [["equivalence"; "--minimized"; "five"; "five"]; ["union"; "--minimized"; "five"; "five"];
   ["union"; "--type=regex"; "r"; "s"]; ["union"; "c1"; "c2"]]%string ->
  exists s s', stdout_run forwards argv = Some s /\ stdout_run backwards argv = Some s' /\ s <> s'.
Proof.
  intros argv H. repeat (destruct H as [<-|H]; [do 2 eexists; split; [vm_compute; reflexivity|]; split; [vm_compute; reflexivity|]; discriminate|]).
  destruct H.
Qed.
Print Assumptions C86_tables_refuted.
(** the hypotheses of the theorems *)
Example C86_example_same : forall argv, In argv
  [["enumerate"; "--type=regex"; "-a5"; "r"]; ["test-file"; "five"; "r"]; ["--less-logs"; "equivalence"; "-m"; "five"; "five"]; ["enumerate-regex"; "a*"]]%string ->
  forall a, asks_for (line argv) a -> without_tables_and_times a.
Proof.
  intros argv H a Ha. apply C85_exact in Ha.
  repeat (destruct H as [<-|H]; [vm_compute in Ha; injection Ha as <-; vm_compute; auto|]). destruct H.
Qed.
Example C86_example_operation : exists a args, asks_for (line ["union"; "-m"; "five"; "five"]%string) a /\ da_command a = OpBinary OUnion args /\
  apart (ex_machine ex_files) (da_out a) (da_command a) /\ ba_minimized args = true.
Proof.
  do 2 eexists. split; [apply C85_exact; vm_compute; reflexivity|]. split; [reflexivity|]. split; [intros p q [=]|reflexivity].
Qed.
Example C86_example_dfas : exists a args, asks_for (line ["union"; "five"; "c1"]%string) a /\ da_command a = OpBinary OUnion args /\
  apart (ex_machine ex_files) (da_out a) (da_command a) /\ ba_type args = TDfa /\ ba_second_type args = None /\ ba_minimized args = false /\
  exists d, load_file (on (ex_env [] false) (ex_machine ex_files)) (ba_first args) TDfa = Ret (Ok (ADfa d)) /\ no_comma (map ds_name (dfa_states d)).
Proof.
  do 2 eexists. split; [apply C85_exact; vm_compute; reflexivity|]. split; [reflexivity|]. split; [intros p q [=]|]. do 3 (split; [reflexivity|]).
  eexists. split; [vm_compute; reflexivity|]. intros nm Hin. simpl in Hin.
  repeat (destruct Hin as [<-|Hin]; [intros X; simpl in X; repeat (destruct X as [X|X]; [discriminate|]); exact X|]). destruct Hin.
Qed.
