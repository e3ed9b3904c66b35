(** * The whole process: C100 *)
From Coq Require Import Ascii String List NArith Arith Bool.
From Verif Require Import Base Spec DfaModel ValidateModel TableSpec TableModel ApiModel Messages MessageSpec WasmModel WasmSpec CliModel CliSpec
  FileModel FileSpec ShareModel ShareSpec WriteModel WriteSpec ArgsModel ArgsSpec ProcessModel ProcessSpec ProcessProofs
  Examples Prop_Dfa Prop_Cli Prop_Args Prop_Share.
Import ListNotations.
Close Scope string_scope.
Open Scope list_scope.

(** A command line that asks for a run gets it: what the process says depends on the command line and on what its reads find, and how
    much of it arrives on which writes fail. *)
Theorem C100_every_process : forall env seen create hs argv a, asks_for argv a -> exists ls r, says env seen a ls r /\
  forall fails, exists e, process fails env seen create hs argv = Some (Ret e) /\ ends fails (creating create) (da_out a) (da_command a) ls r e.
Proof. exact process_asked. Qed.
Print Assumptions C100_every_process.

(** Any other command line is refused before anything is read or written. *)
Theorem C100_refused : forall fails env seen create hs argv, (forall a, ~ asks_for argv a) -> process fails env seen create hs argv = None.
Proof. exact process_refused. Qed.
Print Assumptions C100_refused.

(** Every accepted process ends; it ends with status 0, or with 101 because a write failed. In particular nothing else panics. *)
Theorem C100_status : forall fails env seen create hs argv x, process fails env seen create hs argv = Some x -> exists e, x = Ret e /\
  (re_status e = 0%N \/ (re_status e = 101%N /\ exists out err file st s n, fails out err file st s = Some n)).
Proof. exact process_status. Qed.
Print Assumptions C100_status.

(** With failing writes every stream gets a prefix of what it would get without; status 0 means that everything arrived. *)
Theorem C100_prefix : forall fails env seen create hs argv x, process fails env seen create hs argv = Some x -> exists e e0,
  x = Ret e /\ process healthy env seen create hs argv = Some (Ret e0) /\ re_status e0 = 0%N /\
  (forall st, prefix_of (brought e st) (brought e0 st)) /\ (re_file e = None <-> re_file e0 = None) /\ (re_status e = 0%N -> e = e0).
Proof. exact process_prefix. Qed.
Print Assumptions C100_prefix.

(** Alone on the machine, and not told to write what it reads, the process is that of C85. *)
Theorem C100_alone : forall env m hs argv a, asks_for argv a -> apart m (da_out a) (da_command a) -> exists res m',
  dandy env m hs argv = Some (Ret (res, m')) /\
  process healthy env (fun _ => m_text m) (m_create m) hs argv = Some (Ret (mk_run_end (mr_stdout res) (mr_stderr res) (mr_file res) 0)).
Proof. exact process_alone. Qed.
Print Assumptions C100_alone.

(** ** Examples *)
(** The files are edited after the first read, and the reader of stdout leaves after four characters. *)
Example C100_example :
  process (room ToStdout 4) (ex_env [] false)
    (ex_edited [(of_string "x", ex_all); (of_string "y", ex_all)] [(of_string "x", ex_none); (of_string "y", ex_none)]) (fun _ => Ok tt) ex_orders
    (line ["--less-logs"; "-o"; "out"; "equivalence"; "x"; "y"]%string) =
  Some (Ret (mk_run_end (of_string "y: N") [] (Some []) 101)).
Proof. vm_compute. reflexivity. Qed.
Example C100_refused_example : process healthy (ex_env [] false) (ex_edited [] []) (fun _ => Ok tt) ex_orders (line ["--less-logs"; "equivalence"]%string) = None.
Proof. vm_compute. reflexivity. Qed.
(** The file cannot be created: the process says so and goes on. Without [--less-logs] there is more on stdout. *)
Definition ex_denied (argv : list string) :=
  process healthy (ex_env [] false) (ex_edited [(of_string "x", ex_all)] [(of_string "x", ex_all)]) (fun _ => Err (of_string "denied")) ex_orders (line argv).
Definition ex_told : str :=
  of_string "Error creating output file denied" ++ [10%N] ++ of_string "Execution will continue but no data will be written to file" ++ [10%N].
Example C100_denied_example :
  ex_denied ["--out"; "d"; "--less-logs"; "equivalence"; "x"; "x"]%string = Some (Ret (mk_run_end (of_string "x: Equivalent" ++ [10%N]) ex_told None 0)).
Proof. vm_compute. reflexivity. Qed.
Example C100_log_example : exists log log', firstn 13 log = of_string "Input loaded:" /\
  ex_denied ["--out"; "d"; "equivalence"; "x"; "x"]%string =
  Some (Ret (mk_run_end (log ++ of_string "x: Equivalent" ++ [10%N] ++ log') ex_told None 0)).
Proof.
  destruct (ex_denied ["--out"; "d"; "equivalence"; "x"; "x"]%string) as [[e| |]|] eqn:E; [|vm_compute in E; discriminate E..].
  pose (n := 73). exists (firstn n (re_stdout e)), (skipn (n + 14) (re_stdout e)). vm_compute in E. injection E as <-.
  split; vm_compute; reflexivity.
Qed.
