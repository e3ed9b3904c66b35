(** * Runs of dandy-cli whose writing fails: C98 *)
From Coq Require Import Ascii String List NArith Arith Bool.
From Verif Require Import Base Spec DfaModel ValidateModel TableSpec TableModel ApiModel Messages MessageSpec WasmModel WasmSpec CliModel CliSpec FileModel FileSpec
  WriteModel WriteSpec WriteProofs Examples Prop_Dfa Prop_Cli Prop_File.
Import ListNotations.
Close Scope string_scope.
Open Scope list_scope.

(** Every run, whatever fails: the lines and the result do not depend on what fails, only how far the run gets; no other file changes. *)
Theorem C98_every_run : forall env m hs file op, exists ls r,
  file_outcome env m file op (results ls) (logged ls) r /\ (ce_log env = false -> logged ls = []) /\
  forall fails, exists e m', write_main fails env m hs file op = Ret (e, m') /\ ends fails m file op ls r e /\ only_written m m' file (re_file e).
Proof. exact every_run. Qed.
Print Assumptions C98_every_run.

(** [ends] says exactly how the run ends. *)
Theorem C98_one_end : forall fails m file op ls r e1 e2, ends fails m file op ls r e1 -> ends fails m file op ls r e2 -> e1 = e2.
Proof. exact one_end. Qed.
Print Assumptions C98_one_end.

(** If nothing fails, the run is that of C84, and its exit status is 0, also when it has reported an error. *)
Theorem C98_healthy : forall env m hs file op, exists res m', file_main env m hs file op = Ret (res, m') /\
  write_main healthy env m hs file op = Ret (mk_run_end (mr_stdout res) (mr_stderr res) (mr_file res) 0, m').
Proof. exact healthy_run. Qed.
Print Assumptions C98_healthy.

(** Otherwise nothing else arrives: every stream gets a prefix of it. Status 0 means that everything arrived. *)
Theorem C98_prefix : forall fails env m hs file op, exists res m' e m'', file_main env m hs file op = Ret (res, m') /\
  write_main fails env m hs file op = Ret (e, m'') /\
  (forall st, prefix_of (brought e st) (should_bring res st)) /\ (re_file e = None <-> mr_file res = None) /\
  ((re_status e = 0%N /\ e = mk_run_end (mr_stdout res) (mr_stderr res) (mr_file res) 0 /\ m'' = m') \/ re_status e = 101%N).
Proof. exact prefix_run. Qed.
Print Assumptions C98_prefix.

(** A stream that takes [k] characters (the reader leaves; the disk is full) gets the first [k]; status 101 if there are more. *)
Theorem C98_room : forall st k env m hs file op, exists res m' e m'', file_main env m hs file op = Ret (res, m') /\
  write_main (room st k) env m hs file op = Ret (e, m'') /\
  brought e st = firstn k (should_bring res st) /\ re_status e = (if length (should_bring res st) <=? k then 0%N else 101%N).
Proof. exact room_run. Qed.
Print Assumptions C98_room.

(** ** Examples, and what does not hold *)
Definition run_in := fun w files out op => write_main w (ex_env [] false) (ex_machine files) ex_orders out op.
(** The words of a|bb, to stdout and to "out": the reader leaves after the first line, and so the file gets only the first word. *)
Example C98_reader_example : exists m',
  run_in (room ToStdout 3) ex_two (Some (of_string "out")) (OpEnumerateFile TRegex 2 (of_string "re")) =
  Ret (mk_run_end (of_string "a" ++ [10%N] ++ of_string "b") [] (Some (of_string "a")) 101, m') /\
  m_text m' (of_string "out") = Ok (of_string "a") /\ m_text m' (of_string "re") = Ok (of_string "a|bb").
Proof. eexists. split; [vm_compute; reflexivity|]. split; vm_compute; reflexivity. Qed.
(** The disk is full after two characters: both words were printed. *)
Example C98_disk_example : exists m',
  run_in (room ToFile 2) ex_two (Some (of_string "out")) (OpEnumerateFile TRegex 2 (of_string "re")) =
  Ret (mk_run_end (of_string "a" ++ [10%N] ++ of_string "bb" ++ [10%N]) [] (Some (of_string "ab")) 101, m').
Proof. eexists. vm_compute. reflexivity. Qed.
(** The error cannot be told. *)
Example C98_error_example : exists m',
  run_in (room ToStderr 0) ex_two None (OpEnumerateFile TDfa 2 (of_string "re")) = Ret (mk_run_end [] [] None 101, m').
Proof. eexists. vm_compute. reflexivity. Qed.
(** A run that reports an error, and has done nothing, ends with status 0, as a run that has succeeded. *)
Theorem C98_error_status_refuted : exists files op e m',
  run_in healthy files None op = Ret (e, m') /\ re_stderr e <> [] /\ re_stdout e = [] /\ re_status e = 0%N.
Proof.
  exists ex_two, (OpEnumerateFile TDfa 2 (of_string "re")). do 2 eexists. split; [vm_compute; reflexivity|].
  split; [vm_compute; discriminate|]. split; vm_compute; reflexivity.
Qed.
Print Assumptions C98_error_status_refuted.
(** When the run fails, what was in the file of --out is lost even though nothing new could be written. *)
Theorem C98_old_text_refuted : exists files out op e m',
  run_in (room ToFile 0) files (Some out) op = Ret (e, m') /\ m_text (ex_machine files) out = Ok (of_string "other") /\ m_text m' out = Ok [].
Proof.
  exists ex_two, (of_string "c"), (OpEnumerateFile TRegex 2 (of_string "re")). do 2 eexists. split; [vm_compute; reflexivity|].
  split; vm_compute; reflexivity.
Qed.
Print Assumptions C98_old_text_refuted.
