(** * ProcessModel: the whole process

    The command line, files that others change, and writes that fail, all at once. *)
From Coq Require Import Ascii String List NArith Arith Bool.
From Verif Require Import Base Spec DfaModel NfaModel ValidateModel TableSpec TableModel ApiModel Messages CliModel FileModel ShareModel WriteModel ArgsModel.
Import ListNotations.
Close Scope string_scope.
Open Scope list_scope.

(** dandy-cli/src/main.rs:283-331 [main]: the process started with [argv]; [None] if clap refuses the command line.  [seen] is what each
    read finds, [create] what [File::create] returns, [fails] which writes fail.  Nothing relates them: what others do, and what the run
    itself writes, may or may not be found by a read.  After a write that fails nothing is read or written, so what the rest of the
    command would have read is irrelevant. *)
Definition process (fails : world) (env : cli_env) (seen : sights) (create : str -> result unit str) (hs : orders) (argv : list str)
  : option (R run_end) :=
  args <+ parse_args argv ;;
  Some ('(ev, r) <- shared_operation (with_log env (negb (da_no_log args))) seen hs (da_command args) ;;
        let file := match da_out args with None => None | Some p => Some (create p) end in
        let '(ws, status) := perform fails [] (run_writes file ev r) in
        Ret (mk_run_end (arrived ws ToStdout) (arrived ws ToStderr) (match file with Some (Ok _) => Some (arrived ws ToFile) | _ => None end) status)).
