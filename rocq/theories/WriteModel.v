(** * WriteModel: runs of dandy-cli whose writing fails

    FileModel.v lets every write succeed.  Here any write can fail: the terminal may be a pipe whose reader has gone, the disk may be
    full.  [println!] and [eprintln!] panic then, and so does the [unwrap] after [write_all] (dandy-cli/src/main.rs:299-301). *)
From Coq Require Import Ascii String List NArith Arith Bool.
From Verif Require Import Base Spec DfaModel NfaModel ValidateModel TableSpec TableModel ApiModel Messages CliModel FileModel.
Import ListNotations.
Close Scope string_scope.
Open Scope list_scope.

(** dandy-cli/src/main.rs:291-293, 299-301, 329: where is written *)
Inductive stream : Type := ToStdout | ToStderr | ToFile.

(** One write: where, and what (dandy-cli/src/main.rs:299-301) *)
Definition write : Type := (stream * str)%type.

(** dandy-cli/src/main.rs:298-303 (a result), dandy-cli/src/binary_op.rs:13-17, dandy-cli/src/enumerate.rs:35-39,
    dandy-cli/src/equivalence.rs:45-49, dandy-cli/src/test_files.rs:11-15 (a log), dandy-cli/src/automata.rs:205-274 (a warning);
    [file]: there is an output file *)
Definition event_writes (file : bool) (e : event) : list write :=
  match e with
  | Out s => (ToStdout, println s) :: (if file then [(ToFile, s)] else [])
  | Log s => [(ToStdout, println s)]
  | Warn s => [(ToStderr, println s)]
  end.

(** dandy-cli/src/main.rs:283-331: all writes of a run, in order *)
Definition run_writes (create : option (result unit str)) (ev : list event) (r : result unit str) : list write :=
  (match create with
   | Some (Err e) => [(ToStderr, println (of_string "Error creating output file " ++ e));
                      (ToStderr, println (of_string "Execution will continue but no data will be written to file"))]
   | _ => []
   end) ++
  flat_map (event_writes (match create with Some (Ok _) => true | _ => false end)) ev ++
  (match r with Err e => [(ToStderr, println e)] | Ok _ => [] end).

(** [a] is [b] (for dandy-cli/src/main.rs:299-301) *)
Definition stream_eqb (a b : stream) : bool :=
  match a, b with ToStdout, ToStdout | ToStderr, ToStderr | ToFile, ToFile => true | _, _ => false end.

(** What has arrived at a stream (dandy-cli/src/main.rs:299-301) *)
Definition arrived (ws : list write) (st : stream) : str := flat_map (fun w => if stream_eqb (fst w) st then snd w else []) ws.

(** The world: given what has arrived at stdout, at stderr and in the file, does the next write succeed ([None]), or does it fail after
    [n] characters ([Some n])?  Simplification: characters are not cut, and a stream that has failed does not get what is left when the
    process ends (the standard library tries once more then).  dandy-cli/src/main.rs:299-301 *)
Definition world : Type := str -> str -> str -> stream -> str -> option nat.
(** the world's answer after the writes so far (dandy-cli/src/main.rs:299-301) *)
Definition ask (fails : world) (done : list write) : stream -> str -> option nat :=
  fails (arrived done ToStdout) (arrived done ToStderr) (arrived done ToFile).

(** The writes one after the other, up to the first that fails; then the process ends with status 101, otherwise [main] returns, with
    status 0 (dandy-cli/src/main.rs:283-331).  [write_all] of nothing does not write (dandy-cli/src/main.rs:301). *)
Fixpoint perform (fails : world) (done todo : list write) : list write * N :=
  match todo with
  | [] => (done, 0%N)
  | (st, s) :: rest =>
      match s with
      | [] => perform fails (done ++ [(st, s)]) rest
      | _ => match ask fails done st s with
             | None => perform fails (done ++ [(st, s)]) rest
             | Some n => (done ++ [(st, firstn n s)], 101%N)
             end
      end
  end.

(** How a run ended: what arrived, and the exit status. The message of a panic itself is left out of [re_stderr].
    dandy-cli/src/main.rs:283-331 *)
Record run_end : Type := mk_run_end { re_stdout : str; re_stderr : str; re_file : option str; re_status : N }.

(** dandy-cli/src/main.rs:283-331 [main], in a world where writing can fail.  Up to the first failure every write succeeded, so
    the command has read the same as in FileModel.v. *)
Definition write_main (fails : world) (env : cli_env) (m : machine) (hs : orders) (out : option str) (op : operation) : R (run_end * machine) :=
  '(ev, r) <- file_operation env m hs out op ;;
  let create := match out with None => None | Some p => Some (m_create m p) end in
  let '(ws, status) := perform fails [] (run_writes create ev r) in
  Ret (mk_run_end (arrived ws ToStdout) (arrived ws ToStderr) (match create with Some (Ok _) => Some (arrived ws ToFile) | _ => None end) status,
       mk_machine (reading m out (arrived ws ToFile)) (m_same m) (m_create m)).
